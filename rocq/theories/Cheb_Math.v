(** * C85: Chebyshev polynomials: values, derivatives, changes of basis *)

From Coq Require Import Reals Lra List Arith ZArith Lia Bool.
From Verif Require Import Base Num QR_Math Iter_Math RootFind_Model RootFind_Proofs Interp_Linear Fourier_Model Fourier_Spec Fourier_DCT Deriv_Spec Cheb_Model Cheb_Spec.
Import ListNotations.
Local Open Scope R_scope.
Local Notation sum := (sumn Rnum).

Lemma cT_SS : forall k y, cT (S (S k)) y = 2 * y * cT (S k) y - cT k y. Proof. reflexivity. Qed.
Lemma cU_SS : forall k y, cU (S (S k)) y = 2 * y * cU (S k) y - cU k y. Proof. reflexivity. Qed.

Lemma cT_cos : forall k t, cT k (cos t) = cos (INR k * t).
Proof.
  intros k t. enough (cT k (cos t) = cos (INR k * t) /\ cT (S k) (cos t) = cos (INR (S k) * t)) by tauto.
  induction k as [|k (IH1 & IH2)].
  - split; [cbn [cT INR]; rewrite Rmult_0_l, cos_0; reflexivity|]. cbn [cT INR]. f_equal. ring.
  - split; [exact IH2|]. rewrite cT_SS, IH1, IH2. replace (INR (S (S k)) * t) with (INR (S k) * t + t) by (rewrite !S_INR; ring).
    replace (INR k * t) with (INR (S k) * t - t) by (rewrite !S_INR; ring). rewrite cos_plus, cos_minus. ring.
Qed.
Lemma cT_bound : forall k y, -1 <= y <= 1 -> Rabs (cT k y) <= 1.
Proof.
  intros k y Hy. rewrite <- (cos_acos y) by lra. rewrite cT_cos. apply Rabs_le. pose proof (COS_bound (INR k * acos y)). lra.
Qed.
Lemma cT_m1 : forall k, cT k (-1) = (-1) ^ k.
Proof.
  intros k. enough (cT k (-1) = (-1) ^ k /\ cT (S k) (-1) = (-1) ^ S k) by tauto. induction k as [|k (IH1 & IH2)].
  - cbn. split; lra.
  - split; [exact IH2|]. rewrite cT_SS, IH1, IH2. cbn [pow]. ring.
Qed.
Lemma cT_U : forall k y, cT (S k) y = cU (S k) y - y * cU k y.
Proof.
  intros k y. enough (cT (S k) y = cU (S k) y - y * cU k y /\ cT (S (S k)) y = cU (S (S k)) y - y * cU (S k) y) by tauto.
  induction k as [|k (IH1 & IH2)].
  - cbn [cT cU]. split; ring.
  - split; [exact IH2|]. rewrite cT_SS, IH1, IH2, (cU_SS (S k)), (cU_SS k). ring.
Qed.
Lemma cT_U2 : forall k y, cT (S (S k)) y = (cU (S (S k)) y - cU k y) / 2.
Proof. intros k y. rewrite cT_U, cU_SS. field. Qed.

Lemma cT_deriv : forall k y, derivable_pt_lim (cT (S k)) y (INR (S k) * cU k y).
Proof.
  intros k y. enough (derivable_pt_lim (cT (S k)) y (INR (S k) * cU k y) /\ derivable_pt_lim (cT (S (S k))) y (INR (S (S k)) * cU (S k) y)) by tauto.
  assert (step : forall k l m, derivable_pt_lim (cT (S k)) y l -> derivable_pt_lim (cT k) y m -> derivable_pt_lim (cT (S (S k))) y (2 * cT (S k) y + 2 * y * l - m)).
  { intros j l m Hl Hm. apply (derivable_pt_lim_minus (fun y => 2 * y * cT (S j) y) (cT j)); [|exact Hm].
    replace (2 * cT (S j) y + 2 * y * l) with ((2 * 1) * cT (S j) y + (2 * y) * l) by ring.
    apply (derivable_pt_lim_mult (fun y => 2 * y) (cT (S j))); [|exact Hl]. apply (derivable_pt_lim_scal id). apply derivable_pt_lim_id. }
  induction k as [|k (IH1 & IH2)].
  - assert (D1 : derivable_pt_lim (cT 1) y 1) by apply derivable_pt_lim_id.
    assert (D0 : derivable_pt_lim (cT 0) y 0) by apply derivable_pt_lim_const.
    split; [cbn [INR cU]; replace (1 * 1) with 1 by ring; exact D1|].
    pose proof (step 0%nat _ _ D1 D0) as G. replace (INR 2 * cU 1 y) with (2 * cT 1 y + 2 * y * 1 - 0); [exact G|]. cbn [cT cU INR]. ring.
  - split; [exact IH2|]. pose proof (step (S k) _ _ IH2 IH1) as G.
    replace (INR (S (S (S k))) * cU (S (S k)) y) with (2 * cT (S (S k)) y + 2 * y * (INR (S (S k)) * cU (S k) y) - INR (S k) * cU k y); [exact G|].
    rewrite cT_U, cU_SS, !S_INR. ring.
Qed.

Lemma sum_deriv : forall n (f : nat -> R -> R) f' y, (forall i, (i < n)%nat -> derivable_pt_lim (f i) y (f' i)) ->
  derivable_pt_lim (fun y => sum n (fun i => f i y)) y (sum n f').
Proof.
  induction n as [|n IH]; intros f f' y H; [apply derivable_pt_lim_const|]. rewrite sumS_R.
  apply (derivable_pt_lim_plus (fun y => sum n (fun i => f i y)) (f n)); [apply IH; intros; apply H; lia|apply H; lia].
Qed.
Lemma series_deriv : forall c n y, derivable_pt_lim (series c n) y (sum (n - 1) (fun i => c (S i) * (INR (S i) * cU i y))).
Proof.
  intros c n y. unfold series. rewrite <- (Rplus_0_l (sum _ _)).
  apply (derivable_pt_lim_plus (fun _ => c 0%nat / 2) (fun y => sum (n - 1) (fun i => c (S i) * cT (S i) y))); [apply derivable_pt_lim_const|].
  apply sum_deriv. intros i _. apply (derivable_pt_lim_scal (cT (S i))). apply cT_deriv.
Qed.
Lemma unitpos_deriv : forall a b x, derivable_pt_lim (unitpos a b) x (2 / (b - a)).
Proof.
  intros a b x. unfold unitpos.
  assert (G : derivable_pt_lim (fun x => (2 * x - (a + b)) * / (b - a)) x ((2 * 1 - 0) * / (b - a) + (2 * x - (a + b)) * 0)).
  { apply (derivable_pt_lim_mult (fun x => 2 * x - (a + b)) (fun _ => / (b - a))); [|apply derivable_pt_lim_const].
    apply (derivable_pt_lim_minus (fun x => 2 * x) (fun _ => a + b)); [|apply derivable_pt_lim_const].
    apply (derivable_pt_lim_scal id). apply derivable_pt_lim_id. }
  replace (2 / (b - a)) with ((2 * 1 - 0) * / (b - a) + (2 * x - (a + b)) * 0) by (unfold Rdiv; ring).
  intros eps He. destruct (G eps He) as (dl & Hd). exists dl. intros h Hh0 Hh. specialize (Hd h Hh0 Hh). unfold Rdiv in *.
  replace (((2 * (x + h) - a - b) * / (b - a) - (2 * x - a - b) * / (b - a)) * / h) with (((2 * (x + h) - (a + b)) * / (b - a) - (2 * x - (a + b)) * / (b - a)) * / h) by ring. exact Hd.
Qed.
Lemma series_unit_deriv : forall a b c n x, derivable_pt_lim (fun x => series c n (unitpos a b x)) x (sum (n - 1) (fun i => c (S i) * (INR (S i) * cU i (unitpos a b x))) * (2 / (b - a))).
Proof.
  intros. apply (derivable_pt_lim_comp (unitpos a b) (series c n)); [apply unitpos_deriv|apply series_deriv].
Qed.
Lemma series_S : forall c n y, (1 <= n)%nat -> series c (S n) y = series c n y + c n * cT n y.
Proof. intros c n y Hn. unfold series. destruct n as [|n]; [lia|]. replace (S (S n) - 1)%nat with (S n) by lia. replace (S n - 1)%nat with n by lia. rewrite sumS_R. ring. Qed.
Lemma series_ext : forall c d n y, (1 <= n)%nat -> (forall i, (i < n)%nat -> c i = d i) -> series c n y = series d n y.
Proof. intros c d n y Hn H. unfold series. rewrite (H 0%nat) by lia. f_equal. apply rsum_ext. intros i Hi. rewrite H by lia. reflexivity. Qed.
(** the same series in the polynomials of the second kind *)
Lemma series_U : forall d n y, (1 <= n)%nat -> series d n y = (sum n (fun j => d j * cU j y) - sum (n - 2) (fun j => d (S (S j)) * cU j y)) / 2.
Proof.
  intros d n y Hn. induction n as [|n IH]; [lia|]. destruct n as [|n].
  { unfold series. cbn. field. }
  destruct n as [|n].
  { unfold series. cbn. field. }
  rewrite series_S by lia. rewrite IH by lia. replace (S (S (S n)) - 2)%nat with (S n) by lia. replace (S (S n) - 2)%nat with n by lia.
  rewrite (sumS_R (S (S n))), (sumS_R n), cT_U2. field.
Qed.
Lemma series_zero : forall n y, series (fun _ => 0) n y = 0.
Proof. intros. unfold series. rewrite rsum_zero by (intros; ring). lra. Qed.
Lemma series_sum : forall c n y, (1 <= n)%nat -> series c n y = sum n (fun k => c k * cT k y) - c 0%nat / 2.
Proof. intros c n y Hn. destruct n as [|n]; [lia|]. unfold series. rewrite sum_S_l_R. replace (S n - 1)%nat with n by lia. cbn [cT]. lra. Qed.

(** ** The interval *)
Lemma unitpos_range : forall a b x, a < b -> a <= x <= b -> -1 <= unitpos a b x <= 1.
Proof.
  intros a b x H Hx. unfold unitpos. assert (0 < / (b - a)) by (apply Rinv_0_lt_compat; lra).
  assert (E : (b - a) * / (b - a) = 1) by (apply Rinv_r; lra). unfold Rdiv. split; nra.
Qed.
Lemma unitpos_node : forall a b n k, a < b -> unitpos a b (node a b n k) = cos (PI * (INR k + 1 / 2) / INR n).
Proof. intros. unfold unitpos, node. field. lra. Qed.
Lemma unitpos_a : forall a b, a < b -> unitpos a b a = -1.
Proof. intros. unfold unitpos. field. lra. Qed.
Lemma unitpos_inv : forall a b x, a < b -> unitpos a b x * ((b - a) / 2) + (b + a) / 2 = x.
Proof. intros. unfold unitpos. field. lra. Qed.
Lemma node_range : forall a b n k, a < b -> a <= node a b n k <= b.
Proof. intros a b n k H. unfold node. pose proof (COS_bound (PI * (INR k + 1 / 2) / INR n)). split; nra. Qed.

(** ** Series at the nodes *)
Lemma series_node : forall a b N c k, a < b -> (1 <= N)%nat -> series c N (unitpos a b (node a b N k)) = idct2 N c k.
Proof.
  intros a b N c k H HN. rewrite unitpos_node by auto. unfold series, idct2. f_equal. apply rsum_ext. intros i Hi. rewrite cT_cos. f_equal. f_equal. unfold Rdiv. ring.
Qed.

(** ** Polynomials of degree < n are series with n terms *)
Definition span (n : nat) (f : R -> R) : Prop := exists c, forall y, f y = sum n (fun k => c k * cT k y).
Lemma span_ext : forall n f g, (forall y, f y = g y) -> span n f -> span n g.
Proof. intros n f g E (c & H). exists c. intros y. rewrite <- E. auto. Qed.
Lemma span_add : forall n f g, span n f -> span n g -> span n (fun y => f y + g y).
Proof. intros n f g (c & Hc) (d & Hd). exists (fun k => c k + d k). intros y. rewrite Hc, Hd, <- rsum_add. apply rsum_ext. intros. ring. Qed.
Lemma span_scal : forall n a f, span n f -> span n (fun y => a * f y).
Proof. intros n a f (c & Hc). exists (fun k => a * c k). intros y. rewrite Hc, <- rsum_scal. apply rsum_ext. intros. ring. Qed.
Lemma span_T : forall n k, (k < n)%nat -> span n (cT k).
Proof.
  intros n k Hk. exists (fun i => if (i =? k)%nat then 1 else 0). intros y. symmetry. rewrite (rsum_one n k); auto.
  - rewrite Nat.eqb_refl. ring.
  - intros i Hi Hik. destruct (Nat.eqb_spec i k); [lia|]. ring.
Qed.
Lemma span_mono : forall n m f, (n <= m)%nat -> span n f -> span m f.
Proof.
  intros n m f H (c & Hc). exists (fun k => if (k <? n)%nat then c k else 0). intros y. rewrite Hc. clear Hc. induction m as [|m IH].
  - replace n with 0%nat by lia. reflexivity.
  - destruct (Nat.eq_dec n (S m)) as [->|].
    + apply rsum_ext. intros i Hi. destruct (Nat.ltb_spec i (S m)); [reflexivity|lia].
    + rewrite sumS_R, <- IH by lia. destruct (Nat.ltb_spec m n); [lia|]. ring.
Qed.
Lemma span_yT : forall k, span (S (S k)) (fun y => y * cT k y).
Proof.
  intros [|k].
  - apply (span_ext _ (cT 1)); [intros; cbn [cT]; ring|]. apply span_T. lia.
  - apply (span_ext _ (fun y => (1/2) * cT (S (S k)) y + (1/2) * cT k y)).
    + intros y. rewrite cT_SS. field.
    + apply span_add; apply span_scal; apply span_T; lia.
Qed.
Lemma span_y : forall n f, span n f -> span (S n) (fun y => y * f y).
Proof.
  intros n f (c & Hc). apply (span_ext _ (fun y => sum n (fun k => c k * (y * cT k y)))).
  - intros y. rewrite Hc, <- rsum_scal. apply rsum_ext. intros. ring.
  - clear Hc. induction n as [|n IH].
    + exists (fun _ => 0). intros y. cbn. ring.
    + apply (span_ext _ (fun y => sum n (fun k => c k * (y * cT k y)) + c n * (y * cT n y))); [intros; rewrite sumS_R; reflexivity|].
      apply span_add; [apply (span_mono (S n)); [lia|exact IH]|]. apply span_scal. apply span_yT.
Qed.
Lemma pev_cons : forall a p t, pev (a :: p) t = a + t * pev p t.
Proof.
  intros. unfold pev. cbn [length]. rewrite sum_S_l_R. cbn [nth pow]. rewrite <- rsum_scal. rewrite (rsum_ext _ _ (fun i => t * (nth i p 0 * t ^ i))) by (intros; ring). ring.
Qed.
Lemma span_poly : forall p h m, span (length p) (fun y => pev p (y * h + m)).
Proof.
  intros p h m. induction p as [|a p IH].
  - exists (fun _ => 0). intros y. reflexivity.
  - cbn [length]. apply (span_ext _ (fun y => a * cT 0 y + (h * (y * pev p (y * h + m)) + m * pev p (y * h + m)))).
    + intros y. rewrite pev_cons. cbn [cT]. ring.
    + apply span_add; [apply span_scal, span_T; lia|]. apply span_add; apply span_scal; [apply span_y; exact IH|apply (span_mono (length p)); [lia|exact IH]].
Qed.
Lemma span_series : forall n f, (1 <= n)%nat -> span n f -> exists g, forall y, f y = series g n y.
Proof.
  intros n f Hn (c & Hc). exists (fun k => if (k =? 0)%nat then 2 * c 0%nat else c k). intros y. rewrite Hc. destruct n as [|n]; [lia|].
  rewrite sum_S_l_R. unfold series. replace (S n - 1)%nat with n by lia. cbn [Nat.eqb cT]. f_equal. field.
Qed.
