(** * C85: the remainder of polynomial interpolation, and its size at the Chebyshev nodes *)

From Coq Require Import Reals Lra List Arith ZArith Lia Bool.
From Verif Require Import Base Num QR_Math Iter_Math Deriv_Math RootFind_Model RootFind_Proofs Interp_Linear Fourier_Model Fourier_Spec Fourier_DCT Deriv_Model Deriv_Spec Deriv_Proofs Cheb_Model Cheb_Spec Cheb_Math.
Import ListNotations.
Local Open Scope R_scope.
Local Notation sum := (sumn Rnum).

(** ** Rolle's theorem for n + 1 zeros *)
Lemma finite_choice : forall (P : nat -> R -> Prop) n, (forall i, (i < n)%nat -> exists w, P i w) -> exists w : nat -> R, forall i, (i < n)%nat -> P i (w i).
Proof.
  intros P n. induction n as [|n IH]; intros H.
  - exists (fun _ => 0). intros; lia.
  - destruct IH as (w & Hw). { intros i Hi. apply H. lia. } destruct (H n) as (v & Hv); [lia|]. exists (fun i => if (i =? n)%nat then v else w i).
    intros i Hi. destruct (Nat.eqb_spec i n) as [->|]; [exact Hv|]. apply Hw. lia.
Qed.
Lemma rolle : forall n (gs : nat -> R -> R) z lo hi, (forall k t, (k < n)%nat -> lo <= t <= hi -> derivable_pt_lim (gs k) t (gs (S k) t)) ->
  (forall i, (i < n)%nat -> z i < z (S i)) -> (forall i, (i <= n)%nat -> lo <= z i <= hi) -> (forall i, (i <= n)%nat -> gs 0%nat (z i) = 0) -> exists xi, lo <= xi <= hi /\ gs n xi = 0.
Proof.
  induction n as [|n IH]; intros gs z lo hi HD HZ HR H0.
  - exists (z 0%nat). split; [apply HR; lia|apply H0; lia].
  - destruct (finite_choice (fun i w => z i < w < z (S i) /\ gs 1%nat w = 0) (S n)) as (w & Hw).
    { intros i Hi. destruct (MVT_cor2 (gs 0%nat) (gs 1%nat) (z i) (z (S i))) as (c & E & Hc).
      - apply HZ. lia.
      - intros c Hc. apply HD; [lia|]. pose proof (HR i). pose proof (HR (S i)). split; [apply Rle_trans with (z i); [apply H; lia|lra]|apply Rle_trans with (z (S i)); [lra|apply H1; lia]].
      - exists c. split; [exact Hc|]. rewrite !H0 in E by lia. pose proof (HZ i ltac:(lia)). assert (gs 1%nat c * (z (S i) - z i) = 0) by lra. apply Rmult_integral in H1. destruct H1; [auto|lra]. }
    apply (IH (fun k => gs (S k)) w lo hi).
    + intros k t Hk Ht. apply HD; auto. lia.
    + intros i Hi. destruct (Hw i) as ((_ & W1) & _); [lia|]. destruct (Hw (S i)) as ((W2 & _) & _); [lia|]. lra.
    + intros i Hi. destruct (Hw i) as ((W1 & W2) & _); [lia|]. pose proof (HR i ltac:(lia)). pose proof (HR (S i) ltac:(lia)). lra.
    + intros i Hi. apply Hw. lia.
Qed.
(** one more zero between the sorted ones *)
Lemma insert_zero : forall n z x, (forall i, (S i < n)%nat -> z i < z (S i)) -> (forall i, (i < n)%nat -> x <> z i) ->
  exists p, (p <= n)%nat /\ (forall i, (i < p)%nat -> z i < x) /\ (forall i, (p <= i < n)%nat -> x < z i).
Proof.
  induction n as [|n IH]; intros z x HZ Hx.
  - exists 0%nat. split; [lia|]. split; intros; lia.
  - destruct (IH z x) as (p & Hp & P1 & P2). { intros i Hi. apply HZ. lia. } { intros i Hi. apply Hx. lia. }
    destruct (Nat.eq_dec p n) as [->|].
    + destruct (Rlt_le_dec (z n) x) as [L|L].
      * exists (S n). split; [lia|]. split; [|intros; lia]. intros i Hi. destruct (Nat.eq_dec i n) as [->|]; [exact L|]. apply P1. lia.
      * exists n. split; [lia|]. split; [exact P1|]. intros i Hi. replace i with n by lia. pose proof (Hx n ltac:(lia)). lra.
    + exists p. split; [lia|]. split; [exact P1|]. intros i Hi. destruct (Nat.eq_dec i n) as [->|]; [|apply P2; lia].
      apply Rlt_trans with (z (n - 1)%nat); [apply P2; lia|]. pose proof (HZ (n - 1)%nat ltac:(lia)). replace (S (n - 1)) with n in H by lia. exact H.
Qed.

(** ** Products of linear factors *)
Fixpoint rprod (n : nat) (f : nat -> R) : R := match n with 0%nat => 1 | S n => rprod n f * f n end.
Lemma rprod_zero : forall n f k, (k < n)%nat -> f k = 0 -> rprod n f = 0.
Proof. induction n as [|n IH]; intros f k Hk H; [lia|]. cbn [rprod]. destruct (Nat.eq_dec k n) as [->|]; [rewrite H; ring|]. rewrite (IH f k) by (auto; lia). ring. Qed.
Lemma rprod_nz : forall n f, (forall k, (k < n)%nat -> f k <> 0) -> rprod n f <> 0.
Proof. induction n as [|n IH]; intros f H; cbn [rprod]; [lra|]. apply Rmult_integral_contrapositive_currified; [apply IH; intros; apply H; lia|apply H; lia]. Qed.
Lemma rprod_ext : forall n f g, (forall k, (k < n)%nat -> f k = g k) -> rprod n f = rprod n g.
Proof. induction n as [|n IH]; intros f g H; cbn [rprod]; auto. rewrite (IH f g), H; auto. Qed.
Lemma rprod_scal : forall n a f, rprod n (fun k => a * f k) = a ^ n * rprod n f.
Proof. induction n as [|n IH]; intros a f; cbn [rprod pow]; [ring|]. rewrite IH. ring. Qed.

(** functions given by a polynomial with at most n coefficients *)
Definition polyfun (n : nat) (f : R -> R) : Prop := exists l, (length l <= n)%nat /\ forall t, f t = pev l t.
Lemma pev_more : forall l n t, (length l <= n)%nat -> pev l t = sum n (fun k => nth k l 0 * t ^ k).
Proof.
  intros l n t H. unfold pev. induction n as [|n IH].
  - destruct l; [reflexivity|cbn in H; lia].
  - destruct (Nat.eq_dec (length l) (S n)) as [->|]; [reflexivity|]. rewrite sumS_R, <- IH by lia. rewrite (nth_overflow l 0) by lia. ring.
Qed.
Lemma polyfun_coef : forall n c, polyfun n (fun t => sum n (fun k => c k * t ^ k)).
Proof.
  intros n c. exists (map c (seq 0 n)). rewrite map_length, seq_length. split; [lia|]. intros t. unfold pev. rewrite map_length, seq_length. apply rsum_ext. intros i Hi.
  rewrite (nth_indep _ 0 (c 0%nat)) by (rewrite map_length, seq_length; auto). rewrite map_nth, seq_nth by auto. reflexivity.
Qed.
Lemma polyfun_ext : forall n f g, (forall t, f t = g t) -> polyfun n f -> polyfun n g.
Proof. intros n f g E (l & H & H'). exists l. split; auto. intros t. rewrite <- E. auto. Qed.
Lemma polyfun_add : forall n f g, polyfun n f -> polyfun n g -> polyfun n (fun t => f t + g t).
Proof.
  intros n f g (l & Hl & El) (m & Hm & Em). apply (polyfun_ext n (fun t => sum n (fun k => (nth k l 0 + nth k m 0) * t ^ k))); [|apply polyfun_coef].
  intros t. rewrite El, Em, (pev_more l n), (pev_more m n), <- rsum_add by auto. apply rsum_ext. intros. ring.
Qed.
Lemma polyfun_scal : forall n a f, polyfun n f -> polyfun n (fun t => a * f t).
Proof.
  intros n a f (l & Hl & El). apply (polyfun_ext n (fun t => sum n (fun k => (a * nth k l 0) * t ^ k))); [|apply polyfun_coef].
  intros t. rewrite El, (pev_more l n), <- rsum_scal by auto. apply rsum_ext. intros. ring.
Qed.
Lemma polyfun_mono : forall n m f, (n <= m)%nat -> polyfun n f -> polyfun m f.
Proof. intros n m f H (l & Hl & El). exists l. split; auto. lia. Qed.
Lemma polyfun_t : forall n f, polyfun n f -> polyfun (S n) (fun t => t * f t).
Proof. intros n f (l & Hl & El). exists (0 :: l). split; [cbn [length]; lia|]. intros t. rewrite pev_cons, El. ring. Qed.
Lemma polyfun_pow : forall n, polyfun (S n) (fun t => t ^ n).
Proof.
  intros n. induction n as [|n IH]; [exists [1]; split; [auto|]; intros t; unfold pev; cbn; ring|].
  apply (polyfun_ext _ (fun t => t * t ^ n)); [reflexivity|]. apply polyfun_t. exact IH.
Qed.
Lemma polyfun_const : forall n a, polyfun (S n) (fun _ => a).
Proof. intros n a. exists [a]. split; [cbn [length]; lia|]. intros t. unfold pev. cbn. ring. Qed.
(** t^n and a polynomial of smaller degree *)
Definition monic (n : nat) (f : R -> R) : Prop := polyfun n (fun t => f t - t ^ n).
Lemma monic_prod : forall n z, monic n (fun t => rprod n (fun k => t - z k)).
Proof.
  intros n z. unfold monic. induction n as [|n IH].
  - apply (polyfun_ext 0 (fun _ => 0)); [intros; cbn [rprod pow]; lra|]. exists []. split; auto.
  - apply (polyfun_ext _ (fun t => (t * (rprod n (fun k => t - z k) - t ^ n) + (- z n) * (rprod n (fun k => t - z k) - t ^ n)) + (- z n) * t ^ n)).
    + intros t. cbn [rprod pow]. ring.
    + apply polyfun_add; [apply polyfun_add|].
      * apply polyfun_t. exact IH.
      * apply polyfun_scal. apply (polyfun_mono n); [lia|exact IH].
      * apply polyfun_scal. apply polyfun_pow.
Qed.
(** a chain of derivatives of t^n, and of a monic polynomial *)
Lemma pow_chain : forall n k t, (k < n)%nat ->
  derivable_pt_lim (fun t => INR (fact n) / INR (fact (n - k)) * t ^ (n - k)) t (INR (fact n) / INR (fact (n - S k)) * t ^ (n - S k)).
Proof.
  intros n k t Hk. replace (n - k)%nat with (S (n - S k)) by lia. set (m := (n - S k)%nat).
  assert (E : INR (fact n) / INR (fact m) * t ^ m = INR (fact n) / INR (fact (S m)) * (INR (S m) * t ^ pred (S m))).
  { cbn [pred]. rewrite fact_simpl, mult_INR. field. split; [apply INR_fact_neq_0|apply not_0_INR; lia]. }
  rewrite E. apply (derivable_pt_lim_scal (fun t => t ^ S m)). apply derivable_pt_lim_pow.
Qed.

(** ** The remainder of interpolation *)
Theorem remainder : forall n f fs p z lo hi x, derivatives f fs n lo hi -> polyfun n p -> (forall i, (S i < n)%nat -> z i < z (S i)) -> (forall i, (i < n)%nat -> lo <= z i <= hi) ->
  (forall i, (i < n)%nat -> p (z i) = f (z i)) -> lo <= x <= hi -> exists xi, lo <= xi <= hi /\ f x - p x = fs n xi / INR (fact n) * rprod n (fun k => x - z k).
Proof.
  intros n f fs p z lo hi x (HF0 & HF) (l & Hl & Ep) HZ HR HI Hx.
  destruct (Req_EM_T (rprod n (fun k => x - z k)) 0) as [E0|E0].
  - assert (exists k, (k < n)%nat /\ x = z k) as (k & Hk & ->).
    { clear - E0. induction n as [|n IH]; cbn [rprod] in E0; [lra|]. apply Rmult_integral in E0. destruct E0 as [E|E].
      - destruct (IH E) as (k & Hk & Ek). exists k. split; [lia|auto].
      - exists n. split; [lia|lra]. }
    exists lo. split; [lra|]. rewrite (rprod_zero n _ k) by (auto; lra). rewrite HI by auto. ring.
  - set (K := (f x - p x) / rprod n (fun k => x - z k)).
    destruct (monic_prod n z) as (m & Hm & Em).
    set (gs := fun k t => fs k t - pev (pd k l) t - K * (INR (fact n) / INR (fact (n - k)) * t ^ (n - k) + pev (pd k m) t)).
    assert (G0 : forall t, lo <= t <= hi -> gs 0%nat t = f t - p t - K * rprod n (fun k => t - z k)).
    { intros t Ht. unfold gs. rewrite HF0 by auto. change (pd 0 l) with l. change (pd 0 m) with m. rewrite <- Ep, <- Em. replace (n - 0)%nat with n by lia. field. apply INR_fact_neq_0. }
    assert (Hnz : forall i, (i < n)%nat -> x <> z i). { intros i Hi ->. apply E0. apply (rprod_zero n _ i); auto. ring. }
    destruct (insert_zero n z x HZ Hnz) as (q & Hq & Q1 & Q2).
    destruct (rolle n gs (fun i => if (i <? q)%nat then z i else if (i =? q)%nat then x else z (i - 1)%nat) lo hi) as (xi & Hxi & Exi).
    + intros k t Hk Ht. unfold gs.
      apply (derivable_pt_lim_minus (fun t => fs k t - pev (pd k l) t) (fun t => K * (INR (fact n) / INR (fact (n - k)) * t ^ (n - k) + pev (pd k m) t))).
      * apply (derivable_pt_lim_minus (fs k) (pev (pd k l))); [apply HF; auto|apply pev_deriv].
      * apply (derivable_pt_lim_scal (fun t => INR (fact n) / INR (fact (n - k)) * t ^ (n - k) + pev (pd k m) t)).
        apply (derivable_pt_lim_plus (fun t => INR (fact n) / INR (fact (n - k)) * t ^ (n - k)) (pev (pd k m))); [apply pow_chain; auto|apply pev_deriv].
    + intros i Hi. destruct (Nat.ltb_spec i q); destruct (Nat.ltb_spec (S i) q); try lia.
      * apply HZ. lia.
      * destruct (Nat.eqb_spec (S i) q); [apply Q1; lia|lia].
      * destruct (Nat.eqb_spec (S i) q); [lia|]. replace (S i - 1)%nat with i by lia. destruct (Nat.eqb_spec i q) as [->|]; [apply Q2; lia|].
        pose proof (HZ (i - 1)%nat ltac:(lia)) as G. replace (S (i - 1)) with i in G by lia. exact G.
    + intros i Hi. destruct (Nat.ltb_spec i q); [apply HR; lia|]. destruct (Nat.eqb_spec i q); [auto|apply HR; lia].
    + assert (GZ : forall i, (i < n)%nat -> gs 0%nat (z i) = 0). { intros i Hi. rewrite G0 by (apply HR; auto). rewrite (rprod_zero n _ i) by (auto; ring). rewrite HI by auto. ring. }
      intros i Hi. destruct (Nat.ltb_spec i q); [apply GZ; lia|]. destruct (Nat.eqb_spec i q); [|apply GZ; lia]. rewrite G0 by auto. unfold K. field. exact E0.
    + exists xi. split; [exact Hxi|]. unfold gs in Exi. rewrite !pd_zero in Exi by auto. replace (n - n)%nat with 0%nat in Exi by lia. cbn [fact pow INR] in Exi.
      assert (FN : INR (fact n) <> 0) by apply INR_fact_neq_0. assert (EK : fs n xi / INR (fact n) = K).
      { assert (fs n xi = K * INR (fact n)) by (replace (INR (fact n)) with (INR (fact n) / 1 * 1 + 0) by field; lra). rewrite H. field. exact FN. }
      rewrite EK. unfold K. field. exact E0.
Qed.

(** ** The Chebyshev nodes *)
Lemma ynode_decr : forall n i, (S i < n)%nat -> cos (PI * (INR (S i) + 1 / 2) / INR n) < cos (PI * (INR i + 1 / 2) / INR n).
Proof.
  intros n i Hi. pose proof PI_RGT_0. assert (N0 : 0 < INR n) by (apply lt_0_INR; lia). pose proof (pos_INR i).
  assert (L : INR (S i) + 1 <= INR n) by (rewrite <- S_INR; apply le_INR; lia). rewrite S_INR in *.
  assert (0 < / INR n) by (apply Rinv_0_lt_compat; auto). assert (E : INR n * / INR n = 1) by (apply Rinv_r; lra).
  apply cos_decreasing_1; unfold Rdiv.
  - apply Rmult_le_pos; [apply Rmult_le_pos; lra|lra].
  - replace PI with (PI * (INR n * / INR n)) at 2 by (rewrite E; ring). rewrite <- Rmult_assoc. apply Rmult_le_compat_r; [lra|]. apply Rmult_le_compat_l; lra.
  - apply Rmult_le_pos; [apply Rmult_le_pos; lra|lra].
  - replace PI with (PI * (INR n * / INR n)) at 2 by (rewrite E; ring). rewrite <- Rmult_assoc. apply Rmult_le_compat_r; [lra|]. apply Rmult_le_compat_l; lra.
  - apply Rmult_lt_compat_r; [auto|]. apply Rmult_lt_compat_l; lra.
Qed.
Lemma cT_poly : forall k, monic (S k) (fun y => cT (S k) y / 2 ^ k) .
Proof.
  intros k. enough (monic (S k) (fun y => cT (S k) y / 2 ^ k) /\ monic (S (S k)) (fun y => cT (S (S k)) y / 2 ^ (S k))) by tauto.
  unfold monic. induction k as [|k (IH1 & IH2)].
  - split.
    + apply (polyfun_ext 1 (fun _ => 0)); [intros; cbn [cT pow]; field|]. apply polyfun_const.
    + apply (polyfun_ext 2 (fun _ => -1/2)); [intros; cbn [cT pow]; field|]. apply polyfun_const.
  - split; [exact IH2|]. apply (polyfun_ext _ (fun t => t * (cT (S (S k)) t / 2 ^ S k - t ^ S (S k)) + (- 1 / 4) * ((cT (S k) t / 2 ^ k - t ^ S k) + t ^ S k))).
    + intros t. rewrite (cT_SS (S k)). rewrite <- !tech_pow_Rmult. field. apply pow_nonzero. lra.
    + apply polyfun_add; [apply polyfun_t; exact IH2|]. apply polyfun_scal. apply polyfun_add; [apply (polyfun_mono (S k)); [lia|exact IH1]|]. apply (polyfun_mono (S (S k))); [lia|]. apply polyfun_pow.
Qed.
(** a polynomial with at most n coefficients that vanishes at the nodes is 0 *)
Lemma poly_unique : forall n f, (1 <= n)%nat -> polyfun n f -> (forall k, (k < n)%nat -> f (cos (PI * (INR k + 1 / 2) / INR n)) = 0) -> forall y, f y = 0.
Proof.
  intros n f Hn (l & Hl & El) H0 y. assert (SP : span n f).
  { apply (span_mono (length l)); auto. eapply span_ext; [|apply (span_poly l 1 0)]. intros t. rewrite El. cbv beta. f_equal. ring. }
  destruct (span_series n f Hn SP) as (g & Hg).
  assert (Z : forall k, (k < n)%nat -> idct2 n g k = 0).
  { intros k Hk. rewrite <- (series_node (-1) 1 n g k) by (auto; lra). rewrite <- Hg, unitpos_node by lra. apply H0. auto. }
  rewrite Hg, (series_ext g (fun _ => 0)); [apply series_zero|auto|]. intros i Hi. rewrite <- (dct2_idct2 n g i Hi). unfold dct2. rewrite rsum_zero; [ring|]. intros j Hj. rewrite Z by auto. ring.
Qed.
Lemma node_prod : forall n y, (1 <= n)%nat -> rprod n (fun k => y - cos (PI * (INR k + 1 / 2) / INR n)) = cT n y / 2 ^ (n - 1).
Proof.
  intros n y Hn. apply Rminus_diag_uniq. revert y. apply (poly_unique n (fun y => rprod n (fun k => y - cos (PI * (INR k + 1 / 2) / INR n)) - cT n y / 2 ^ (n - 1))); auto.
  - destruct n as [|n]; [lia|]. replace (S n - 1)%nat with n by lia.
    apply (polyfun_ext _ (fun y => (rprod (S n) (fun k => y - cos (PI * (INR k + 1 / 2) / INR (S n))) - y ^ S n) + (-1) * (cT (S n) y / 2 ^ n - y ^ S n))); [intros; ring|].
    apply polyfun_add; [apply (monic_prod (S n) (fun k => cos (PI * (INR k + 1 / 2) / INR (S n))))|]. apply polyfun_scal. apply cT_poly.
  - intros k Hk. rewrite (rprod_zero n _ k) by (auto; ring). rewrite cT_cos. replace (INR n * (PI * (INR k + 1 / 2) / INR n)) with (PI * (INR k + 1 / 2)) by (field; apply not_0_INR; lia).
    replace (PI * (INR k + 1 / 2)) with (PI / 2 + INR k * PI) by field. rewrite cos_plus, cos_PI2.
    replace (sin (INR k * PI)) with 0; [unfold Rdiv; ring|]. clear. induction k as [|k IH]; [cbn [INR]; rewrite Rmult_0_l, sin_0; reflexivity|].
    rewrite S_INR. replace ((INR k + 1) * PI) with (INR k * PI + PI) by ring. rewrite neg_sin. lra.
Qed.
Lemma series_polyfun : forall a b c n, (1 <= n)%nat -> polyfun n (fun x => series c n (unitpos a b x)).
Proof.
  intros a b c n Hn. set (h := 2 / (b - a)). set (m := - (a + b) / (b - a)).
  assert (E : forall x, unitpos a b x = h * x + m) by (intros; unfold unitpos, h, m, Rdiv; ring).
  assert (PT : forall k, polyfun (S k) (fun x => cT k (unitpos a b x)) /\ polyfun (S (S k)) (fun x => cT (S k) (unitpos a b x))).
  { assert (AF : forall k f, polyfun k f -> polyfun (S k) (fun x => unitpos a b x * f x)).
    { intros k f Hf. apply (polyfun_ext _ (fun x => h * (x * f x) + m * f x)); [intros; rewrite E; ring|]. apply polyfun_add; apply polyfun_scal; [apply polyfun_t; auto|apply (polyfun_mono k); auto]. }
    induction k as [|k (IH1 & IH2)].
    - split; [exact (polyfun_const 0 1)|]. apply (polyfun_ext _ (fun x => unitpos a b x * 1)); [intros; cbn [cT]; ring|]. apply AF. exact (polyfun_const 0 1).
    - split; [exact IH2|]. apply (polyfun_ext _ (fun x => 2 * (unitpos a b x * cT (S k) (unitpos a b x)) + (-1) * cT k (unitpos a b x))); [intros; rewrite cT_SS; ring|].
      apply polyfun_add; apply polyfun_scal; [apply AF; exact IH2|]. apply (polyfun_mono (S k)); [lia|exact IH1]. }
  induction n as [|n IH]; [lia|]. destruct n as [|n].
  - apply (polyfun_ext _ (fun x => c 0%nat / 2)); [intros; unfold series; cbn; ring|]. apply polyfun_const.
  - apply (polyfun_ext _ (fun x => series c (S n) (unitpos a b x) + c (S n) * cT (S n) (unitpos a b x))); [intros; rewrite (series_S c (S n)) by lia; reflexivity|].
    apply polyfun_add; [apply (polyfun_mono (S n)); [lia|apply IH; lia]|]. apply polyfun_scal. apply PT.
Qed.
(** the error of interpolation at the Chebyshev nodes *)
Lemma cheb_remainder : forall n f fs a b c B x, (1 <= n)%nat -> a < b -> derivatives f fs n a b -> (forall t, a <= t <= b -> Rabs (fs n t) <= B) ->
  (forall k, (k < n)%nat -> series c n (unitpos a b (node a b n k)) = f (node a b n k)) -> a <= x <= b ->
  Rabs (series c n (unitpos a b x) - f x) <= B * ((b - a) / 2) ^ n / (2 ^ (n - 1) * INR (fact n)).
Proof.
  intros n f fs a b c B x Hn Hab HD HB HI Hx.
  destruct (remainder n f fs (fun x => series c n (unitpos a b x)) (fun i => node a b n (n - 1 - i)) a b x) as (xi & Hxi & E); auto.
  - apply series_polyfun. auto.
  - intros i Hi. unfold node. replace (n - 1 - i)%nat with (S (n - 1 - S i)) by lia. pose proof (ynode_decr n (n - 1 - S i) ltac:(lia)). nra.
  - intros i Hi. apply node_range. auto.
  - intros i Hi. apply HI. lia.
  - rewrite Rabs_minus_sym, E. clear E.
    assert (PR : rprod n (fun k => x - node a b n (n - 1 - k)) = ((b - a) / 2) ^ n * (cT n (unitpos a b x) / 2 ^ (n - 1))).
    { rewrite <- node_prod by auto. rewrite <- rprod_scal.
      assert (RV : forall m f, rprod m (fun k => f (m - 1 - k)%nat) = rprod m f).
      { clear. assert (RL : forall m f, rprod (S m) f = f 0%nat * rprod m (fun k => f (S k))).
        { induction m as [|m IH]; intros f; [cbn [rprod]; ring|]. change (rprod (S (S m)) f) with (rprod (S m) f * f (S m)). rewrite IH. cbn [rprod]. ring. }
        induction m as [|m IH]; intros f; auto. rewrite (RL m f), <- (IH (fun k => f (S k))). cbn [rprod]. replace (S m - 1 - m)%nat with 0%nat by lia.
        rewrite (rprod_ext m (fun k => f (S m - 1 - k)%nat) (fun k => f (S (m - 1 - k)))) by (intros; f_equal; lia). ring. }
      rewrite (RV n (fun k => x - node a b n k)). apply rprod_ext. intros k Hk. rewrite <- (unitpos_inv a b x Hab) at 1. unfold node. ring. }
    rewrite PR, Rabs_mult. unfold Rdiv. rewrite !Rabs_mult, !Rabs_inv, <- !RPow_abs, !Rabs_mult, (Rabs_pos_eq (b - a)), (Rabs_pos_eq (/ 2)), (Rabs_pos_eq 2), (Rabs_pos_eq (INR (fact n))) by (try lra; apply pos_INR).
    pose proof (cT_bound n (unitpos a b x) (unitpos_range a b x Hab Hx)) as HT. pose proof (HB xi Hxi) as HBx.
    assert (P1 : 0 < / INR (fact n)) by (apply Rinv_0_lt_compat, INR_fact_lt_0). assert (P2 : 0 < / 2 ^ (n - 1)) by (apply Rinv_0_lt_compat, pow_lt; lra). assert (P3 : 0 < ((b - a) * / 2) ^ n) by (apply pow_lt; lra).
    rewrite Rinv_mult by (try apply INR_fact_neq_0; apply pow_nonzero; lra).
    replace (Rabs (fs n xi) * / INR (fact n) * (((b - a) * / 2) ^ n * (Rabs (cT n (unitpos a b x)) * / 2 ^ (n - 1)))) with ((Rabs (fs n xi) * Rabs (cT n (unitpos a b x))) * (/ INR (fact n) * ((b - a) * / 2) ^ n * / 2 ^ (n - 1))) by ring.
    replace (B * ((b - a) * / 2) ^ n * (/ 2 ^ (n - 1) * / INR (fact n))) with ((B * 1) * (/ INR (fact n) * ((b - a) * / 2) ^ n * / 2 ^ (n - 1))) by ring.
    apply Rmult_le_compat_r; [apply Rlt_le; repeat apply Rmult_lt_0_compat; auto|]. apply Rmult_le_compat; auto; apply Rabs_pos.
Qed.
