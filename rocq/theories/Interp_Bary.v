(** * C53: barycentric rational interpolation (Floater-Hormann) *)

From Coq Require Import List Arith Bool Lia ZArith Reals Lra Psatz.
From Verif Require Import Base Num Mat_Proofs Tri_Model RootFind_Model RootFind_Proofs Interp_Model Interp_Linear Interp_Poly Interp_Spline.
Import ListNotations.
Local Open Scope R_scope.

Local Notation sum := (sumn Rnum).
Lemma Rring : ring_laws Rnum. Proof. exact (F_R Rnum_field). Qed.
Lemma sumS : forall n f, sum (S n) f = sum n f + f n.
Proof. reflexivity. Qed.
Lemma sum_ext_R : forall n f g, (forall i, (i < n)%nat -> f i = g i) -> sum n f = sum n g.
Proof. intros. apply sum_ext. auto. Qed.
Lemma sum_zero_R : forall n f, (forall i, (i < n)%nat -> f i = 0) -> sum n f = 0.
Proof. intros n f H. apply (sum_zero Rnum Rring n f H). Qed.
Lemma sum_app_R : forall n m f, sum (n + m) f = sum n f + sum m (fun i => f (n + i)%nat).
Proof. intros n m f. apply (sum_app Rnum Rring n m f). Qed.
Lemma sum_mul_R : forall n a f, a * sum n f = sum n (fun i => a * f i).
Proof. intros n a f. apply (sum_mul_l Rnum Rring n a f). Qed.
Lemma sum_swap_R : forall n m (f : nat -> nat -> R), sum n (fun i => sum m (fun j => f i j)) = sum m (fun j => sum n (fun i => f i j)).
Proof. intros n m f. apply (sum_swap Rnum Rring n m f). Qed.
Lemma sum_window_R : forall n i l (g : nat -> R), (i + l <= n)%nat -> (forall c, (c < n)%nat -> (c < i \/ i + l <= c)%nat -> g c = 0) -> sum n g = sum l (fun k => g (i + k)%nat).
Proof.
  intros n i l g HL HZ. replace n with (i + (l + (n - i - l)))%nat by lia. rewrite sum_app_R, sum_app_R.
  rewrite (sum_zero_R i) by (intros c Hc; apply HZ; lia). rewrite (sum_zero_R (n - i - l)) by (intros c Hc; apply HZ; lia). ring.
Qed.

(** ** Products over a window *)
Section Window.
Context (X : nat -> R).
(** the product of x - X (i+l) for l < m, and the same without the factor of point [skip] *)
Fixpoint om (i m : nat) (x : R) : R := match m with 0%nat => 1 | S m' => om i m' x * (x - X (i + m')%nat) end.
Fixpoint pl (skip i m : nat) (x : R) : R := match m with 0%nat => 1 | S m' => pl skip i m' x * (if (i + m' =? skip)%nat then 1 else x - X (i + m')%nat) end.

Lemma om_S_l : forall m i x, om i (S m) x = (x - X i) * om (i + 1) m x.
Proof.
  induction m as [|m IH]; intros i x; [cbn; rewrite Nat.add_0_r; ring|]. change (om i (S (S m)) x) with (om i (S m) x * (x - X (i + S m)%nat)). rewrite IH.
  cbn [om]. replace (i + 1 + m)%nat with (i + S m)%nat by lia. ring.
Qed.
Lemma pl_om : forall m i j x, (j < m)%nat -> om i m x = (x - X (i + j)%nat) * pl (i + j) i m x.
Proof.
  induction m as [|m IH]; intros i j x H; [lia|]. cbn [om pl]. destruct (Nat.eqb_spec (i + m) (i + j)).
  - replace j with m by lia. assert (G : forall m', (m' <= m)%nat -> pl (i + m) i m' x = om i m' x).
    { induction m' as [|m' IH']; intros H'; [reflexivity|]. cbn [pl om]. rewrite IH' by lia. destruct (Nat.eqb_spec (i + m') (i + m)); [lia|]. reflexivity. }
    rewrite G by lia. ring.
  - rewrite (IH i j x) by lia. ring.
Qed.
Lemma pl_zero : forall m i j l, (l < m)%nat -> l <> j -> pl (i + j) i m (X (i + l)%nat) = 0.
Proof.
  induction m as [|m IH]; intros i j l H NE; [lia|]. cbn [pl]. destruct (Nat.eq_dec l m) as [->|NL].
  - destruct (Nat.eqb_spec (i + m) (i + j)); [lia|]. ring.
  - rewrite IH by lia. ring.
Qed.
Lemma pl_nz : forall m i k x, (forall l, (l < m)%nat -> (i + l)%nat <> k -> x <> X (i + l)%nat) -> pl k i m x <> 0.
Proof.
  induction m as [|m IH]; intros i k x H; cbn [pl]; [lra|]. apply Rmult_integral_contrapositive. split; [apply IH; intros; apply H; auto; lia|].
  destruct (Nat.eqb_spec (i + m) k); [lra|]. specialize (H m ltac:(lia) n). lra.
Qed.
Lemma om_nz : forall m i x, (forall l, (l < m)%nat -> x <> X (i + l)%nat) -> om i m x <> 0.
Proof.
  induction m as [|m IH]; intros i x H; cbn [om]; [lra|]. apply Rmult_integral_contrapositive. split; [apply IH; intros; apply H; lia|]. specialize (H m ltac:(lia)). lra.
Qed.
Lemma pl_poly : forall m i j, is_poly Rnum (if (j <? m)%nat then m else S m) (pl (i + j) i m).
Proof.
  induction m as [|m IH]; intros i j.
  - destruct (Nat.ltb_spec j 0); [lia|]. apply (is_poly_const Rnum Rnum_field).
  - cbn [pl]. destruct (Nat.eqb_spec (i + m) (i + j)) as [E|NE].
    + assert (j = m) by lia. subst j. specialize (IH i m). destruct (Nat.ltb_spec m m); [lia|]. destruct (Nat.ltb_spec m (S m)); [|lia]. eapply is_poly_ext; [exact IH|]. intros x. cbn. ring.
    + specialize (IH i j). replace (j <? S m)%nat with (j <? m)%nat. 2: { destruct (Nat.ltb_spec j m), (Nat.ltb_spec j (S m)); auto; lia. }
      apply (is_poly_linear Rnum Rnum_field _ (- X (i + m)%nat) 1) in IH. destruct (j <? m)%nat; (eapply is_poly_ext; [exact IH|]); intros x; cbn; ring.
Qed.
Lemma is_poly_sum : forall n k f, (forall i, (i < n)%nat -> is_poly Rnum k (f i)) -> is_poly Rnum k (fun x => sum n (fun i => f i x)).
Proof.
  induction n as [|n IH]; intros k f H. { exists []. split; [cbn; lia|]. intros x. reflexivity. }
  apply (is_poly_add Rnum Rnum_field); [apply IH; intros; apply H; lia|apply H; lia].
Qed.

(** Lagrange: a polynomial q with m coefficients, divided by the product of the x - X (i+j) *)
Lemma lagrange : forall m i q x, is_poly Rnum m q -> (forall a b, (a < b < m)%nat -> X (i + a)%nat <> X (i + b)%nat) -> (forall j, (j < m)%nat -> x <> X (i + j)%nat) ->
  sum m (fun j => q (X (i + j)%nat) / ((x - X (i + j)%nat) * pl (i + j) i m (X (i + j)%nat))) = q x / om i m x.
Proof.
  intros m i q x HQ HD HX.
  assert (NZ : forall j, (j < m)%nat -> pl (i + j) i m (X (i + j)%nat) <> 0).
  { intros j Hj. apply pl_nz. intros l Hl NE. destruct (Nat.lt_trichotomy l j) as [L|[L|L]]; [|lia|]; [intros E; symmetry in E; revert E|]; apply HD; lia. }
  assert (E : forall y, sum m (fun j => q (X (i + j)%nat) / pl (i + j) i m (X (i + j)%nat) * pl (i + j) i m y) = q y).
  { apply (poly_unique Rnum Rnum_field m _ _ (fun j => X (i + j)%nat)); auto.
    - apply is_poly_sum. intros j Hj. pose proof (pl_poly m i j) as P. destruct (Nat.ltb_spec j m); [|lia]. exact (is_poly_scale Rnum Rnum_field m _ _ P).
    - intros j Hj. rewrite (sum_one Rnum Rring m j); [|exact Hj|intros l Hl NE; cbv beta; rewrite (pl_zero m i l j) by lia; apply Rmult_0_r]. field. apply NZ. auto. }
  rewrite <- (E x). unfold Rdiv at 2. rewrite Rmult_comm, sum_mul_R. apply sum_ext_R. intros j Hj. rewrite (pl_om m i j x Hj).
  assert (x - X (i + j)%nat <> 0) by (specialize (HX j Hj); lra).
  assert (pl (i + j) i m x <> 0) by (apply pl_nz; intros l Hl _; apply HX; auto). field. repeat split; auto.
Qed.
End Window.

(** ** The alternating sum has no zero *)
Section NoPole.
Context (n d : nat) (X : nat -> R) (HI : increasing n X) (HD : (d < n)%nat).
Local Notation N := (n - d)%nat.
Definition lam (x : R) (i : nat) : R := (-1) ^ i / om X i (S d) x.

Lemma pow_sign : forall k, (-1) ^ k = 1 \/ (-1) ^ k = -1.
Proof. induction k as [|k IH]; cbn; [auto|]. destruct IH as [->| ->]; [right|left]; ring. Qed.
Lemma pow_sq : forall k, (-1) ^ k * (-1) ^ k = 1.
Proof. intros k. destruct (pow_sign k) as [->| ->]; ring. Qed.
Lemma pow_shift : forall a b, (-1) ^ (a + 2 * b) = (-1) ^ a.
Proof. intros a b. rewrite pow_add, pow_mult. replace ((-1) ^ 2) with 1 by (cbn; ring). rewrite pow1. ring. Qed.

Context (x : R) (c : nat) (HC : (c <= n)%nat) (HL : forall j, (j < c)%nat -> X j < x) (HR : forall j, (c <= j)%nat -> (j < n)%nat -> x < X j).
Lemma om_sign : forall m i, (i + m <= n)%nat -> 0 < (-1) ^ (i + m - Nat.max i (Nat.min c (i + m))) * om X i m x.
Proof.
  induction m as [|m IH]; intros i Hm. { cbn. replace (i + 0 - Nat.max i (Nat.min c (i + 0)))%nat with 0%nat by lia. cbn. lra. }
  specialize (IH i ltac:(lia)). cbn [om]. destruct (lt_dec (i + m) c) as [L|L].
  - replace (i + S m - Nat.max i (Nat.min c (i + S m)))%nat with (i + m - Nat.max i (Nat.min c (i + m)))%nat by lia. specialize (HL (i + m)%nat L). nra.
  - replace (i + S m - Nat.max i (Nat.min c (i + S m)))%nat with (S (i + m - Nat.max i (Nat.min c (i + m))))%nat by lia. specialize (HR (i + m)%nat ltac:(lia) ltac:(lia)). cbn [pow]. nra.
Qed.
Lemma om_ratio : forall i, om X i (S d) x * (x - X (i + S d)%nat) = (x - X i) * om X (i + 1) (S d) x.
Proof. intros i. change (om X i (S d) x * (x - X (i + S d)%nat)) with (om X i (S (S d)) x). apply om_S_l. Qed.

(** windows to the left of x: the partial sums have the sign of their last term *)
Lemma left_sum : forall m, (m + d <= c)%nat -> (1 <= m)%nat -> 0 < (-1) ^ (m - 1) * sum m (lam x) <= 1 / om X (m - 1) (S d) x.
Proof.
  assert (P : forall i, (i + d < c)%nat -> 0 < om X i (S d) x).
  { intros i Hi. pose proof (om_sign (S d) i ltac:(lia)) as G. replace (i + S d - Nat.max i (Nat.min c (i + S d)))%nat with 0%nat in G by lia. cbn [pow] in G. lra. }
  induction m as [|m IH]; intros Hm H1; [lia|]. destruct (Nat.eq_dec m 0) as [->|M0].
  - rewrite sumS. replace (sum 0 (lam x)) with 0 by reflexivity. cbn [Nat.sub pow]. unfold lam. cbn [pow]. pose proof (P 0%nat ltac:(lia)). split; [|right; field; lra].
    replace (1 * (0 + 1 / om X 0 (S d) x)) with (1 / om X 0 (S d) x) by ring. apply Rdiv_lt_0_compat; lra.
  - specialize (IH ltac:(lia) ltac:(lia)). rewrite sumS. replace (S m - 1)%nat with m by lia. unfold lam at 2 4. set (s := sum m (lam x)) in *.
    pose proof (P m ltac:(lia)) as PM. pose proof (P (m - 1)%nat ltac:(lia)) as PM'. pose proof (om_ratio (m - 1)) as RT. replace (m - 1 + 1)%nat with m in RT by lia.
    pose proof (HL (m - 1)%nat ltac:(lia)). pose proof (HL (m - 1 + S d)%nat ltac:(lia)). pose proof (HI (m - 1)%nat (m - 1 + S d)%nat ltac:(lia)).
    assert (LT : om X m (S d) x < om X (m - 1) (S d) x) by nra.
    assert (LT' : 1 / om X (m - 1) (S d) x < 1 / om X m (S d) x). { unfold Rdiv. rewrite !Rmult_1_l. apply Rinv_lt_contravar; nra. }
    replace ((-1) ^ m * (s + (-1) ^ m / om X m (S d) x)) with (1 / om X m (S d) x - (-1) ^ (m - 1) * s).
    + lra.
    + assert (E : (-1) ^ m = - (-1) ^ (m - 1)) by (replace m with (S (m - 1)) at 1 by lia; cbn [pow]; ring). rewrite Rmult_plus_distr_l. replace ((-1) ^ m * ((-1) ^ m / om X m (S d) x)) with (((-1) ^ m * (-1) ^ m) * (1 / om X m (S d) x)) by (unfold Rdiv; ring). rewrite pow_sq, E. ring.
Qed.
(** windows to the right of x: the tail sums have the sign of their first term *)
Lemma right_sum : forall l m, (c <= m)%nat -> (m + l <= N)%nat -> (1 <= l)%nat -> 0 < (-1) ^ (m + S d) * sum l (fun i => lam x (m + i)) <= (-1) ^ S d / om X m (S d) x.
Proof.
  assert (P : forall i, (c <= i)%nat -> (i + d < n)%nat -> 0 < (-1) ^ S d * om X i (S d) x).
  { intros i Hi Hn. pose proof (om_sign (S d) i ltac:(lia)) as G. replace (i + S d - Nat.max i (Nat.min c (i + S d)))%nat with (S d) in G by lia. auto. }
  assert (Q : forall i, (c <= i)%nat -> (i + d < n)%nat -> 0 < (-1) ^ S d / om X i (S d) x).
  { intros i Hi Hn. specialize (P i Hi Hn). destruct (pow_sign (S d)) as [E|E]; rewrite E in *.
    - apply Rdiv_lt_0_compat; lra.
    - replace (-1 / om X i (S d) x) with (1 / (- om X i (S d) x)) by (field; lra). apply Rdiv_lt_0_compat; lra. }
  induction l as [|l IH]; intros m Hc Hm H1; [lia|].
  assert (ES : sum (S l) (fun i => lam x (m + i)) = lam x m + sum l (fun i => lam x (m + 1 + i))).
  { change (S l) with (1 + l)%nat. rewrite sum_app_R. rewrite sumS. replace (sum 0 (fun i => lam x (m + i))) with 0 by reflexivity. rewrite Nat.add_0_r.
    rewrite Rplus_0_l. f_equal. apply sum_ext_R. intros i _. f_equal. lia. }
  rewrite ES. assert (EM : (-1) ^ (m + S d) * lam x m = (-1) ^ S d / om X m (S d) x).
  { unfold lam. rewrite pow_add. replace ((-1) ^ m * (-1) ^ S d * ((-1) ^ m / om X m (S d) x)) with (((-1) ^ m * (-1) ^ m) * ((-1) ^ S d / om X m (S d) x)) by (unfold Rdiv; ring). rewrite pow_sq. ring. }
  rewrite Rmult_plus_distr_l, EM. pose proof (Q m Hc ltac:(lia)) as QM. destruct (Nat.eq_dec l 0) as [->|L0].
  - replace (sum 0 (fun i => lam x (m + 1 + i))) with 0 by reflexivity. rewrite Rmult_0_r, Rplus_0_r. lra.
  - specialize (IH (m + 1)%nat ltac:(lia) ltac:(lia) ltac:(lia)). set (s := sum l (fun i => lam x (m + 1 + i))) in *.
    replace (m + 1 + S d)%nat with (S (m + S d)) in IH by lia. change ((-1) ^ S (m + S d)) with (-1 * (-1) ^ (m + S d)) in IH.
    assert (LT : (-1) ^ S d / om X (m + 1) (S d) x < (-1) ^ S d / om X m (S d) x).
    { pose proof (P m Hc ltac:(lia)) as P1. pose proof (P (m + 1)%nat ltac:(lia) ltac:(lia)) as P2. pose proof (om_ratio m) as RT.
      pose proof (HR m ltac:(lia) ltac:(lia)). pose proof (HR (m + S d)%nat ltac:(lia) ltac:(lia)). pose proof (HI m (m + S d)%nat ltac:(lia)).
      set (u := om X m (S d) x) in *. set (v := om X (m + 1) (S d) x) in *.
      assert (HU : u <> 0) by (intros E; rewrite E in P1; lra). assert (HV : v <> 0) by (intros E; rewrite E in P2; lra).
      destruct (pow_sign (S d)) as [E|E]; rewrite E in *.
      - assert (u < v) by nra. unfold Rdiv. rewrite !Rmult_1_l. apply Rinv_lt_contravar; nra.
      - assert (- u < - v) by nra. replace (-1 / v) with (/ (- v)) by (field; auto). replace (-1 / u) with (/ (- u)) by (field; auto). apply Rinv_lt_contravar; nra. }
    lra.
Qed.
(** windows around x: all terms have the same sign *)
Lemma mid_sum : forall l m, (m <= c)%nat -> (c <= m + d)%nat -> (m + l <= c)%nat -> (m + l <= N)%nat -> (1 <= l)%nat -> 0 < (-1) ^ (c + S d) * sum l (fun i => lam x (m + i)).
Proof.
  induction l as [|l IH]; intros m H1 H2 H3 H4 H5; [lia|]. rewrite sumS.
  assert (T : 0 < (-1) ^ (c + S d) * lam x (m + l)).
  { pose proof (om_sign (S d) (m + l) ltac:(lia)) as G. replace (Nat.max (m + l) (Nat.min c (m + l + S d)))%nat with c in G by lia. unfold lam. set (o := om X (m + l) (S d) x) in *.
    assert (E : (-1) ^ (c + S d) * (-1) ^ (m + l) = (-1) ^ (m + l + S d - c)).
    { rewrite <- pow_add. replace (c + S d + (m + l))%nat with (m + l + S d - c + 2 * c)%nat by lia. apply pow_shift. }
    replace ((-1) ^ (c + S d) * ((-1) ^ (m + l) / o)) with (((-1) ^ (c + S d) * (-1) ^ (m + l)) / o) by (unfold Rdiv; ring). rewrite E.
    assert (o <> 0) by (intros E0; rewrite E0 in G; lra). destruct (pow_sign (m + l + S d - c)) as [E1|E1]; rewrite E1 in *.
    - apply Rdiv_lt_0_compat; lra.
    - replace (-1 / o) with (1 / (- o)) by (field; auto). apply Rdiv_lt_0_compat; lra. }
  destruct (Nat.eq_dec l 0) as [->|L0].
  - replace (sum 0 (fun i => lam x (m + i))) with 0 by reflexivity. rewrite Rplus_0_l. exact T.
  - specialize (IH m H1 H2 ltac:(lia) ltac:(lia) ltac:(lia)). lra.
Qed.
Lemma lam_sum_nz : sum N (lam x) <> 0.
Proof.
  set (a := Nat.min N (c - d)). set (b := Nat.min N c). assert (AB : (a <= b <= N)%nat) by lia.
  assert (ES : sum N (lam x) = sum a (lam x) + sum (b - a) (fun i => lam x (a + i)) + sum (N - b) (fun i => lam x (b + i))).
  { replace N with (a + ((b - a) + (N - b)))%nat at 1 by lia. rewrite sum_app_R, sum_app_R. rewrite Rplus_assoc. do 2 f_equal. apply sum_ext_R. intros i _. f_equal. lia. }
  assert (GA : (1 <= a)%nat -> 0 < (-1) ^ (c + S d) * sum a (lam x) \/ (a = N)).
  { intros Ha. destruct (Nat.eq_dec a N) as [E|E]; auto. left. pose proof (left_sum a ltac:(lia) Ha) as G. replace ((-1) ^ (c + S d)) with ((-1) ^ (a - 1)); [lra|].
    replace (c + S d)%nat with (a - 1 + 2 * (S d))%nat by lia. symmetry. apply pow_shift. }
  assert (GB : (1 <= b - a)%nat -> 0 < (-1) ^ (c + S d) * sum (b - a) (fun i => lam x (a + i))).
  { intros Hb. apply mid_sum; lia. }
  assert (GC : (1 <= N - b)%nat -> 0 < (-1) ^ (c + S d) * sum (N - b) (fun i => lam x (b + i))).
  { intros Hb. assert (b = c) by lia. pose proof (right_sum (N - b) b ltac:(lia) ltac:(lia) Hb) as G. rewrite H in *. lra. }
  assert (NN : forall l f, (l = 0)%nat -> sum l f = 0) by (intros l f ->; reflexivity).
  destruct (Nat.eq_dec a N) as [E|E].
  { rewrite <- E. pose proof (left_sum a ltac:(lia) ltac:(lia)) as G. intros Z. rewrite Z in G. lra. }
  intros Z. apply (f_equal (Rmult ((-1) ^ (c + S d)))) in Z. rewrite ES, !Rmult_plus_distr_l, Rmult_0_r in Z.
  assert (PA : 0 <= (-1) ^ (c + S d) * sum a (lam x)). { destruct (Nat.eq_dec a 0) as [A0|A0]; [rewrite NN by auto; lra|]. destruct (GA ltac:(lia)); [lra|lia]. }
  assert (PB : 0 <= (-1) ^ (c + S d) * sum (b - a) (fun i => lam x (a + i))). { destruct (Nat.eq_dec (b - a) 0) as [A0|A0]; [rewrite NN by auto; lra|]. pose proof (GB ltac:(lia)). lra. }
  assert (PC : 0 <= (-1) ^ (c + S d) * sum (N - b) (fun i => lam x (b + i))). { destruct (Nat.eq_dec (N - b) 0) as [A0|A0]; [rewrite NN by auto; lra|]. pose proof (GC ltac:(lia)). lra. }
  destruct (Nat.eq_dec (N - b) 0) as [A0|A0]; [|pose proof (GC ltac:(lia)); lra].
  destruct (Nat.eq_dec (b - a) 0) as [A1|A1]; [|pose proof (GB ltac:(lia)); lra]. lia.
Qed.
End NoPole.

(** ** Weights and evaluation *)
Section Eval.
Context (n d : nat) (X Y : nat -> R) (HI : increasing n X) (HD : (d < n)%nat).
Local Notation N := (n - d)%nat.
Definition ind (i k : nat) : bool := (i <=? k)%nat && (k <=? i + d)%nat.
Definition wterm (k i : nat) : R := if ind i k then (-1) ^ i / pl X k i (S d) (X k) else 0.
Definition wgt (k : nat) : R := sum N (wterm k).

Lemma X_neq : forall a b, (a < n)%nat -> (b < n)%nat -> a <> b -> X a <> X b.
Proof. intros a b Ha Hb NE. destruct (Nat.lt_trichotomy a b) as [L|[L|L]]; [|lia|]; [pose proof (HI a b ltac:(lia))|pose proof (HI b a ltac:(lia))]; lra. Qed.

Lemma weight_ok : forall xs k, is_vector xs n X -> (k < n)%nat -> bary_weight Rarith xs d k = Ok (wgt k).
Proof.
  intros xs k HX HK. enough (W : wp (bary_weight Rarith xs d k) (fun s => s = wgt k)). { destruct (wp_elim _ _ _ W) as (s & E & ->). exact E. }
  unfold bary_weight. rewrite (proj1 HX). rewrite (vec_get _ xs n X) by auto. cbn [bind]. rnum.
  set (imax := if (n - d <=? k)%nat then (n - d - 1)%nat else k). assert (HM : (imax < N)%nat /\ (imax = k \/ imax + 1 = N /\ N <= k)%nat). { unfold imax. destruct (Nat.leb_spec (n - d) k); lia. }
  apply wp_bind. eapply wp_conseq; [|apply (for_range_inv _ _ (fun i r => fst r = (-1) ^ i /\ snd r = sum i (wterm k)))].
  - intros [t s] [_ E]. cbn [fst snd] in E. apply wp_Ok. rewrite E. unfold wgt. replace N with ((imax + 1) + (N - (imax + 1)))%nat by lia. rewrite (sum_app_R (imax + 1) (N - (imax + 1))). 
    rewrite (sum_zero_R (N - (imax + 1))); [lra|].
    intros i Hi. unfold wterm, ind. destruct (Nat.leb_spec (imax + 1 + i) k); [lia|]. reflexivity.
  - lia.
  - cbn [fst snd]. split.
    + destruct (Nat.odd (k - d)) eqn:E.
      * apply Nat.odd_spec in E. destruct E as [q ->]. rewrite Nat.add_comm, pow_shift. ring.
      * assert (E' : Nat.even (k - d) = true) by (rewrite <- Nat.negb_odd, E; auto). apply Nat.even_spec in E'. destruct E' as [q ->]. rewrite <- (Nat.add_0_l (2 * q)), pow_shift. ring.
    + symmetry. apply sum_zero_R. intros i Hi. unfold wterm, ind. destruct (Nat.leb_spec k (i + d)); [lia|]. rewrite andb_false_r. reflexivity.
  - intros i [t s] Hi1 Hi2 [Et Es]. cbn [fst snd] in *. subst t s. replace (Nat.min (i + d) (n - 1)) with (i + d)%nat by lia.
    apply wp_bind. eapply wp_conseq; [|apply (for_range_inv _ _ (fun j p => p = pl X k i (j - i) (X k)))].
    + intros p ->. apply wp_Ok. cbn [fst snd]. split.
      * replace (i + 1)%nat with (S i) by lia. cbn [pow]. ring.
      * replace (i + 1)%nat with (S i) by lia. rewrite sumS. f_equal. replace (i + d + 1 - i)%nat with (S d) by lia. unfold wterm, ind. destruct (Nat.leb_spec i k), (Nat.leb_spec k (i + d)); try lia. reflexivity.
    + lia.
    + rewrite Nat.sub_diag. reflexivity.
    + intros j p Hj1 Hj2 ->. replace (j + 1 - i)%nat with (S (j - i)) by lia. cbn [pl]. replace (i + (j - i))%nat with j by lia. destruct (Nat.eqb_spec j k) as [E|NE].
      * apply wp_Ok. ring.
      * rewrite (vec_get _ xs n X) by (auto; lia). cbn [bind]. apply wp_Ok. reflexivity.
Qed.

Lemma bary_new_ok : forall xs ys, is_vector xs n X -> exists w, bary_new Rarith xs ys (Z.of_nat d) = Ok (mkBary d xs ys w) /\ is_vector w n wgt.
Proof.
  intros xs ys HX. unfold bary_new. rewrite (proj1 HX). destruct (Z.leb_spec (Z.of_nat n) (Z.of_nat d)); [lia|]. destruct (Z.ltb_spec (Z.of_nat d) 0); [lia|]. rewrite Nat2Z.id. rnum.
  assert (W : wp (for_range 0 n (fun w k => s <- bary_weight Rarith xs d k ;; vset w k s) (repeat 0 n)) (fun w => is_vector w n wgt)).
  { eapply (vfill_wp (fun k => bary_weight Rarith xs d k)); [apply is_vector_repeat| |intros v' HV'; exact HV']. intros k Hk. rewrite weight_ok by auto. reflexivity. }
  destruct (wp_elim _ _ _ W) as (w & E & HW). rewrite E. cbn [bind]. eauto.
Qed.

Context (xs ys w : list R) (HX : is_vector xs n X) (HY : is_vector ys n Y) (HW : is_vector w n wgt).
Local Notation B := (mkBary d xs ys w).
Lemma eval_node : forall k, (k < n)%nat -> bary_eval Rarith B (X k) = Ok (Y k).
Proof.
  intros k Hk. enough (Wp : wp (bary_eval Rarith B (X k)) (fun r => r = Y k)). { destruct (wp_elim _ _ _ Wp) as (r & E & ->). exact E. }
  unfold bary_eval. cbn [by_x by_y by_w]. rewrite (proj1 HX). apply wp_bind.
  eapply wp_conseq; [|apply (for_each_brk_inv _ _ _ _ (fun pre _ => (length pre <= k)%nat) (fun y => y = Y k))].
  - intros [[num den]|y] H; [|exact H]. rewrite seq_length in H. lia.
  - cbn. lia.
  - intros pre i post [num den] Hl Hp. apply seq_split in Hl. destruct Hl as (-> & Hpre & Hlen). cbn [Nat.add]. rewrite !(vec_get _ xs n X), !(vec_get _ ys n Y) by (auto; lia). cbn [bind]. rnum.
    destruct (Raeqb (X k - X (length pre)) 0) as [E|NE].
    + apply wp_Ok. f_equal. destruct (Nat.eq_dec (length pre) k); auto. pose proof (X_neq (length pre) k ltac:(lia) ltac:(lia) n0). lra.
    + rewrite (vec_get _ w n wgt) by (auto; lia). cbn [bind]. apply wp_Ok. rewrite app_length. cbn [length]. destruct (Nat.eq_dec (length pre) k) as [E|N0]; [|lia]. rewrite E in NE. lra.
Qed.
Lemma eval_off : forall x, (forall k, (k < n)%nat -> x <> X k) -> bary_eval Rarith B x = Ok (sum n (fun k => wgt k / (x - X k) * Y k) / sum n (fun k => wgt k / (x - X k))).
Proof.
  intros x HO. set (v := sum n (fun k => wgt k / (x - X k) * Y k) / sum n (fun k => wgt k / (x - X k))).
  enough (Wp : wp (bary_eval Rarith B x) (fun r => r = v)). { destruct (wp_elim _ _ _ Wp) as (r & E & ->). exact E. }
  unfold bary_eval. cbn [by_x by_y by_w]. rewrite (proj1 HX). apply wp_bind.
  eapply wp_conseq; [|apply (for_each_brk_inv _ _ _ _ (fun pre s => fst s = sum (length pre) (fun k => wgt k / (x - X k) * Y k) /\ snd s = sum (length pre) (fun k => wgt k / (x - X k))) (fun y => y = v))].
  - intros [[num den]|y] H; [|exact H]. cbn [fst snd] in H. rewrite seq_length in H. destruct H as [-> ->]. reflexivity.
  - cbn. auto.
  - intros pre i post [num den] Hl [H1 H2]. cbn [fst snd] in *. apply seq_split in Hl. destruct Hl as (-> & Hpre & Hlen). cbn [Nat.add]. rewrite !(vec_get _ xs n X), !(vec_get _ ys n Y) by (auto; lia). cbn [bind]. rnum.
    destruct (Raeqb (x - X (length pre)) 0) as [E|NE]; [exfalso; apply (HO (length pre)); [lia|lra]|].
    rewrite (vec_get _ w n wgt) by (auto; lia). cbn [bind]. apply wp_Ok. rewrite app_length. cbn [length fst snd]. rewrite Nat.add_1_r, !sumS, H1, H2. auto.
Qed.

(** the sum over the weights, regrouped by windows *)
Lemma regroup : forall x (f : nat -> R), (forall k, (k < n)%nat -> x <> X k) ->
  sum n (fun k => wgt k / (x - X k) * f k) = sum N (fun i => (-1) ^ i * sum (S d) (fun j => f (i + j)%nat / ((x - X (i + j)%nat) * pl X (i + j) i (S d) (X (i + j)%nat)))).
Proof.
  intros x f HO. transitivity (sum n (fun k => sum N (fun i => wterm k i / (x - X k) * f k))).
  { apply sum_ext_R. intros k Hk. unfold wgt. replace (sum N (wterm k) / (x - X k) * f k) with (f k / (x - X k) * sum N (wterm k)) by (unfold Rdiv; ring). rewrite sum_mul_R. apply sum_ext_R. intros i _. unfold Rdiv. ring. }
  rewrite sum_swap_R. apply sum_ext_R. intros i Hi. rewrite (sum_window_R n i (S d)).
  - rewrite sum_mul_R. apply sum_ext_R. intros j Hj. unfold wterm, ind. destruct (Nat.leb_spec i (i + j)), (Nat.leb_spec (i + j) (i + d)); try lia. cbn [andb].
    assert (x - X (i + j)%nat <> 0) by (specialize (HO (i + j)%nat ltac:(lia)); lra).
    assert (pl X (i + j) i (S d) (X (i + j)%nat) <> 0) by (apply pl_nz; intros l Hl NE; apply X_neq; lia). field. auto.
  - lia.
  - intros c Hc Ho. unfold wterm, ind. destruct (Nat.leb_spec i c), (Nat.leb_spec c (i + d)); try lia; cbn [andb]; unfold Rdiv; ring.
Qed.
Lemma regroup_poly : forall x (f : nat -> R) (p : nat -> R -> R), (forall k, (k < n)%nat -> x <> X k) ->
  (forall i, (i + d < n)%nat -> is_poly Rnum (S d) (p i) /\ forall j, (j <= d)%nat -> p i (X (i + j)%nat) = f (i + j)%nat) ->
  sum n (fun k => wgt k / (x - X k) * f k) = sum N (fun i => lam d X x i * p i x).
Proof.
  intros x f p HO HP. rewrite regroup by auto. apply sum_ext_R. intros i Hi. destruct (HP i ltac:(lia)) as [P1 P2].
  rewrite (sum_ext_R (S d) _ (fun j => p i (X (i + j)%nat) / ((x - X (i + j)%nat) * pl X (i + j) i (S d) (X (i + j)%nat)))).
  2: { intros j Hj. rewrite P2 by lia. reflexivity. }
  rewrite lagrange; auto.
  - unfold lam. unfold Rdiv. ring.
  - intros a b Hab. apply X_neq; lia.
  - intros j Hj. apply HO. lia.
Qed.
Lemma den_sum : forall x, (forall k, (k < n)%nat -> x <> X k) -> sum n (fun k => wgt k / (x - X k)) = sum N (lam d X x).
Proof.
  intros x HO. rewrite (sum_ext_R n _ (fun k => wgt k / (x - X k) * 1)) by (intros; ring). rewrite (regroup_poly x (fun _ => 1) (fun _ _ => 1) HO).
  - apply sum_ext_R. intros; ring.
  - intros i Hi. split; auto. apply (is_poly_mono Rnum 1); [apply (is_poly_const Rnum Rnum_field)|lia].
Qed.
Lemma count_below : forall m x, (m <= n)%nat -> (forall k, (k < m)%nat -> x <> X k) -> exists c, (c <= m)%nat /\ (forall j, (j < c)%nat -> X j < x) /\ (forall j, (c <= j)%nat -> (j < m)%nat -> x < X j).
Proof.
  induction m as [|m IH]; intros x Hm HO. { exists 0%nat. split; [lia|]. split; intros; lia. }
  destruct (IH x ltac:(lia) ltac:(intros; apply HO; lia)) as (c & C1 & C2 & C3). destruct (Rtotal_order (X m) x) as [L|[L|L]].
  - exists (S m). split; [lia|]. split; [|intros; lia]. intros j Hj. pose proof (increasing_le n X j m HI ltac:(lia)). lra.
  - exfalso. apply (HO m); [lia|auto].
  - exists c. split; [lia|]. split; auto. intros j H1 H2. destruct (Nat.eq_dec j m); [subst; auto|]. apply C3; lia.
Qed.
Lemma den_nz : forall x, (forall k, (k < n)%nat -> x <> X k) -> sum N (lam d X x) <> 0.
Proof. intros x HO. destruct (count_below n x ltac:(lia) HO) as (c & C1 & C2 & C3). apply (lam_sum_nz n d X HI HD x c C1 C2 C3). Qed.
Lemma wgt_nz : forall k, (k < n)%nat -> wgt k <> 0.
Proof.
  intros k Hk. assert (T : forall i, (i < N)%nat -> ind i k = true -> 0 < (-1) ^ (d + k) * wterm k i).
  { intros i Hi HIn. unfold wterm. rewrite HIn. unfold ind in HIn. apply andb_true_iff in HIn. destruct HIn as [I1 I2]. apply Nat.leb_le in I1, I2.
    assert (S1 : forall m, (i + m <= n)%nat -> 0 < (-1) ^ (i + m - Nat.max i (Nat.min (k + 1) (i + m))) * pl X k i m (X k)).
    { induction m as [|m IH]; intros Hm. { cbn. replace (i + 0 - Nat.max i (Nat.min (k + 1) (i + 0)))%nat with 0%nat by lia. cbn. lra. }
      specialize (IH ltac:(lia)). cbn [pl]. destruct (Nat.eqb_spec (i + m) k) as [E|NE].
      - replace (i + S m - Nat.max i (Nat.min (k + 1) (i + S m)))%nat with (i + m - Nat.max i (Nat.min (k + 1) (i + m)))%nat by lia. lra.
      - destruct (lt_dec (i + m) k) as [L|L].
        + replace (i + S m - Nat.max i (Nat.min (k + 1) (i + S m)))%nat with (i + m - Nat.max i (Nat.min (k + 1) (i + m)))%nat by lia. pose proof (HI (i + m)%nat k ltac:(lia)). nra.
        + replace (i + S m - Nat.max i (Nat.min (k + 1) (i + S m)))%nat with (S (i + m - Nat.max i (Nat.min (k + 1) (i + m))))%nat by lia. pose proof (HI k (i + m)%nat ltac:(lia)). cbn [pow]. nra. }
    specialize (S1 (S d) ltac:(lia)). replace (i + S d - Nat.max i (Nat.min (k + 1) (i + S d)))%nat with (i + d - k)%nat in S1 by lia.
    set (o := pl X k i (S d) (X k)) in *. replace ((-1) ^ (d + k) * ((-1) ^ i / o)) with (((-1) ^ (d + k) * (-1) ^ i) / o) by (unfold Rdiv; ring).
    replace ((-1) ^ (d + k) * (-1) ^ i) with ((-1) ^ (i + d - k)).
    2: { rewrite <- pow_add. replace (d + k + i)%nat with (i + d - k + 2 * k)%nat by lia. rewrite pow_shift. reflexivity. }
    assert (o <> 0) by (intros E0; rewrite E0 in S1; lra). destruct (pow_sign (i + d - k)) as [E1|E1]; rewrite E1 in *.
    - apply Rdiv_lt_0_compat; lra.
    - replace (-1 / o) with (1 / (- o)) by (field; auto). apply Rdiv_lt_0_compat; lra. }
  assert (P : forall m, (m <= N)%nat -> 0 <= (-1) ^ (d + k) * sum m (wterm k) /\ ((exists i, (i < m)%nat /\ ind i k = true) -> 0 < (-1) ^ (d + k) * sum m (wterm k))).
  { induction m as [|m IH]; intros Hm. { split; [replace (sum 0 (wterm k)) with 0 by reflexivity; lra|]. intros (i & Hi & _). lia. }
    destruct (IH ltac:(lia)) as [I1 I2]. rewrite sumS, Rmult_plus_distr_l. destruct (ind m k) eqn:E.
    - pose proof (T m ltac:(lia) E). split; [lra|]. intros _. lra.
    - replace (wterm k m) with 0 by (unfold wterm; rewrite E; auto). rewrite Rmult_0_r, Rplus_0_r. split; auto. intros (i & Hi & E2). apply I2. exists i. split; auto. destruct (Nat.eq_dec i m); [congruence|lia]. }
  destruct (P N ltac:(lia)) as [_ P2]. intros E. assert (G : 0 < (-1) ^ (d + k) * sum N (wterm k)).
  { apply P2. exists (Nat.min k (N - 1)). split; [lia|]. unfold ind. destruct (Nat.leb_spec (Nat.min k (N - 1)) k), (Nat.leb_spec k (Nat.min k (N - 1) + d)); auto; lia. }
  fold (wgt k) in G. rewrite E in G. lra.
Qed.
End Eval.

(** ** The property *)
(** [p] interpolates the table at the d+1 points from i on *)
Definition local_interp (X Y : nat -> R) (d i : nat) (p : R -> R) : Prop := is_poly Rnum (S d) p /\ forall j, (j <= d)%nat -> p (X (i + j)%nat) = Y (i + j)%nat.
(** the blending factor of window i *)
Definition blend (X : nat -> R) (d : nat) (x : R) (i : nat) : R := (-1) ^ i / om X i (S d) x.

(** Away from the data points the value is the blend of the local interpolants over all windows of d+1 points, and the
    denominator is never zero; at the data points it is the tabulated value. *)
Theorem C53_blend : forall xs ys n d X Y, is_vector xs n X -> is_vector ys n Y -> increasing n X -> (d < n)%nat ->
  exists B, bary_new Rarith xs ys (Z.of_nat d) = Ok B /\
    (forall k, (k < n)%nat -> bary_eval Rarith B (X k) = Ok (Y k)) /\
    (forall x p, (forall k, (k < n)%nat -> x <> X k) -> (forall i, (i + d < n)%nat -> local_interp X Y d i (p i)) ->
       sumn Rnum (n - d) (blend X d x) <> 0 /\
       bary_eval Rarith B x = Ok (sumn Rnum (n - d) (fun i => blend X d x i * p i x) / sumn Rnum (n - d) (blend X d x))).
Proof.
  intros xs ys n d X Y HX HY HI HD. destruct (bary_new_ok n d X HD xs ys HX) as (w & E & HW). exists (mkBary d xs ys w). split; auto. split.
  - intros k Hk. apply (eval_node n d X Y HI HD xs ys w HX HY HW); auto.
  - intros x p HO HP. split; [apply (den_nz n d X HI HD); auto|]. rewrite (eval_off n d X Y HD xs ys w HX HY HW) by auto. f_equal. f_equal.
    + apply (regroup_poly n d X HI HD); auto.
    + apply (den_sum n d X HI HD); auto.
Qed.
Print Assumptions C53_blend.
(** local interpolants exist, so the hypothesis of the theorem above can be met for every table *)
Theorem C53_interpolants : forall n d X Y, increasing n X -> exists p, forall i, (i + d < n)%nat -> local_interp X Y d i (p i).
Proof.
  intros n d X Y HI. exists (fun i => nev Rarith X Y d i). intros i Hi.
  assert (HD : forall a b, (i <= a < b)%nat -> (b <= i + d)%nat -> X a <> X b). { intros a b Ha Hb. pose proof (HI a b ltac:(lia)). lra. }
  split; [apply (nev_poly Rarith Rnum_field X Y d i HD)|]. intros j Hj. apply (nev_interp Rarith Rnum_field X Y d i HD). auto.
Qed.
Print Assumptions C53_interpolants.

Lemma node_dec : forall n (X : nat -> R) x, (exists k, (k < n)%nat /\ x = X k) \/ (forall k, (k < n)%nat -> x <> X k).
Proof.
  induction n as [|n IH]; intros X x; [right; intros; lia|]. destruct (IH X x) as [(k & Hk & E)|H]; [left; exists k; auto|].
  destruct (Req_dec x (X n)) as [E|E]; [left; exists n; auto|]. right. intros k Hk. destruct (Nat.eq_dec k n); [subst; auto|apply H; lia].
Qed.

(** data from a polynomial of degree at most d is reproduced at every point *)
Theorem C53_reproduces : forall xs ys n d X a x, is_vector xs n X -> is_vector ys n (fun i => horner Rnum a (X i)) -> increasing n X -> (d < n)%nat -> (length a <= S d)%nat ->
  exists B, bary_new Rarith xs ys (Z.of_nat d) = Ok B /\ bary_eval Rarith B x = Ok (horner Rnum a x).
Proof.
  intros xs ys n d X a x HX HY HI HD HA. destruct (C53_blend xs ys n d X _ HX HY HI HD) as (B & E & H1 & H2). exists B. split; auto.
  destruct (node_dec n X x) as [(k & Hk & ->)|HO]; [apply H1; auto|].
  destruct (H2 x (fun _ => horner Rnum a) HO) as [NZ ->]. { intros i Hi. split; auto. exists a. auto. }
  f_equal. rewrite (sum_ext_R _ (fun i => blend X d x i * horner Rnum a x) (fun i => horner Rnum a x * blend X d x i)) by (intros; ring). rewrite <- sum_mul_R. field. exact NZ.
Qed.
Print Assumptions C53_reproduces.

(** with d = n-1 it is the interpolating polynomial *)
Theorem C53_full_degree : forall xs ys n X Y, is_vector xs n X -> is_vector ys n Y -> increasing n X -> (1 <= n)%nat ->
  exists B p, bary_new Rarith xs ys (Z.of_nat (n - 1)) = Ok B /\ is_poly Rnum n p /\ (forall k, (k < n)%nat -> p (X k) = Y k) /\ forall x, bary_eval Rarith B x = Ok (p x).
Proof.
  intros xs ys n X Y HX HY HI HN. destruct (C53_interpolants n (n - 1) X Y HI) as (p & HP). destruct (HP 0%nat ltac:(lia)) as [P1 P2].
  assert (PN : forall k, (k < n)%nat -> p 0%nat (X k) = Y k) by (intros k Hk; apply (P2 k); lia).
  destruct (C53_blend xs ys n (n - 1) X Y HX HY HI ltac:(lia)) as (B & E & H1 & H2). exists B, (p 0%nat). split; auto. split; [replace n with (S (n - 1)) by lia; exact P1|]. split; auto.
  intros x. destruct (node_dec n X x) as [(k & Hk & ->)|HO]; [rewrite PN by auto; apply H1; auto|].
  destruct (H2 x p HO HP) as [NZ ->]. f_equal. replace (n - (n - 1))%nat with 1%nat in * by lia. rewrite !sumS in *. replace (sum 0 (blend X (n - 1) x)) with 0 in * by reflexivity.
  replace (sum 0 (fun i => blend X (n - 1) x i * p i x)) with 0 by reflexivity. field. lra.
Qed.
Print Assumptions C53_full_degree.

(** no poles: the interpolant is a continuous function on the whole line *)
Lemma cont_sum : forall n (f : nat -> R -> R) x, (forall i, (i < n)%nat -> continuity_pt (f i) x) -> continuity_pt (fun y => sum n (fun i => f i y)) x.
Proof.
  induction n as [|n IH]; intros f x H; [apply continuity_pt_const; intros a b; reflexivity|].
  apply (continuity_pt_plus (fun y => sum n (fun i => f i y)) (f n)); [apply IH; intros; apply H; lia|apply H; lia].
Qed.
Lemma cont_frac : forall c r x, x <> r -> continuity_pt (fun y => c / (y - r)) x.
Proof.
  intros c r x H. apply (continuity_pt_div (fun _ => c) (fun y => y - r)); [apply continuity_pt_const; intros a b; reflexivity| |lra].
  apply (continuity_pt_minus id (fun _ => r)); [apply derivable_continuous_pt, derivable_pt_id|apply continuity_pt_const; intros a b; reflexivity].
Qed.
Lemma isolated : forall n (X : nat -> R) x, exists d, 0 < d /\ forall y k, (k < n)%nat -> x - d < y < x + d -> y = X k -> x = X k.
Proof.
  induction n as [|n IH]; intros X x; [exists 1; split; [lra|intros; lia]|]. destruct (IH X x) as (d & D0 & HD). destruct (Req_dec x (X n)) as [E|E].
  - exists d. split; auto. intros y k Hk Hy Ey. destruct (Nat.eq_dec k n); [subst; auto|]. apply (HD y k); auto. lia.
  - exists (Rmin d (Rabs (x - X n))). pose proof (Rmin_l d (Rabs (x - X n))). pose proof (Rmin_r d (Rabs (x - X n))). assert (0 < Rabs (x - X n)) by (apply Rabs_pos_lt; lra).
    split; [apply Rmin_pos; auto|]. intros y k Hk Hy Ey. destruct (Nat.eq_dec k n) as [->|NE]; [|apply (HD y k); auto; [lia|lra]]. exfalso. subst y. unfold Rabs in *. destruct (Rcase_abs (x - X n)); lra.
Qed.
Theorem C53_continuous : forall xs ys n d X Y, is_vector xs n X -> is_vector ys n Y -> increasing n X -> (d < n)%nat ->
  exists B f, bary_new Rarith xs ys (Z.of_nat d) = Ok B /\ (forall x, bary_eval Rarith B x = Ok (f x)) /\ continuity f /\ (forall k, (k < n)%nat -> f (X k) = Y k).
Proof.
  intros xs ys n d X Y HX HY HI HD. destruct (bary_new_ok n d X HD xs ys HX) as (w & E & HW). set (B := mkBary d xs ys w) in *.
  set (f := fun x => match bary_eval Rarith B x with Ok v => v | _ => 0 end). exists B, f. split; auto.
  assert (EN : forall k, (k < n)%nat -> f (X k) = Y k). { intros k Hk. unfold f. rewrite (eval_node n d X Y HI HD xs ys w HX HY HW) by auto. reflexivity. }
  assert (EO : forall x, (forall k, (k < n)%nat -> x <> X k) -> f x = sum n (fun k => wgt n d X k / (x - X k) * Y k) / sum n (fun k => wgt n d X k / (x - X k))).
  { intros x HO. unfold f. rewrite (eval_off n d X Y HD xs ys w HX HY HW) by auto. reflexivity. }
  split; [|split; [|exact EN]].
  - intros x. unfold f. destruct (node_dec n X x) as [(k & Hk & ->)|HO].
    + rewrite (eval_node n d X Y HI HD xs ys w HX HY HW) by auto. reflexivity.
    + rewrite (eval_off n d X Y HD xs ys w HX HY HW) by auto. reflexivity.
  - intros x. destruct (isolated n X x) as (dl & D0 & HIso). destruct (node_dec n X x) as [(k & Hk & Ex)|HO].
    + set (num := fun y => wgt n d X k * Y k + (y - x) * sum n (fun i => if (i =? k)%nat then 0 else wgt n d X i / (y - X i) * Y i)).
      set (den := fun y => wgt n d X k + (y - x) * sum n (fun i => if (i =? k)%nat then 0 else wgt n d X i / (y - X i))).
      assert (CI : continuity_pt (fun y => y - x) x). { apply (continuity_pt_minus id (fun _ => x)); [apply derivable_continuous_pt, derivable_pt_id|apply continuity_pt_const; intros a b; reflexivity]. }
      assert (CN : continuity_pt num x).
      { apply (continuity_pt_plus (fun _ => wgt n d X k * Y k)); [apply continuity_pt_const; intros a b; reflexivity|]. apply (continuity_pt_mult (fun y => y - x)); [exact CI|].
        apply (cont_sum n (fun i y => if (i =? k)%nat then 0 else wgt n d X i / (y - X i) * Y i)). intros i Hi. destruct (Nat.eqb_spec i k); [apply continuity_pt_const; intros a b; reflexivity|].
        apply (continuity_pt_mult (fun y => wgt n d X i / (y - X i)) (fun _ => Y i)); [apply cont_frac; rewrite Ex; apply (X_neq n d X HI HD); auto|apply continuity_pt_const; intros a b; reflexivity]. }
      assert (CD : continuity_pt den x).
      { apply (continuity_pt_plus (fun _ => wgt n d X k)); [apply continuity_pt_const; intros a b; reflexivity|]. apply (continuity_pt_mult (fun y => y - x)); [exact CI|].
        apply (cont_sum n (fun i y => if (i =? k)%nat then 0 else wgt n d X i / (y - X i))). intros i Hi. destruct (Nat.eqb_spec i k); [apply continuity_pt_const; intros a b; reflexivity|].
        apply cont_frac; rewrite Ex; apply (X_neq n d X HI HD); auto. }
      pose proof (wgt_nz n d X HI HD k Hk) as WNZ.
      assert (DX : den x <> 0) by (unfold den; rewrite Rminus_diag_eq, Rmult_0_l, Rplus_0_r by auto; exact WNZ).
      pose proof (continuity_pt_div num den x CN CD DX) as CQ.
      assert (EQ : forall y, x - dl < y < x + dl -> f y = (num / den)%F y).
      { intros y Hy. unfold div_fct. destruct (Req_dec y x) as [->|NE].
        - rewrite Ex, EN by auto. rewrite <- Ex. unfold num, den. rewrite Rminus_diag_eq, !Rmult_0_l, !Rplus_0_r by auto. field. exact WNZ.
        - assert (HO : forall i, (i < n)%nat -> y <> X i).
          { intros i Hi Ey. pose proof (HIso y i Hi Hy Ey). assert (i = k); [|subst; congruence]. destruct (Nat.eq_dec i k); auto. exfalso. apply (X_neq n d X HI HD i k); auto. congruence. }
          rewrite EO by auto. rewrite (sum_split Rnum Rring n k (fun i => wgt n d X i / (y - X i) * Y i) Hk), (sum_split Rnum Rring n k (fun i => wgt n d X i / (y - X i)) Hk). cbn [Rnum nadd n0]. unfold num, den. rewrite <- Ex.
          assert (DN : sum n (fun i => wgt n d X i / (y - X i)) <> 0). { rewrite (den_sum n d X HI HD) by auto. apply (den_nz n d X HI HD). auto. }
          rewrite (sum_split Rnum Rring n k (fun i => wgt n d X i / (y - X i)) Hk) in DN. cbn [Rnum nadd n0] in DN. rewrite <- Ex in DN.
          set (a := sumn _ n (fun i => if (i =? k)%nat then _ else wgt n d X i / (y - X i) * Y i)) in *.
          set (b := sumn _ n (fun i => if (i =? k)%nat then _ else wgt n d X i / (y - X i))) in *.
          assert (y - x <> 0) by lra. field.
          split; auto. intros Z. apply DN. apply (Rmult_eq_reg_r (y - x)); auto. rewrite Rmult_0_l, <- Z. field. auto. }
      apply (glue_cont f (num / den)%F (num / den)%F x dl D0 CQ CQ); intros y Hy; apply EQ; lra.
    + set (num := fun y => sum n (fun i => wgt n d X i / (y - X i) * Y i)). set (den := fun y => sum n (fun i => wgt n d X i / (y - X i))).
      assert (CN : continuity_pt num x). { apply (cont_sum n (fun i y => wgt n d X i / (y - X i) * Y i)). intros i Hi. apply (continuity_pt_mult (fun y => wgt n d X i / (y - X i)) (fun _ => Y i)); [apply cont_frac; auto|apply continuity_pt_const; intros a b; reflexivity]. }
      assert (CD : continuity_pt den x). { apply (cont_sum n (fun i y => wgt n d X i / (y - X i))). intros i Hi. apply cont_frac; auto. }
      assert (DX : den x <> 0). { unfold den. rewrite (den_sum n d X HI HD) by auto. apply (den_nz n d X HI HD). auto. }
      pose proof (continuity_pt_div num den x CN CD DX) as CQ.
      assert (EQ : forall y, x - dl < y < x + dl -> f y = (num / den)%F y).
      { intros y Hy. apply EO. intros i Hi Ey. apply (HO i Hi). apply (HIso y i); auto. }
      apply (glue_cont f (num / den)%F (num / den)%F x dl D0 CQ CQ); intros y Hy; apply EQ; lra.
Qed.
Print Assumptions C53_continuous.

(** construction refuses d >= n and d < 0 *)
Theorem C53_bad_degree : forall T (A : arith T) xs ys d, (d < 0 \/ Z.of_nat (length xs) <= d)%Z -> bary_new A xs ys d = Throw InvalidArgument.
Proof. intros T A xs ys d H. unfold bary_new. destruct (Z.leb_spec (Z.of_nat (length xs)) d); auto. destruct (Z.ltb_spec d 0); auto. lia. Qed.
Print Assumptions C53_bad_degree.

From Coq Require Import QArith Qcanon.
From Verif Require Import RootFind_Props.
(** ** What the class comment claims and the class does not do *)
(** Unequal lengths are not refused: with fewer ordinates than abscissae, evaluation reads past the end of the ordinates. *)
Theorem C53_short_y_refuted : exists xs ys d B x, bary_new Qarith xs ys d = Ok B /\ bary_eval Qarith B x = UB.
Proof.
  exists [Q2Qc 0; Q2Qc 1], [Q2Qc 0], 0%Z. destruct (bary_new Qarith [Q2Qc 0; Q2Qc 1] [Q2Qc 0] 0) as [B|?| |] eqn:E; [|vm_compute in E; discriminate..].
  exists B, (Q2Qc (1 # 2)). split; auto. vm_compute in E. injection E as <-. vm_compute. reflexivity.
Qed.
Print Assumptions C53_short_y_refuted.
(** "d=1: piecewise linear (order 1)": on the table (0,0),(1,1),(2,0) the value at 1/2 is 3/4, off the chord. *)
Theorem C53_degree1_linear_refuted : exists B v, bary_new Qarith [Q2Qc 0; Q2Qc 1; Q2Qc 2] [Q2Qc 0; Q2Qc 1; Q2Qc 0] 1 = Ok B /\ bary_eval Qarith B (Q2Qc (1 # 2)) = Ok v /\ this v = (3 # 4)%Q.
Proof.
  destruct (bary_new Qarith [Q2Qc 0; Q2Qc 1; Q2Qc 2] [Q2Qc 0; Q2Qc 1; Q2Qc 0] 1) as [B|?| |] eqn:E; [|vm_compute in E; discriminate..].
  exists B. vm_compute in E. injection E as <-. eexists. split; [reflexivity|]. split; [vm_compute; reflexivity|]. reflexivity.
Qed.
Print Assumptions C53_degree1_linear_refuted.
(** "d=0: piecewise constant": on the table (0,0),(1,1) the values at 1/4 and 1/2 are 1/4 and 1/2. *)
Theorem C53_degree0_constant_refuted : exists B v w, bary_new Qarith [Q2Qc 0; Q2Qc 1] [Q2Qc 0; Q2Qc 1] 0 = Ok B /\
  bary_eval Qarith B (Q2Qc (1 # 4)) = Ok v /\ bary_eval Qarith B (Q2Qc (1 # 2)) = Ok w /\ this v = (1 # 4)%Q /\ this w = (1 # 2)%Q.
Proof.
  destruct (bary_new Qarith [Q2Qc 0; Q2Qc 1] [Q2Qc 0; Q2Qc 1] 0) as [B|?| |] eqn:E; [|vm_compute in E; discriminate..].
  exists B. vm_compute in E. injection E as <-. eexists. eexists. split; [reflexivity|]. split; [vm_compute; reflexivity|]. split; [vm_compute; reflexivity|]. split; reflexivity.
Qed.
Print Assumptions C53_degree0_constant_refuted.

(** A table of five points, d = 2: at the data points the tabulated values, in between a definite number. *)
Example C53_example : exists B v w, bary_new Qarith (map (fun z => Q2Qc (inject_Z z)) [0; 1; 3; 4; 7]%Z) (map (fun z => Q2Qc (inject_Z z)) [2; -1; 5; 0; 3]%Z) 2 = Ok B /\
  bary_eval Qarith B (Q2Qc 3) = Ok v /\ this v = 5%Q /\ bary_eval Qarith B (Q2Qc 2) = Ok w /\ this w = (109 # 33)%Q.
Proof.
  destruct (bary_new Qarith (map (fun z => Q2Qc (inject_Z z)) [0; 1; 3; 4; 7]%Z) (map (fun z => Q2Qc (inject_Z z)) [2; -1; 5; 0; 3]%Z) 2) as [B|?| |] eqn:E; [|vm_compute in E; discriminate..].
  exists B. vm_compute in E. injection E as <-. eexists. eexists. split; [reflexivity|]. split; [vm_compute; reflexivity|]. split; [reflexivity|]. split; [vm_compute; reflexivity|].
  reflexivity.
Qed.
