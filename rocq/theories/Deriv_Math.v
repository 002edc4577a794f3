(** * C84: Taylor's formula with the remainder bounded, and difference stencils *)

From Coq Require Import Reals Lra List Arith Lia.
From Verif Require Import Base Num Det QR_Math.
Import ListNotations.
Local Open Scope R_scope.

(** fs 0, fs 1, ..., fs n are f and its derivatives on [lo, hi] *)
Definition derivatives (f : R -> R) (fs : nat -> R -> R) (n : nat) (lo hi : R) : Prop :=
  (forall t, lo <= t <= hi -> fs 0%nat t = f t) /\
  (forall k t, (k < n)%nat -> lo <= t <= hi -> derivable_pt_lim (fs k) t (fs (S k) t)).

(** the Taylor polynomial with n terms *)
Definition tay (fs : nat -> R -> R) (n : nat) (x u : R) : R := rsum n (fun k => fs k x / INR (fact k) * u ^ k).

Lemma cmp : forall g g' x u C n, 0 <= C ->
  (forall t, Rmin x u <= t <= Rmax x u -> derivable_pt_lim g t (g' t) /\ Rabs (g' t) <= C * Rabs (t - x) ^ n) ->
  Rabs (g u - g x) <= C * Rabs (u - x) ^ S n / INR (S n).
Proof.
  intros g g' x u C n HC H. set (s := u - x).
  assert (B : forall tau, 0 <= tau <= 1 -> Rmin x u <= x + tau * s <= Rmax x u).
  { intros tau Ht. unfold s, Rmin, Rmax. destruct (Rle_dec x u); nra. }
  assert (N : 0 < INR (S n)) by (apply lt_0_INR; lia).
  assert (D : forall tau, 0 <= tau <= 1 -> derivable_pt_lim (fun tau => g (x + tau * s)) tau (g' (x + tau * s) * s)).
  { intros tau Ht. apply (derivable_pt_lim_comp (fun tau => x + tau * s) g tau s).
    - pose proof (derivable_pt_lim_plus _ _ tau _ _ (derivable_pt_lim_const x tau) (derivable_pt_lim_mult _ _ tau _ _ (derivable_pt_lim_id tau) (derivable_pt_lim_const s tau))) as Q.
      replace (0 + (1 * fct_cte s tau + id tau * 0)) with s in Q by (unfold fct_cte, id; ring). exact Q.
    - apply H. apply B. auto. }
  assert (P : forall tau, derivable_pt_lim (fun tau => C * Rabs s ^ S n * (tau ^ S n) / INR (S n)) tau (C * Rabs s ^ S n * tau ^ n)).
  { intros tau. replace (C * Rabs s ^ S n * tau ^ n) with (C * Rabs s ^ S n / INR (S n) * (INR (S n) * tau ^ pred (S n))) by (cbn [pred]; field; lra).
    pose proof (derivable_pt_lim_scal _ (C * Rabs s ^ S n / INR (S n)) tau _ (derivable_pt_lim_pow tau (S n))) as Q.
    intros e He. destruct (Q e He) as [d Hd]. exists d. intros h H1 H2. specialize (Hd h H1 H2). unfold mult_real_fct in Hd.
    replace (C * Rabs s ^ S n * (tau + h) ^ S n / INR (S n)) with (C * Rabs s ^ S n / INR (S n) * (tau + h) ^ S n) by (field; lra).
    replace (C * Rabs s ^ S n * tau ^ S n / INR (S n)) with (C * Rabs s ^ S n / INR (S n) * tau ^ S n) by (field; lra). auto. }
  assert (K : forall tau, 0 <= tau <= 1 -> Rabs (g' (x + tau * s) * s) <= C * Rabs s ^ S n * tau ^ n).
  { intros tau Ht. destruct (H _ (B tau Ht)) as [_ Q]. replace (x + tau * s - x) with (tau * s) in Q by ring. rewrite Rabs_mult, (Rabs_pos_eq tau), Rpow_mult_distr in Q by lra.
    rewrite Rabs_mult. cbn [pow]. replace (C * (Rabs s * Rabs s ^ n) * tau ^ n) with ((C * (tau ^ n * Rabs s ^ n)) * Rabs s) by ring. apply Rmult_le_compat_r; auto. apply Rabs_pos. }
  assert (E1 : g (x + 1 * s) = g u) by (f_equal; unfold s; ring). assert (E0 : g (x + 0 * s) = g x) by (f_equal; ring).
  fold s.
  assert (Z : C * Rabs s ^ S n * 0 ^ S n / INR (S n) = 0) by (cbn [pow]; field; lra).
  destruct (MVT_cor2 (fun tau => C * Rabs s ^ S n * tau ^ S n / INR (S n) - g (x + tau * s)) (fun tau => C * Rabs s ^ S n * tau ^ n - g' (x + tau * s) * s) 0 1) as (c1 & Q1 & Q2); [lra| |].
  { intros c Hc. apply (derivable_pt_lim_minus _ (fun tau => g (x + tau * s))); [apply P|apply D; auto]. }
  destruct (MVT_cor2 (fun tau => C * Rabs s ^ S n * tau ^ S n / INR (S n) + g (x + tau * s)) (fun tau => C * Rabs s ^ S n * tau ^ n + g' (x + tau * s) * s) 0 1) as (c2 & Q3 & Q4); [lra| |].
  { intros c Hc. apply (derivable_pt_lim_plus _ (fun tau => g (x + tau * s))); [apply P|apply D; auto]. }
  rewrite E1, E0, Z in Q1, Q3. pose proof (K c1 ltac:(lra)) as K1. pose proof (K c2 ltac:(lra)) as K2.
  pose proof (Rle_abs (g' (x + c1 * s) * s)) as L1. pose proof (Rle_abs (- (g' (x + c2 * s) * s))) as L2. rewrite Rabs_Ropp in L2.
  set (BB := C * Rabs s ^ S n * 1 ^ S n / INR (S n)) in *. set (A1 := g' (x + c1 * s) * s) in *. set (A2 := g' (x + c2 * s) * s) in *. set (V1 := C * Rabs s ^ S n * c1 ^ n) in *. set (V2 := C * Rabs s ^ S n * c2 ^ n) in *.
  assert (EB : C * Rabs s ^ S n / INR (S n) = BB) by (unfold BB; rewrite pow1; field; lra). rewrite EB. apply Rabs_le. lra.
Qed.

Lemma fact_pos : forall n, 0 < INR (fact n). Proof. intros. apply lt_0_INR. apply lt_O_fact. Qed.

Lemma tay_S : forall fs n x u, tay fs (S n) x u = fs 0%nat x + u * rsum n (fun k => fs (S k) x / INR (fact (S k)) * u ^ k).
Proof.
  intros fs n x u. unfold tay. rewrite <- rsum_scal. induction n as [|n IH]; [cbn [sumn Rnum n0 nadd fact pow INR]; field|].
  cbn [sumn Rnum n0 nadd] in *. rewrite IH. cbn [pow]. lra.
Qed.

(** the derivative of the Taylor polynomial in u *)
Lemma tay_deriv : forall fs n x u, derivable_pt_lim (tay fs (S n) x) u (tay (fun k => fs (S k)) n x u).
Proof.
  intros fs n x u. induction n as [|n IH].
  - unfold tay. cbn [sumn Rnum n0 nadd fact pow INR]. intros e He. exists (mkposreal 1 Rlt_0_1). intros h _ _. replace (_ - 0) with 0; [rewrite Rabs_R0; lra|]. unfold Rdiv. ring.
  - assert (E : tay (fun k => fs (S k)) (S n) x u = tay (fun k => fs (S k)) n x u + fs (S n) x / INR (fact (S n)) * (INR (S n) * u ^ n)).
    { unfold tay. cbn [sumn Rnum nadd]. f_equal. rewrite fact_simpl, mult_INR. pose proof (fact_pos n). assert (0 < INR (S n)) by (apply lt_0_INR; lia). field. lra. }
    rewrite E.
    pose proof (derivable_pt_lim_plus _ _ u _ _ IH (derivable_pt_lim_scal _ (fs (S n) x / INR (fact (S n))) u _ (derivable_pt_lim_pow u (S n)))) as Q. exact Q.
Qed.

Lemma taylor : forall n fs f M lo hi x u, derivatives f fs n lo hi -> lo <= x <= hi -> lo <= x + u <= hi -> 0 <= M ->
  (forall t, lo <= t <= hi -> Rabs (fs n t) <= M) ->
  Rabs (f (x + u) - tay fs n x u) <= M * Rabs u ^ n / INR (fact n).
Proof.
  induction n as [|n IH]; intros fs f M lo hi x u [H0 HD] Hx Hu HM HB.
  - unfold tay. cbn [sumn Rnum n0 fact pow INR]. rewrite Rminus_0_r, <- H0 by auto. specialize (HB _ Hu). lra.
  - assert (I : forall v, lo <= x + v <= hi -> Rabs (fs 1%nat (x + v) - tay (fun k => fs (S k)) n x v) <= M * Rabs v ^ n / INR (fact n)).
    { intros v Hv. apply (IH (fun k => fs (S k)) (fs 1%nat) M lo hi x v); auto. split; [reflexivity|]. intros k t Hk Ht. apply HD; auto; lia. }
    pose proof (fact_pos n) as FP.
    assert (Q : Rabs ((fs 0%nat (x + u) - tay fs (S n) x u) - (fs 0%nat (x + 0) - tay fs (S n) x 0)) <= (M / INR (fact n)) * Rabs (u - 0) ^ S n / INR (S n)).
    { apply (cmp (fun v => fs 0%nat (x + v) - tay fs (S n) x v) (fun v => fs 1%nat (x + v) - tay (fun k => fs (S k)) n x v) 0 u).
      - apply Rmult_le_pos; [auto|]. left. apply Rinv_0_lt_compat. auto.
      - intros v Hv. assert (Hxv : lo <= x + v <= hi) by (unfold Rmin, Rmax in Hv; destruct (Rle_dec 0 u); lra). split.
        + apply (derivable_pt_lim_minus (fun v => fs 0%nat (x + v))); [|apply tay_deriv].
          replace (fs 1%nat (x + v)) with (fs 1%nat (x + v) * (0 + 1)) by ring. apply (derivable_pt_lim_comp (fun v => x + v) (fs 0%nat) v (0 + 1)); [|apply HD; auto; lia].
          apply (derivable_pt_lim_plus (fct_cte x) id); [apply derivable_pt_lim_const|apply derivable_pt_lim_id].
        + rewrite Rminus_0_r. specialize (I v Hxv). unfold Rdiv in *. replace (M * / INR (fact n) * Rabs v ^ n) with (M * Rabs v ^ n * / INR (fact n)) by ring. auto. }
    rewrite Rplus_0_r, !tay_S, Rmult_0_l, Rplus_0_r, Rminus_0_r, H0, <- tay_S in Q by auto. replace (fs 0%nat x - fs 0%nat x) with 0 in Q by ring. rewrite Rminus_0_r in Q.
    eapply Rle_trans; [exact Q|]. rewrite fact_simpl, mult_INR. assert (0 < INR (S n)) by (apply lt_0_INR; lia). right. field. lra.
Qed.

(** ** Stencils: Σ w_s f(x + s h) *)
Fixpoint sten (L : list (R * R)) (f : R -> R) (x h : R) : R :=
  match L with [] => 0 | (s, w) :: L' => w * f (x + s * h) + sten L' f x h end.
Fixpoint moment (L : list (R * R)) (k : nat) : R := match L with [] => 0 | (s, w) :: L' => w * s ^ k + moment L' k end.
Fixpoint amoment (L : list (R * R)) (k : nat) : R := match L with [] => 0 | (s, w) :: L' => Rabs w * Rabs s ^ k + amoment L' k end.

Lemma sten_tay : forall L fs n x h, sten L (fun t => tay fs n x (t - x)) x h = rsum n (fun k => fs k x / INR (fact k) * h ^ k * moment L k).
Proof.
  induction L as [|[s w] L IH]; intros fs n x h; cbn [sten moment]; [rewrite rsum_zero; auto; intros; ring|].
  rewrite IH. replace (x + s * h - x) with (s * h) by ring. unfold tay. rewrite <- rsum_scal, <- rsum_add. apply rsum_ext. intros k Hk. rewrite Rpow_mult_distr. ring.
Qed.

Lemma sten_bound : forall L fs f n M lo hi x h, derivatives f fs n lo hi -> lo <= x <= hi -> 0 <= M ->
  (forall t, lo <= t <= hi -> Rabs (fs n t) <= M) -> (forall s w, In (s, w) L -> lo <= x + s * h <= hi) ->
  Rabs (sten L f x h - sten L (fun t => tay fs n x (t - x)) x h) <= M * Rabs h ^ n / INR (fact n) * amoment L n.
Proof.
  induction L as [|[s w] L IH]; intros fs f n M lo hi x h D Hx HM HB HL; cbn [sten amoment].
  - rewrite Rminus_0_r, Rabs_R0. lra.
  - assert (I := IH fs f n M lo hi x h D Hx HM HB (fun s w H => HL s w (or_intror H))).
    pose proof (taylor n fs f M lo hi x (s * h) D Hx (HL s w (or_introl eq_refl)) HM HB) as T.
    replace (x + s * h - x) with (s * h) by ring. rewrite Rabs_mult, Rpow_mult_distr in T.
    set (a := f (x + s * h)) in *. set (b := tay fs n x (s * h)) in *. set (p := sten L f x h) in *. set (q := sten L (fun t => tay fs n x (t - x)) x h) in *.
    replace (w * a + p - (w * b + q)) with (w * (a - b) + (p - q)) by ring. apply Rle_trans with (Rabs (w * (a - b)) + Rabs (p - q)); [apply Rabs_triang|]. rewrite Rabs_mult.
    pose proof (Rmult_le_compat_l _ _ _ (Rabs_pos w) T). pose proof (fact_pos n). replace (M * Rabs h ^ n / INR (fact n) * (Rabs w * Rabs s ^ n + amoment L n)) with (Rabs w * (M * (Rabs s ^ n * Rabs h ^ n) / INR (fact n)) + M * Rabs h ^ n / INR (fact n) * amoment L n) by (field; lra). lra.
Qed.

(** a stencil that reproduces d! for the d-th power and 0 for the other powers below n *)
Definition order (L : list (R * R)) (d n : nat) : Prop := forall k, (k < n)%nat -> moment L k = if Nat.eqb k d then INR (fact d) else 0.

Lemma sten_exact : forall L fs d n x h, order L d n -> (d < n)%nat -> sten L (fun t => tay fs n x (t - x)) x h = fs d x * h ^ d.
Proof.
  intros L fs d n x h O H. rewrite sten_tay, (rsum_one n d); [|exact H|intros i Hi Hn; rewrite O by auto; destruct (Nat.eqb_spec i d); [congruence|ring]].
  rewrite O, Nat.eqb_refl by auto. pose proof (fact_pos d). field. lra.
Qed.

Lemma sten_error : forall L fs f d n M lo hi x h, order L d n -> (d < n)%nat -> derivatives f fs n lo hi -> lo <= x <= hi -> 0 < h -> 0 <= M ->
  (forall t, lo <= t <= hi -> Rabs (fs n t) <= M) -> (forall s w, In (s, w) L -> lo <= x + s * h <= hi) ->
  Rabs (sten L f x h / h ^ d - fs d x) <= M * h ^ (n - d) * (amoment L n / INR (fact n)).
Proof.
  intros L fs f d n M lo hi x h O H D Hx Hh HM HB HL. pose proof (sten_bound L fs f n M lo hi x h D Hx HM HB HL) as Q. rewrite (sten_exact L fs d n x h O H) in Q.
  assert (P : 0 < h ^ d) by (apply pow_lt; auto). rewrite (Rabs_pos_eq h) in Q by lra. assert (PE : h ^ n = h ^ (n - d) * h ^ d) by (rewrite <- pow_add; f_equal; lia). rewrite PE in Q.
  replace (sten L f x h / h ^ d - fs d x) with ((sten L f x h - fs d x * h ^ d) * / h ^ d) by (field; lra). rewrite Rabs_mult, (Rabs_pos_eq (/ _)) by (left; apply Rinv_0_lt_compat; auto).
  pose proof (fact_pos n). apply (Rmult_le_reg_r (h ^ d)); auto. rewrite Rmult_assoc, Rinv_l, Rmult_1_r by lra. eapply Rle_trans; [exact Q|]. right. field. lra.
Qed.

(** the exact error when the n-th derivative is constant *)
Lemma sten_lead : forall L fs f d n lo hi x h, order L d n -> (d < n)%nat -> derivatives f fs (S n) lo hi -> lo <= x <= hi -> h <> 0 ->
  (forall t, lo <= t <= hi -> fs (S n) t = 0) -> (forall s w, In (s, w) L -> lo <= x + s * h <= hi) ->
  sten L f x h / h ^ d - fs d x = fs n x * h ^ (n - d) * (moment L n / INR (fact n)).
Proof.
  intros L fs f d n lo hi x h O H D Hx Hh HB HL.
  assert (Q : Rabs (sten L f x h - sten L (fun t => tay fs (S n) x (t - x)) x h) <= 0 * Rabs h ^ S n / INR (fact (S n)) * amoment L (S n)).
  { apply (sten_bound L fs f (S n) 0 lo hi); auto; [lra|]. intros t Ht. rewrite HB, Rabs_R0 by auto. lra. }
  replace (0 * Rabs h ^ S n / INR (fact (S n)) * amoment L (S n)) with 0 in Q by (unfold Rdiv; ring). pose proof (Rabs_pos (sten L f x h - sten L (fun t => tay fs (S n) x (t - x)) x h)) as P.
  assert (E : sten L f x h = sten L (fun t => tay fs (S n) x (t - x)) x h).
  { revert Q P. unfold Rabs. destruct (Rcase_abs _); lra. }
  rewrite E, sten_tay. cbn [sumn Rnum nadd]. rewrite <- sten_tay, (sten_exact L fs d n x h O H).
  assert (PE : h ^ n = h ^ (n - d) * h ^ d) by (rewrite <- pow_add; f_equal; lia). rewrite PE. pose proof (fact_pos n). assert (h ^ d <> 0) by (apply pow_nonzero; auto). field. split; lra.
Qed.
