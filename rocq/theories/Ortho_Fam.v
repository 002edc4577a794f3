(** * C90: the classical families: derivatives, integrals, norms *)

From Coq Require Import List Arith ZArith Reals Lia Lra Psatz.
From Verif Require Import Base Num RootFind_Model RootFind_Proofs Fourier_Model Fourier_Spec Interp_Linear Interp_Bary Cheb_Spec Cheb_Math Ortho_Model Ortho_Spec Ortho_Math.
Import ListNotations.
Local Open Scope R_scope.

(** ** Derivatives of all orders *)
Section Der.
Variables a b c : nat -> R.
Fixpoint dtt (m n : nat) (x : R) {struct n} : R :=
  match n with
  | 0%nat => match m with 0%nat => 1 | S _ => 0 end
  | S n1 => (a n1 * x + b n1) * dtt m n1 x + INR m * a n1 * dtt (m - 1) n1 x + match n1 with 0%nat => 0 | S n2 => c n1 * dtt m n2 x end
  end.
Lemma dtt_0 : forall n x, dtt 0 n x = ttr a b c n x.
Proof.
  intros n x. enough (dtt 0 n x = ttr a b c n x /\ dtt 0 (S n) x = ttr a b c (S n) x) by tauto.
  induction n as [|n [I1 I2]]; [cbn; split; ring|]. split; auto. change (dtt 0 (S (S n)) x) with ((a (S n) * x + b (S n)) * dtt 0 (S n) x + INR 0 * a (S n) * dtt (0 - 1) (S n) x + c (S n) * dtt 0 n x).
  rewrite I1, I2. cbn [INR]. change (ttr a b c (S (S n)) x) with ((a (S n) * x + b (S n)) * ttr a b c (S n) x + c (S n) * ttr a b c n x). ring.
Qed.
Lemma dtt_S : forall m n x, dtt m (S (S n)) x = (a (S n) * x + b (S n)) * dtt m (S n) x + INR m * a (S n) * dtt (m - 1) (S n) x + c (S n) * dtt m n x.
Proof. reflexivity. Qed.
Lemma dtt_deriv : forall n m x, derivable_pt_lim (dtt m n) x (dtt (S m) n x).
Proof.
  assert (L : forall u v x, derivable_pt_lim (fun x => u * x + v) x u).
  { intros u v x. replace (derivable_pt_lim (fun x => u * x + v) x u) with (derivable_pt_lim (fun x => u * x + v) x (u * 1 + 0)) by (f_equal; ring). apply (derivable_pt_lim_plus (fun x => u * x) (fun _ => v)); [apply (derivable_pt_lim_scal id); apply derivable_pt_lim_id|apply derivable_pt_lim_const]. }
  assert (ST : forall n, (forall m x, derivable_pt_lim (dtt m n) x (dtt (S m) n x)) -> forall m x,
     derivable_pt_lim (fun x => (a n * x + b n) * dtt m n x + INR m * a n * dtt (m - 1) n x) x ((a n * x + b n) * dtt (S m) n x + INR (S m) * a n * dtt m n x)).
  { intros n H m x. replace ((a n * x + b n) * dtt (S m) n x + INR (S m) * a n * dtt m n x) with (a n * dtt m n x + (a n * x + b n) * dtt (S m) n x + INR m * a n * dtt m n x) by (rewrite S_INR; ring).
    apply (derivable_pt_lim_plus (fun x => (a n * x + b n) * dtt m n x) (fun x => INR m * a n * dtt (m - 1) n x)).
    - apply (derivable_pt_lim_mult (fun x => a n * x + b n) (dtt m n)); auto.
    - destruct m as [|m]; [cbn [INR]; replace (0 * a n * dtt 0 n x) with 0 by ring; replace (fun x => 0 * a n * dtt (0 - 1) n x) with (fun _ : R => 0)|].
      + apply (derivable_pt_lim_const 0).
      + apply FunctionalExtensionality.functional_extensionality. intros; ring.
      + replace (S m - 1)%nat with m by lia. apply (derivable_pt_lim_scal (dtt m n)). auto. }
  intros n. enough ((forall m x, derivable_pt_lim (dtt m n) x (dtt (S m) n x)) /\ (forall m x, derivable_pt_lim (dtt m (S n)) x (dtt (S m) (S n) x))) by tauto.
  induction n as [|n [I1 I2]].
  - split; intros m x; [destruct m; cbn; apply (derivable_pt_lim_const 1) || apply (derivable_pt_lim_const 0)|].
    pose proof (ST 0%nat) as G. cbn [dtt]. replace (S m - 1)%nat with m by lia.
    apply (derivable_pt_lim_plus (fun x => (a 0%nat * x + b 0%nat) * dtt m 0 x + INR m * a 0%nat * dtt (m - 1) 0 x) (fun _ => 0)); [|apply derivable_pt_lim_const].
    apply G. intros [|k] y; cbn; apply (derivable_pt_lim_const 1) || apply (derivable_pt_lim_const 0).
  - split; auto. intros m x. rewrite dtt_S. replace (S m - 1)%nat with m by lia.
    apply (derivable_pt_lim_plus (fun x => (a (S n) * x + b (S n)) * dtt m (S n) x + INR m * a (S n) * dtt (m - 1) (S n) x) (fun x => c (S n) * dtt m n x)); [apply ST; auto|].
    apply (derivable_pt_lim_scal (dtt m n)). auto.
Qed.
Lemma ttr_all : forall n, all_derivatives (ttr a b c n) (fun k => dtt k n).
Proof. intros n. split; [intros; apply dtt_0|intros; apply dtt_deriv]. Qed.

(** polynomials grow more slowly than every exponential *)
Definition subexp (f : R -> R) : Prop := forall d, 0 < d -> exists C, 0 < C /\ forall x, Rabs (f x) <= C * exp (d * Rabs x).
Lemma subexp_const : forall k, subexp (fun _ => k).
Proof.
  intros k d Hd. exists (Rabs k + 1). pose proof (Rabs_pos k). split; [lra|]. intros x. pose proof (exp_ineq1_le (d * Rabs x)). pose proof (Rmult_le_pos d (Rabs x) ltac:(lra) (Rabs_pos x)). nra.
Qed.
Lemma subexp_id : subexp (fun x => x).
Proof.
  intros d Hd. exists (/ d). split; [apply Rinv_0_lt_compat; auto|]. intros x. pose proof (exp_ineq1_le (d * Rabs x)). apply (Rmult_le_reg_l d); auto. rewrite <- Rmult_assoc, Rinv_r by lra. lra.
Qed.
Lemma subexp_add : forall f g, subexp f -> subexp g -> subexp (fun x => f x + g x).
Proof.
  intros f g Hf Hg d Hd. destruct (Hf d Hd) as (A & HA & H1), (Hg d Hd) as (B & HB & H2). exists (A + B). split; [lra|]. intros x. specialize (H1 x). specialize (H2 x).
  pose proof (Rabs_triang (f x) (g x)). lra.
Qed.
Lemma subexp_mul : forall f g, subexp f -> subexp g -> subexp (fun x => f x * g x).
Proof.
  intros f g Hf Hg d Hd. destruct (Hf (d / 2) ltac:(lra)) as (A & HA & H1), (Hg (d / 2) ltac:(lra)) as (B & HB & H2). exists (A * B). split; [nra|]. intros x. rewrite Rabs_mult.
  replace (A * B * exp (d * Rabs x)) with ((A * exp (d / 2 * Rabs x)) * (B * exp (d / 2 * Rabs x))). 2: { replace (d * Rabs x) with (d / 2 * Rabs x + d / 2 * Rabs x) by lra. rewrite exp_plus. ring. }
  apply Rmult_le_compat; auto using Rabs_pos.
Qed.
Lemma dtt_subexp : forall n m, subexp (dtt m n).
Proof.
  assert (ST : forall n, (forall m, subexp (dtt m n)) -> forall m, subexp (fun x => (a n * x + b n) * dtt m n x + INR m * a n * dtt (m - 1) n x)).
  { intros n H m. apply (subexp_add (fun x => (a n * x + b n) * dtt m n x) (fun x => INR m * a n * dtt (m - 1) n x)).
    - apply (subexp_mul (fun x => a n * x + b n) (dtt m n)); auto. apply (subexp_add (fun x => a n * x) (fun _ => b n)); [|apply subexp_const]. apply (subexp_mul (fun _ => a n) (fun x => x)); [apply subexp_const|apply subexp_id].
    - apply (subexp_mul (fun _ => INR m * a n) (dtt (m - 1) n)); auto. apply subexp_const. }
  assert (Z0 : forall m, subexp (dtt m 0)) by (intros [|m]; cbn; apply (subexp_const 1) || apply (subexp_const 0)).
  intros n. enough ((forall m, subexp (dtt m n)) /\ (forall m, subexp (dtt m (S n)))) by tauto.
  induction n as [|n [I1 I2]].
  - split; auto. intros m. cbn [dtt]. apply (subexp_add (fun x => (a 0%nat * x + b 0%nat) * dtt m 0 x + INR m * a 0%nat * dtt (m - 1) 0 x) (fun _ => 0)); [|apply subexp_const]. apply (ST 0%nat); auto.
  - split; auto. intros m. apply (subexp_add (fun x => (a (S n) * x + b (S n)) * dtt m (S n) x + INR m * a (S n) * dtt (m - 1) (S n) x) (fun x => c (S n) * dtt m n x)); [apply ST; auto|].
    apply (subexp_mul (fun _ => c (S n)) (dtt m n)); auto. apply subexp_const.
Qed.
End Der.

(** limits *)
Lemma cont_lo : forall F x l, derivable_pt_lim F x l -> forall e, 0 < e -> near_lo (Fin x) (fun y => Rabs (F y - F x) < e).
Proof.
  intros F x l H e He. pose proof (derivable_continuous_pt F x (exist _ l H)) as HC. destruct (HC e He) as (d & Hd & HD). exists d. split; auto. intros y Hy.
  apply HD. split; [split; [exact I|lra]|]. cbn. unfold R_dist. apply Rabs_def1; lra.
Qed.
Lemma cont_hi : forall F x l, derivable_pt_lim F x l -> forall e, 0 < e -> near_hi (Fin x) (fun y => Rabs (F y - F x) < e).
Proof.
  intros F x l H e He. pose proof (derivable_continuous_pt F x (exist _ l H)) as HC. destruct (HC e He) as (d & Hd & HD). exists d. split; auto. intros y Hy.
  apply HD. split; [split; [exact I|lra]|]. cbn. unfold R_dist. apply Rabs_def1; lra.
Qed.
Lemma exp_small : forall C e, 0 < C -> 0 < e -> exists M, 0 < M /\ forall x, M < x -> C * exp (- x) < e.
Proof.
  intros C e HC He. exists (C / e). split; [apply Rdiv_lt_0_compat; auto|]. intros x Hx. pose proof (exp_ineq1_le x). rewrite exp_Ropp. assert (0 < C / e) by (apply Rdiv_lt_0_compat; auto).
  apply (Rmult_lt_reg_r (exp x)); [apply exp_pos|]. rewrite Rmult_assoc, Rinv_l by (pose proof (exp_pos x); lra). apply (Rmult_lt_compat_l e) in Hx; auto. replace (e * (C / e)) with C in Hx by (field; lra). nra.
Qed.

(** ** Legendre *)
Definition la (n : nat) : R := (2 * INR n + 1) / (INR n + 1).
Definition lc (n : nat) : R := - INR n / (INR n + 1).
Definition zero_c (n : nat) : R := 0.
Local Notation P := (ttr la zero_c lc).
Local Notation dP := (dtt la zero_c lc).
Lemma la_nz : forall n, la n <> 0.
Proof. intros n. unfold la. pose proof (pos_INR n). apply Rgt_not_eq. apply Rdiv_lt_0_compat; lra. Qed.
Lemma la_S : forall n, la (S n) = (2 * INR n + 3) / (INR n + 2).
Proof. intros n. unfold la. rewrite S_INR. pose proof (pos_INR n). field. lra. Qed.
Lemma lc_S : forall n, lc (S n) = - (INR n + 1) / (INR n + 2).
Proof. intros n. unfold lc. rewrite S_INR. pose proof (pos_INR n). field. lra. Qed.
Lemma zc_S : forall n, zero_c n = 0. Proof. reflexivity. Qed.
Lemma leg_rel0 : forall n x, x * dP 1 (S n) x - dP 1 n x = (INR n + 1) * P (S n) x /\ dP 1 (S n) x - x * dP 1 n x = (INR n + 1) * P n x.
Proof.
  induction n as [|n IH]; intros x.
  - cbn. unfold la, lc, zero_c. cbn. split; field.
  - destruct (IH x) as [B0 C0]. pose proof (pos_INR n).
    assert (E2 : dP 1 (S (S n)) x = x * dP 1 (S n) x + (INR n + 2) * P (S n) x).
    { rewrite dtt_S. change (1 - 1)%nat with 0%nat. rewrite dtt_0. rewrite la_S, lc_S, zc_S. cbn [INR]. replace (dP 1 n x) with (x * dP 1 (S n) x - (INR n + 1) * P (S n) x) by lra. field. lra. }
    split; [|rewrite E2, S_INR; ring]. rewrite E2. change (P (S (S n)) x) with ((la (S n) * x + zero_c (S n)) * P (S n) x + lc (S n) * P n x). rewrite la_S, lc_S, zc_S, S_INR.
    replace (x * (x * dP 1 (S n) x + (INR n + 2) * P (S n) x) - dP 1 (S n) x) with ((2 * INR n + 3) * x * P (S n) x - (INR n + 1) * P n x).
    2: { replace (x * (x * dP 1 (S n) x + (INR n + 2) * P (S n) x) - dP 1 (S n) x) with (x * (x * dP 1 (S n) x) + (INR n + 2) * x * P (S n) x - dP 1 (S n) x) by ring.
         replace (x * dP 1 (S n) x) with (dP 1 n x + (INR n + 1) * P (S n) x) by lra. replace (dP 1 (S n) x) with (x * dP 1 n x + (INR n + 1) * P n x) by lra. ring. }
    field. lra.
Qed.
Lemma deriv_eq : forall f g f' g', (forall x, f x = g x) -> (forall x, derivable_pt_lim f x (f' x)) -> (forall x, derivable_pt_lim g x (g' x)) -> forall x, f' x = g' x.
Proof. intros f g f' g' E Hf Hg x. apply (uniqueness_limite f x); auto. replace f with g; auto. apply FunctionalExtensionality.functional_extensionality. auto. Qed.
(** D^{m+1} P_{n+2} - D^{m+1} P_n = (2n+3) D^m P_{n+1} *)
Lemma leg_diff : forall m n x, dP (S m) (S (S n)) x - dP (S m) n x = (2 * INR n + 3) * dP m (S n) x.
Proof.
  induction m as [|m IH]; intros n x.
  - destruct (leg_rel0 n x) as [B0 _], (leg_rel0 (S n) x) as [_ C1]. rewrite S_INR in C1. rewrite dtt_0. lra.
  - apply (deriv_eq (fun x => dP (S m) (S (S n)) x - dP (S m) n x) (fun x => (2 * INR n + 3) * dP m (S n) x) (fun x => dP (S (S m)) (S (S n)) x - dP (S (S m)) n x) (fun x => (2 * INR n + 3) * dP (S m) (S n) x)).
    + intros; apply IH.
    + intros y. apply (derivable_pt_lim_minus (dP (S m) (S (S n))) (dP (S m) n)); apply dtt_deriv.
    + intros y. apply (derivable_pt_lim_scal (dP m (S n))). apply dtt_deriv.
Qed.
Lemma leg_pm1 : forall n, P n 1 = 1 /\ P n (-1) = (-1) ^ n.
Proof.
  intros n. enough (forall s, s = 1 \/ s = -1 -> P n s = s ^ n /\ P (S n) s = s ^ S n) as H.
  { destruct (H 1 (or_introl eq_refl)) as [-> _]. destruct (H (-1) (or_intror eq_refl)) as [-> _]. rewrite pow1. auto. }
  intros s Hs. assert (S2 : s * s = 1) by (destruct Hs as [-> | ->]; lra). induction n as [|n [I1 I2]].
  - cbn. unfold la, zero_c, lc. cbn. split; field.
  - split; auto. change (P (S (S n)) s) with ((la (S n) * s + zero_c (S n)) * P (S n) s + lc (S n) * P n s). rewrite I1, I2. unfold la, lc, zero_c. rewrite S_INR. pose proof (pos_INR n). cbn [pow].
    replace (s * (s * s ^ n)) with (s ^ n) by (replace (s * (s * s ^ n)) with (s * s * s ^ n) by ring; rewrite S2; ring).
    replace (((2 * (INR n + 1) + 1) / (INR n + 1 + 1) * s + 0) * (s * s ^ n)) with ((2 * (INR n + 1) + 1) / (INR n + 1 + 1) * (s * s) * s ^ n) by ring. rewrite S2. field. lra.
Qed.
Lemma leg_base : forall n, integral (Fin (-1)) (Fin 1) (fun x => P n x * 1) (if (n =? 0)%nat then 2 else 0).
Proof.
  intros [|n].
  - exists (fun x => x), (-1), 1. split; [intros x _; cbn; rewrite Rmult_1_l; apply derivable_pt_lim_id|]. split; [|split; [|cbn; ring]]; intros e He.
    + apply (cont_lo (fun x => x) (-1) 1); auto. apply derivable_pt_lim_id.
    + apply (cont_hi (fun x => x) 1 1); auto. apply derivable_pt_lim_id.
  - cbn [Nat.eqb]. pose proof (pos_INR n). set (F := fun x => / (2 * INR n + 3) * (dP 0 (S (S n)) x - dP 0 n x)).
    assert (D : forall x, derivable_pt_lim F x (P (S n) x)).
    { intros x. replace (P (S n) x) with (/ (2 * INR n + 3) * (dP 1 (S (S n)) x - dP 1 n x)) by (rewrite leg_diff, dtt_0; field; lra). unfold F.
      apply (derivable_pt_lim_scal (fun x => dP 0 (S (S n)) x - dP 0 n x)). apply (derivable_pt_lim_minus (dP 0 (S (S n))) (dP 0 n)); apply dtt_deriv. }
    exists F, (F (-1)), (F 1). split; [intros x _; rewrite Rmult_1_r; apply D|]. split; [intros e He; apply (cont_lo F _ _ (D _) e He)|]. split; [intros e He; apply (cont_hi F _ _ (D _) e He)|].
    unfold F. rewrite !dtt_0. destruct (leg_pm1 (S (S n))) as [-> ->], (leg_pm1 n) as [-> ->]. cbn [pow]. ring.
Qed.
Lemma leg_hh : forall n, hh la lc 2 n = 2 / (2 * INR n + 1).
Proof.
  induction n as [|n IH]; [cbn; field|]. cbn [hh]. rewrite IH. unfold la, lc. rewrite !S_INR. pose proof (pos_INR n). field. lra.
Qed.
Lemma leg_orth : forall m n, integral (Fin (-1)) (Fin 1) (fun x => P m x * P n x * 1) (if (m =? n)%nat then 2 / (2 * INR m + 1) else 0).
Proof.
  intros m n. apply (integral_ext _ _ (fun x => P m x * P n x * 1) _ (if (m =? n)%nat then hh la lc 2 m else 0)); auto; [rewrite leg_hh; reflexivity|].
  apply (favard la zero_c lc la_nz). apply leg_base.
Qed.

(** ** Hermite *)
Definition ha (n : nat) : R := 2.
Definition hc (n : nat) : R := - 2 * INR n.
Local Notation H := (ttr ha zero_c hc).
Local Notation dH := (dtt ha zero_c hc).
Lemma ha_S : forall n, ha n = 2. Proof. reflexivity. Qed.
Lemma hc_S : forall n, hc (S n) = - 2 * (INR n + 1). Proof. intros n. unfold hc. rewrite S_INR. reflexivity. Qed.
Lemma herm_rel : forall n x, dH 1 (S n) x = 2 * (INR n + 1) * H n x /\ H (S n) x = 2 * x * H n x - dH 1 n x.
Proof.
  induction n as [|n IH]; intros x; [cbn; unfold ha, hc, zero_c; split; ring|]. destruct (IH x) as [D1 H1]. split.
  - rewrite dtt_S. change (1 - 1)%nat with 0%nat. rewrite dtt_0, D1. rewrite ha_S, hc_S, zc_S, (S_INR n). cbn [INR]. replace (dH 1 n x) with (2 * x * H n x - H (S n) x) by lra. ring.
  - change (H (S (S n)) x) with ((ha (S n) * x + zero_c (S n)) * H (S n) x + hc (S n) * H n x). rewrite D1. rewrite ha_S, hc_S, zc_S. ring.
Qed.
Lemma gauss_deriv : forall x, derivable_pt_lim (fun x => exp (- x * x)) x (- 2 * x * exp (- x * x)).
Proof.
  intros x. replace (- 2 * x * exp (- x * x)) with (exp (- x * x) * (- (1) * x + - x * 1)) by ring. apply (derivable_pt_lim_comp (fun x => - x * x) exp); [|apply derivable_pt_lim_exp].
  apply (derivable_pt_lim_mult (fun x => - x) (fun x => x)); [apply (derivable_pt_lim_opp (fun x => x))|]; apply derivable_pt_lim_id.
Qed.
Lemma gauss_small : forall f e, subexp f -> 0 < e -> exists M, 0 < M /\ forall x, M < Rabs x -> Rabs (f x * exp (- x * x)) < e.
Proof.
  intros f e Hf He. destruct (Hf 1 ltac:(lra)) as (A & HA & HB). destruct (exp_small A e HA He) as (M & HM & HL). exists (Rmax M 2). pose proof (Rmax_l M 2). pose proof (Rmax_r M 2). split; [lra|]. intros x Hx.
  rewrite Rabs_mult, (Rabs_pos_eq (exp _)) by (left; apply exp_pos). apply (Rle_lt_trans _ (A * exp (- Rabs x))); [|apply HL; lra].
  apply (Rle_trans _ (A * exp (1 * Rabs x) * exp (- x * x))). { apply Rmult_le_compat_r; [left; apply exp_pos|auto]. }
  rewrite Rmult_assoc, <- exp_plus. apply Rmult_le_compat_l; [lra|]. assert (E : x * x = Rabs x * Rabs x) by (rewrite <- Rabs_mult; rewrite Rabs_pos_eq; nra).
  assert (H2 : 1 * Rabs x + - x * x <= - Rabs x) by nra. destruct (Rle_lt_or_eq_dec _ _ H2) as [L|L]; [left; apply exp_increasing; auto|rewrite L; lra].
Qed.
Lemma herm_base : forall g, integral NegInf PosInf (fun x => exp (- x * x)) g -> forall n, integral NegInf PosInf (fun x => H n x * exp (- x * x)) (if (n =? 0)%nat then g else 0).
Proof.
  intros g Hg [|n]; [apply (integral_ext _ _ (fun x => exp (- x * x)) _ g); auto; intros; cbn; ring|]. cbn [Nat.eqb].
  exists (fun x => - (H n x * exp (- x * x))), 0, 0. split; [|split; [|split; [|ring]]].
  - intros x _. destruct (herm_rel n x) as [_ E]. replace (H (S n) x * exp (- x * x)) with (- (dH 1 n x * exp (- x * x) + H n x * (- 2 * x * exp (- x * x)))) by (rewrite E; ring).
    apply (derivable_pt_lim_opp (fun x => H n x * exp (- x * x))). apply (derivable_pt_lim_mult (H n) (fun x => exp (- x * x))); [|apply gauss_deriv].
    replace (H n) with (dH 0 n) by (apply FunctionalExtensionality.functional_extensionality; intros; apply dtt_0). apply dtt_deriv.
  - intros e He. destruct (gauss_small (dH 0 n) e (dtt_subexp _ _ _ _ _) He) as (M & HM & HL). exists (- M). intros x Hx. rewrite Rminus_0_r, Rabs_Ropp, <- dtt_0. apply HL. rewrite Rabs_left; lra.
  - intros e He. destruct (gauss_small (dH 0 n) e (dtt_subexp _ _ _ _ _) He) as (M & HM & HL). exists M. intros x Hx. rewrite Rminus_0_r, Rabs_Ropp, <- dtt_0. apply HL. rewrite Rabs_right; lra.
Qed.
Lemma herm_hh : forall g n, hh ha hc g n = 2 ^ n * INR (fact n) * g.
Proof. intros g. induction n as [|n IH]; [cbn; ring|]. cbn [hh]. rewrite IH. unfold ha, hc. rewrite fact_simpl, mult_INR, S_INR. cbn [pow]. field. Qed.
Lemma herm_orth : forall g, integral NegInf PosInf (fun x => exp (- x * x)) g -> forall m n,
  integral NegInf PosInf (fun x => H m x * H n x * exp (- x * x)) (if (m =? n)%nat then 2 ^ m * INR (fact m) * g else 0).
Proof.
  intros g Hg m n. rewrite <- herm_hh. apply (favard ha zero_c hc ltac:(intros; unfold ha; lra) _ _ (fun x => exp (- x * x))). apply herm_base. exact Hg.
Qed.

(** ** Laguerre *)
Section Lag.
Variable al : R.
Hypothesis Hal : -1 < al.
Definition ga (n : nat) : R := -1 / (INR n + 1).
Definition gb (n : nat) : R := (2 * INR n + al + 1) / (INR n + 1).
Definition gc (n : nat) : R := - (INR n + al) / (INR n + 1).
Local Notation L := (ttr ga gb gc).
Local Notation dL := (dtt ga gb gc).
Lemma ga_nz : forall n, ga n <> 0.
Proof. intros n. unfold ga. pose proof (pos_INR n). apply Rlt_not_eq. assert (0 < / (INR n + 1)) by (apply Rinv_0_lt_compat; lra). lra. Qed.
Lemma ga_S : forall n, ga (S n) = - 1 / (INR n + 2).
Proof. intros n. unfold ga. rewrite S_INR. pose proof (pos_INR n). field. lra. Qed.
Lemma gb_S : forall n, gb (S n) = (2 * INR n + 3 + al) / (INR n + 2).
Proof. intros n. unfold gb. rewrite S_INR. pose proof (pos_INR n). field. lra. Qed.
Lemma gc_S : forall n, gc (S n) = - (INR n + 1 + al) / (INR n + 2).
Proof. intros n. unfold gc. rewrite S_INR. pose proof (pos_INR n). field. lra. Qed.
Lemma lag_rel : forall n x, x * dL 1 (S n) x = (INR n + 1) * L (S n) x - (INR n + 1 + al) * L n x /\ x * dL 1 n x = (INR n + 1) * L (S n) x - (INR n + 1 + al - x) * L n x.
Proof.
  induction n as [|n IH]; intros x; [cbn; unfold ga, gb, gc; cbn; split; field|]. destruct (IH x) as [S1 S2]. pose proof (pos_INR n).
  assert (R2 : (INR n + 2) * L (S (S n)) x = (2 * INR n + 3 + al - x) * L (S n) x - (INR n + 1 + al) * L n x).
  { change (L (S (S n)) x) with ((ga (S n) * x + gb (S n)) * L (S n) x + gc (S n) * L n x). rewrite ga_S, gb_S, gc_S. field. lra. }
  split.
  - assert (E : (INR n + 2) * (x * dL 1 (S (S n)) x) = (2 * INR n + 3 + al - x) * (x * dL 1 (S n) x) - x * L (S n) x - (INR n + 1 + al) * (x * dL 1 n x)).
    { rewrite dtt_S. change (1 - 1)%nat with 0%nat. rewrite dtt_0. rewrite ga_S, gb_S, gc_S. cbn [INR]. field. lra. }
    rewrite S1, S2 in E. apply (Rmult_eq_reg_l (INR n + 2)); [|lra]. rewrite E, S_INR.
    replace ((INR n + 2) * ((INR n + 1 + 1) * L (S (S n)) x - (INR n + 1 + 1 + al) * L (S n) x)) with ((INR n + 2) * ((INR n + 2) * L (S (S n)) x - (INR n + 2 + al) * L (S n) x)) by ring. rewrite R2. ring.
  - rewrite S1, S_INR. replace (INR n + 1 + 1) with (INR n + 2) by ring. lra.
Qed.
Lemma weight_deriv : forall s x, 0 < x -> derivable_pt_lim (fun x => Rpower x s * exp (- x)) x ((s / x - 1) * (Rpower x s * exp (- x))).
Proof.
  intros s x Hx. replace ((s / x - 1) * (Rpower x s * exp (- x))) with (s * Rpower x (s - 1) * exp (- x) + Rpower x s * (exp (- x) * - (1))).
  - apply (derivable_pt_lim_mult (fun x => Rpower x s) (fun x => exp (- x))); [apply derivable_pt_lim_power; auto|]. apply (derivable_pt_lim_comp (fun x => - x) exp); [|apply derivable_pt_lim_exp].
    apply (derivable_pt_lim_opp (fun x => x)). apply derivable_pt_lim_id.
  - unfold Rminus at 1. rewrite Rpower_plus, Rpower_Ropp, Rpower_1 by auto. field. lra.
Qed.
Lemma lag_base : forall g, integral (Fin 0) PosInf (fun x => Rpower x al * exp (- x)) g -> forall n,
  integral (Fin 0) PosInf (fun x => L n x * (Rpower x al * exp (- x))) (if (n =? 0)%nat then g else 0).
Proof.
  intros g Hg [|n]; [apply (integral_ext _ _ (fun x => Rpower x al * exp (- x)) _ g); auto; intros; cbn; ring|]. cbn [Nat.eqb].
  pose proof (pos_INR n) as Hn. set (k := INR n + 1).
  (* - x^{al+1} e^{-x} L' / k *)
  exists (fun x => - / k * (dL 1 (S n) x * (Rpower x (al + 1) * exp (- x)))), 0, 0. split; [|split; [|split; [|ring]]].
  - intros x [Hx _].
    replace (L (S n) x * (Rpower x al * exp (- x))) with (- / k * (dL 2 (S n) x * (Rpower x (al + 1) * exp (- x)) + dL 1 (S n) x * (((al + 1) / x - 1) * (Rpower x (al + 1) * exp (- x))))).
    + apply (derivable_pt_lim_scal (fun x => dL 1 (S n) x * (Rpower x (al + 1) * exp (- x)))). apply (derivable_pt_lim_mult (dL 1 (S n)) (fun x => Rpower x (al + 1) * exp (- x))); [apply dtt_deriv|apply weight_deriv; auto].
    + assert (ODE : x * dL 2 (S n) x + (al + 1 - x) * dL 1 (S n) x + k * L (S n) x = 0).
      { assert (E : dL 1 (S n) x + x * dL 2 (S n) x = k * dL 1 (S n) x - (k + al) * dL 1 n x).
        { apply (deriv_eq (fun x => x * dL 1 (S n) x) (fun x => k * dL 0 (S n) x - (k + al) * dL 0 n x) (fun x => dL 1 (S n) x + x * dL 2 (S n) x) (fun x => k * dL 1 (S n) x - (k + al) * dL 1 n x)).
          - intros y. rewrite !dtt_0. destruct (lag_rel n y) as [-> _]. unfold k. ring.
          - intros y. replace (dL 1 (S n) y + y * dL 2 (S n) y) with (1 * dL 1 (S n) y + y * dL 2 (S n) y) by ring. apply (derivable_pt_lim_mult (fun y => y) (dL 1 (S n))); [apply derivable_pt_lim_id|apply dtt_deriv].
          - intros y. apply (derivable_pt_lim_minus (fun y => k * dL 0 (S n) y) (fun y => (k + al) * dL 0 n y)); [apply (derivable_pt_lim_scal (dL 0 (S n)))|apply (derivable_pt_lim_scal (dL 0 n))]; apply dtt_deriv. }
        apply (Rmult_eq_reg_l x); [|lra]. destruct (lag_rel n x) as [S1 S2]. fold k in S1, S2.
        replace (x * (x * dL 2 (S n) x + (al + 1 - x) * dL 1 (S n) x + k * L (S n) x)) with (x * (dL 1 (S n) x + x * dL 2 (S n) x) + (al - x) * (x * dL 1 (S n) x) + k * x * L (S n) x) by ring.
        rewrite E. replace (x * (k * dL 1 (S n) x - (k + al) * dL 1 n x)) with (k * (x * dL 1 (S n) x) - (k + al) * (x * dL 1 n x)) by ring. rewrite S1, S2. ring. }
      rewrite Rpower_plus, Rpower_1 by auto.
      replace (- / k * (dL 2 (S n) x * (Rpower x al * x * exp (- x)) + dL 1 (S n) x * (((al + 1) / x - 1) * (Rpower x al * x * exp (- x))))) with
        (- / k * (x * dL 2 (S n) x + (al + 1 - x) * dL 1 (S n) x) * (Rpower x al * exp (- x))) by (field; unfold k; lra).
      replace (x * dL 2 (S n) x + (al + 1 - x) * dL 1 (S n) x) with (- (k * L (S n) x)) by lra. field. unfold k. lra.
  - intros e He. destruct (dtt_subexp ga gb gc (S n) 1 1 ltac:(lra)) as (A & HA & HB). set (B := A * exp 1 / k). assert (HBp : 0 < B) by (unfold B, k; apply Rdiv_lt_0_compat; [apply Rmult_lt_0_compat; [auto|apply exp_pos]|lra]).
    exists (Rmin 1 (Rpower (e / B) (/ (al + 1)))). split; [apply Rmin_pos; [lra|apply exp_pos]|]. intros x Hx. rewrite Rplus_0_l in Hx. pose proof (Rmin_l 1 (Rpower (e / B) (/ (al + 1)))). pose proof (Rmin_r 1 (Rpower (e / B) (/ (al + 1)))).
    rewrite Rminus_0_r, !Rabs_mult. rewrite (Rabs_pos_eq (exp _)) by (left; apply exp_pos). rewrite (Rabs_pos_eq (Rpower _ _)) by (left; apply exp_pos).
    rewrite Rabs_Ropp, (Rabs_pos_eq (/ k)) by (left; apply Rinv_0_lt_compat; unfold k; lra).
    assert (E1 : exp (- x) <= 1) by (rewrite <- exp_0; left; apply exp_increasing; lra).
    assert (E2 : Rabs (dL 1 (S n) x) <= A * exp 1). { apply (Rle_trans _ _ _ (HB x)). apply Rmult_le_compat_l; [lra|]. rewrite Rabs_pos_eq by lra. left. apply exp_increasing. lra. }
    assert (E3 : Rpower x (al + 1) < e / B).
    { assert (P0 : 0 < e / B) by (apply Rdiv_lt_0_compat; auto). replace (e / B) with (Rpower (Rpower (e / B) (/ (al + 1))) (al + 1)). 2: { rewrite Rpower_mult, Rinv_l, Rpower_1; [auto|auto|lra]. }
      apply Rlt_Rpower_l; lra. }
    apply (Rle_lt_trans _ (/ k * (A * exp 1 * (Rpower x (al + 1) * 1)))).
    + apply Rmult_le_compat_l; [left; apply Rinv_0_lt_compat; unfold k; lra|]. apply Rmult_le_compat; [apply Rabs_pos|apply Rmult_le_pos; left; apply exp_pos|auto|]. apply Rmult_le_compat_l; [left; apply exp_pos|auto].
    + replace (/ k * (A * exp 1 * (Rpower x (al + 1) * 1))) with (B * Rpower x (al + 1)) by (unfold B; field; unfold k; lra). apply (Rmult_lt_compat_l B) in E3; auto. replace (B * (e / B)) with e in E3 by (field; lra). exact E3.
  - intros e He. destruct (dtt_subexp ga gb gc (S n) 1 (/ 4) ltac:(lra)) as (A & HA & HB).
    assert (exists N, al + 1 <= INR N) as (N & HN). { destruct (archimed (al + 1)) as [AR _]. exists (Z.to_nat (up (al + 1))). rewrite INR_IZR_INZ, Z2Nat.id; [lra|]. apply le_IZR. lra. }
    assert (PW : subexp (fun x => x ^ N)). { clear. induction N as [|N IH]; [apply (subexp_const 1)|]. apply (subexp_mul (fun x => x) (fun x => x ^ N)); auto. apply subexp_id. }
    destruct (PW (/ 4) ltac:(lra)) as (A' & HA' & HB').
    destruct (exp_small (/ k * (A * A')) e) as (M & HM & HL); auto. { apply Rmult_lt_0_compat; [apply Rinv_0_lt_compat; unfold k; lra|nra]. }
    exists (Rmax 1 (2 * M)). intros x Hx. pose proof (Rmax_l 1 (2 * M)). pose proof (Rmax_r 1 (2 * M)).
    rewrite Rminus_0_r, !Rabs_mult. rewrite (Rabs_pos_eq (exp _)) by (left; apply exp_pos). rewrite (Rabs_pos_eq (Rpower _ _)) by (left; apply exp_pos).
    rewrite Rabs_Ropp, (Rabs_pos_eq (/ k)) by (left; apply Rinv_0_lt_compat; unfold k; lra).
    specialize (HB x). specialize (HB' x). rewrite (Rabs_pos_eq x) in HB, HB' by lra. rewrite Rabs_pos_eq in HB' by (apply pow_le; lra).
    assert (E1 : Rpower x (al + 1) <= A' * exp (/ 4 * x)). { apply (Rle_trans _ (x ^ N)); auto. rewrite <- Rpower_pow by lra. apply Rle_Rpower; lra. }
    specialize (HL (x / 2) ltac:(lra)). eapply Rle_lt_trans; [|exact HL].
    rewrite Rmult_assoc. apply Rmult_le_compat_l; [left; apply Rinv_0_lt_compat; unfold k; lra|].
    apply (Rle_trans _ ((A * exp (/ 4 * x)) * ((A' * exp (/ 4 * x)) * exp (- x)))).
    + apply Rmult_le_compat; [apply Rabs_pos|apply Rmult_le_pos; left; apply exp_pos|auto|]. apply Rmult_le_compat_r; [left; apply exp_pos|auto].
    + replace (A * exp (/ 4 * x) * (A' * exp (/ 4 * x) * exp (- x))) with (A * A' * (exp (/ 4 * x) * exp (/ 4 * x) * exp (- x))) by ring. rewrite <- !exp_plus. replace (/ 4 * x + / 4 * x + - x) with (- (x / 2)) by field. lra.
Qed.
Lemma lag_orth : forall g, integral (Fin 0) PosInf (fun x => Rpower x al * exp (- x)) g -> forall m n,
  integral (Fin 0) PosInf (fun x => L m x * L n x * (Rpower x al * exp (- x))) (if (m =? n)%nat then hh ga gc g m else 0).
Proof. intros g Hg m n. apply (favard ga gb gc ga_nz _ _ (fun x => Rpower x al * exp (- x))). apply lag_base. exact Hg. Qed.
Lemma lag_hh_S : forall g n, hh ga gc g (S n) = (INR n + 1 + al) / (INR n + 1) * hh ga gc g n.
Proof. intros g n. cbn [hh]. unfold ga, gc. rewrite !S_INR. pose proof (pos_INR n). field. lra. Qed.
End Lag.
