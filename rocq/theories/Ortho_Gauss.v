(** * C90: the integral of exp (- x^2) over the line is the square root of pi *)

From Coq Require Import List Arith ZArith Reals Lia Lra Psatz.
From Coquelicot Require Import Coquelicot.
From Verif Require Import Base Num RootFind_Model Fourier_Model Fourier_Spec Ortho_Model Ortho_Spec Ortho_Math Ortho_Fam.
Local Open Scope R_scope.

Definition gE (x : R) : R := RInt (fun t => exp (- t * t)) 0 x.
Definition gG (x : R) : R := RInt (fun t => exp (- (x * x) * (1 + t * t)) / (1 + t * t)) 0 1.

Lemma ge_cont : forall t, continuous (fun t => exp (- t * t)) t.
Proof. intros t. apply (ex_derive_continuous (fun t => exp (- t * t))). auto_derive. exact I. Qed.
Lemma gE_int : forall x : R, is_RInt (V := R_NormedModule) (fun t => exp (- t * t)) 0 x (gE x).
Proof. intros y. unfold gE. apply (RInt_correct (V := R_CompleteNormedModule) (fun t => exp (- t * t)) 0 y). apply (ex_RInt_continuous (V := R_CompleteNormedModule)). intros z _. apply ge_cont. Qed.
Lemma gE_deriv : forall x : R, is_derive gE x (exp (- x * x)).
Proof.
  intros x. apply (is_derive_RInt (fun t => exp (- t * t)) gE 0 x); [|apply ge_cont]. apply filter_forall. intros y. unfold gE. apply (RInt_correct (V := R_CompleteNormedModule) (fun t => exp (- t * t)) 0 y). apply (ex_RInt_continuous (V := R_CompleteNormedModule)). intros z _. apply ge_cont.
Qed.
Lemma gg_der : forall x t : R, is_derive (fun u => exp (- (u * u) * (1 + t * t)) / (1 + t * t)) x (- 2 * x * exp (- (x * x) * (1 + t * t))).
Proof. intros x t. auto_derive; [nra|]. field. nra. Qed.
Lemma gg_cont : forall x t : R, continuous (fun t => exp (- (x * x) * (1 + t * t)) / (1 + t * t)) t.
Proof. intros x t. apply (ex_derive_continuous (fun t => exp (- (x * x) * (1 + t * t)) / (1 + t * t))). auto_derive. nra. Qed.
Lemma gG_deriv : forall x : R, is_derive gG x (- 2 * exp (- x * x) * gE x).
Proof.
  intros x. replace (- 2 * exp (- x * x) * gE x) with (RInt (fun t => Derive (fun u => exp (- (u * u) * (1 + t * t)) / (1 + t * t)) x) 0 1).
  - apply (is_derive_RInt_param (fun u t => exp (- (u * u) * (1 + t * t)) / (1 + t * t)) 0 1 x).
    + apply filter_forall. intros y t _. eexists. apply gg_der.
    + intros t _. apply (continuity_2d_pt_ext (fun u v => - 2 * u * exp (- (u * u) * (1 + v * v)))).
      * intros u v. symmetry. apply is_derive_unique. apply gg_der.
      * apply continuity_2d_pt_mult.
        -- apply continuity_2d_pt_mult; [apply continuity_2d_pt_const|apply continuity_2d_pt_id1].
        -- apply (continuity_1d_2d_pt_comp exp (fun u v => - (u * u) * (1 + v * v))); [apply derivable_continuous_pt; apply derivable_pt_exp|].
           apply continuity_2d_pt_mult; [apply continuity_2d_pt_opp; apply continuity_2d_pt_mult; apply continuity_2d_pt_id1|].
           apply continuity_2d_pt_plus; [apply continuity_2d_pt_const|]. apply continuity_2d_pt_mult; apply continuity_2d_pt_id2.
    + apply filter_forall. intros y. apply (ex_RInt_continuous (V := R_CompleteNormedModule)). intros z _. apply gg_cont.
  - apply (is_RInt_unique (V := R_CompleteNormedModule)).
    assert (E0 : is_RInt (V := R_NormedModule) (fun t => exp (- t * t)) (x * 0 + 0) (x * 1 + 0) (gE x)).
    { replace (x * 0 + 0) with 0 by ring. replace (x * 1 + 0) with x by ring. apply gE_int. }
    apply (is_RInt_comp_lin (V := R_NormedModule)) in E0. apply (is_RInt_scal (V := R_NormedModule) _ 0 1 (- 2 * exp (- x * x))) in E0.
    apply (is_RInt_ext (V := R_NormedModule) (fun y : R => scal (- 2 * exp (- x * x)) (scal x (exp (- (x * y + 0) * (x * y + 0)))))); [|exact E0].
    intros t _. symmetry. etransitivity; [exact (is_derive_unique _ _ _ (gg_der x t))|]. unfold scal; cbn; unfold mult; cbn.
    replace (- (x * x) * (1 + t * t)) with (- x * x + - (x * t + 0) * (x * t + 0)) by ring. rewrite exp_plus. ring.
Qed.
Lemma gE_odd : forall x : R, gE (- x) = - gE x.
Proof.
  intros x. assert (E0 : is_RInt (V := R_NormedModule) (fun t => exp (- t * t)) (-1 * 0 + 0) (-1 * - x + 0) (gE x)).
  { replace (-1 * 0 + 0) with 0 by ring. replace (-1 * - x + 0) with x by ring. apply gE_int. }
  apply (is_RInt_comp_lin (V := R_NormedModule)) in E0. apply (is_RInt_scal (V := R_NormedModule) _ _ _ (-1)) in E0.
  unfold gE at 1. apply (is_RInt_unique (V := R_CompleteNormedModule)). replace (- gE x) with (scal (-1) (gE x)) by (unfold scal; cbn; unfold mult; cbn; ring).
  eapply (is_RInt_ext (V := R_NormedModule)); [|exact E0]. intros t _. unfold scal; cbn; unfold mult; cbn. replace (- (-1 * t + 0) * (-1 * t + 0)) with (- t * t) by ring. ring.
Qed.
Lemma gK : forall x : R, gE x * gE x + gG x = PI / 4.
Proof.
  assert (D : forall x : R, is_derive (fun x => gE x * gE x + gG x) x 0).
  { intros x. replace 0 with (plus (plus (mult (exp (- x * x)) (gE x)) (mult (gE x) (exp (- x * x)))) (- 2 * exp (- x * x) * gE x)) by (unfold plus, mult; cbn; ring).
    apply (is_derive_plus (fun x => gE x * gE x) gG); [|apply gG_deriv]. apply (is_derive_mult gE gE); try apply gE_deriv. intros; apply Rmult_comm. }
  assert (Z : gE 0 * gE 0 + gG 0 = PI / 4).
  { assert (E0 : gE 0 = 0) by (pose proof (gE_odd 0) as G; rewrite Ropp_0 in G; lra). rewrite E0.
    assert (E1 : gG 0 = PI / 4); [|lra]. unfold gG. apply (is_RInt_unique (V := R_CompleteNormedModule)).
    apply (is_RInt_ext (V := R_NormedModule) (fun t => / (1 + t * t))).
    - intros t _. replace (- (0 * 0) * (1 + t * t)) with 0 by ring. rewrite exp_0. unfold Rdiv. symmetry. apply Rmult_1_l.
    - replace (PI / 4) with (minus (atan 1) (atan 0)) by (rewrite atan_1, atan_0; unfold minus, plus, opp; cbn; field).
      apply (is_RInt_derive (V := R_CompleteNormedModule) atan).
      + intros t _. auto_derive; auto. field. nra.
      + intros t _. apply (ex_derive_continuous (fun t => / (1 + t * t))). auto_derive. nra. }
  assert (C0 : forall x y, x < y -> gE x * gE x + gG x = gE y * gE y + gG y).
  { intros x y Hxy. destruct (MVT_cor2 (fun x => gE x * gE x + gG x) (fun _ => 0) x y Hxy) as (c & E & _); [intros c _; apply is_derive_Reals; apply D|]. lra. }
  intros x. destruct (Rtotal_order x 0) as [L|[->|L]]; auto; [rewrite (C0 x 0 L)|rewrite <- (C0 0 x L)]; auto.
Qed.
Lemma gG_bound : forall x : R, 0 <= gG x <= exp (- x * x).
Proof.
  intros x. split.
  - apply (Rle_trans _ (RInt (fun _ => 0) 0 1)); [rewrite RInt_const; unfold scal; cbn; unfold mult; cbn; lra|]. apply RInt_le; [lra|apply ex_RInt_const|apply (ex_RInt_continuous (V := R_CompleteNormedModule)); intros; apply gg_cont|].
    intros t _. left. apply Rdiv_lt_0_compat; [apply exp_pos|nra].
  - apply (Rle_trans _ (RInt (fun _ => exp (- x * x)) 0 1)); [|rewrite RInt_const; unfold scal; cbn; unfold mult; cbn; lra]. apply RInt_le; [lra|apply (ex_RInt_continuous (V := R_CompleteNormedModule)); intros; apply gg_cont|apply ex_RInt_const|].
    intros t _. assert (0 <= t * t) by nra. assert (0 <= x * x) by nra. apply (Rle_trans _ (exp (- x * x) / (1 + t * t))).
    + apply Rmult_le_compat_r; [left; apply Rinv_0_lt_compat; lra|]. assert (Q : - (x * x) * (1 + t * t) <= - x * x) by nra. destruct (Rle_lt_or_eq_dec _ _ Q) as [L|E]; [left; apply exp_increasing; auto|rewrite E; lra].
    + apply (Rmult_le_reg_r (1 + t * t)); [lra|]. unfold Rdiv. rewrite Rmult_assoc, Rinv_l by lra. pose proof (exp_pos (- x * x)). nra.
Qed.
Lemma gE_pos : forall x : R, 0 <= x -> 0 <= gE x.
Proof.
  intros x Hx. apply (Rle_trans _ (RInt (fun _ => 0) 0 x)); [rewrite RInt_const; unfold scal; cbn; unfold mult; cbn; lra|]. apply RInt_le; auto; [apply ex_RInt_const|apply (ex_RInt_continuous (V := R_CompleteNormedModule)); intros; apply ge_cont|].
  intros t _. left. apply exp_pos.
Qed.
Theorem gauss_integral : integral NegInf PosInf (fun x => exp (- x * x)) (sqrt PI).
Proof.
  pose proof PI_RGT_0 as HP. assert (S0 : 0 < sqrt PI) by (apply sqrt_lt_R0; auto). assert (SS : sqrt PI * sqrt PI = PI) by (apply sqrt_sqrt; lra).
  assert (HI : forall e, 0 < e -> exists M, 0 < M /\ forall x, M < x -> Rabs (gE x - sqrt PI / 2) < e).
  { intros e He. destruct (gauss_small (fun _ => 1) (e * (sqrt PI / 2)) (subexp_const 1)) as (M & HM & HL); [nra|]. exists M. split; auto. intros x Hx. specialize (HL x ltac:(rewrite Rabs_pos_eq; lra)).
    rewrite Rmult_1_l, Rabs_pos_eq in HL by (left; apply exp_pos). pose proof (gK x). pose proof (gG_bound x). pose proof (gE_pos x ltac:(lra)).
    assert (Q : (sqrt PI / 2 - gE x) * (sqrt PI / 2 + gE x) = gG x) by nra. assert (0 <= sqrt PI / 2 - gE x) by nra. rewrite Rabs_left1 by lra. nra. }
  exists gE, (- (sqrt PI / 2)), (sqrt PI / 2). split; [intros x _; apply is_derive_Reals; apply gE_deriv|]. split; [|split; [|lra]]; intros e He; destruct (HI e He) as (M & HM & HL).
  - exists (- M). intros x Hx. replace x with (- - x) by ring. rewrite gE_odd. replace (- gE (- x) - - (sqrt PI / 2)) with (- (gE (- x) - sqrt PI / 2)) by ring. rewrite Rabs_Ropp. apply HL. lra.
  - exists M. exact HL.
Qed.
