(** * C91: the mean of the logistic distribution, the moments of the Weibull distribution *)

From Coq Require Import List Bool Arith ZArith Reals Lia Lra Psatz.
From Coquelicot Require Import Coquelicot.
From Verif Require Import Base Num RootFind_Model RootFind_Proofs Fourier_Model Fourier_Spec Fourier_Props Quat_Spec
  Ortho_Model Ortho_Spec Ortho_Math Ortho_Fam Ortho_Gauss Ortho_Props2 Dist_Model Dist_Spec Dist_Props.
Local Open Scope R_scope.

(** a primitive of z e^-z / (1 + e^-z)^2; it is even and tends to 0 *)
Definition lgp (z : R) : R := z / (1 + exp (- z)) - ln (1 + exp z).
Lemma lgp_deriv : forall z : R, is_derive lgp z (z * (exp (- z) / ((1 + exp (- z)) * (1 + exp (- z))))).
Proof.
  intros z. unfold lgp. pose proof (exp_pos z). pose proof (exp_pos (- z)). auto_derive; [repeat split; lra|].
  assert (E : exp z = / exp (- z)) by (rewrite exp_Ropp, Rinv_inv; auto). rewrite E. field. lra.
Qed.
Lemma lgp_even : forall z, lgp (- z) = lgp z.
Proof.
  intros z. unfold lgp. rewrite Ropp_involutive. pose proof (exp_pos z). pose proof (exp_pos (- z)).
  assert (E : 1 + exp z = exp z * (1 + exp (- z))) by (rewrite Rmult_plus_distr_l, <- exp_plus; replace (z + - z) with 0 by ring; rewrite exp_0; ring).
  rewrite E, ln_mult, ln_exp by lra. assert (E' : exp (- z) = / exp z) by (rewrite exp_Ropp; auto). rewrite E'. field. lra.
Qed.
Lemma lgp_lim : forall e, 0 < e -> exists M, 0 < M /\ forall z, M < Rabs z -> Rabs (lgp z) < e.
Proof.
  intros e He. destruct (sq_exp_small (e / 2)) as (M & HM & HL); [lra|]. exists (M + 1). split; [lra|].
  assert (A : forall z, M + 1 < z -> Rabs (lgp z) < e).
  { intros z Hz. specialize (HL z ltac:(lra)). rewrite <- lgp_even. unfold lgp. rewrite Ropp_involutive. pose proof (exp_pos z). pose proof (exp_pos (- z)).
    assert (E : 1 + exp z = exp z * (1 + exp (- z))) by (rewrite Rmult_plus_distr_l, <- exp_plus; replace (z + - z) with 0 by ring; rewrite exp_0; ring).
    assert (B : 0 < ln (1 + exp (- z)) <= exp (- z)).
    { split; [rewrite <- ln_1; apply ln_increasing; lra|]. rewrite <- (ln_exp (exp (- z))) at 2. pose proof (exp_ineq1_le (exp (- z))). destruct (Rle_lt_or_eq_dec _ _ H1) as [H2|H2]; [left; apply ln_increasing; lra|rewrite H2; lra]. }
    assert (C : 0 < z / (1 + exp z) <= z * exp (- z)).
    { split; [apply Rdiv_lt_0_compat; lra|]. rewrite exp_Ropp. unfold Rdiv. apply Rmult_le_compat_l; [lra|]. apply Rinv_le_contravar; lra. }
    replace (- z / (1 + exp z)) with (- (z / (1 + exp z))) by (unfold Rdiv; ring). assert (z * exp (- z) <= z * z * exp (- z)) by (apply Rmult_le_compat_r; nra).
    assert (exp (- z) <= (z * z + 1) * exp (- z)) by nra. apply Rabs_def1; nra. }
  intros z Hz. unfold Rabs in Hz. destruct (Rcase_abs z); [rewrite <- lgp_even|]; apply A; auto.
Qed.
Theorem C91_logistic_mean : forall e mu sigma, 0 < sigma ->
  exists d f m, LogisticDistribution (Rf e) mu sigma = Ok d /\ (forall x, d_pdf d x = Ok (f x)) /\ d_mean d = Ok m /\ integral NegInf PosInf (fun x => x * f x) m.
Proof.
  intros e mu sigma Hs. destruct (C91_logistic e mu sigma) as (_ & H). destruct (H Hs) as (d & E & (f & P & HP & I1) & _ & _ & _ & HM & _).
  exists d, f, mu. split; [auto|]. split; [intros x; apply HP; split; exact I|]. split; [auto|].
  assert (F0 : forall x, f x = exp (- ((x - mu) / sigma)) / (sigma * (1 + exp (- ((x - mu) / sigma))) * (1 + exp (- ((x - mu) / sigma))))).
  { intros x. destruct (HP x (Logic.conj I I)) as (Q & _). unfold LogisticDistribution in E. revert E. dnum. rdec. intros E. injection E as <-. revert Q. dnum. intros Q. injection Q as <-. auto. }
  apply (integral_ext _ _ (fun x => 1 * ((x - mu) * f x) + mu * f x) _ (1 * 0 + mu * 1)); [intros; ring|ring|]. apply integral_lin; auto.
  assert (SC : forall M x, mu + M * sigma < x \/ x < mu - M * sigma -> 0 < M -> M < Rabs ((x - mu) / sigma)).
  { intros M x Hx HM'. unfold Rdiv. rewrite Rabs_mult, (Rabs_pos_eq (/ sigma)) by (left; apply Rinv_0_lt_compat; auto). apply (Rmult_lt_reg_r sigma); auto.
    rewrite Rmult_assoc, Rinv_l, Rmult_1_r by lra. assert (0 < M * sigma) by (apply Rmult_lt_0_compat; auto). destruct Hx; [rewrite Rabs_pos_eq|rewrite Rabs_left]; lra. }
  exists (fun x => sigma * lgp ((x - mu) / sigma)), 0, 0. split; [|split; [|split; [|ring]]].
  - intros x _. apply is_derive_Reals. rewrite F0. set (z := (x - mu) / sigma). pose proof (exp_pos (- z)).
    replace ((x - mu) * (exp (- z) / (sigma * (1 + exp (- z)) * (1 + exp (- z))))) with (sigma * (/ sigma * (z * (exp (- z) / ((1 + exp (- z)) * (1 + exp (- z))))))) by (replace (x - mu) with (sigma * z) by (unfold z; field; lra); field; lra).
    apply (is_derive_scal (fun x => lgp ((x - mu) / sigma))). apply (is_derive_comp lgp (fun x => (x - mu) / sigma) x _ (/ sigma)); [apply lgp_deriv|]. auto_derive; [repeat split; lra|]. field. lra.
  - intros ep He. destruct (lgp_lim (ep / sigma)) as (M & HM' & HL); [apply Rdiv_lt_0_compat; auto|]. exists (mu - M * sigma). intros x Hx. rewrite Rminus_0_r, Rabs_mult, (Rabs_pos_eq sigma) by lra.
    specialize (HL _ (SC M x (or_intror Hx) HM')). apply (Rmult_lt_compat_l sigma) in HL; auto. replace (sigma * (ep / sigma)) with ep in HL by (field; lra). auto.
  - intros ep He. destruct (lgp_lim (ep / sigma)) as (M & HM' & HL); [apply Rdiv_lt_0_compat; auto|]. exists (mu + M * sigma). intros x Hx. rewrite Rminus_0_r, Rabs_mult, (Rabs_pos_eq sigma) by lra.
    specialize (HL _ (SC M x (or_introl Hx) HM')). apply (Rmult_lt_compat_l sigma) in HL; auto. replace (sigma * (ep / sigma)) with ep in HL by (field; lra). auto.
Qed.
Print Assumptions C91_logistic_mean.
Example C91_logistic_mean_example : exists d, LogisticDistribution (Rf (fun x => x)) 1 2 = Ok d /\ d_mean d = Ok 1.
Proof. unfold LogisticDistribution. dcase. eexists. split; reflexivity. Qed.

(** ** Weibull: Euler's integral after the substitution u = (x / scale)^shape *)
Definition wpdf (k l x : R) : R := k / l * Rpower (x / l) (k - 1) * exp (- Rpower (x / l) k).
Lemma weibull_power : forall k l j g, 0 < k -> 0 < l -> gamma_at (1 + j / k) g -> integral (Fin 0) PosInf (fun x => Rpower (x / l) j * wpdf k l x) g.
Proof.
  intros k l j g Hk Hl (G & a & b & D & La & Lb & ->). exists (fun x => G (Rpower (x / l) k)), a, b. split; [|split; [|split; [|auto]]].
  - intros x [X _]. cbn in X. assert (0 < x / l) by (apply Rdiv_lt_0_compat; auto). apply is_derive_Reals. unfold wpdf.
    replace (Rpower (x / l) j * (k / l * Rpower (x / l) (k - 1) * exp (- Rpower (x / l) k))) with (k / l * Rpower (x / l) (k - 1) * (Rpower (Rpower (x / l) k) (1 + j / k - 1) * exp (- Rpower (x / l) k))).
    + apply (is_derive_comp G (fun x => Rpower (x / l) k) x (Rpower (Rpower (x / l) k) (1 + j / k - 1) * exp (- Rpower (x / l) k)) (k / l * Rpower (x / l) (k - 1))).
      * apply is_derive_Reals. apply D. split; [apply Rpower_pos|exact I].
      * replace (Rpower (x / l) (k - 1)) with (exp (k * ln (x / l)) / (x / l)).
        -- unfold Rpower. auto_derive; [repeat split; auto|]. unfold Rdiv. field. lra.
        -- unfold Rminus. rewrite Rpower_plus, Rpower_Ropp, Rpower_1 by auto. reflexivity.
    + rewrite Rpower_mult. replace (k * (1 + j / k - 1)) with j by (field; lra). ring.
  - intros e He. destruct (La e He) as (d & Hd & HD). exists (l * Rpower d (1 / k)). pose proof (Rpower_pos d (1 / k)). split; [apply Rmult_lt_0_compat; auto|]. intros x Hx. apply HD. split; [apply Rpower_pos|].
    rewrite Rplus_0_l. assert (0 < x / l) by (apply Rdiv_lt_0_compat; lra). assert (Q : x / l < Rpower d (1 / k)) by (apply (Rmult_lt_reg_l l); auto; replace (l * (x / l)) with x by (field; lra); lra).
    apply (Rpower_lt_base _ _ k) in Q; auto. rewrite Rpower_inv in Q; auto.
  - intros e He. destruct (Lb e He) as (M & HM). exists (l * Rpower (Rmax M 1) (1 / k)). intros x Hx. apply HM. pose proof (Rmax_l M 1). pose proof (Rmax_r M 1). pose proof (Rpower_pos (Rmax M 1) (1 / k)).
    assert (Q : Rpower (Rmax M 1) (1 / k) < x / l) by (apply (Rmult_lt_reg_l l); auto; replace (l * (x / l)) with x by (field; lra); lra).
    apply (Rpower_lt_base _ _ k) in Q; auto. rewrite Rpower_inv in Q by lra. lra.
Qed.
Theorem C91_weibull_moments : forall e tgamma k l, 0 < k -> 0 < l -> gamma_at (1 + 1 / k) (tgamma (1 + 1 / k)) -> gamma_at (1 + 2 / k) (tgamma (1 + 2 / k)) ->
  let m := WeibullMean (Rf e) tgamma k l in
  exists d f, WeibullDistribution (Rf e) k l = Ok d /\ (forall x, 0 < x -> d_pdf d x = Ok (f x)) /\
    integral (Fin 0) PosInf (fun x => x * f x) m /\ integral (Fin 0) PosInf (fun x => (x - m) ^ 2 * f x) (WeibullVariance (Rf e) tgamma k l).
Proof.
  intros e tg k l Hk Hl G1 G2 m. unfold WeibullDistribution. dnum. destruct (Rltb_spec 0 k); [|lra]. destruct (Rltb_spec 0 l); [|lra]. cbn [negb]. eexists. exists (wpdf k l). split; [reflexivity|].
  split. { intros x X. dnum. unfold aeqb. dnum. destruct (Rltb_spec x 0); [lra|]. destruct (Rltb_spec 0 x); [|lra]. reflexivity. }
  assert (G0 : gamma_at (1 + 0 / k) 1). { replace (1 + 0 / k) with (INR 0 + 1) by (cbn; field; lra). apply (C90_gamma_integers 0). }
  pose proof (weibull_power k l 0 _ Hk Hl G0) as I0. pose proof (weibull_power k l 1 _ Hk Hl G1) as I1. pose proof (weibull_power k l 2 _ Hk Hl G2) as I2.
  assert (P0 : forall x, 0 < x -> 0 < x / l) by (intros; apply Rdiv_lt_0_compat; auto).
  assert (Q2 : forall y, 0 < y -> Rpower y 2 = y * y) by (intros y Hy; replace 2 with (1 + 1) by ring; rewrite Rpower_plus, !Rpower_1; auto).
  unfold WeibullVariance. unfold m, WeibullMean. dnum. set (g1 := tg (1 + 1 / k)) in *. set (g2 := tg (1 + 2 / k)) in *. split.
  - apply (integral_ext _ _ (fun x => l * (Rpower (x / l) 1 * wpdf k l x)) _ (l * g1)); [|auto|apply integral_scal; auto].
    intros x [X _]. cbn in X. rewrite Rpower_1 by auto. field. lra.
  - apply (integral_ext _ _ (fun x => 1 * (l * l * (Rpower (x / l) 2 * wpdf k l x) + - 2 * (l * g1) * l * (Rpower (x / l) 1 * wpdf k l x)) + l * g1 * (l * g1) * (Rpower (x / l) 0 * wpdf k l x)) _
      (1 * (l * l * g2 + - 2 * (l * g1) * l * g1) + l * g1 * (l * g1) * 1)).
    + intros x [X _]. cbn in X. rewrite Q2, Rpower_1, Rpower_O by auto. field. lra.
    + ring.
    + apply integral_lin; auto. apply integral_lin; auto.
Qed.
Print Assumptions C91_weibull_moments.
(** the hypotheses are met: shape 1, the factorials 1! and 2! *)
Example C91_weibull_moments_example : gamma_at (1 + 1 / 1) 1 /\ gamma_at (1 + 2 / 1) 2 /\ WeibullMean (Rf (fun x => x)) (fun s => s - 1) 1 3 = 3 /\ WeibullVariance (Rf (fun x => x)) (fun s => s - 1) 1 3 = 9.
Proof.
  pose proof (C90_gamma_integers 1) as A. pose proof (C90_gamma_integers 2) as B. cbn in A, B. split; [replace (1 + 1 / 1) with (1 + 1) by field; exact A|].
  split; [replace (1 + 2 / 1) with (1 + 1 + 1) by field; replace 2 with (1 + 1) by ring; exact B|]. unfold WeibullMean, WeibullVariance. dnum. split; field.
Qed.
