(** * C91: the normal and the log-normal distribution *)

From Coq Require Import List Bool Arith ZArith Reals Lia Lra Psatz.
From Coquelicot Require Import Coquelicot.
From Verif Require Import Base Num RootFind_Model RootFind_Proofs Fourier_Model Fourier_Spec Fourier_Props Quat_Spec
  Ortho_Model Ortho_Spec Ortho_Math Ortho_Fam Ortho_Gauss Dist_Model Dist_Spec Dist_Props.
Import ListNotations.
Local Open Scope R_scope.

(** ** The error function *)
Lemma gE_lim : forall e, 0 < e -> exists M, 0 < M /\ forall x, M < x -> Rabs (gE x - sqrt PI / 2) < e.
Proof.
  pose proof PI_RGT_0 as HP. assert (S0 : 0 < sqrt PI) by (apply sqrt_lt_R0; auto). assert (SS : sqrt PI * sqrt PI = PI) by (apply sqrt_sqrt; lra).
  intros e He. destruct (gauss_small (fun _ => 1) (e * (sqrt PI / 2)) (subexp_const 1)) as (M & HM & HL); [nra|]. exists M. split; auto. intros x Hx. specialize (HL x ltac:(rewrite Rabs_pos_eq; lra)).
  rewrite Rmult_1_l, Rabs_pos_eq in HL by (left; apply exp_pos). pose proof (gK x). pose proof (gG_bound x). pose proof (gE_pos x ltac:(lra)).
  assert (Q : (sqrt PI / 2 - gE x) * (sqrt PI / 2 + gE x) = gG x) by nra. assert (0 <= sqrt PI / 2 - gE x) by nra. rewrite Rabs_left1 by lra. nra.
Qed.
Lemma spi : 0 < sqrt PI.
Proof. apply sqrt_lt_R0, PI_RGT_0. Qed.
Lemma gE_0 : gE 0 = 0.
Proof. pose proof (gE_odd 0) as H. rewrite Ropp_0 in H. lra. Qed.
(** there is an error function *)
Theorem erf_exists : is_erf (fun x => 2 / sqrt PI * gE x).
Proof.
  split; [rewrite gE_0; ring|]. intros x. apply is_derive_Reals. apply (is_derive_scal gE x (2 / sqrt PI)). apply gE_deriv.
Qed.
Lemma erf_eq : forall e, is_erf e -> forall x, e x = 2 / sqrt PI * gE x.
Proof.
  intros e (E0 & ED) x. destruct erf_exists as (G0 & GD). set (g := fun x => 2 / sqrt PI * gE x) in *. change (g 0 = 0) in G0. change (e x = g x).
  assert (D : forall t, derivable_pt_lim (fun t => e t - g t) t ((fun _ => 0) t)).
  { intros t. replace ((fun _ : R => 0) t) with (2 / sqrt PI * exp (- t * t) - 2 / sqrt PI * exp (- t * t)) by (cbv beta; ring). apply derivable_pt_lim_minus; auto. }
  destruct (Rtotal_order 0 x) as [L|[<-|L]]; [|lra|].
  - destruct (MVT_cor2 _ _ 0 x L (fun c _ => D c)) as (c & H & _). cbv beta in H. lra.
  - destruct (MVT_cor2 _ _ x 0 L (fun c _ => D c)) as (c & H & _). cbv beta in H. lra.
Qed.
Lemma erf_odd : forall e, is_erf e -> forall x, e (- x) = - e x.
Proof. intros e H x. rewrite !(erf_eq e H), gE_odd. ring. Qed.
Lemma erf_lim : forall e, is_erf e -> forall ep, 0 < ep -> exists M, 0 < M /\ forall x, M < x -> Rabs (e x - 1) < ep.
Proof.
  intros e H ep He. pose proof spi as S. destruct (gE_lim (ep * (sqrt PI / 2))) as (M & HM & HL); [apply Rmult_lt_0_compat; lra|]. exists M. split; auto. intros x Hx. specialize (HL x Hx).
  rewrite (erf_eq e H). replace (2 / sqrt PI * gE x - 1) with ((gE x - sqrt PI / 2) * (2 / sqrt PI)) by (field; lra). assert (0 < 2 / sqrt PI) by (apply Rdiv_lt_0_compat; lra).
  rewrite Rabs_mult, (Rabs_pos_eq (2 / sqrt PI)) by lra. apply (Rmult_lt_compat_r (2 / sqrt PI)) in HL; auto. replace (ep * (sqrt PI / 2) * (2 / sqrt PI)) with ep in HL by (field; lra). auto.
Qed.
Lemma erf_comp : forall e g (x : R) g', is_erf e -> is_derive g x g' -> is_derive (fun x => e (g x)) x (g' * (2 / sqrt PI * exp (- g x * g x))).
Proof. intros e g x g' (_ & H) Hg. apply (is_derive_comp e g x (2 / sqrt PI * exp (- g x * g x)) g'); auto. apply is_derive_Reals, H. Qed.

Section Z.
Variables (mu sigma : R) (Hs : 0 < sigma).
Definition zz (y : R) : R := (y - mu) / (sigma * sqrt 2).
Definition phi (y : R) : R := exp (- (1 / 2) * ((y - mu) / sigma) * ((y - mu) / sigma)) / (sigma * sqrt (2 * PI)).
Definition Phi (e : R -> R) (y : R) : R := 1 / 2 * (1 + e (zz y)).
Lemma s2 : 0 < sqrt 2.
Proof. apply sqrt_lt_R0; lra. Qed.
Lemma s2s : sqrt 2 * sqrt 2 = 2.
Proof. apply sqrt_sqrt; lra. Qed.
Lemma ss2 : 0 < sigma * sqrt 2.
Proof. apply Rmult_lt_0_compat; auto. apply s2. Qed.
Lemma zz2 : forall y, - zz y * zz y = - (1 / 2) * ((y - mu) / sigma) * ((y - mu) / sigma).
Proof. intros y. unfold zz. pose proof s2. pose proof s2s. replace (1 / 2) with (1 / (sqrt 2 * sqrt 2)) by (rewrite s2s; auto). field. lra. Qed.
Lemma phi_z : forall y, phi y = exp (- zz y * zz y) / (sigma * (sqrt 2 * sqrt PI)).
Proof. intros y. unfold phi. rewrite zz2, sqrt_mult by (try lra; left; apply PI_RGT_0). auto. Qed.
Lemma phi_pos : forall y, 0 < phi y.
Proof. intros y. rewrite phi_z. apply Rdiv_lt_0_compat; [apply exp_pos|]. pose proof spi. pose proof s2. repeat apply Rmult_lt_0_compat; auto. Qed.
Lemma zz_hi : forall M y, mu + M * (sigma * sqrt 2) < y -> M < zz y.
Proof. intros M y H. pose proof ss2. unfold zz. apply (Rmult_lt_reg_r (sigma * sqrt 2)); auto. replace ((y - mu) / (sigma * sqrt 2) * (sigma * sqrt 2)) with (y - mu) by (field; pose proof s2; lra). lra. Qed.
Lemma zz_lo : forall M y, y < mu - M * (sigma * sqrt 2) -> M < - zz y.
Proof. intros M y H. pose proof ss2. unfold zz. apply (Rmult_lt_reg_r (sigma * sqrt 2)); auto. replace (- ((y - mu) / (sigma * sqrt 2)) * (sigma * sqrt 2)) with (mu - y) by (field; pose proof s2; lra). lra. Qed.
Lemma Phi_comp : forall e g (x : R) g', is_erf e -> is_derive g x g' -> is_derive (fun x => Phi e (g x)) x (g' * phi (g x)).
Proof.
  intros e g x g' He Hg. pose proof ss2. pose proof s2. pose proof spi.
  assert (D : is_derive (fun x => zz (g x)) x (g' / (sigma * sqrt 2))).
  { unfold zz. pose proof (is_derive_unique g x g' Hg) as U. auto_derive; [repeat split; try lra; exists g'; auto|]. replace (Derive (fun x0 : R => g x0) x) with g' by (symmetry; exact U). field. lra. }
  pose proof (erf_comp e _ x _ He D) as Q. cbv beta in Q. rewrite phi_z.
  replace (g' * (exp (- zz (g x) * zz (g x)) / (sigma * (sqrt 2 * sqrt PI)))) with (1 / 2 * (g' / (sigma * sqrt 2) * (2 / sqrt PI * exp (- zz (g x) * zz (g x))))) by (field; lra).
  unfold Phi. apply (is_derive_scal (fun x => 1 + e (zz (g x)))). 
  replace (g' / (sigma * sqrt 2) * (2 / sqrt PI * exp (- zz (g x) * zz (g x)))) with (0 + g' / (sigma * sqrt 2) * (2 / sqrt PI * exp (- zz (g x) * zz (g x)))) by ring.
  apply (is_derive_plus (fun _ => 1) (fun x => e (zz (g x)))); [apply (is_derive_const 1)|exact Q].
Qed.
Lemma Phi_hi : forall e ep, is_erf e -> 0 < ep -> exists M, forall y, M < y -> Rabs (Phi e y - 1) < ep.
Proof.
  intros e ep He Hp. destruct (erf_lim e He (2 * ep)) as (M & HM & HL); [lra|]. exists (mu + M * (sigma * sqrt 2)). intros y Hy. apply zz_hi in Hy. specialize (HL _ Hy).
  unfold Phi. apply Rabs_def2 in HL. apply Rabs_def1; lra.
Qed.
Lemma Phi_lo : forall e ep, is_erf e -> 0 < ep -> exists M, forall y, y < M -> Rabs (Phi e y - 0) < ep.
Proof.
  intros e ep He Hp. destruct (erf_lim e He (2 * ep)) as (M & HM & HL); [lra|]. exists (mu - M * (sigma * sqrt 2)). intros y Hy. apply zz_lo in Hy. specialize (HL _ Hy).
  rewrite (erf_odd e He) in HL. unfold Phi. apply Rabs_def2 in HL. apply Rabs_def1; lra.
Qed.
Lemma decay : forall h ep, subexp h -> 0 < ep -> exists M, 0 < M /\ forall y, mu + M < y \/ y < mu - M -> Rabs (h (zz y) * exp (- zz y * zz y)) < ep.
Proof.
  intros h ep Hh He. destruct (gauss_small h ep Hh He) as (M & HM & HL). pose proof ss2. exists (M * (sigma * sqrt 2)). split; [apply Rmult_lt_0_compat; auto|]. intros y [Hy|Hy]; apply HL.
  - apply zz_hi in Hy. rewrite Rabs_pos_eq; lra.
  - apply zz_lo in Hy. rewrite Rabs_left; lra.
Qed.
(** the derivative of h(z) exp(-z^2) has integral 0 *)
Lemma decay_integral : forall h f, subexp h -> (forall y, is_derive (fun y => h (zz y) * exp (- zz y * zz y)) y (f y)) -> integral NegInf PosInf f 0.
Proof.
  intros h f Hh D. exists (fun y => h (zz y) * exp (- zz y * zz y)), 0, 0. split; [intros y _; apply is_derive_Reals, D|]. split; [|split; [|ring]]; intros ep He; destruct (decay h ep Hh He) as (M & HM & HL).
  - exists (mu - M). intros y Hy. rewrite Rminus_0_r. apply HL. auto.
  - exists (mu + M). intros y Hy. rewrite Rminus_0_r. apply HL. auto.
Qed.
Lemma phi_int : forall e, is_erf e -> integral NegInf PosInf phi 1.
Proof.
  intros e He. exists (Phi e), 0, 1. split; [intros y _; apply is_derive_Reals; rewrite <- (Rmult_1_l (phi y)); apply (Phi_comp e (fun y => y) y 1 He); apply (is_derive_id y)|].
  split; [|split; [|ring]]; intros ep Hp; [apply Phi_lo|apply Phi_hi]; auto.
Qed.
Lemma phi_int1 : integral NegInf PosInf (fun y => (y - mu) * phi y) 0.
Proof.
  pose proof ss2. pose proof s2. pose proof spi. set (c := - sigma * sigma * (sqrt 2 * sqrt 2) / 2 / (sigma * (sqrt 2 * sqrt PI))).
  apply (decay_integral (fun _ => c)); [apply subexp_const|]. intros y. rewrite phi_z. unfold zz. auto_derive; [repeat split; lra|].
  change ((y + - mu) * / (sigma * sqrt 2)) with ((y - mu) / (sigma * sqrt 2)). set (E := exp _). unfold c. field. lra.
Qed.
Lemma phi_int2 : integral NegInf PosInf (fun y => (y - mu) ^ 2 * phi y - sigma * sigma * phi y) 0.
Proof.
  pose proof ss2. pose proof s2. pose proof spi. set (c := - sigma * sigma * (sqrt 2 * sqrt 2) / 2 * (sigma * sqrt 2) / (sigma * (sqrt 2 * sqrt PI))).
  apply (decay_integral (fun z => c * z)); [apply (subexp_mul (fun _ => c) (fun z => z)); [apply subexp_const|apply subexp_id]|]. intros y. rewrite phi_z. unfold zz. auto_derive; [repeat split; lra|].
  change ((y + - mu) * / (sigma * sqrt 2)) with ((y - mu) / (sigma * sqrt 2)). set (E := exp _).
  replace (sigma * sigma * (E / (sigma * (sqrt 2 * sqrt PI)))) with (sigma * sigma * ((sqrt 2 * sqrt 2) / 2) * (E / (sigma * (sqrt 2 * sqrt PI)))) by (rewrite s2s; field; lra).
  unfold c. field. lra.
Qed.
End Z.

(** ** The rational approximation of the quantile function is odd about 1/2 *)
Lemma probit_half : forall e, probit (Rf e) (1 / 2) = 0.
Proof.
  intros e. unfold probit. dnum.
  destruct (Rltb_spec (1 / 2) (IZR 2425 / IZR (10 ^ 5))) as [H|H]; [change (10 ^ 5)%Z with 100000%Z in H; lra|].
  destruct (Rltb_spec (1 - IZR 2425 / IZR (10 ^ 5)) (1 / 2)) as [H'|H']; [change (10 ^ 5)%Z with 100000%Z in H'; lra|]. cbn [negb]. unfold Rdiv at 1.
  replace (1 / 2 - 1 / 2) with 0 by ring. rewrite Rmult_0_r at 1. ring.
Qed.
Ltac e10 := change (10 ^ 5)%Z with 100000%Z in *.
Lemma probit_sym : forall e p, 0 < p < 1 -> probit (Rf e) (1 - p) = - probit (Rf e) p.
Proof.
  intros e p Hp. unfold probit. dnum. e10. replace (1 - (1 - p)) with p by ring. replace (1 - p - 1 / 2) with (- (p - 1 / 2)) by field. rewrite Rmult_opp_opp.
  rdec; unfold Rdiv; ring.
Qed.
Lemma hstep : forall v q c, 0 <= v -> 0 <= q -> 0 < c -> 0 < v * q + c.
Proof. intros. assert (0 <= v * q) by (apply Rmult_le_pos; auto). lra. Qed.
(** the denominators of the approximation do not vanish *)
Lemma probit_den : forall e, (forall q, 0 <= q -> 0 < nest (Rf e) (cd (Rf e)) q) /\ (forall p, 2425 / 100000 <= p <= 1 - 2425 / 100000 -> 0 < nest (Rf e) (cb (Rf e)) ((p - 1 / 2) * (p - 1 / 2))).
Proof.
  intros e. split.
  - intros q Hq. unfold nest, cd. cbn [fold_left]. dnum. repeat (apply hstep; [first [apply Rle_refl|apply Rlt_le]|auto|try lra; apply Rdiv_lt_0_compat; apply IZR_lt; reflexivity]).
  - intros p Hp. set (r := (p - 1 / 2) * (p - 1 / 2)). assert (Hr : r <= 2263380625 / 10000000000) by (unfold r; nra). clearbody r. clear Hp p.
    unfold nest, cb. cbn [fold_left]. dnum. set (t := 2263380625 / 10000000000 - r). assert (0 <= t) by (unfold t; lra). replace r with (2263380625 / 10000000000 - t) by (unfold t; ring). clearbody t. clear Hr r.
    assert (0 <= t ^ 2) by (apply pow_le; auto). assert (0 <= t ^ 3) by (apply pow_le; auto). assert (0 <= t ^ 4) by (apply pow_le; auto). assert (0 <= t ^ 5) by (apply pow_le; auto).
    change (10 ^ 14)%Z with 100000000000000%Z. change (10 ^ 13)%Z with 10000000000000%Z. lra.
Qed.

Theorem C91_normal : forall e mu sigma, is_erf e ->
  (sigma <= 0 -> NormalDistribution (Rf e) mu sigma = Throw DomainError) /\
  (0 < sigma -> exists d, NormalDistribution (Rf e) mu sigma = Ok d /\ distribution NegInf PosInf d /\ moments NegInf PosInf d /\
    (forall x, d_pdf d (2 * mu - x) = d_pdf d x) /\ d_cdf d mu = Ok (1 / 2) /\
    (forall p, p <= 0 \/ 1 <= p -> d_inv d p = Throw DomainError) /\ d_inv d (1 / 2) = Ok (Fin mu) /\
    (forall p, 0 < p < 1 -> exists x, d_inv d p = Ok (Fin x) /\ d_inv d (1 - p) = Ok (Fin (2 * mu - x)))).
Proof.
  intros e mu sigma He. unfold NormalDistribution. dnum. split; [intros; rdec; auto|]. intros Hs. destruct (Rltb_spec 0 sigma); [|lra]. cbn [negb]. eexists. split; [reflexivity|]. repeat split.
  - apply (dist_intro _ _ _ (phi mu sigma) (Phi mu sigma e)). split; [|split].
    + intros x _. dnum. split; [reflexivity|]. split; [reflexivity|]. split; [apply phi_pos; auto|]. apply is_derive_Reals. rewrite <- (Rmult_1_l (phi mu sigma x)).
      apply (Phi_comp mu sigma Hs e (fun y => y) x 1 He). apply (is_derive_id x).
    + intros ep Hp. apply Phi_lo; auto.
    + intros ep Hp. apply Phi_hi; auto.
  - exists (phi mu sigma), mu, (sigma * sigma). dnum. split; [reflexivity|]. split; [reflexivity|]. split; [reflexivity|]. pose proof (phi_int mu sigma Hs e He) as I0. split.
    + apply (integral_ext _ _ (fun x => 1 * ((x - mu) * phi mu sigma x) + mu * phi mu sigma x) _ (1 * 0 + mu * 1)); [intros; ring|ring|]. apply integral_lin; auto. apply phi_int1; auto.
    + apply (integral_ext _ _ (fun x => 1 * ((x - mu) ^ 2 * phi mu sigma x - sigma * sigma * phi mu sigma x) + sigma * sigma * phi mu sigma x) _ (1 * 0 + sigma * sigma * 1)); [intros; ring|ring|]. apply integral_lin; auto. apply phi_int2; auto.
  - intros x. dnum. do 3 f_equal. field. lra.
  - dnum. replace ((mu - mu) / (sigma * sqrt 2)) with 0 by (unfold Rdiv; ring). rewrite (proj1 He). f_equal. field.
  - intros p Hp. dcase.
  - dcase. rewrite probit_half. do 2 f_equal. ring.
  - intros p Hp. dnum. exists (mu + sigma * probit (Rf e) p). split; [rdec; reflexivity|]. rewrite probit_sym by auto. rdec. do 2 f_equal. ring.
Qed.
Print Assumptions C91_normal.

(** ** Log-normal *)
Theorem C91_lognormal : forall e mu sigma, is_erf e ->
  (sigma <= 0 -> LogNormalDistribution (Rf e) mu sigma = Throw DomainError) /\
  (0 < sigma -> exists d, LogNormalDistribution (Rf e) mu sigma = Ok d /\ distribution (Fin 0) PosInf d /\ moments (Fin 0) PosInf d /\
    (forall x, x <= 0 -> d_pdf d x = Ok 0 /\ d_cdf d x = Ok 0) /\ d_cdf d (exp mu) = Ok (1 / 2) /\
    (forall p, p <= 0 -> d_inv d p = Ok (Fin 0)) /\ (forall p, 1 <= p -> d_inv d p = Ok PosInf) /\ d_inv d (1 / 2) = Ok (Fin (exp mu)) /\
    (forall p, 0 < p < 1 -> exists x, 0 < x /\ d_inv d p = Ok (Fin x) /\ d_inv d (1 - p) = Ok (Fin (exp (2 * mu) / x)))).
Proof.
  intros e mu sigma He. unfold LogNormalDistribution. dnum. split; [intros; rdec; auto|]. intros Hs. destruct (Rltb_spec 0 sigma); [|lra]. cbn [negb]. eexists. split; [reflexivity|].
  set (f := fun m x => phi m sigma (ln x) / x).
  assert (DP : forall m x, 0 < x -> derivable_pt_lim (fun x => Phi m sigma e (ln x)) x (f m x)).
  { intros m x Hx. apply is_derive_Reals. unfold f. replace (phi m sigma (ln x) / x) with (/ x * phi m sigma (ln x)) by (unfold Rdiv; ring). apply (Phi_comp m sigma Hs e ln x (/ x) He). apply is_derive_Reals, derivable_pt_lim_ln; auto. }
  assert (LO : forall m ep, 0 < ep -> near_lo (Fin 0) (fun x => Rabs (Phi m sigma e (ln x) - 0) < ep)).
  { intros m ep Hp. destruct (Phi_lo m sigma Hs e ep He Hp) as (M & HL). exists (exp M). split; [apply exp_pos|]. intros x Hx. apply HL. rewrite <- (ln_exp M). apply ln_increasing; lra. }
  assert (HI : forall m ep, 0 < ep -> near_hi PosInf (fun x => Rabs (Phi m sigma e (ln x) - 1) < ep)).
  { intros m ep Hp. destruct (Phi_hi m sigma Hs e ep He Hp) as (M & HL). exists (exp M). intros x Hx. apply HL. rewrite <- (ln_exp M). apply ln_increasing; [apply exp_pos|lra]. }
  assert (I0 : forall m, integral (Fin 0) PosInf (f m) 1).
  { intros m. exists (fun x => Phi m sigma e (ln x)), 0, 1. split; [intros x [X _]; apply DP; exact X|]. split; [auto|split; [auto|ring]]. }
  assert (K : forall k x, 0 < x -> exp (k * mu + k * k * (sigma * sigma) / 2) * f (mu + k * (sigma * sigma)) x = exp (k * ln x) * f mu x).
  { intros k x Hx. unfold f, phi, Rdiv. rewrite <- !Rmult_assoc, <- !exp_plus. do 2 f_equal. f_equal. field. lra. }
  assert (E2 : forall x, 0 < x -> exp (2 * ln x) = x * x) by (intros x Hx; replace (2 * ln x) with (ln x + ln x) by ring; rewrite exp_plus, exp_ln; auto).
  assert (PDF : forall x, 0 < x -> exp (- (1 / 2) * ((ln x - mu) / sigma) * ((ln x - mu) / sigma)) / (x * sigma * sqrt (2 * PI)) = f mu x).
  { intros x Hx. unfold f, phi. assert (0 < sqrt (2 * PI)) by (apply sqrt_lt_R0; pose proof PI_RGT_0; lra). field. lra. }
  set (m := exp (mu + 1 / 2 * sigma * sigma)).
  assert (J1 : integral (Fin 0) PosInf (fun x => x * f mu x) m).
  { apply (integral_ext _ _ (fun x => exp (1 * mu + 1 * 1 * (sigma * sigma) / 2) * f (mu + 1 * (sigma * sigma)) x) _ (exp (1 * mu + 1 * 1 * (sigma * sigma) / 2) * 1)).
    - intros x [X _]. cbn in X. rewrite K by auto. rewrite Rmult_1_l, exp_ln; auto.
    - unfold m. rewrite Rmult_1_r. f_equal. field.
    - apply integral_scal. auto. }
  assert (J2 : integral (Fin 0) PosInf (fun x => x * x * f mu x) (exp (2 * mu + 2 * (sigma * sigma)))).
  { apply (integral_ext _ _ (fun x => exp (2 * mu + 2 * 2 * (sigma * sigma) / 2) * f (mu + 2 * (sigma * sigma)) x) _ (exp (2 * mu + 2 * 2 * (sigma * sigma) / 2) * 1)).
    - intros x [X _]. cbn in X. rewrite K by auto. rewrite E2; auto.
    - rewrite Rmult_1_r. f_equal. field.
    - apply integral_scal. auto. }
  repeat split.
  - apply (dist_intro _ _ _ (f mu) (fun x => Phi mu sigma e (ln x))). split; [|split; auto].
    intros x [X _]. cbn in X. dnum. rdec. rewrite PDF by auto. split; [reflexivity|]. split; [reflexivity|]. split; [apply Rdiv_lt_0_compat; auto; apply phi_pos; auto|]. apply DP; auto.
  - exists (f mu), m, (exp (2 * mu + sigma * sigma) * (exp (sigma * sigma) - 1)). dnum. split; [intros x [X _]; cbn in X; rdec; rewrite PDF; auto|]. split; [reflexivity|]. split; [reflexivity|]. split; [auto|].
    apply (integral_ext _ _ (fun x => 1 * (1 * (x * x * f mu x) + - 2 * m * (x * f mu x)) + m * m * f mu x) _ (1 * (1 * exp (2 * mu + 2 * (sigma * sigma)) + - 2 * m * m) + m * m * 1)).
    + intros x _. ring.
    + assert (m * m = exp (2 * mu + sigma * sigma)) by (unfold m; rewrite <- exp_plus; f_equal; field).
      replace (exp (2 * mu + 2 * (sigma * sigma))) with (exp (2 * mu + sigma * sigma) * exp (sigma * sigma)) by (rewrite <- exp_plus; f_equal; ring). rewrite <- H. ring.
    + apply integral_lin; auto. apply integral_lin; auto.
  - dcase.
  - dcase.
  - dnum. pose proof (exp_pos mu). rdec. rewrite ln_exp. replace ((mu - mu) / (sigma * sqrt 2)) with 0 by (unfold Rdiv; ring). rewrite (proj1 He). f_equal. field.
  - intros p Hp. dcase.
  - intros p Hp. dcase.
  - dcase. rewrite probit_half. do 2 f_equal. f_equal. ring.
  - intros p Hp. dnum. exists (exp (mu + sigma * probit (Rf e) p)). split; [apply exp_pos|]. split; [rdec; reflexivity|]. rewrite probit_sym by auto. rdec. do 2 f_equal.
    unfold Rdiv. rewrite <- exp_Ropp, <- exp_plus. f_equal. ring.
Qed.
Print Assumptions C91_lognormal.

(** The quantile formula of the normal distribution never divides by zero: the two denominators are positive where they are used. *)
Theorem C91_normal_quantile_defined : forall e,
  (forall q, 0 <= q -> 0 < nest (Rf e) (cd (Rf e)) q) /\ (forall p, 2425 / 100000 <= p <= 1 - 2425 / 100000 -> 0 < nest (Rf e) (cb (Rf e)) ((p - 1 / 2) * (p - 1 / 2))).
Proof. exact probit_den. Qed.
Print Assumptions C91_normal_quantile_defined.
(** the hypotheses are met: an error function exists *)
Example C91_normal_example : is_erf (fun x => 2 / sqrt PI * gE x) /\ exists d, NormalDistribution (Rf (fun x => 2 / sqrt PI * gE x)) 1 2 = Ok d /\ d_mean d = Ok 1 /\ d_var d = Ok 4 /\ d_cdf d 1 = Ok (1 / 2).
Proof.
  split; [apply erf_exists|]. destruct (C91_normal _ 1 2 erf_exists) as (_ & H). destruct (H ltac:(lra)) as (d & E & _ & _ & _ & C & _). exists d. split; auto.
  unfold NormalDistribution in E. revert E. dnum. rdec. intros E. injection E as <-. dnum. repeat split; auto; f_equal; lra.
Qed.
Example C91_lognormal_example : exists d, LogNormalDistribution (Rf (fun x => 2 / sqrt PI * gE x)) 0 1 = Ok d /\ d_cdf d 1 = Ok (1 / 2) /\ d_inv d (1 / 2) = Ok (Fin 1).
Proof.
  destruct (C91_lognormal _ 0 1 erf_exists) as (_ & H). destruct (H ltac:(lra)) as (d & E & _ & _ & _ & C & _ & _ & I & _). exists d. rewrite exp_0 in *. auto.
Qed.
