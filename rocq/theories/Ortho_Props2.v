(** * C90: gamma at integers, associated Legendre and Laguerre functions, zeros and extrema, coefficients of an expansion *)

From Coq Require Import List Arith ZArith Reals Lia Lra Psatz.
From Verif Require Import Base Num RootFind_Model RootFind_Proofs Fourier_Model Fourier_Spec Fourier_Props Interp_Linear Interp_Bary Cheb_Spec Cheb_Math
  Integ_Model Integ_Spec Integ_Props Ortho_Model Ortho_Spec Ortho_Math Ortho_Fam Ortho_Gauss Ortho_Cheb Ortho_Loops Ortho_Props.
Import ListNotations.
Local Open Scope R_scope.

(** ** What the gamma function has to be, and that it is so at the integers *)
Theorem C90_gamma : forall s g, 0 < s -> gamma_at s g -> gamma_at (s + 1) (s * g).
Proof.
  intros s g Hs Hg. unfold gamma_at in *. set (al := s - 1) in *. assert (Hal : -1 < al) by (unfold al; lra).
  pose proof (lag_base al Hal g Hg 1%nat) as B. cbn [Nat.eqb] in B. pose proof (integral_lin _ _ _ _ _ _ s (-1) Hg B) as I1. eapply integral_ext; [| |exact I1]; [|ring].
  intros x [Hx _]. cbv beta. replace (s + 1 - 1) with (al + 1) by (unfold al; ring). rewrite Rpower_plus, Rpower_1 by auto. cbn. unfold ga, gb. cbn. replace s with (al + 1) by (unfold al; ring). field.
Qed.
Print Assumptions C90_gamma.
Example C90_gamma_integers : forall k, gamma_at (INR k + 1) (INR (fact k)).
Proof.
  induction k as [|k IH].
  - unfold gamma_at. apply (integral_ext _ _ (fun x => exp (- x)) _ 1); auto; [|apply exp_integral]. intros x [Hx _]. cbn [INR]. replace (0 + 1 - 1) with 0 by ring. rewrite Rpower_O by auto. ring.
  - rewrite fact_simpl, mult_INR, S_INR. pose proof (pos_INR k). apply C90_gamma; [lra|exact IH].
Qed.
(** the hypothesis of [C90_assoc_laguerre] is met by alpha = 2 *)
Example C90_assoc_laguerre_example : orthogonal (AssociatedLaguerreBasis Rtrig exp (fun _ => 2) Rpower 2).
Proof.
  apply C90_assoc_laguerre.
  - unfold assoc_laguerre_new. cbn [tar Rtrig]. rnum. destruct (Rltb_spec (Ropp 1) 2); [reflexivity|lra].
  - pose proof (C90_gamma_integers 2) as G. cbn in G. replace (1 + 1) with 2 in G by ring. exact G.
Qed.
(** from the statement alone: the integral of P_2^2 is 2/5 *)
Example C90_legendre_example : exists p, (forall x, b_eval (LegendreBasis Rtrig) 2%Z x = Ok (p x)) /\ p 1 = 1 /\ integral (Fin (-1)) (Fin 1) (fun x => p x * p x * 1) (2 / 5).
Proof.
  destruct (C90_legendre 2%Z 2%Z ltac:(lia) ltac:(lia)) as (p & q & h & Hp & Hq & Hh & _ & HI). exists p. split; auto. split.
  - specialize (Hp 1). cbn in Hp. injection Hp as <-. field.
  - cbn in Hh. injection Hh as Hh. cbn [Z.eqb Pos.eqb] in HI. eapply integral_ext; [| |exact HI].
    + intros x _. cbv beta. specialize (Hp x). rewrite Hq in Hp. injection Hp as ->. reflexivity.
    + rewrite <- Hh. field.
Qed.

(** ** Associated functions *)
(** AssocLegendre(l, m, x) = (-1)^m (1 - x^2)^(m/2) P_l^(m)(x) *)
Theorem C90_assoc_legendre : forall l m, exists D, all_derivatives (Legendre Rtrig l) D /\ forall x, -1 <= x <= 1 -> AssocLegendre Rtrig l m x = (-1) ^ m * sqrt (1 - x * x) ^ m * D m x.
Proof.
  intros l m. exists (fun k => dtt la zero_c lc k l). split.
  - destruct (ttr_all la zero_c lc l) as [H1 H2]. split; auto. intros x. rewrite Legendre_ttr. apply H1.
  - intros x _. apply AssocLegendre_val.
Qed.
Print Assumptions C90_assoc_legendre.
Example C90_assoc_legendre_example : AssocLegendre Rtrig 2 1 (3 / 5) = - (36 / 25) /\ sqrt (1 - 3 / 5 * (3 / 5)) = 4 / 5.
Proof.
  assert (E : sqrt (1 - 3 / 5 * (3 / 5)) = 4 / 5) by (replace (1 - 3 / 5 * (3 / 5)) with (4 / 5 * (4 / 5)) by field; apply sqrt_square; lra). split; auto. rewrite AssocLegendre_val. rewrite E. cbn. unfold la, lc, zero_c. cbn. field.
Qed.
(** The standard's assoc_legendre, which the same name calls on other platforms, has no factor (-1)^m; the fallback, said to provide
    the same interface, differs from it in sign for odd m. *)
Theorem C90_phase_refuted : ~ (forall l m, exists D, all_derivatives (Legendre Rtrig l) D /\ forall x, -1 <= x <= 1 -> AssocLegendre Rtrig l m x = sqrt (1 - x * x) ^ m * D m x).
Proof.
  intros H. destruct (H 1%nat 1%nat) as (D & [H0 H1] & HA). specialize (HA 0 ltac:(lra)). rewrite AssocLegendre_val in HA. replace (1 - 0 * 0) with 1 in HA by ring. rewrite sqrt_1 in HA. cbn in HA. unfold la in HA. cbn in HA.
  assert (E : D 1%nat 0 = 1). { pose proof (H1 0%nat 0) as D1. apply (uniqueness_limite (D 0%nat) 0); auto. intros eps He. destruct (derivable_pt_lim_id 0 eps He) as [d Hd]. exists d. intros h Hh1 Hh2. specialize (Hd h Hh1 Hh2). unfold id in Hd. rewrite !H0. cbn. exact Hd. }
  rewrite E in HA. lra.
Qed.
Print Assumptions C90_phase_refuted.
Theorem C90_assoc_laguerre_integer : forall n m x, AssocLaguerre Rtrig n m x = assoc_laguerre_value Rtrig (INR m) n x.
Proof. intros. rewrite AssocLaguerre_int, AssocLaguerre_ttr. reflexivity. Qed.
Print Assumptions C90_assoc_laguerre_integer.
Example C90_assoc_laguerre_integer_example : AssocLaguerre Rtrig 2 1 1 = 1 / 2. Proof. cbn. field. Qed.
Lemma ratio_val : forall s k, fold_left (fun r i => r / IZR (Z.of_nat i)) (seq (s + 1) k) 1 = INR (fact s) / INR (fact (s + k)).
Proof.
  intros s k. induction k as [|k IH]; [cbn; rewrite Nat.add_0_r; field; apply INR_fact_neq_0|]. rewrite seq_S, fold_left_app, IH. cbn [fold_left]. replace (s + S k)%nat with (S (s + k)) by lia. replace (s + 1 + k)%nat with (S (s + k)) by lia.
  rewrite izr, fact_simpl, mult_INR. field. split; first [apply INR_fact_neq_0|apply not_0_INR; lia].
Qed.
(** SphLegendre is the normalised function of the angle *)
Theorem C90_spherical : forall l m theta, (m <= l)%nat ->
  SphLegendre Rtrig l m theta = sqrt ((2 * INR l + 1) / (4 * PI) * (INR (fact (l - m)) / INR (fact (l + m)))) * AssocLegendre Rtrig l m (cos theta).
Proof.
  intros l m theta H. unfold SphLegendre. tnum. rewrite ratio_val, izr. replace (l - m + 2 * m)%nat with (l + m)%nat by lia. reflexivity.
Qed.
Print Assumptions C90_spherical.
Example C90_spherical_example : SphLegendre Rtrig 1 1 (PI / 2) = - sqrt (3 / (8 * PI)).
Proof.
  rewrite C90_spherical, cos_PI2, AssocLegendre_val by lia. pose proof PI_RGT_0. replace (1 - 0 * 0) with 1 by ring. rewrite sqrt_1. cbn. unfold la. cbn. match goal with |- sqrt ?a * _ = _ => replace a with (3 / (8 * PI)) by (field; lra) end. field.
Qed.
(** AssociatedLegendreBasis(m).Evaluate(l, x), documented as P_l^m(x), is the spherical function of the ANGLE x instead: for m = 0,
    l = 1 and x = 0 it is not P_1(0) = 0. *)
Theorem C90_assoc_basis_refuted : exists m l x v, assoc_legendre_new (Z.of_nat m) = Ok m /\ assoc_legendre_eval Rtrig m (Z.of_nat l) x = Ok v /\ v <> AssocLegendre Rtrig l m x.
Proof.
  exists 0%nat, 1%nat, 0, (SphLegendre Rtrig 1 0 0). split; [reflexivity|split; [reflexivity|]]. rewrite C90_spherical by lia. rewrite cos_0, !AssocLegendre_val. cbn. unfold la, zero_c. cbn. pose proof PI_RGT_0.
  match goal with |- sqrt ?a * _ <> _ => assert (0 < sqrt a) as P1 by (apply sqrt_lt_R0; apply Rmult_lt_0_compat; [apply Rdiv_lt_0_compat; lra|apply Rdiv_lt_0_compat; lra]); set (s := sqrt a) in * end.
  intros E. replace (s * (1 * 1 * ((2 * 0 + 1) / (0 + 1) * 1 + 0 * 1))) with s in E by field. match type of E with _ = ?r => replace r with 0 in E by field end. lra.
Qed.
Print Assumptions C90_assoc_basis_refuted.

(** ** Zeros and extrema of the Chebyshev polynomials *)
Lemma nth_map_seq : forall (f : nat -> R) s n i, (i < n)%nat -> nth i (map f (seq s n)) 0 = f (s + i)%nat.
Proof. intros f s n i Hi. rewrite (nth_indep _ 0 (f 0%nat)) by (rewrite map_length, seq_length; auto). rewrite map_nth, seq_nth by auto. reflexivity. Qed.
Lemma cos_kPI : forall k, cos (INR k * PI) = (-1) ^ k.
Proof. induction k as [|k IH]; [cbn; rewrite Rmult_0_l; apply cos_0|]. rewrite S_INR. replace ((INR k + 1) * PI) with (INR k * PI + PI) by ring. rewrite neg_cos, IH. cbn. ring. Qed.
Lemma evalT : forall n x, (0 <= n)%Z -> b_eval (ChebyshevBasis Rtrig) n x = Ok (cT (Z.to_nat n) x).
Proof. intros n x H. cbn [b_eval ChebyshevBasis]. unfold nonneg. destruct (Z.ltb_spec n 0); [lia|]. rewrite ChebT_ttr, ttr_T. reflexivity. Qed.
Lemma evalU : forall n x, (0 <= n)%Z -> b_eval (ChebyshevBasisSecondKind Rtrig) n x = Ok (cU (Z.to_nat n) x).
Proof. intros n x H. cbn [b_eval ChebyshevBasisSecondKind]. unfold nonneg. destruct (Z.ltb_spec n 0); [lia|]. rewrite ChebU_ttr, ttr_U. reflexivity. Qed.
(** angles spread over (0, pi) have decreasing cosines in (-1, 1) *)
Lemma cos_spread : forall f n, (forall i, (i < n)%nat -> 0 < f i < PI) -> (forall i j, (i < j < n)%nat -> f i < f j) -> forall i j, (i < j < n)%nat -> cos (f j) < cos (f i).
Proof. intros f n Hb Hm i j H. pose proof (Hb i ltac:(lia)). pose proof (Hb j ltac:(lia)). pose proof (Hm i j H). apply cos_decreasing_1; lra. Qed.
Lemma cos_inside : forall t, 0 < t < PI -> -1 < cos t < 1.
Proof. intros t Ht. split; [rewrite <- cos_PI|rewrite <- cos_0]; apply cos_decreasing_1; lra. Qed.
Theorem C90_zeros : forall n, (1 <= n)%Z -> exists l, chebyshev_zeros Rtrig n = Ok l /\ length l = Z.to_nat n /\
  (forall i j, (i < j < Z.to_nat n)%nat -> nth j l 0 < nth i l 0) /\
  forall z, In z l -> -1 < z < 1 /\ b_eval (ChebyshevBasis Rtrig) n z = Ok 0.
Proof.
  intros n Hn. unfold chebyshev_zeros. destruct (Z.leb_spec n 0) as [|_]; [lia|]. eexists. split; [reflexivity|]. rewrite map_length, seq_length. split; auto. tnum.
  assert (N : IZR n = INR (Z.to_nat n)) by (rewrite <- izr, Z2Nat.id by lia; reflexivity). assert (N0 : 1 <= INR (Z.to_nat n)) by (rewrite <- N; apply IZR_le; auto). pose proof PI_RGT_0 as HPI.
  set (f := fun k => (2 * IZR (Z.of_nat k) - 1) * PI / (2 * IZR n)).
  assert (Hb : forall k, (1 <= k <= Z.to_nat n)%nat -> 0 < f k < PI).
  { intros k [Hk1 Hk2]. unfold f. rewrite izr, N. apply le_INR in Hk1, Hk2. cbn in Hk1. split; [apply Rdiv_lt_0_compat; nra|]. apply (Rmult_lt_reg_r (2 * INR (Z.to_nat n))); [lra|]. unfold Rdiv. rewrite Rmult_assoc, Rinv_l by lra. nra. }
  split.
  - intros i j H. rewrite !(nth_map_seq (fun k => cos (f k))) by lia. apply (cos_spread (fun i => f (1 + i)%nat) (Z.to_nat n)); auto; [intros; apply Hb; lia|]. clear - N N0 HPI. intros i j H. unfold f. rewrite !izr, N, !plus_INR. destruct H as [H _]. apply lt_INR in H.
    apply Rmult_lt_compat_r; [apply Rinv_0_lt_compat; lra|]. apply Rmult_lt_compat_r; lra.
  - intros z Hz. apply in_map_iff in Hz. destruct Hz as (k & <- & Hk). apply in_seq in Hk. change (-1 < cos (f k) < 1 /\ b_eval (ChebyshevBasis Rtrig) n (cos (f k)) = Ok 0). split; [apply cos_inside, Hb; lia|]. rewrite evalT, cT_cos by lia. f_equal. apply cos_eq_0_1. exists (Z.of_nat k - 1)%Z. unfold f. rewrite minus_IZR, <- N. field. rewrite N. lra.
Qed.
Print Assumptions C90_zeros.
Theorem C90_extrema : forall n, (1 <= n)%Z -> exists l, chebyshev_extrema Rtrig n = Ok l /\ length l = S (Z.to_nat n) /\ nth 0 l 0 = 1 /\ nth (Z.to_nat n) l 0 = -1 /\
  forall k, (k <= Z.to_nat n)%nat -> b_eval (ChebyshevBasis Rtrig) n (nth k l 0) = Ok ((-1) ^ k).
Proof.
  intros n Hn. unfold chebyshev_extrema, nonneg. destruct (Z.ltb_spec n 0) as [|_]; [lia|]. eexists. split; [reflexivity|]. rewrite map_length, seq_length. split; auto.
  assert (N : IZR n = INR (Z.to_nat n)) by (rewrite <- izr, Z2Nat.id by lia; reflexivity). assert (N0 : 1 <= INR (Z.to_nat n)) by (rewrite <- N; apply IZR_le; auto). pose proof PI_RGT_0 as HPI.
  rewrite !(nth_map_seq _ 0 (S (Z.to_nat n))) by lia. tnum. cbn [Nat.add]. rewrite !izr, N. split; [|split].
  - cbn [INR]. rewrite Rmult_0_l. unfold Rdiv. rewrite Rmult_0_l. apply cos_0.
  - replace (INR (Z.to_nat n) * PI / INR (Z.to_nat n)) with PI by (field; lra). apply cos_PI.
  - intros k Hk. rewrite (nth_map_seq _ 0 (S (Z.to_nat n))) by lia. cbn [Nat.add]. rewrite evalT, cT_cos, izr by lia. f_equal. rewrite <- cos_kPI. f_equal. field. lra.
Qed.
Print Assumptions C90_extrema.
Theorem C90_second_kind_zeros : forall n, (1 <= n)%Z -> exists l, chebyshev2_zeros Rtrig n = Ok l /\ length l = Z.to_nat n /\
  (forall i j, (i < j < Z.to_nat n)%nat -> nth j l 0 < nth i l 0) /\
  forall z, In z l -> -1 < z < 1 /\ b_eval (ChebyshevBasisSecondKind Rtrig) n z = Ok 0.
Proof.
  intros n Hn. unfold chebyshev2_zeros. destruct (Z.leb_spec n 0) as [|_]; [lia|]. eexists. split; [reflexivity|]. rewrite map_length, seq_length. split; auto. tnum.
  assert (N : IZR n = INR (Z.to_nat n)) by (rewrite <- izr, Z2Nat.id by lia; reflexivity). assert (N0 : 1 <= INR (Z.to_nat n)) by (rewrite <- N; apply IZR_le; auto). pose proof PI_RGT_0 as HPI.
  set (f := fun k => IZR (Z.of_nat k) * PI / (IZR n + 1)).
  assert (Hb : forall k, (1 <= k <= Z.to_nat n)%nat -> 0 < f k < PI).
  { intros k [Hk1 Hk2]. unfold f. rewrite izr, N. apply le_INR in Hk1, Hk2. cbn in Hk1. split; [apply Rdiv_lt_0_compat; nra|]. apply (Rmult_lt_reg_r (INR (Z.to_nat n) + 1)); [lra|]. unfold Rdiv. rewrite Rmult_assoc, Rinv_l by lra. nra. }
  split.
  - intros i j H. rewrite !(nth_map_seq (fun k => cos (f k))) by lia. apply (cos_spread (fun i => f (1 + i)%nat) (Z.to_nat n)); auto; [intros; apply Hb; lia|]. clear - N N0 HPI. intros i j H. unfold f. rewrite !izr, N, !plus_INR. destruct H as [H _]. apply lt_INR in H.
    apply Rmult_lt_compat_r; [apply Rinv_0_lt_compat; lra|]. apply Rmult_lt_compat_r; lra.
  - intros z Hz. apply in_map_iff in Hz. destruct Hz as (k & <- & Hk). apply in_seq in Hk. change (-1 < cos (f k) < 1 /\ b_eval (ChebyshevBasisSecondKind Rtrig) n (cos (f k)) = Ok 0). pose proof (Hb k ltac:(lia)) as B. split; [apply cos_inside; auto|]. rewrite evalU by lia. f_equal.
    pose proof (sin_gt_0 (f k) ltac:(lra) ltac:(lra)) as S0. apply (Rmult_eq_reg_r (sin (f k))); [|lra]. rewrite cU_sin, Rmult_0_l. unfold f. rewrite izr, <- N. replace ((IZR n + 1) * (INR k * PI / (IZR n + 1))) with (INR k * PI) by (field; rewrite N; lra). apply sin_kPI.
Qed.
Print Assumptions C90_second_kind_zeros.
Example C90_zeros_example : chebyshev_zeros Rtrig 0 = Throw InvalidArgument /\ exists l, chebyshev_zeros Rtrig 2 = Ok l /\ nth 0 l 0 = / sqrt 2.
Proof. split; [reflexivity|]. eexists. split; [reflexivity|]. change (cos ((2 * 1 - 1) * PI / (2 * 2)) = / sqrt 2). replace ((2 * 1 - 1) * PI / (2 * 2)) with (PI / 4) by field. rewrite cos_PI4. field. apply Rgt_not_eq, sqrt_lt_R0. lra. Qed.

(** ** Coefficients of an expansion *)
(** the Legendre coefficient, by the trapezoidal rule, with the error of that rule *)
Theorem C90_legendre_coefficient : forall maxSteps f n eps, (1 <= maxSteps)%Z -> (0 <= n)%Z -> exists c k, ComputeCoefficient Rtrig maxSteps (LegendreBasis Rtrig) f n eps = Ok c /\
  (k < Z.to_nat maxSteps)%nat /\ (6 <= k \/ k = Z.to_nat maxSteps - 1)%nat /\
  forall p F g' M, (forall x, b_eval (LegendreBasis Rtrig) n x = Ok (p x)) -> primitive F (fun x => f x * p x) (-1) 1 -> primitive (fun x => f x * p x) g' (-1) 1 -> lipschitz M g' (-1) 1 ->
    Rabs (c - (F 1 - F (-1)) * (2 * IZR n + 1) / 2) <= (2 * IZR n + 1) * M / (3 * 4 ^ k).
Proof.
  intros maxSteps f n eps Hm Hn. set (q := Legendre Rtrig (Z.to_nat n)). assert (HE : forall x, b_eval (LegendreBasis Rtrig) n x = Ok (q x)) by (intros; cbn [b_eval LegendreBasis]; unfold nonneg; destruct (Z.ltb_spec n 0); [lia|reflexivity]).
  assert (IZR n >= 0) as N0 by (apply Rle_ge, IZR_le; auto).
  unfold ComputeCoefficient. cbn [b_min b_max LegendreBasis].
  match goal with |- context[IntegrateTrap _ _ ?g _ _ _] => assert (W : g = fun x => f x * q x) end.
  { apply FunctionalExtensionality.functional_extensionality. intros x. rewrite HE. cbn [b_weight LegendreBasis]. tnum. ring. }
  rewrite W. clear W. unfold nonneg at 1. destruct (Z.ltb_spec n 0) as [|_]; [lia|]. destruct (C69_loop (fun x => f x * q x) (-1) 1 eps maxSteps Hm) as (r & E & HS). change (IntegrateTrap (tar Rtrig) maxSteps (fun x => f x * q x) (nopp (aops (tar Rtrig)) (alit (tar Rtrig) 1)) (alit (tar Rtrig) 1) eps) with (IntegrateTrap Rarith maxSteps (fun x => f x * q x) (-1) 1 eps). rewrite E. cbn [bind].
  cbn [b_norm LegendreBasis]. unfold nonneg. destruct (Z.ltb_spec n 0) as [|_]; [lia|]. cbn [bind]. tnum. eexists. exists (level r). split; [reflexivity|]. destruct (stops_level _ _ (Z.to_nat maxSteps) r ltac:(lia) HS) as (_ & L1 & L2 & L3). split; auto. split; [destruct (ir_conv r); auto|].
  intros p F g' M Hp HF Hg HM. assert (P : p = q). { apply FunctionalExtensionality.functional_extensionality. intros x. specialize (Hp x). rewrite HE in Hp. injection Hp as ->. reflexivity. } subst p.
  pose proof (C69_accuracy F _ g' M (-1) 1 eps maxSteps r HF Hg HM Hm E) as A. replace (1 - -1) with 2 in A by ring. rewrite (Rabs_right 2) in A by lra.
  replace (ir_value r / (2 / (2 * IZR n + 1)) - (F 1 - F (-1)) * (2 * IZR n + 1) / 2) with ((2 * IZR n + 1) / 2 * (ir_value r - (F 1 - F (-1)))) by (field; lra). rewrite Rabs_mult, (Rabs_right ((2 * IZR n + 1) / 2)) by lra.
  assert (0 < 4 ^ level r) as P4 by (apply pow_lt; lra). apply (Rle_trans _ ((2 * IZR n + 1) / 2 * (M * 2 ^ 3 / (12 * 4 ^ level r)))); [apply Rmult_le_compat_l; lra|]. right. field. lra.
Qed.
Print Assumptions C90_legendre_coefficient.
(** the coefficient of P_1 in the function x: within 2 / 4^6 of 1 *)
Example C90_legendre_coefficient_example : exists c, ComputeCoefficient Rtrig 20 (LegendreBasis Rtrig) (fun x => x) 1 0 = Ok c /\ Rabs (c - 1) <= 2 / 4 ^ 6.
Proof.
  destruct (C90_legendre_coefficient 20 (fun x => x) 1 0 ltac:(lia) ltac:(lia)) as (c & k & E & _ & Hk & HA). exists c. split; auto.
  specialize (HA (fun x => x) (fun x => x * x * x / 3) (fun x => 2 * x) 2 (fun x => eq_refl)).
  assert (D : forall x, derivable_pt_lim (fun x => x * x) x (2 * x)). { intros x. replace (2 * x) with (1 * x + x * 1) by ring. apply (derivable_pt_lim_mult id id); apply derivable_pt_lim_id. }
  assert (D3 : forall x, derivable_pt_lim (fun x => x * x * x / 3) x (x * x)). { intros x. replace (fun x => x * x * x / 3) with (fun x => / 3 * (x * x * x)) by (apply FunctionalExtensionality.functional_extensionality; intros; field). replace (x * x) with (/ 3 * (2 * x * x + x * x * 1)) by field. apply (derivable_pt_lim_scal (fun x => x * x * x)). apply (derivable_pt_lim_mult (fun x => x * x) id); [apply D|apply derivable_pt_lim_id]. }
  specialize (HA (fun x _ => D3 x) (fun x _ => D x)). assert (HL : lipschitz 2 (fun x => 2 * x) (-1) 1). { intros x y _ _. replace (2 * x - 2 * y) with (2 * (x - y)) by ring. rewrite Rabs_mult, (Rabs_right 2) by lra. lra. }
  specialize (HA HL). cbv beta in HA. replace (c - (1 * 1 * 1 / 3 - -1 * -1 * -1 / 3) * (2 * 1 + 1) / 2) with (c - 1) in HA by field. eapply Rle_trans; [exact HA|]. replace ((2 * 1 + 1) * 2 / (3 * 4 ^ k)) with (2 * / 4 ^ k) by (field; apply pow_nonzero; lra). unfold Rdiv. apply Rmult_le_compat_l; [lra|]. apply Rinv_le_contravar; [apply pow_lt; lra|]. apply Rle_pow; [lra|]. change (Z.to_nat 20) with 20%nat in Hk. lia.
Qed.
(** ComputeCoefficient with a ChebyshevBasis integrates up to the end points, where the weight is infinite and is replaced by 10^10:
    with the 20 steps of the default, the coefficient 0 of the constant 1, which is 1, comes out above 4000 for every tolerance. *)
Theorem C90_chebyshev_coefficient_refuted : forall maxSteps eps, (1 <= maxSteps <= 20)%Z -> exists c, ComputeCoefficient Rtrig maxSteps (ChebyshevBasis Rtrig) (fun _ => 1) 0 eps = Ok c /\ 4000 < c.
Proof.
  intros maxSteps eps [Hm1 Hm2]. unfold ComputeCoefficient. change (nonneg 0 ?r) with r. cbn [b_min b_max ChebyshevBasis].
  set (w := fun x => 1 * 1 * b_weight (ChebyshevBasis Rtrig) x). destruct (C69_loop w (-1) 1 eps maxSteps Hm1) as (r & E & HS).
  match goal with |- context[IntegrateTrap (tar Rtrig) maxSteps ?g ?a ?b eps] => change (IntegrateTrap (tar Rtrig) maxSteps g a b eps) with (IntegrateTrap Rarith maxSteps w (-1) 1 eps) end. rewrite E. cbn [bind b_norm ChebyshevBasis]. change (nonneg 0 ?r) with r. cbn [bind]. tnum. eexists. split; [reflexivity|]. cbn [Z.eqb].
  destruct (stops_level _ _ (Z.to_nat maxSteps) r ltac:(lia) HS) as (-> & L1 & _). set (k := level r) in *. assert (K : (k <= 19)%nat) by lia.
  assert (W0 : forall x, 0 <= w x). { intros x. unfold w. cbn [b_weight ChebyshevBasis]. cbn [tar Rtrig]. rnum. rewrite !Rmult_1_l. destruct (Rltb_spec (Rabs x) 1) as [H|H]; cbn [negb]; [|apply IZR_le; lia]. apply Rabs_def2 in H. left. apply Rdiv_lt_0_compat; [lra|]. apply sqrt_lt_R0. nra. }
  assert (W1 : w (-1) = IZR (10 ^ 10)). { unfold w. cbn [b_weight ChebyshevBasis]. cbn [tar Rtrig]. rnum. rewrite !Rmult_1_l. replace (Rabs (-1)) with 1 by (rewrite Rabs_left; lra). destruct (Rltb_spec 1 1); [lra|reflexivity]. }
  assert (P2 : 0 < INR (2 ^ k)) by (rewrite pow_INR; apply pow_lt; cbn; lra).
  assert (B : IZR (10 ^ 10) / INR (2 ^ k) <= trapezoid w (-1) 1 (2 ^ k)).
  { unfold trapezoid. destruct (2 ^ k)%nat as [|n0] eqn:E2; [cbn in P2; lra|]. clear - W0 W1 P2.
    assert (G : forall n g, (forall i, 0 <= g i) -> g 0%nat <= sumn Rnum (S n) g). { intros n g Hg. induction n as [|n IH]; [rewrite sumS; cbn; lra|]. rewrite sumS. pose proof (Hg (S n)). lra. }
    assert (D : (1 - -1) / INR (S n0) = 2 / INR (S n0)) by (f_equal; ring).
    eapply Rle_trans; [|apply (G n0)].
    - cbv beta. rewrite D. unfold node at 1. change (INR 0) with 0. rewrite Rmult_0_l, Rplus_0_r, W1. pose proof (W0 (node (-1) 1 (S n0) 1)) as W2. set (v := w (node (-1) 1 (S n0) 1)) in *. set (N := INR (S n0)) in *. set (t := IZR (10 ^ 10)) in *.
      replace (2 / N * ((t + v) / 2)) with (t / N + v / N) by (field; lra). assert (0 <= v / N) by (apply Rmult_le_pos; [auto|left; apply Rinv_0_lt_compat; auto]). lra.
    - intros i. rewrite D. apply Rmult_le_pos; [apply Rmult_le_pos; [lra|left; apply Rinv_0_lt_compat; auto]|]. pose proof (W0 (node (-1) 1 (S n0) i)). pose proof (W0 (node (-1) 1 (S n0) (S i))). lra. }
  assert (P3 : INR (2 ^ k) <= 524288). { replace 524288 with (INR (2 ^ 19)) by (rewrite pow_INR; change (INR 2) with 2; ring). apply le_INR. apply Nat.pow_le_mono_r; lia. }
  assert (B2 : 19000 <= IZR (10 ^ 10) / INR (2 ^ k)). { apply (Rmult_le_reg_r (INR (2 ^ k))); auto. unfold Rdiv. rewrite Rmult_assoc, Rinv_l by lra. change (10 ^ 10)%Z with 10000000000%Z. lra. }
  pose proof PI_4. pose proof PI_RGT_0.
  apply (Rmult_lt_reg_r PI); auto. unfold Rdiv. rewrite Rmult_assoc, Rinv_l by lra. lra.
Qed.
Print Assumptions C90_chebyshev_coefficient_refuted.
