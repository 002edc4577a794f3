(** * C90: the orthogonal bases *)

From Coq Require Import List Arith ZArith Reals Lia Lra Psatz Sorted.
From Verif Require Import Base Num RootFind_Model RootFind_Proofs Fourier_Model Fourier_Spec Fourier_Props Interp_Linear Interp_Bary Cheb_Spec Cheb_Math
  Integ_Model Integ_Spec Integ_Props Ortho_Model Ortho_Spec Ortho_Math Ortho_Fam Ortho_Gauss Ortho_Cheb Ortho_Loops.
Import ListNotations.
Local Open Scope R_scope.

(** ** Auxiliary facts *)
Lemma nonneg_nat : forall {S} k (r : res S), nonneg (Z.of_nat k) r = r.
Proof. intros. unfold nonneg. destruct (Z.ltb_spec (Z.of_nat k) 0); [lia|auto]. Qed.
Lemma nonneg_neg : forall {S} n (r : res S), (n < 0)%Z -> nonneg n r = Throw InvalidArgument.
Proof. intros S n r H. unfold nonneg. destruct (Z.ltb_spec n 0); [auto|lia]. Qed.
Lemma orth_intro : forall B (p : nat -> R -> R) (h : nat -> R), (forall k x, b_eval B (Z.of_nat k) x = Ok (p k x)) -> (forall k, b_norm B (Z.of_nat k) = Ok (h k)) -> (forall k, 0 < h k) ->
  (forall m n, integral (b_min B) (b_max B) (fun x => p m x * p n x * b_weight B x) (if (m =? n)%nat then h m else 0)) -> orthogonal B.
Proof.
  intros B p h Hp Hh Hpos HI m0 n0 Hm Hn. destruct (Z_of_nat_complete m0 Hm) as [m ->]. destruct (Z_of_nat_complete n0 Hn) as [n ->]. exists (p m), (p n), (h m). repeat split; auto.
  replace (Z.of_nat m =? Z.of_nat n)%Z with (m =? n)%nat; [apply HI|]. destruct (Nat.eqb_spec m n), (Z.eqb_spec (Z.of_nat m) (Z.of_nat n)); auto; lia.
Qed.
Lemma integral_pos : forall f l, (forall x, 0 < x -> 0 < f x) -> integral (Fin 0) PosInf f l -> 0 < l.
Proof.
  intros f l Hf (F & u & v & HD & Hu & Hv & ->).
  assert (Inc : forall x y, 0 < x -> x < y -> F x < F y).
  { intros x y Hx Hxy. destruct (MVT_cor2 F f x y Hxy) as (c & E & Hc); [intros c Hc; apply HD; split; [lra|exact I]|]. pose proof (Hf c ltac:(lra)). nra. }
  assert (U : u <= F 1). { destruct (Rle_dec u (F 1)) as [|N]; auto. destruct (Hu (u - F 1) ltac:(lra)) as (d & Hd & H). set (t := Rmin (1 / 2) (d / 2)). assert (0 < t < 1 /\ t < d) as [? ?].
    { unfold t. pose proof (Rmin_l (1 / 2) (d / 2)). pose proof (Rmin_r (1 / 2) (d / 2)). assert (0 < Rmin (1 / 2) (d / 2)) by (apply Rmin_pos; lra). lra. }
    pose proof (H t ltac:(lra)) as Q1. pose proof (Inc t 1 ltac:(lra) ltac:(lra)). rewrite Rabs_left in Q1; lra. }
  assert (V : F 2 <= v). { destruct (Rle_dec (F 2) v) as [|N]; auto. destruct (Hv (F 2 - v) ltac:(lra)) as (M & H). set (t := Rmax 3 (M + 1)). assert (2 < t /\ M < t) as [? ?].
    { unfold t. pose proof (Rmax_l 3 (M + 1)). pose proof (Rmax_r 3 (M + 1)). lra. }
    pose proof (H t ltac:(lra)) as Q1. pose proof (Inc 2 t ltac:(lra) ltac:(lra)). rewrite Rabs_right in Q1; lra. }
  pose proof (Inc 1 2 ltac:(lra) ltac:(lra)). lra.
Qed.
Lemma exp_integral : integral (Fin 0) PosInf (fun x => exp (- x)) 1.
Proof.
  exists (fun x => - exp (- x)), (-1), 0. assert (D : forall x, derivable_pt_lim (fun x => - exp (- x)) x (exp (- x))).
  { intros x. replace (exp (- x)) with (- (exp (- x) * - (1))) by ring. apply (derivable_pt_lim_opp (fun x => exp (- x))). apply (derivable_pt_lim_comp (fun x => - x) exp); [apply (derivable_pt_lim_opp id); apply derivable_pt_lim_id|apply derivable_pt_lim_exp]. }
  split; [auto|split; [|split; [|ring]]].
  - intros e He. pose proof (cont_lo _ 0 _ (D 0) e He) as C. cbv beta in C. rewrite Ropp_0, exp_0 in C. exact C.
  - intros e He. destruct (exp_small 1 e ltac:(lra) He) as (M & HM & H). exists M. intros x Hx. rewrite Rminus_0_r, Rabs_Ropp, Rabs_right by (left; apply exp_pos). pose proof (H x Hx). lra.
Qed.
Lemma integral_scale : forall f l c, 0 < c -> integral NegInf PosInf f l -> integral NegInf PosInf (fun x => f (x / c)) (c * l).
Proof.
  intros f l c Hc (F & u & v & HD & Hu & Hv & ->). exists (fun x => c * F (x / c)), (c * u), (c * v). split; [|split; [|split; [|ring]]].
  - intros x _. replace (f (x / c)) with (c * (f (x / c) * (/ c * 1))) by (field; lra). apply (derivable_pt_lim_scal (fun x => F (x / c))). apply (derivable_pt_lim_comp (fun x => x / c) F); [|apply HD; split; exact I].
    replace (fun x => x / c) with (fun x => / c * x) by (apply FunctionalExtensionality.functional_extensionality; intros; unfold Rdiv; ring). apply (derivable_pt_lim_scal id). apply derivable_pt_lim_id.
  - intros e He. destruct (Hu (e / c) ltac:(apply Rdiv_lt_0_compat; lra)) as (M & H). exists (c * M). intros x Hx. rewrite <- Rmult_minus_distr_l, Rabs_mult, (Rabs_right c) by lra.
    assert (x / c < M) as H1 by (apply (Rmult_lt_reg_l c); auto; unfold Rdiv; rewrite (Rmult_comm x), <- Rmult_assoc, Rinv_r by lra; lra). pose proof (H _ H1) as H2. apply (Rmult_lt_compat_l c) in H2; auto. replace (c * (e / c)) with e in H2 by (field; lra). exact H2.
  - intros e He. destruct (Hv (e / c) ltac:(apply Rdiv_lt_0_compat; lra)) as (M & H). exists (c * M). intros x Hx. rewrite <- Rmult_minus_distr_l, Rabs_mult, (Rabs_right c) by lra.
    assert (M < x / c) as H1 by (apply (Rmult_lt_reg_l c); auto; unfold Rdiv; rewrite (Rmult_comm x), <- Rmult_assoc, Rinv_r by lra; lra). pose proof (H _ H1) as H2. apply (Rmult_lt_compat_l c) in H2; auto. replace (c * (e / c)) with e in H2 by (field; lra). exact H2.
Qed.
Lemma rec_intro : forall B a b c (n : nat) (p : nat -> R -> R), (forall k x, b_eval B (Z.of_nat k) x = Ok (p k x)) -> b_rec B (Z.of_nat n) = Ok (a n, b n, c n) ->
  (forall x, p (S n) x = (a n * x + b n) * p n x + c n * match n with 0%nat => 0 | S k => p k x end) -> recurrence B (Z.of_nat n).
Proof.
  intros B a b c n p Hp Hr HS. exists (a n), (b n), (c n), (p n), (p (S n)), (fun x => match n with 0%nat => 0 | S k => p k x end). repeat split; auto.
  - intros x. replace (Z.of_nat n + 1)%Z with (Z.of_nat (S n)) by lia. apply Hp.
  - destruct n as [|n]; [cbn; intros; reflexivity|]. replace (Z.of_nat (S n) =? 0)%Z with false by (symmetry; apply Z.eqb_neq; lia). intros x. replace (Z.of_nat (S n) - 1)%Z with (Z.of_nat n) by lia. apply Hp.
Qed.
Lemma ttr_SS : forall a b c n x, ttr a b c (S n) x = (a n * x + b n) * ttr a b c n x + c n * match n with 0%nat => 0 | S k => ttr a b c k x end.
Proof. intros. rewrite ttr_S. destruct n; reflexivity. Qed.
Lemma rpow_int : forall n, Rpower 2 (IZR (Z.of_nat n)) = 2 ^ n. Proof. intros. rewrite izr, Rpower_pow by lra. reflexivity. Qed.

(** ** The integral of the specification is determined by the function *)
Theorem C90_integral_unique : forall a b f l k, (exists x, inside a b x) -> integral a b f l -> integral a b f k -> l = k.
Proof. exact integral_unique. Qed.
Print Assumptions C90_integral_unique.
Example C90_integral_unique_example : forall l, integral NegInf PosInf (fun x => exp (- x * x)) l -> l = sqrt PI.
Proof. intros l H. eapply C90_integral_unique; [|exact H|exact gauss_integral]. exists 0. split; exact I. Qed.

(** ** Orthogonality *)
Section Bases.
Variable tgamma : R -> R.
Local Notation Leg := (LegendreBasis Rtrig).
Local Notation Herm := (HermiteBasis Rtrig exp Rpower).
Local Notation PHerm := (ProbabilistHermiteBasis Rtrig exp Rpower).
Local Notation Lag := (LaguerreBasis Rtrig exp).
Local Notation ALag := (AssociatedLaguerreBasis Rtrig exp tgamma Rpower).
Local Notation ChT := (ChebyshevBasis Rtrig).
Local Notation ChU := (ChebyshevBasisSecondKind Rtrig).

Theorem C90_legendre : orthogonal Leg.
Proof.
  apply (orth_intro _ (fun k x => ttr la zero_c lc k x) (fun k => 2 / (2 * INR k + 1))).
  - intros k x. cbn [b_eval LegendreBasis]. rewrite nonneg_nat, Nat2Z.id, Legendre_ttr. reflexivity.
  - intros k. cbn [b_norm LegendreBasis]. rewrite nonneg_nat. tnum. rewrite izr. reflexivity.
  - intros k. pose proof (pos_INR k). apply Rdiv_lt_0_compat; lra.
  - intros m n. cbn [b_min b_max b_weight LegendreBasis]. tnum. apply leg_orth.
Qed.
Theorem C90_hermite : orthogonal Herm.
Proof.
  apply (orth_intro _ (fun k x => ttr ha zero_c hc k x) (fun k => 2 ^ k * INR (fact k) * sqrt PI)).
  - intros k x. cbn [b_eval HermiteBasis]. rewrite nonneg_nat, Nat2Z.id, Hermite_ttr. reflexivity.
  - intros k. cbn [b_norm HermiteBasis]. unfold hermite_norm. rewrite nonneg_nat, Nat2Z.id, factorial_fact. tnum. rewrite rpow_int. reflexivity.
  - intros k. apply Rmult_lt_0_compat; [apply Rmult_lt_0_compat; [apply pow_lt; lra|apply lt_0_INR, lt_O_fact]|apply sqrt_lt_R0, PI_RGT_0].
  - intros m n. cbn [b_min b_max b_weight HermiteBasis]. tnum. apply herm_orth, gauss_integral.
Qed.
(** for every alpha the constructor accepts, if std::tgamma is right at alpha + 1 *)
Theorem C90_assoc_laguerre : forall alpha, assoc_laguerre_new Rtrig alpha = Ok alpha -> gamma_at (alpha + 1) (tgamma (alpha + 1)) -> orthogonal (ALag alpha).
Proof.
  intros al Hal Hg. assert (H1 : -1 < al) by (unfold assoc_laguerre_new in Hal; tnum; destruct (Rltb_spec (Ropp 1) al); [lra|discriminate]). clear Hal.
  unfold gamma_at in Hg. replace (al + 1 - 1) with al in Hg by ring. assert (0 < tgamma (al + 1)) as Gp by (apply (integral_pos _ _) in Hg; auto; intros; apply Rmult_lt_0_compat; apply exp_pos).
  assert (HP : forall k, 0 < hh ga (gc al) (tgamma (al + 1)) k).
  { induction k as [|k IH]; auto. rewrite lag_hh_S. pose proof (pos_INR k). apply Rmult_lt_0_compat; auto. apply Rdiv_lt_0_compat; lra. }
  apply (orth_intro _ (fun k x => ttr ga (gb al) (gc al) k x) (fun k => hh ga (gc al) (tgamma (al + 1)) k)); auto.
  - intros k x. cbn [b_eval AssociatedLaguerreBasis]. rewrite nonneg_nat, Nat2Z.id, AssocLaguerre_ttr. reflexivity.
  - intros k. cbn [b_norm AssociatedLaguerreBasis]. rewrite nonneg_nat, Nat2Z.id, factorial_fact. f_equal. tnum. induction k as [|k IH]; [cbn; field|]. rewrite lag_hh_S, <- IH, seq_S, fold_left_app. cbn [fold_left Nat.add].
    rewrite izr, fact_simpl, mult_INR, S_INR. pose proof (pos_INR k). pose proof (INR_fact_neq_0 k). field. split; lra.
  - intros m n. cbn [b_min b_max b_weight AssociatedLaguerreBasis]. tnum. apply lag_orth; auto.
Qed.
Theorem C90_laguerre : orthogonal Lag.
Proof.
  assert (HP : forall k, hh ga (gc 0) 1 k = 1). { induction k as [|k IH]; auto. rewrite lag_hh_S, IH. pose proof (pos_INR k). field. lra. }
  apply (orth_intro _ (fun k x => ttr ga (gb 0) (gc 0) k x) (fun k => 1)).
  - intros k x. cbn [b_eval LaguerreBasis]. rewrite nonneg_nat, Nat2Z.id, Laguerre_ttr. reflexivity.
  - intros k. cbn [b_norm LaguerreBasis]. rewrite nonneg_nat. reflexivity.
  - intros. lra.
  - intros m n. cbn [b_min b_max b_weight LaguerreBasis]. tnum. rewrite <- (HP m). apply (integral_ext _ _ (fun x => ttr ga (gb 0) (gc 0) m x * ttr ga (gb 0) (gc 0) n x * (Rpower x 0 * exp (- x))) _ (if (m =? n)%nat then hh ga (gc 0) 1 m else 0)); auto.
    + intros x [Hx _]. rewrite Rpower_O by auto. ring.
    + apply lag_orth; [lra|]. apply (integral_ext _ _ (fun x => exp (- x)) _ 1); auto; [|apply exp_integral]. intros x [Hx _]. rewrite Rpower_O by auto. ring.
Qed.
Lemma rltb_abs : forall x, -1 < x < 1 -> altb (tar Rtrig) (aabs (tar Rtrig) x) (alit (tar Rtrig) 1) = true.
Proof. intros x Hx. cbn [tar Rtrig]. rewrite Rabs_aabs. change (Rltb (Rabs x) 1 = true). pose proof (Rabs_def1 x 1 ltac:(lra) ltac:(lra)). destruct (Rltb_spec (Rabs x) 1); [auto|lra]. Qed.
Theorem C90_chebyshev : orthogonal ChT /\ orthogonal ChU.
Proof.
  pose proof PI_RGT_0. split.
  - apply (orth_intro _ (fun k x => ttr ta zero_c tc k x) (fun k => if (k =? 0)%nat then PI else PI / 2)).
    + intros k x. cbn [b_eval ChebyshevBasis]. rewrite nonneg_nat, Nat2Z.id, ChebT_ttr. reflexivity.
    + intros k. cbn [b_norm ChebyshevBasis]. rewrite nonneg_nat. destruct k; reflexivity.
    + intros k. destruct (k =? 0)%nat; lra.
    + intros m n. cbn [b_min b_max b_weight ChebyshevBasis]. rewrite <- T_hh.
      apply (integral_ext (Fin (-1)) (Fin 1) (fun x => ttr ta zero_c tc m x * ttr ta zero_c tc n x * (1 / sqrt (1 - x * x))) _ (if (m =? n)%nat then hh ta tc PI m else 0)); auto; [|apply (favard ta zero_c tc ta_nz _ _ (fun x => 1 / sqrt (1 - x * x))), T_base].
      intros x [H1 H2]. rewrite (rltb_abs x ltac:(lra)). reflexivity.
  - apply (orth_intro _ (fun k x => ttr ua zero_c tc k x) (fun k => PI / 2)).
    + intros k x. cbn [b_eval ChebyshevBasisSecondKind]. rewrite nonneg_nat, Nat2Z.id, ChebU_ttr. reflexivity.
    + intros k. cbn [b_norm ChebyshevBasisSecondKind]. rewrite nonneg_nat. reflexivity.
    + intros k. lra.
    + intros m n. cbn [b_min b_max b_weight ChebyshevBasisSecondKind]. rewrite <- (U_hh m).
      apply (integral_ext (Fin (-1)) (Fin 1) (fun x => ttr ua zero_c tc m x * ttr ua zero_c tc n x * sqrt (1 - x * x)) _ (if (m =? n)%nat then hh ua tc (PI / 2) m else 0)); auto; [|apply (favard ua zero_c tc ltac:(intros; unfold ua; lra) _ _ (fun x => sqrt (1 - x * x))), U_base].
      intros x [H1 H2]. rewrite (rltb_abs x ltac:(lra)). reflexivity.
Qed.
Lemma half_pow : forall n, Rpower 2 (- (1 / 2) * IZR (Z.of_nat n)) = (/ sqrt 2) ^ n.
Proof. intros n. rewrite <- Rpower_mult, izr, Rpower_pow, Rpower_Ropp by apply exp_pos. replace (1 / 2) with (/ 2) by field. rewrite Rpower_sqrt by lra. reflexivity. Qed.
Lemma half_pow' : forall n, Rpower 2 (- (1 / 2) * IZR (Z.of_nat n)) * Rpower 2 (- (1 / 2) * IZR (Z.of_nat n)) = / 2 ^ n.
Proof. intros n. rewrite half_pow, <- Rpow_mult_distr, <- Rinv_mult_distr by (apply Rgt_not_eq, sqrt_lt_R0; lra). rewrite sqrt_sqrt by lra. rewrite Rinv_pow by lra. reflexivity. Qed.
Theorem C90_prob_hermite : orthogonal PHerm.
Proof.
  set (r := fun n => Rpower 2 (- (1 / 2) * IZR (Z.of_nat n))). pose proof (sqrt_lt_R0 2 ltac:(lra)) as S2. pose proof PI_RGT_0.
  apply (orth_intro _ (fun k x => r k * ttr ha zero_c hc k (x / sqrt 2)) (fun k => INR (fact k) * sqrt (2 * PI))).
  - intros k x. cbn [b_eval ProbabilistHermiteBasis]. rewrite nonneg_nat, Nat2Z.id, Hermite_ttr. reflexivity.
  - intros k. cbn [b_norm ProbabilistHermiteBasis]. rewrite nonneg_nat, Nat2Z.id, factorial_fact. reflexivity.
  - intros k. apply Rmult_lt_0_compat; [apply lt_0_INR, lt_O_fact|apply sqrt_lt_R0; lra].
  - intros m n. cbn [b_min b_max b_weight ProbabilistHermiteBasis]. tnum.
    pose proof (integral_scale _ _ (sqrt 2) S2 (herm_orth _ gauss_integral m n)) as I1. apply (integral_scal _ _ _ _ (r m * r n)) in I1. eapply integral_ext; [| |exact I1].
    + intros x _. cbv beta. replace (- (1 / 2) * x * x) with (- (x / sqrt 2) * (x / sqrt 2)).
      * ring.
      * replace (- (x / sqrt 2) * (x / sqrt 2)) with (- (x * x) / (sqrt 2 * sqrt 2)) by (field; lra). rewrite sqrt_sqrt by lra. field.
    + destruct (Nat.eqb_spec m n) as [->|]; [|ring]. pose proof (half_pow' n) as E. fold (r n) in E. rewrite sqrt_mult by lra. replace (r n * r n * (sqrt 2 * (2 ^ n * INR (fact n) * sqrt PI))) with ((r n * r n) * 2 ^ n * (INR (fact n) * (sqrt 2 * sqrt PI))) by ring. rewrite E, Rinv_l; [ring|]. apply pow_nonzero. lra.
Qed.
(** every member refuses a negative index *)
Theorem C90_refuses : forall alpha, refuses_negative Leg /\ refuses_negative Herm /\ refuses_negative PHerm /\ refuses_negative Lag /\ refuses_negative (ALag alpha) /\ refuses_negative ChT /\ refuses_negative ChU.
Proof. intros al. repeat split; intros; cbn [b_eval b_norm LegendreBasis HermiteBasis ProbabilistHermiteBasis LaguerreBasis AssociatedLaguerreBasis ChebyshevBasis ChebyshevBasisSecondKind]; unfold hermite_norm; apply nonneg_neg; auto. Qed.

(** ** Recurrence coefficients *)
Theorem C90_recurrence : forall alpha n, (0 <= n)%Z -> recurrence Leg n /\ recurrence Herm n /\ recurrence Lag n /\ recurrence (ALag alpha) n /\ recurrence ChU n /\ ((1 <= n)%Z -> recurrence ChT n).
Proof.
  intros al n Hn. rewrite <- (Z2Nat.id n) by auto. generalize (Z.to_nat n). clear n Hn. intros n. split; [|split; [|split; [|split; [|split]]]].
  - apply (rec_intro _ la zero_c lc n (fun k x => ttr la zero_c lc k x)).
    + intros k x. cbn [b_eval LegendreBasis]. rewrite nonneg_nat, Nat2Z.id, Legendre_ttr. reflexivity.
    + cbn [b_rec LegendreBasis]. rewrite nonneg_nat. tnum. rewrite izr. reflexivity.
    + intros x. apply ttr_SS.
  - apply (rec_intro _ ha zero_c hc n (fun k x => ttr ha zero_c hc k x)).
    + intros k x. cbn [b_eval HermiteBasis]. rewrite nonneg_nat, Nat2Z.id, Hermite_ttr. reflexivity.
    + cbn [b_rec HermiteBasis]. rewrite nonneg_nat. tnum. rewrite izr. reflexivity.
    + intros x. apply ttr_SS.
  - apply (rec_intro _ ga (gb 0) (gc 0) n (fun k x => ttr ga (gb 0) (gc 0) k x)).
    + intros k x. cbn [b_eval LaguerreBasis]. rewrite nonneg_nat, Nat2Z.id, Laguerre_ttr. reflexivity.
    + cbn [b_rec LaguerreBasis]. rewrite nonneg_nat. tnum. rewrite izr. unfold ga, gb, gc. rewrite !Rplus_0_r. reflexivity.
    + intros x. apply ttr_SS.
  - apply (rec_intro _ ga (gb al) (gc al) n (fun k x => ttr ga (gb al) (gc al) k x)).
    + intros k x. cbn [b_eval AssociatedLaguerreBasis]. rewrite nonneg_nat, Nat2Z.id, AssocLaguerre_ttr. reflexivity.
    + cbn [b_rec AssociatedLaguerreBasis]. rewrite nonneg_nat. tnum. rewrite izr. reflexivity.
    + intros x. apply ttr_SS.
  - apply (rec_intro _ ua zero_c tc n (fun k x => ttr ua zero_c tc k x)).
    + intros k x. cbn [b_eval ChebyshevBasisSecondKind]. rewrite nonneg_nat, Nat2Z.id, ChebU_ttr. reflexivity.
    + cbn [b_rec ChebyshevBasisSecondKind]. rewrite nonneg_nat. reflexivity.
    + intros x. apply ttr_SS.
  - intros H1. apply (rec_intro _ ta zero_c tc n (fun k x => ttr ta zero_c tc k x)).
    + intros k x. cbn [b_eval ChebyshevBasis]. rewrite nonneg_nat, Nat2Z.id, ChebT_ttr. reflexivity.
    + cbn [b_rec ChebyshevBasis]. rewrite nonneg_nat. destruct n; [lia|reflexivity].
    + intros x. apply ttr_SS.
Qed.
(** The coefficients of ChebyshevBasis at n = 0 are those of the other indices, 2, 0, -1, and give 2 x for T_1 = x. *)
Theorem C90_chebyshev_recurrence_refuted : ~ recurrence ChT 0.
Proof.
  intros (a & b & c & pn & pn1 & pm & Hr & H0 & H1 & Hm & HR). cbn in Hr. injection Hr as <- <- <-. specialize (H0 1). specialize (H1 1). specialize (Hm 1). specialize (HR 1). cbn in H0, H1, Hm. injection H0 as E0. injection H1 as E1. rewrite Hm, <- E0, <- E1 in HR. lra.
Qed.
(** Evaluate(n, .) is a polynomial of degree n, so the functions are the Gram-Schmidt basis of the powers, up to factors *)
Theorem C90_degree : forall alpha B, In B [Leg; Herm; Lag; ALag alpha; ChT; ChU] -> forall n, (0 <= n)%Z -> exists p k, (forall x, b_eval B n x = Ok (p x)) /\ degree (Z.to_nat n) k p.
Proof.
  intros al B HB n Hn. rewrite <- (Z2Nat.id n) by auto. generalize (Z.to_nat n). clear n Hn. intros n. rewrite Nat2Z.id.
  assert (K : forall a b c, (forall k, a k <> 0) -> (forall x, b_eval B (Z.of_nat n) x = Ok (ttr a b c n x)) -> exists p k, (forall x, b_eval B (Z.of_nat n) x = Ok (p x)) /\ degree n k p).
  { intros a b c Ha HE. exists (ttr a b c n), (lead a n). split; auto. apply ttr_degree. exact Ha. }
  cbn [In] in HB. destruct HB as [<-|[<-|[<-|[<-|[<-|[<-|[]]]]]]].
  - apply (K la zero_c lc la_nz). intros x. cbn [b_eval LegendreBasis]. rewrite nonneg_nat, Nat2Z.id, Legendre_ttr. reflexivity.
  - apply (K ha zero_c hc); [intros; unfold ha; lra|]. intros x. cbn [b_eval HermiteBasis]. rewrite nonneg_nat, Nat2Z.id, Hermite_ttr. reflexivity.
  - apply (K ga (gb 0) (gc 0) ga_nz). intros x. cbn [b_eval LaguerreBasis]. rewrite nonneg_nat, Nat2Z.id, Laguerre_ttr. reflexivity.
  - apply (K ga (gb al) (gc al) ga_nz). intros x. cbn [b_eval AssociatedLaguerreBasis]. rewrite nonneg_nat, Nat2Z.id, AssocLaguerre_ttr. reflexivity.
  - apply (K ta zero_c tc ta_nz). intros x. cbn [b_eval ChebyshevBasis]. rewrite nonneg_nat, Nat2Z.id, ChebT_ttr. reflexivity.
  - apply (K ua zero_c tc); [intros; unfold ua; lra|]. intros x. cbn [b_eval ChebyshevBasisSecondKind]. rewrite nonneg_nat, Nat2Z.id, ChebU_ttr. reflexivity.
Qed.
(** the probabilists' polynomials: 1, x, and x He_n - n He_{n-1} *)
Theorem C90_prob_hermite_monic : forall n, exists p0 p1 p2, (forall x, b_eval PHerm (Z.of_nat n) x = Ok (p0 x)) /\ (forall x, b_eval PHerm (Z.of_nat (S n)) x = Ok (p1 x)) /\ (forall x, b_eval PHerm (Z.of_nat (S (S n))) x = Ok (p2 x)) /\
  (forall x, p2 x = x * p1 x - (INR n + 1) * p0 x) /\ (n = 0%nat -> forall x, p0 x = 1 /\ p1 x = x).
Proof.
  intros n. pose proof (sqrt_lt_R0 2 ltac:(lra)) as S2. pose proof (sqrt_sqrt 2 ltac:(lra)) as SS.
  assert (HE : forall k x, b_eval PHerm (Z.of_nat k) x = Ok ((/ sqrt 2) ^ k * ttr ha zero_c hc k (x / sqrt 2))).
  { intros k x. cbn [b_eval ProbabilistHermiteBasis]. rewrite nonneg_nat, Nat2Z.id, Hermite_ttr. tnum. rewrite half_pow. reflexivity. }
  exists (fun x => (/ sqrt 2) ^ n * ttr ha zero_c hc n (x / sqrt 2)), (fun x => (/ sqrt 2) ^ (S n) * ttr ha zero_c hc (S n) (x / sqrt 2)), (fun x => (/ sqrt 2) ^ (S (S n)) * ttr ha zero_c hc (S (S n)) (x / sqrt 2)).
  split; [apply HE|split; [apply HE|split; [apply HE|split]]].
  - intros x. rewrite (ttr_SS _ _ _ (S n)), ha_S, hc_S, zc_S. cbn [pow]. set (q := (/ sqrt 2) ^ n). assert (I2 : / sqrt 2 * / sqrt 2 = / 2) by (rewrite <- Rinv_mult_distr by lra; rewrite SS; reflexivity).
    unfold Rdiv. set (s := / sqrt 2) in *. set (H1 := ttr ha zero_c hc (S n) (x * s)). set (H0 := ttr ha zero_c hc n (x * s)).
    replace (s * (s * q) * ((2 * (x * s) + 0) * H1 + -2 * (INR n + 1) * H0)) with ((s * s) * (2 * (x * s) * q * H1 - 2 * (INR n + 1) * q * H0)) by ring. rewrite I2. field.
  - intros -> x. cbn. unfold ha, zero_c. split; [ring|]. unfold Rdiv. replace (/ sqrt 2 * 1 * ((2 * (x * / sqrt 2) + 0) * 1 + 0)) with (2 * x * / (sqrt 2 * sqrt 2)) by (field; lra). rewrite SS. field.
Qed.
(** ** The oscillator wave functions are orthonormal *)
Theorem C90_wavefunction : forall m n, (0 <= m)%Z -> (0 <= n)%Z -> exists f g, (forall x, QuantumWavefunction Rtrig exp Rpower m x = Ok (f x)) /\ (forall x, QuantumWavefunction Rtrig exp Rpower n x = Ok (g x)) /\
  integral NegInf PosInf (fun x => f x * g x) (if Z.eqb m n then 1 else 0).
Proof.
  intros m n Hm Hn. rewrite <- (Z2Nat.id m), <- (Z2Nat.id n) by auto. generalize (Z.to_nat m) (Z.to_nat n). clear. intros m n.
  set (w := fun k => 2 ^ k * INR (fact k) * sqrt PI). assert (Hw : forall k, 0 < w k).
  { intros k. unfold w. pose proof PI_RGT_0. apply Rmult_lt_0_compat; [apply Rmult_lt_0_compat; [apply pow_lt; lra|apply lt_0_INR, lt_O_fact]|apply sqrt_lt_R0; auto]. }
  assert (HE : forall k x, QuantumWavefunction Rtrig exp Rpower (Z.of_nat k) x = Ok (1 / sqrt (w k) * ttr ha zero_c hc k x * exp (- (1 / 2) * x * x))).
  { intros k x. unfold QuantumWavefunction. rewrite nonneg_nat. cbn [b_eval HermiteBasis]. unfold hermite_norm. rewrite !nonneg_nat, !Nat2Z.id, factorial_fact, Hermite_ttr. cbn [bind]. tnum. rewrite rpow_int. reflexivity. }
  exists (fun x => 1 / sqrt (w m) * ttr ha zero_c hc m x * exp (- (1 / 2) * x * x)), (fun x => 1 / sqrt (w n) * ttr ha zero_c hc n x * exp (- (1 / 2) * x * x)). split; [apply HE|split; [apply HE|]].
  eapply integral_ext; [| |exact (integral_scal _ _ _ _ (1 / sqrt (w m) * (1 / sqrt (w n))) (herm_orth _ gauss_integral m n))].
  - intros x _. cbv beta. replace (exp (- x * x)) with (exp (- (1 / 2) * x * x) * exp (- (1 / 2) * x * x)) by (rewrite <- exp_plus; f_equal; field). ring.
  - fold (w m). destruct (Nat.eqb_spec m n) as [->|N].
    + rewrite Z.eqb_refl. pose proof (sqrt_lt_R0 _ (Hw n)). pose proof (sqrt_sqrt (w n) ltac:(left; apply Hw)) as E. rewrite <- E at 3. field. lra.
    + replace (Z.of_nat m =? Z.of_nat n)%Z with false by (symmetry; apply Z.eqb_neq; lia). ring.
Qed.
End Bases.
Print Assumptions C90_legendre. Print Assumptions C90_hermite. Print Assumptions C90_assoc_laguerre. Print Assumptions C90_laguerre. Print Assumptions C90_chebyshev. Print Assumptions C90_prob_hermite.
Print Assumptions C90_refuses. Print Assumptions C90_recurrence. Print Assumptions C90_chebyshev_recurrence_refuted. Print Assumptions C90_degree. Print Assumptions C90_prob_hermite_monic. Print Assumptions C90_wavefunction.
