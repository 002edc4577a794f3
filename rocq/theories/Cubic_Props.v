(** * C86: closed-form solutions of quadratic, cubic and quartic equations *)

From Coq Require Import Reals Lra List Arith ZArith Lia Bool Qcanon.
From Verif Require Import Base Num RootFind_Model RootFind_Proofs RootFind_Props Fourier_Model Fourier_Spec Fourier_FFT Fourier_Props Fourier_DCT Deriv_Props Cubic_Model Cubic_Spec Cubic_Proofs.
Import ListNotations.
Local Open Scope R_scope.

(** ** Square and cube roots *)
Theorem C86_roots : (forall a, Cmul (csqrt Rralg a) (csqrt Rralg a) = a) /\ (forall a, 0 <= fst (csqrt Rralg a)) /\ (forall x, Rcbrt x * Rcbrt x * Rcbrt x = x).
Proof. split; [apply csqrt_sq|split; [|apply Rcbrt_cube]]. intros a. unfold csqrt. cbn [fst]. anum. apply sqrt_pos. Qed.
Print Assumptions C86_roots.

(** ** Quadratics *)
(** the polynomial is a (X - x1) (X - x2); the count is 2 exactly when both roots are real, otherwise 0 with a conjugate pair *)
Theorem C86_quadratic : forall Eps a b c, 0 < Eps -> Eps <= Rabs a -> b <> 0 \/ c <> 0 ->
  exists k x1 x2, SolveQuadratic Rralg Eps a b c = (k, Some x1, Some x2) /\ all_roots [c; b; a] a [x1; x2] /\
    ((k = 2%Z /\ is_real x1 /\ is_real x2) \/ (k = 0%Z /\ ~ is_real x1 /\ ~ is_real x2 /\ x2 = Cconj x1)).
Proof.
  intros Eps a b c HE Ha Hbc. destruct (quad_ok Eps a b c HE Ha Hbc) as (k & x1 & x2 & E & HF & H1 & H2). exists k, x1, x2. split; [exact E|]. split; [exact HF|].
  destruct (Rlt_le_dec (b * b - 4 * a * c) 0) as [D|D]; [right|left; auto]. destruct (H2 D) as (K & N & C'). repeat split; auto. subst x2. unfold is_real, Cconj in *. cbn. lra.
Qed.
Print Assumptions C86_quadratic.
Theorem C86_quadratic_complex : forall Eps a b c x1 x2, 0 < Eps -> Eps <= cabs Rralg a -> SolveQuadraticC Rralg Eps a b c = (x1, x2) ->
  forall X, Cadd c (Cmul X (Cadd b (Cmul X a))) = Cmul a (Cmul (Csub X x1) (Csub X x2)).
Proof. exact quadC_ok. Qed.
Print Assumptions C86_quadratic_complex.

(** ** Cubics *)
Lemma disc3 : forall A B G r1 r2 r3, all_roots [G; B; A; 1] 1 [RtoC r1; RtoC r2; RtoC r3] ->
  let Q := (3 * B - A * A) / 9 in let R := (9 * A * B - 27 * G - 2 * (A * A * A)) / 54 in 108 * (Q * Q * Q + R * R) = - (((r1 - r2) * (r1 - r3) * (r2 - r3)) * ((r1 - r2) * (r1 - r3) * (r2 - r3))).
Proof.
  intros A B G r1 r2 r3 H Q R. pose proof (f_equal fst (H (0, 0))) as H0. pose proof (f_equal fst (H (1, 0))) as H1. pose proof (f_equal fst (H (-1, 0))) as H2. cbn in H0, H1, H2.
  assert (EG : G = - (r1 * r2 * r3)) by lra. assert (EA : A = - (r1 + r2 + r3)) by lra. assert (EB : B = r1 * r2 + r1 * r3 + r2 * r3) by lra. unfold Q, R. rewrite EA, EB, EG. field.
Qed.
(** the polynomial is a (X - x1) (X - x2) (X - x3); the count is 3 exactly when there are three different real roots,
    otherwise 1, with a real first root and a conjugate pair *)
Theorem C86_cubic : forall Eps a b c d, 0 < Eps -> Eps <= Rabs a ->
  exists k x1 x2 x3, SolveCubic Rralg Eps a b c d = (k, Some x1, Some x2, Some x3) /\ all_roots [d; c; b; a] a [x1; x2; x3] /\ is_real x1 /\
    ((k = 3%Z /\ is_real x2 /\ is_real x3 /\ x1 <> x2 /\ x1 <> x3 /\ x2 <> x3) \/ (k = 1%Z /\ x3 = Cconj x2)).
Proof.
  intros Eps a b c d HE Ha. destruct (cubic_ok Eps a b c d HE Ha) as (k & x1 & x2 & x3 & E & HF & H1 & H2). cbv zeta in H1, H2.
  assert (Na : a <> 0) by (intros ->; rewrite Rabs_R0 in Ha; lra). exists k, x1, x2, x3. split; [exact E|]. split; [exact HF|].
  match type of H2 with (?d < 0 -> _) => set (D := d) in * end. destruct (Rlt_le_dec D 0) as [L|L].
  - destruct (H2 L) as (K & R1 & R2 & R3). split; [exact R1|]. left. split; [exact K|]. split; [exact R2|]. split; [exact R3|].
    destruct x1 as [r1 i1], x2 as [r2 i2], x3 as [r3 i3]. unfold is_real in R1, R2, R3. cbn in R1, R2, R3. subst i1 i2 i3.
    assert (M : all_roots [d / a; c / a; b / a; 1] 1 [RtoC r1; RtoC r2; RtoC r3]).
    { intros X. specialize (HF X). destruct X as [p r]. cbn in HF |- *. injection HF as F1 F2. apply C_eq; cbn; apply (Rmult_eq_reg_l a); auto; [etransitivity; [|etransitivity; [exact F1|]]|etransitivity; [|etransitivity; [exact F2|]]]; field; auto. }
    pose proof (disc3 _ _ _ _ _ _ M) as DD. cbv zeta in DD. fold D in DD. assert (NZ : (r1 - r2) * (r1 - r3) * (r2 - r3) <> 0) by (intros Z; rewrite Z in DD; lra).
    repeat split; intros EQ; injection EQ as EQ; apply NZ; rewrite EQ; ring.
  - destruct (H1 L) as (K & R1 & R2 & _). split; [exact R1|]. right. auto.
Qed.
Print Assumptions C86_cubic.
(** so a polynomial with three different real roots gets count 3, and a count of 1 means a conjugate pair or a repeated root *)
Theorem C86_cubic_count : forall Eps a b c d r1 r2 r3, 0 < Eps -> Eps <= Rabs a -> all_roots [d; c; b; a] a [RtoC r1; RtoC r2; RtoC r3] ->
  fst (fst (fst (SolveCubic Rralg Eps a b c d))) = 3%Z <-> (r1 <> r2 /\ r1 <> r3 /\ r2 <> r3).
Proof.
  intros Eps a b c d r1 r2 r3 HE Ha HF. assert (Na : a <> 0) by (intros ->; rewrite Rabs_R0 in Ha; lra). destruct (cubic_ok Eps a b c d HE Ha) as (k & x1 & x2 & x3 & E & _ & H1 & H2). cbv zeta in H1, H2. rewrite E. cbn [fst].
  match type of H2 with (?d < 0 -> _) => set (D := d) in * end. assert (M : all_roots [d / a; c / a; b / a; 1] 1 [RtoC r1; RtoC r2; RtoC r3]).
  { intros X. specialize (HF X). destruct X as [p r]. cbn in HF |- *. injection HF as F1 F2. apply C_eq; cbn; apply (Rmult_eq_reg_l a); auto; [etransitivity; [|etransitivity; [exact F1|]]|etransitivity; [|etransitivity; [exact F2|]]]; field; auto. }
  pose proof (disc3 _ _ _ _ _ _ M) as DD. cbv zeta in DD. fold D in DD. set (w := (r1 - r2) * (r1 - r3) * (r2 - r3)) in *. split.
  - intros K. assert (NZ : w <> 0). { intros Z. rewrite Z in DD. assert (0 <= D) by lra. destruct (H1 H). lia. } unfold w in NZ. repeat split; intros EQ; apply NZ; rewrite EQ; ring.
  - intros (N1 & N2 & N3). assert (NZ : w <> 0) by (unfold w; repeat apply Rmult_integral_contrapositive_currified; lra). assert (0 < w * w) by (apply Rsqr_pos_lt in NZ; exact NZ). destruct (H2 ltac:(lra)). auto.
Qed.
Print Assumptions C86_cubic_count.

(** ** Quartics *)
(** the polynomial is a times the product of the four factors, exactly when the linear coefficient after the shift by b/(4a) is 0 or
    above the threshold; in between, that coefficient is dropped, which is the residual at every returned root *)
Theorem C86_quartic : forall Eps a b c d e, 0 < Eps -> Eps <= 1 -> Eps <= Rabs a ->
  exists x1 x2 x3 x4, SolveQuartic Rralg Eps a b c d e = (Some x1, Some x2, Some x3, Some x4) /\
    (shifted_linear a b c d = 0 \/ Eps < Rabs (shifted_linear a b c d) -> all_roots [e; d; c; b; a] a [x1; x2; x3; x4]) /\
    (Rabs (shifted_linear a b c d) <= Eps -> (forall X, Cmul (RtoC a) (factors [x1; x2; x3; x4] X) = Csub (cpev [e; d; c; b; a] X) (Cmul (RtoC (a * shifted_linear a b c d)) (Cadd X (RtoC (b / a / 4))))) /\
       forall x, In x [x1; x2; x3; x4] -> cpev [e; d; c; b; a] x = Cmul (RtoC (a * shifted_linear a b c d)) (Cadd x (RtoC (b / a / 4)))).
Proof.
  intros Eps a b c d e HE HE1 Ha. assert (Na : a <> 0) by (intros ->; rewrite Rabs_R0 in Ha; lra). destruct (quartic_ok Eps a b c d e HE HE1 Ha) as (x1 & x2 & x3 & x4 & E & HX). cbv zeta in HX. exists x1, x2, x3, x4. split; [exact E|].
  assert (EQ : d / a - 1 / 2 * (b / a) * (c / a) + b / a * (b / a) * (b / a) / 8 = shifted_linear a b c d) by (unfold shifted_linear; field; auto). rewrite EQ in HX. set (q := shifted_linear a b c d) in *. split.
  - intros HQ X. rewrite HX. destruct (Rltb_spec Eps (Rabs q)) as [G|G].
    + apply C_eq; unfold Csub; cbn; ring.
    + destruct HQ as [HQ|HQ]; [|lra]. rewrite HQ. apply C_eq; unfold Csub, Cmul; cbn; ring.
  - intros HQ. destruct (Rltb_spec Eps (Rabs q)) as [G|G]; [lra|]. split; [exact HX|]. intros x Hx. specialize (HX x).
    assert (F0 : factors [x1; x2; x3; x4] x = (0, 0)). { destruct (root_of_factors [] 0 [x] x) as []; [intros X; cbn; apply C_eq; cbn; ring|left; reflexivity|]. clear -Hx. cbn [In] in Hx. cbn [factors]. destruct Hx as [<-|[<-|[<-|[<-|[]]]]]; apply C_eq; cbn; ring. }
    rewrite F0 in HX. apply C_eq; [apply (f_equal fst) in HX|apply (f_equal snd) in HX]; cbn [fst snd Csub] in HX; unfold Csub, Cmul in *; cbn [fst snd] in *; lra.
Qed.
Print Assumptions C86_quartic.

(** ** Degenerate equations *)
(** a leading coefficient below the threshold is dropped: the roots of the rest are returned, followed by 0 *)
Theorem C86_degenerate : forall Eps a b c d e, 0 < Eps -> Rabs a < Eps ->
  (Eps <= Rabs b -> SolveQuadratic Rralg Eps a b c = (1%Z, Some (RtoC (- c / b)), Some (RtoC 0)) /\ b * (- c / b) + c = 0) /\
  (Rabs b < Eps -> SolveQuadratic Rralg Eps a b c = (0%Z, Some (RtoC 0), Some (RtoC 0))) /\
  (let '(k, x1, x2) := SolveQuadratic Rralg Eps b c d in SolveCubic Rralg Eps a b c d = (k, x1, x2, Some (RtoC 0))) /\
  (let '(_, x1, x2, x3) := SolveCubic Rralg Eps b c d e in SolveQuartic Rralg Eps a b c d e = (x1, x2, x3, Some (RtoC 0))).
Proof.
  intros Eps a b c d e HE Ha. assert (L : forall x, Rabs x < Eps -> altb Rarith (aabs Rarith x) Eps = true) by (intros x Hx; rnum; destruct (Rltb_spec (Rabs x) Eps); auto; lra). split; [|split; [|split]].
  - intros Hb. assert (Nb : b <> 0) by (intros ->; rewrite Rabs_R0 in Hb; lra). split; [|field; auto]. unfold SolveQuadratic. change (tar (rtr Rralg)) with Rarith. rewrite (L a Ha). rnum. destruct (Rltb_spec (Rabs b) Eps); [lra|reflexivity].
  - intros Hb. unfold SolveQuadratic. change (tar (rtr Rralg)) with Rarith. rewrite (L a Ha), (L b Hb). reflexivity.
  - destruct (SolveQuadratic Rralg Eps b c d) as [[k x1] x2] eqn:E. unfold SolveCubic. rewrite E. change (tar (rtr Rralg)) with Rarith. rewrite (L a Ha). reflexivity.
  - destruct (SolveCubic Rralg Eps b c d e) as [[[k x1] x2] x3] eqn:E. unfold SolveQuartic. rewrite E. change (tar (rtr Rralg)) with Rarith. rewrite (L a Ha). reflexivity.
Qed.
Print Assumptions C86_degenerate.

(** ** What is not true *)
(** SolveQuadratic of a x^2 = 0 does not return the double root 0: the second root is 0/0 *)
Theorem C86_double_zero_refuted : ~ (forall Eps a b c, 0 < Eps -> Eps <= Rabs a -> exists k x1 x2, SolveQuadratic Rralg Eps a b c = (k, Some x1, Some x2)).
Proof.
  intros H. destruct (H 1 1 0 0 ltac:(lra) ltac:(rewrite Rabs_R1; lra)) as (k & x1 & x2 & E). unfold SolveQuadratic in E. anum. rewrite Rabs_R1 in E. destruct (Rltb_spec 1 1); [lra|]. cbv zeta in E. replace (0 * 0 - 4 * 1 * 0) with 0 in E by ring. rewrite sqrt_0 in E.
  unfold acopysign in E. rnum. rewrite Rabs_R0 in E. destruct (Rltb_spec 0 0); [lra|]. cbn [negb] in E. replace (- (1 / 2) * (0 + 0)) with 0 in E by ring. unfold aeqb in E. rnum. destruct (Rltb_spec 0 0); [lra|]. cbn in E. discriminate E.
Qed.
Print Assumptions C86_double_zero_refuted.
(** the threshold is absolute: the equation (Eps/2) x^2 - Eps/2 = 0 has the roots 1 and -1, but the count is 0 and both returned roots are 0 *)
Theorem C86_small_coefficients_refuted : ~ (forall Eps a b c, 0 < Eps -> a <> 0 -> b <> 0 \/ c <> 0 -> exists k x1 x2, SolveQuadratic Rralg Eps a b c = (k, Some x1, Some x2) /\ all_roots [c; b; a] a [x1; x2]).
Proof.
  intros H. destruct (H 1 (1 / 2) 0 (- (1 / 2)) ltac:(lra) ltac:(lra) ltac:(right; lra)) as (k & x1 & x2 & E & HF).
  destruct (C86_degenerate 1 (1 / 2) 0 (- (1 / 2)) 0 0 ltac:(lra) ltac:(rewrite Rabs_pos_eq; lra)) as (_ & E0 & _). rewrite E0 in E by (rewrite Rabs_R0; lra). injection E as <- <- <-. specialize (HF (0, 0)). cbn in HF. injection HF as HF _. lra.
Qed.
Print Assumptions C86_small_coefficients_refuted.
(** the count of SolveCubic is not the number of real roots: x^3 - 3 x + 2 = (x - 1)^2 (x + 2) has only real roots, but the count is 1 *)
Theorem C86_repeated_root_refuted : ~ (forall Eps a b c d k x1 x2 x3, 0 < Eps -> Eps <= Rabs a -> SolveCubic Rralg Eps a b c d = (k, Some x1, Some x2, Some x3) -> is_real x1 -> is_real x2 -> is_real x3 -> k = 3%Z).
Proof.
  intros H. destruct (C86_cubic 1 1 0 (-3) 2 ltac:(lra) ltac:(rewrite Rabs_R1; lra)) as (k & x1 & x2 & x3 & E & HF & R1 & [(K & R2 & R3 & _)|(K & C')]).
  - assert (F : all_roots [2; -3; 0; 1] 1 [RtoC 1; RtoC 1; RtoC (-2)]) by (intros [p r]; cbn; apply C_eq; cbn; ring).
    destruct (C86_cubic_count 1 1 0 (-3) 2 1 1 (-2) ltac:(lra) ltac:(rewrite Rabs_R1; lra) F) as (T & _). rewrite E in T. cbn [fst] in T. destruct (T K) as (N & _). apply N. reflexivity.
  - assert (k <> 3%Z) by lia. apply H0, (H 1 1 0 (-3) 2 k x1 x2 x3); auto; [lra|rewrite Rabs_R1; lra| |].
    + assert (F : cpev [2; -3; 0; 1] x2 = (0, 0)) by (apply (root_of_factors _ _ _ _ HF); cbn; auto). destruct x2 as [p r]. unfold is_real. cbn in F |- *. injection F as F1 F2. destruct (Req_dec r 0) as [Z|N]; auto. exfalso.
      assert (G : r * (3 * p * p - r * r - 3) = 0) by lra. apply Rmult_integral in G. destruct G as [G|G]; [auto|]. assert (G1 : -8 * p * p * p + 6 * p + 2 = 0) by nra. assert (G2 : (p - 1) * ((2 * p + 1) * (2 * p + 1)) = 0) by lra. apply Rmult_integral in G2. destruct G2 as [G2|G2].
      * assert (r * r = 0) by (assert (p = 1) by lra; subst p; lra). apply Rmult_integral in H1. tauto.
      * apply Rmult_integral in G2. assert (p = - (1 / 2)) by (destruct G2; lra). subst p. assert (0 <= r * r) by apply Rle_0_sqr. lra.
    + subst x3. assert (F : cpev [2; -3; 0; 1] x2 = (0, 0)) by (apply (root_of_factors _ _ _ _ HF); cbn; auto). destruct x2 as [p r]. unfold is_real. cbn in F |- *. injection F as F1 F2. destruct (Req_dec r 0) as [Z|N]; [lra|]. exfalso.
      assert (G : r * (3 * p * p - r * r - 3) = 0) by lra. apply Rmult_integral in G. destruct G as [G|G]; [auto|]. assert (G1 : -8 * p * p * p + 6 * p + 2 = 0) by nra. assert (G2 : (p - 1) * ((2 * p + 1) * (2 * p + 1)) = 0) by lra. apply Rmult_integral in G2. destruct G2 as [G2|G2].
      * assert (r * r = 0) by (assert (p = 1) by lra; subst p; lra). apply Rmult_integral in H1. tauto.
      * apply Rmult_integral in G2. assert (p = - (1 / 2)) by (destruct G2; lra). subst p. assert (0 <= r * r) by apply Rle_0_sqr. lra.
Qed.
Print Assumptions C86_repeated_root_refuted.
(** SolveQuartic drops a small linear term: for x^4 + Eps x every returned root is 0, although - cbrt Eps (about 6e-6 in double precision) is a root *)
Theorem C86_small_linear_refuted : ~ (forall Eps a b c d e x1 x2 x3 x4, 0 < Eps -> Eps <= 1 -> Eps <= Rabs a -> SolveQuartic Rralg Eps a b c d e = (Some x1, Some x2, Some x3, Some x4) -> all_roots [e; d; c; b; a] a [x1; x2; x3; x4]).
Proof.
  intros H. destruct (C86_quartic 1 1 0 0 1 0 ltac:(lra) ltac:(lra) ltac:(rewrite Rabs_R1; lra)) as (x1 & x2 & x3 & x4 & E & _ & HX).
  assert (S0 : shifted_linear 1 0 0 1 = 1) by (unfold shifted_linear; field). rewrite S0 in HX. destruct (HX ltac:(rewrite Rabs_R1; lra)) as (HX1 & _). pose proof (H 1 1 0 0 1 0 x1 x2 x3 x4 ltac:(lra) ltac:(lra) ltac:(rewrite Rabs_R1; lra) E (1, 0)) as F. rewrite HX1 in F. apply (f_equal fst) in F. cbn in F. lra.
Qed.
Print Assumptions C86_small_linear_refuted.

(** ** Examples *)
Local Open Scope Z_scope.
Fixpoint zcbrt_bits (n : nat) (x acc : Z) : Z := match n with O => acc | Datatypes.S n => let t := acc + 2 ^ Z.of_nat n in zcbrt_bits n x (if t * t * t <=? x then t else acc) end.
Definition Qc_cbrt (x : Qc) : Qc := let '(n, d) := showz x in let m := q (zcbrt_bits 60 (Z.abs n * 10 ^ 18 / d) 0) (10 ^ 6) in if n <? 0 then Qcopp m else m.
Definition Qralg : ralg Qc := mkRalg Qc Qtrig Qc_cbrt (fun x => x).
Definition showcx (x : option (Qc * Qc)) := match x with Some z => Some (showz (fst z), showz (snd z)) | None => None end.
Definition eps1 : Qc := q 1 1000000.
Example C86_ex_quadratic : (let '(k, x1, x2) := SolveQuadratic Qralg eps1 (q 2 1) (q (-10) 1) (q 12 1) in (k, showcx x1, showcx x2)) = (2, Some ((3, 1), (0, 1)), Some ((2, 1), (0, 1))) /\
  (let '(k, x1, x2) := SolveQuadratic Qralg eps1 (q 1 1) (q (-2) 1) (q 5 1) in (k, showcx x1, showcx x2)) = (0, Some ((1, 1), (2, 1)), Some ((1, 1), (-2, 1))) /\
  (let '(k, x1, x2) := SolveQuadratic Qralg eps1 (q 0 1) (q 2 1) (q (-5) 1) in (k, showcx x1, showcx x2)) = (1, Some ((5, 2), (0, 1)), Some ((0, 1), (0, 1))).
Proof. vm_compute. repeat split; reflexivity. Qed.
(** (x + 2) (x - 1)^2 and a complex quadratic *)
Example C86_ex_cubic : (let '(k, x1, x2, x3) := SolveCubic Qralg eps1 (q 2 1) (q 0 1) (q (-6) 1) (q 4 1) in (k, showcx x1, showcx x2, showcx x3)) = (1, Some ((-2, 1), (0, 1)), Some ((1, 1), (0, 1)), Some ((1, 1), (0, 1))) /\
  (let '(x1, x2) := SolveQuadraticC Qralg eps1 (q 1 1, q 0 1) (q (-4) 1, q (-3) 1) (q 1 1, q 7 1) in (showcx (Some x1), showcx (Some x2))) = (Some ((3, 1), (1, 1)), Some ((1, 1), (2, 1))).
Proof. vm_compute. repeat split; reflexivity. Qed.
(** (x - 1) (x - 2) (x + 1) (x + 2) *)
Example C86_ex_quartic : (let '(x1, x2, x3, x4) := SolveQuartic Qralg eps1 (q 1 1) (q 0 1) (q (-5) 1) (q 0 1) (q 4 1) in (showcx x1, showcx x2, showcx x3, showcx x4)) = (Some ((2, 1), (0, 1)), Some ((-2, 1), (0, 1)), Some ((1, 1), (0, 1)), Some ((-1, 1), (0, 1))).
Proof. vm_compute. reflexivity. Qed.
Local Open Scope R_scope.
Example C86_ex_hyps : (exists Eps a b c, 0 < Eps /\ Eps <= Rabs a /\ (b <> 0 \/ c <> 0)) /\ (exists Eps a b c d, 0 < Eps /\ Eps <= 1 /\ Eps <= Rabs a /\ Eps < Rabs (shifted_linear a b c d)) /\
  all_roots [-6; 11; -6; 1] 1 [RtoC 1; RtoC 2; RtoC 3].
Proof.
  split; [exists 1, 2, 3, 4; rewrite Rabs_pos_eq; lra|]. split; [exists (1 / 2), 1, 0, 0, 1; unfold shifted_linear; replace (1 / 1 - 0 * 0 / (2 * 1 * 1) + 0 * 0 * 0 / (8 * 1 * 1 * 1)) with 1 by field; rewrite Rabs_R1; lra|].
  intros [p r]. cbn. apply C_eq; cbn; ring.
Qed.
