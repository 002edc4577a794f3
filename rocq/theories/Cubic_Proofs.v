(** * C86: the closed-form solvers factor their polynomials *)

From Coq Require Import Reals Lra List Arith ZArith Lia Bool Ring.
From Verif Require Import Base Num RootFind_Model RootFind_Proofs Fourier_Model Fourier_Spec Fourier_FFT Fourier_Props Cubic_Model Cubic_Spec.
Import ListNotations.
Local Open Scope R_scope.

Local Notation "a +! b" := (Cadd a b) (at level 50, left associativity).
Local Notation "a -! b" := (Csub a b) (at level 50, left associativity).
Local Notation "a *! b" := (Cmul a b) (at level 40, left associativity).
Definition Z0 : C := (0, 0).
Definition I1 : C := (1, 0).
Lemma Crt : ring_theory Z0 I1 Cadd Cmul Csub Copp eq.
Proof. constructor; intros; repeat match goal with x : C |- _ => destruct x end; unfold Cadd, Cmul, Csub, Copp, Z0, I1; cbn; f_equal; ring. Qed.
Add Ring CRT : Crt.
Ltac anum := try change (rtr Rralg) with Rtrig in *; try change (rcbrt Rralg) with Rcbrt in *; try change (racos Rralg) with acos in *; tnum.

(** ** Cube and square roots *)
Lemma Rcbrt_cube : forall x, Rcbrt x * Rcbrt x * Rcbrt x = x.
Proof.
  assert (P : forall x, 0 < x -> Rpower x (/ 3) * Rpower x (/ 3) * Rpower x (/ 3) = x).
  { intros x Hx. rewrite <- !Rpower_plus. replace (/ 3 + / 3 + / 3) with 1 by field. apply Rpower_1. auto. }
  intros x. unfold Rcbrt. destruct (Rlt_dec x 0).
  - transitivity (- (Rpower (- x) (/ 3) * Rpower (- x) (/ 3) * Rpower (- x) (/ 3))); [ring|]. rewrite P by lra. ring.
  - destruct (Rlt_dec 0 x); [apply P; auto|]. lra.
Qed.
Lemma cube_inj : forall x y, x * x * x = y * y * y -> x = y.
Proof.
  intros x y H. destruct (Req_dec x y) as [|N]; auto. exfalso.
  assert (E : (x - y) * (x * x + x * y + y * y) = 0) by lra. apply Rmult_integral in E. destruct E as [E|E]; [lra|].
  assert (S0 : (x + y / 2) * (x + y / 2) + 3 / 4 * (y * y) = 0) by lra. pose proof (Rle_0_sqr (x + y / 2)). pose proof (Rle_0_sqr y). unfold Rsqr in *.
  assert (Y : y * y = 0) by lra. apply Rmult_integral in Y. assert (y = 0) by tauto. subst y. assert (X : x * x = 0) by lra. apply Rmult_integral in X. assert (x = 0) by tauto. lra.
Qed.
Lemma csqrt_sq : forall a : C, csqrt Rralg a *! csqrt Rralg a = a.
Proof.
  intros [x y]. unfold csqrt, cabs. cbv zeta. unfold acopysign. anum. cbn [fst snd]. set (r := sqrt (x * x + y * y)).
  assert (R0 : 0 <= r) by apply sqrt_pos. assert (RR : r * r = x * x + y * y) by (apply sqrt_sqrt; pose proof (Rle_0_sqr x); pose proof (Rle_0_sqr y); unfold Rsqr in *; lra).
  assert (RX : Rabs x <= r). { apply Rsqr_incr_0; [|apply Rabs_pos|auto]. rewrite <- Rsqr_abs. unfold Rsqr. rewrite RR. pose proof (Rle_0_sqr y). unfold Rsqr in *. lra. }
  apply Rabs_def2_le in RX || idtac. assert (X1 : - r <= x <= r) by (unfold Rabs in RX; destruct (Rcase_abs x); lra).
  set (p := sqrt ((r + x) / 2)). set (m := sqrt ((r - x) / 2)). assert (P0 : 0 <= p) by apply sqrt_pos. assert (M0 : 0 <= m) by apply sqrt_pos.
  assert (PP : p * p = (r + x) / 2) by (apply sqrt_sqrt; lra). assert (MM : m * m = (r - x) / 2) by (apply sqrt_sqrt; lra).
  assert (PM : 2 * (p * m) = Rabs y). { apply Rsqr_inj; [nra|apply Rabs_pos|]. rewrite <- Rsqr_abs. unfold Rsqr. replace (2 * (p * m) * (2 * (p * m))) with (4 * (p * p) * (m * m)) by ring. rewrite PP, MM. nra. }
  rewrite (Rabs_pos_eq m) by auto. destruct (Rltb_spec y 0) as [G|G]; unfold Cmul; cbn [fst snd]; f_equal; try lra.
  - rewrite Rabs_left in PM by auto. lra.
  - rewrite Rabs_pos_eq in PM by lra. lra.
Qed.
Lemma cdiv_mul : forall a b : C, b <> Z0 -> cdiv Rralg a b *! b = a.
Proof.
  intros [a1 a2] [b1 b2] H. unfold cdiv. anum. cbn [fst snd]. assert (N : b1 * b1 + b2 * b2 <> 0).
  { intros E. apply H. pose proof (Rle_0_sqr b1). pose proof (Rle_0_sqr b2). unfold Rsqr in *. assert (E1 : b1 * b1 = 0) by lra. assert (E2 : b2 * b2 = 0) by lra. apply Rmult_integral in E1, E2. unfold Z0. f_equal; tauto. }
  unfold Cmul. cbn [fst snd]. f_equal; field; exact N.
Qed.
Lemma C_cancel : forall u a b : C, u <> Z0 -> u *! a = u *! b -> a = b.
Proof.
  intros u a b H E. pose proof (cdiv_mul I1 u H) as G. set (i := cdiv Rralg I1 u) in *. transitivity (i *! u *! a); [rewrite G; ring|]. transitivity (i *! (u *! a)); [ring|]. rewrite E. transitivity (i *! u *! b); [ring|]. rewrite G. ring.
Qed.
Lemma C_integral : forall a b : C, a *! b = Z0 -> a = Z0 \/ b = Z0.
Proof.
  intros a b E. destruct (Req_EM_T (fst a) 0) as [E1|E1]; [destruct (Req_EM_T (snd a) 0) as [E2|E2]|].
  - left. apply C_eq; cbn; auto.
  - right. apply (C_cancel a); [intros ->; cbn in E2; lra|]. rewrite E. ring.
  - right. apply (C_cancel a); [intros ->; cbn in E1; lra|]. rewrite E. ring.
Qed.

(** ** The model's operations *)
Lemma cadd_C : forall a b : C, cadd Rtrig a b = a +! b. Proof. reflexivity. Qed.
Lemma csub_C : forall a b : C, csub Rtrig a b = a -! b. Proof. reflexivity. Qed.
Lemma cmul_C : forall a b : C, cmul Rtrig a b = a *! b. Proof. reflexivity. Qed.
Lemma copp_C : forall a : C, copp Rralg a = Copp a. Proof. reflexivity. Qed.
Lemma cre_C : forall r, cre Rralg r = RtoC r. Proof. reflexivity. Qed.
Lemma cabs_0 : forall a : C, a = Z0 -> cabs Rralg a = 0.
Proof. intros a ->. unfold cabs, Z0. anum. cbn [fst snd]. replace (0 * 0 + 0 * 0) with 0 by ring. apply sqrt_0. Qed.
Lemma factors2 : forall x1 x2 X, factors [x1; x2] X = (X -! x1) *! (X -! x2).
Proof. intros. cbn [factors]. change (1, 0) with I1. ring. Qed.

Lemma C2 : (2, 0) = I1 +! I1.
Proof. apply C_eq; cbn; ring. Qed.
Lemma C4 : (4, 0) = (I1 +! I1) *! (I1 +! I1).
Proof. apply C_eq; cbn; ring. Qed.
(** the quadratic formula, for any square root s of the discriminant *)
Lemma quad_factor : forall a b c s x1 x2 X : C, a <> Z0 -> s *! s = b *! b -! (I1 +! I1) *! (I1 +! I1) *! a *! c ->
  x1 *! ((I1 +! I1) *! a) = Copp b +! s -> x2 *! ((I1 +! I1) *! a) = Copp b -! s -> c +! X *! (b +! X *! a) = a *! ((X -! x1) *! (X -! x2)).
Proof.
  intros a b c s x1 x2 X Ha Hs H1 H2. assert (T4 : (I1 +! I1) *! (I1 +! I1) *! a <> Z0).
  { intros E. apply C_integral in E. destruct E as [E|E]; [|contradiction]. unfold Cmul, Cadd, I1, Z0 in E. cbn in E. injection E as E1 E2. lra. }
  apply (C_cancel _ _ _ T4). transitivity (((I1 +! I1) *! a *! X -! x1 *! ((I1 +! I1) *! a)) *! ((I1 +! I1) *! a *! X -! x2 *! ((I1 +! I1) *! a))).
  - rewrite H1, H2. transitivity (((I1 +! I1) *! a *! X +! b) *! ((I1 +! I1) *! a *! X +! b) -! s *! s); [rewrite Hs; ring|ring].
  - ring.
Qed.
Lemma quadC_ok : forall Eps a b c x1 x2, 0 < Eps -> Eps <= cabs Rralg a -> SolveQuadraticC Rralg Eps a b c = (x1, x2) -> forall X, c +! X *! (b +! X *! a) = a *! ((X -! x1) *! (X -! x2)).
Proof.
  intros Eps a b c x1 x2 HE Ha. unfold SolveQuadraticC. anum. destruct (Rltb_spec (cabs Rralg a) Eps); [lra|]. cbv zeta. intros E X. injection E as <- <-.
  assert (Na : a <> Z0) by (intros E; apply cabs_0 in E; lra). assert (S2 : cscale Rtrig 2 a = (I1 +! I1) *! a) by (apply C_eq; unfold cscale; anum; cbn; ring).
  assert (N2 : cscale Rtrig 2 a <> Z0). { rewrite S2. intros E. apply C_integral in E. destruct E as [E|E]; [|contradiction]. unfold Cadd, I1, Z0 in E. cbn in E. injection E as E1. lra. }
  apply (quad_factor a b c (csqrt Rralg (csub Rtrig (cmul Rtrig b b) (cmul Rtrig (cscale Rtrig 4 a) c)))); [exact Na| | |].
  - rewrite csqrt_sq. replace (cscale Rtrig 4 a) with ((I1 +! I1) *! (I1 +! I1) *! a); [reflexivity|]. apply C_eq; unfold cscale; anum; cbn; ring.
  - rewrite <- S2. apply cdiv_mul. exact N2.
  - rewrite <- S2. apply cdiv_mul. exact N2.
Qed.

(** ** Real coefficients *)
Lemma vieta2 : forall a b c x1 x2 : R, a * (x1 + x2) = - b -> a * (x1 * x2) = c -> all_roots [c; b; a] a [RtoC x1; RtoC x2].
Proof. intros a b c x1 x2 H1 H2 X. rewrite <- H2. replace b with (- (a * (x1 + x2))) by lra. destruct X as [p r]. cbn. apply C_eq; cbn; ring. Qed.
Lemma vieta2c : forall a b c u v : R, a * (2 * u) = - b -> a * (u * u + v * v) = c -> all_roots [c; b; a] a [(u, v); (u, - v)].
Proof. intros a b c u v H1 H2 X. rewrite <- H2. replace b with (- (a * (2 * u))) by lra. destruct X as [p r]. cbn. apply C_eq; cbn; ring. Qed.
Lemma vieta3 : forall a b c d x1 x2 x3 : R, a * (x1 + x2 + x3) = - b -> a * (x1 * x2 + x1 * x3 + x2 * x3) = c -> a * (x1 * x2 * x3) = - d -> all_roots [d; c; b; a] a [RtoC x1; RtoC x2; RtoC x3].
Proof. intros a b c d x1 x2 x3 H1 H2 H3 X. rewrite <- H2. replace b with (- (a * (x1 + x2 + x3))) by lra. replace d with (- (a * (x1 * x2 * x3))) by lra. destruct X as [p r]. cbn. apply C_eq; cbn; ring. Qed.
Lemma vieta3c : forall a b c d x u v : R, a * (x + 2 * u) = - b -> a * (2 * u * x + (u * u + v * v)) = c -> a * (x * (u * u + v * v)) = - d -> all_roots [d; c; b; a] a [RtoC x; (u, v); (u, - v)].
Proof. intros a b c d x u v H1 H2 H3 X. rewrite <- H2. replace b with (- (a * (x + 2 * u))) by lra. replace d with (- (a * (x * (u * u + v * v)))) by lra. destruct X as [p r]. cbn. apply C_eq; cbn; ring. Qed.

Lemma quad_ok : forall Eps a b c, 0 < Eps -> Eps <= Rabs a -> b <> 0 \/ c <> 0 ->
  exists k x1 x2, SolveQuadratic Rralg Eps a b c = (k, Some x1, Some x2) /\ all_roots [c; b; a] a [x1; x2] /\
    (0 <= b * b - 4 * a * c -> k = 2%Z /\ is_real x1 /\ is_real x2) /\ (b * b - 4 * a * c < 0 -> k = 0%Z /\ ~ is_real x1 /\ x2 = Cconj x1).
Proof.
  intros Eps a b c HE Ha Hbc. assert (Na : a <> 0) by (intros ->; rewrite Rabs_R0 in Ha; lra). unfold SolveQuadratic. anum. destruct (Rltb_spec (Rabs a) Eps); [lra|]. cbv zeta. set (D := b * b - 4 * a * c).
  destruct (Rltb_spec D 0) as [HD|HD]; cbn [negb].
  - set (s := csqrt Rralg (cre Rralg D)). assert (SS : s *! s = (D, 0)) by apply csqrt_sq. assert (S1 : fst s = 0 /\ snd s = sqrt (- D)).
    { unfold s, csqrt, cabs, cre, acopysign. cbv zeta. anum. cbn [fst snd]. replace (D * D + 0 * 0) with ((- D) * (- D)) by ring. rewrite sqrt_square by lra. replace ((- D + D) / 2) with 0 by field. replace ((- D - D) / 2) with (- D) by field.
      split; [apply sqrt_0|]. rewrite (Rabs_pos_eq (sqrt (- D))) by apply sqrt_pos. destruct (Rltb_spec 0 0); [lra|reflexivity]. }
    destruct S1 as (F1 & F2). set (w := sqrt (- D)) in *. assert (W0 : 0 < w) by (apply sqrt_lt_R0; lra). assert (WW : w * w = - D) by (apply sqrt_sqrt; lra).
    assert (X1 : cdivr Rtrig (cadd Rtrig (cre Rralg (- b)) s) (2 * a) = (- b / (2 * a), w / (2 * a))). { apply C_eq; unfold cdivr, cadd, cre; anum; cbn [fst snd]; rewrite ?F1, ?F2; field; auto. }
    assert (X2 : cdivr Rtrig (csub Rtrig (cre Rralg (- b)) s) (2 * a) = (- b / (2 * a), - (w / (2 * a)))). { apply C_eq; unfold cdivr, csub, cre; anum; cbn [fst snd]; rewrite ?F1, ?F2; field; auto. }
    rewrite X1, X2. exists 0%Z. do 2 eexists. split; [reflexivity|]. split; [|split].
    + apply vieta2c; [field; auto|]. transitivity ((b * b + w * w) / (4 * a)); [field; auto|]. rewrite WW. unfold D. field. auto.
    + intros; lra.
    + intros _. split; [reflexivity|]. split; [|reflexivity]. unfold is_real. cbn [snd]. intros E. apply Rmult_integral in E. destruct E as [E|E]; [lra|]. apply Rinv_neq_0_compat in E; [auto|lra].
  - set (w := sqrt D). assert (W0 : 0 <= w) by apply sqrt_pos. assert (WW : w * w = D) by (apply sqrt_sqrt; lra).
    set (sg := acopysign Rarith w b). assert (SG : sg * sg = D /\ (b + sg = 0 -> b = 0 /\ c = 0)).
    { unfold sg, acopysign. rnum. rewrite (Rabs_pos_eq w) by auto. destruct (Rltb_spec b 0).
      - split; [lra|]. intros E. exfalso. lra.
      - split; [lra|]. intros E. assert (b = 0) by lra. assert (w = 0) by lra. subst b. split; auto. assert (D = 0) by (rewrite <- WW, H0; ring). unfold D in H. assert (E4 : a * c = 0) by lra. apply Rmult_integral in E4. tauto. }
    destruct SG as (SG1 & SG2). set (q := - (1 / 2) * (b + sg)). assert (Q0 : q <> 0) by (intros E; unfold q in E; assert (b + sg = 0) by lra; destruct (SG2 H); tauto).
    assert (QB : aeqb Rarith q 0 = false). { unfold aeqb. rnum. destruct (Rltb_spec 0 q); destruct (Rltb_spec q 0); cbn; auto. lra. }
    rewrite QB. exists 2%Z. do 2 eexists. split; [reflexivity|]. split; [|split].
    + assert (CQ : a * c = - (q * q) - b * q). { unfold q. assert (sg * sg = b * b - 4 * a * c) by exact SG1. lra. }
      apply vieta2; [|field; auto]. transitivity ((q * q + a * c) / q); [field; auto|]. rewrite CQ. field. auto.
    + intros _. repeat split.
    + intros; lra.
Qed.
Lemma cube_sum : forall Q R D, D = Q * Q * Q + R * R -> 0 <= D -> let S := Rcbrt (R + sqrt D) in let U := Rcbrt (R - sqrt D) in S * S * S + U * U * U = 2 * R /\ S * U = - Q.
Proof.
  intros Q R D HD H0 S U. assert (SS : S * S * S = R + sqrt D) by apply Rcbrt_cube. assert (UU : U * U * U = R - sqrt D) by apply Rcbrt_cube. split; [lra|]. apply cube_inj.
  replace (S * U * (S * U) * (S * U)) with ((S * S * S) * (U * U * U)) by ring. rewrite SS, UU. assert (W : sqrt D * sqrt D = D) by (apply sqrt_sqrt; auto). nra.
Qed.
Lemma cos_thirds : forall al, let c0 := cos al in let c1 := cos (al + 2 * (PI / 3)) in let c2 := cos (al + 4 * (PI / 3)) in
  c0 + c1 + c2 = 0 /\ c0 * c1 + c0 * c2 + c1 * c2 = - 3 / 4 /\ c0 * c1 * c2 = cos (3 * al) / 4.
Proof.
  intros al c0 c1 c2. set (s := sin al). assert (SC : s * s = 1 - c0 * c0) by (unfold s, c0; pose proof (sin2_cos2 al); unfold Rsqr in *; lra).
  assert (Q3 : sqrt 3 * sqrt 3 = 3) by (apply sqrt_sqrt; lra).
  assert (E1 : c1 = - c0 / 2 - s * (sqrt 3 / 2)). { unfold c1. rewrite cos_plus, cos_2PI3, sin_2PI3. unfold c0, s. field. }
  assert (E2 : c2 = - c0 / 2 + s * (sqrt 3 / 2)). { unfold c2. replace (al + 4 * (PI / 3)) with (al - 2 * (PI / 3) + 2 * PI) by field. rewrite cos_plus, cos_2PI, sin_2PI, cos_minus, cos_2PI3, sin_2PI3. unfold c0, s. field. }
  assert (P12 : c1 * c2 = c0 * c0 - 3 / 4). { rewrite E1, E2. transitivity (c0 * c0 / 4 - (s * s) * (sqrt 3 * sqrt 3) / 4); [field|]. rewrite Q3, SC. field. }
  assert (E3 : cos (3 * al) = 4 * (c0 * c0 * c0) - 3 * c0). { replace (3 * al) with (2 * al + al) by ring. rewrite cos_plus, cos_2a, sin_2a. fold c0 s. transitivity (c0 * c0 * c0 - 3 * (s * s) * c0); [ring|]. rewrite SC. ring. }
  split; [rewrite E1, E2; field|]. split.
  - transitivity (c0 * (c1 + c2) + c1 * c2); [ring|]. rewrite P12. replace (c1 + c2) with (- c0) by (rewrite E1, E2; field). field.
  - rewrite Rmult_assoc, P12, E3. field.
Qed.
Lemma cubic_ok : forall Eps a b c d, 0 < Eps -> Eps <= Rabs a ->
  let A := b / a in let B := c / a in let G := d / a in
  let Q := (3 * B - A * A) / 9 in let R := (9 * A * B - 27 * G - 2 * (A * A * A)) / 54 in let D := Q * Q * Q + R * R in
  exists k x1 x2 x3, SolveCubic Rralg Eps a b c d = (k, Some x1, Some x2, Some x3) /\ all_roots [d; c; b; a] a [x1; x2; x3] /\
    (0 <= D -> k = 1%Z /\ is_real x1 /\ x3 = Cconj x2 /\ (0 < D -> ~ is_real x2)) /\ (D < 0 -> k = 3%Z /\ is_real x1 /\ is_real x2 /\ is_real x3).
Proof.
  intros Eps a b c d HE Ha A B G Q R D. assert (Na : a <> 0) by (intros ->; rewrite Rabs_R0 in Ha; lra). unfold SolveCubic, pow3, pow2. anum. destruct (Rltb_spec (Rabs a) Eps); [lra|]. cbv zeta.
  fold A. fold B. fold G. fold Q. fold R. fold D. assert (EA : b = a * A) by (unfold A; field; auto). assert (EB : c = a * B) by (unfold B; field; auto). assert (EG : d = a * G) by (unfold G; field; auto).
  assert (m3 : (- A / 3) * (- A / 3) * (- A / 3) + 3 * (- A / 3) * Q + 2 * R = - G) by (unfold Q, R; field).
  assert (m2 : 3 * ((- A / 3) * (- A / 3)) + 3 * Q = B) by (unfold Q; field).
  destruct (Rltb_spec D 0) as [HD|HD]; cbn [negb].
  - assert (HQ : Q < 0). { destruct (Rlt_le_dec Q 0); auto. exfalso. assert (0 <= Q * Q * Q) by (apply Rmult_le_pos; [apply Rmult_le_pos|]; assumption). pose proof (Rle_0_sqr R). unfold Rsqr, D in *. lra. }
    set (k := sqrt (- Q)). assert (K0 : 0 < k) by (apply sqrt_lt_R0; lra). assert (KK : k * k = - Q) by (apply sqrt_sqrt; lra).
    assert (K3 : sqrt (- (Q * Q * Q)) = k * k * k). { apply sqrt_lem_1; [|nra|]; replace Q with (- (k * k)) by lra; [|ring]. assert (0 < k * k * k) by (repeat apply Rmult_lt_0_compat; auto). nra. }
    rewrite K3. set (th := acos (R / (k * k * k))). assert (K3p : 0 < k * k * k) by (repeat apply Rmult_lt_0_compat; auto).
    assert (CT : k * k * k * cos th = R). { unfold th. rewrite cos_acos; [field; lra|]. assert (RR : R * R <= (k * k * k) * (k * k * k)). { replace (k * k * k * (k * k * k)) with ((k * k) * (k * k) * (k * k)) by ring. rewrite KK. unfold D in HD. lra. }
      assert (RA : - (k * k * k) <= R <= k * k * k) by (split; nra). split; [apply Rmult_le_reg_r with (k * k * k)|apply Rmult_le_reg_r with (k * k * k)]; auto; replace (R / (k * k * k) * (k * k * k)) with R by (field; lra); lra. }
    destruct (cos_thirds (th / 3)) as (C1 & C2 & C3). replace (3 * (th / 3)) with th in C3 by field.
    replace ((th + 2 * PI) / 3) with (th / 3 + 2 * (PI / 3)) by field. replace ((th + 4 * PI) / 3) with (th / 3 + 4 * (PI / 3)) by field.
    set (c0 := cos (th / 3)) in *. set (c1 := cos (th / 3 + 2 * (PI / 3))) in *. set (c2 := cos (th / 3 + 4 * (PI / 3))) in *.
    exists 3%Z. do 3 eexists. split; [reflexivity|]. split; [|split].
    + change (cre Rralg) with RtoC. apply vieta3.
      * rewrite EA. transitivity (a * (2 * k * (c0 + c1 + c2) - A)); [field|]. rewrite C1. ring.
      * rewrite EB. f_equal. rewrite <- m2. transitivity (4 * (k * k) * (c0 * c1 + c0 * c2 + c1 * c2) - 2 / 3 * A * (2 * k * (c0 + c1 + c2)) + 3 * (- A / 3 * (- A / 3))); [field|]. rewrite C1, C2, KK. field.
      * rewrite EG. transitivity (a * - G); [|ring]. f_equal. rewrite <- m3, <- CT.
        transitivity (8 * (k * k * k) * (c0 * c1 * c2) - A / 3 * (4 * (k * k) * (c0 * c1 + c0 * c2 + c1 * c2)) + (A * A) / 9 * (2 * k * (c0 + c1 + c2)) + - A / 3 * (- A / 3) * (- A / 3)); [field|]. rewrite C1, C2, C3, KK. field.
    + intros; lra.
    + intros _. repeat split.
  - destruct (cube_sum Q R D eq_refl (Rnot_lt_le _ _ HD)) as (SU & PQ). set (S := Rcbrt (R + sqrt D)) in *. set (U := Rcbrt (R - sqrt D)) in *. assert (Q3 : sqrt 3 * sqrt 3 = 3) by (apply sqrt_sqrt; lra).
    set (u := - A / 3 - (S + U) / 2). set (v := sqrt 3 * (S - U) / 2). assert (VV : v * v = 3 / 4 * ((S - U) * (S - U))). { unfold v. transitivity ((sqrt 3 * sqrt 3) * ((S - U) * (S - U)) / 4); [field|]. rewrite Q3. field. }
    assert (X2 : cadd Rtrig (cre Rralg u) (0, v) = (u, v)) by (apply C_eq; unfold cadd, cre; anum; cbn [fst snd]; ring). assert (X3 : csub Rtrig (cre Rralg u) (0, v) = (u, - v)) by (apply C_eq; unfold csub, cre; anum; cbn [fst snd]; ring).
    rewrite X2, X3. exists 1%Z. do 3 eexists. split; [reflexivity|]. split; [|split].
    + change (cre Rralg) with RtoC. apply vieta3c.
      * rewrite EA. unfold u. field.
      * rewrite EB. f_equal. rewrite VV. unfold u. rewrite <- m2. transitivity (3 * (- A / 3 * (- A / 3)) - 3 * (S * U)); [field|]. rewrite PQ. field.
      * rewrite EG. transitivity (a * - G); [|ring]. f_equal. rewrite VV. unfold u. rewrite <- m3, <- SU.
        transitivity (- A / 3 * (- A / 3) * (- A / 3) - 3 * (- A / 3) * (S * U) + (S * S * S + U * U * U)); [field|]. rewrite PQ. field.
    + intros _. split; [reflexivity|]. split; [reflexivity|]. split; [reflexivity|]. intros D0. unfold is_real. cbn [snd]. intros E. assert (SE : S = U). { unfold v in E. assert (0 < sqrt 3) by (apply sqrt_lt_R0; lra). assert (E' : sqrt 3 * (S - U) = 0) by lra. apply Rmult_integral in E'. lra. }
      assert (R + sqrt D = R - sqrt D) by (rewrite <- (Rcbrt_cube (R + sqrt D)), <- (Rcbrt_cube (R - sqrt D)); fold S U; rewrite SE; reflexivity). assert (0 < sqrt D) by (apply sqrt_lt_R0; auto). lra.
    + intros; lra.
Qed.

(** ** The quartic *)
Lemma root_of_factors : forall l lead roots r, all_roots l lead roots -> In r roots -> cpev l r = Z0.
Proof.
  intros l lead roots r H Hr. rewrite H. assert (E : factors roots r = Z0). { clear H. induction roots as [|x roots IH]; [destruct Hr|]. cbn [factors]. destruct Hr as [<-|Hr]; [|rewrite IH by auto; ring]. replace (x -! x) with Z0 by ring. ring. }
  rewrite E. ring.
Qed.
Lemma ferrari_ne : forall P Q R (z U : C), Q <> 0 -> cpev [R * P / 2 - Q * Q / 8; - R; - P / 2; 1] z = Z0 -> U *! U = (I1 +! I1) *! z -! RtoC P -> U <> Z0 /\
  (I1 +! I1) *! (I1 +! I1) *! (U *! U) *! (z *! z -! RtoC R) = RtoC Q *! RtoC Q.
Proof.
  intros P Q R z U HQ Hz HU. assert (K : (I1 +! I1) *! (I1 +! I1) *! (U *! U) *! (z *! z -! RtoC R) = RtoC Q *! RtoC Q).
  { rewrite HU. transitivity ((8, 0) *! cpev [R * P / 2 - Q * Q / 8; - R; - P / 2; 1] z +! RtoC Q *! RtoC Q).
    - destruct z as [p r]. apply C_eq; cbn; field.
    - rewrite Hz. ring. }
  split; [|exact K]. intros ->. assert (E : RtoC Q *! RtoC Q = Z0) by (rewrite <- K; ring). apply C_integral in E. destruct E as [E|E]; unfold RtoC, Z0 in E; injection E; auto.
Qed.
Lemma ferrari : forall P Q R (z U W : C), U <> Z0 -> U *! U = (I1 +! I1) *! z -! RtoC P ->
  (I1 +! I1) *! (I1 +! I1) *! (U *! U) *! (z *! z -! RtoC R) = RtoC Q *! RtoC Q -> W *! ((I1 +! I1) *! U) = RtoC Q ->
  forall y, cpev [R; Q; P; 0; 1] y = (z -! W +! y *! (U +! y *! I1)) *! (z +! W +! y *! (Copp U +! y *! I1)).
Proof.
  intros P Q R z U W NU HU HK HW y. assert (ZW : z *! z -! W *! W = RtoC R).
  { assert (U *! U *! (z *! z -! RtoC R) = U *! U *! (W *! W)).
    { apply (C_cancel ((I1 +! I1) *! (I1 +! I1))); [intros E; unfold Cmul, Cadd, I1, Z0 in E; cbn in E; injection E as E1 E2; lra|]. transitivity (RtoC Q *! RtoC Q); [rewrite <- HK; ring|]. rewrite <- HW. ring. }
    apply C_cancel in H; [|intros E; apply C_integral in E; tauto]. rewrite <- H. ring. }
  transitivity (y *! y *! y *! y +! y *! y *! ((I1 +! I1) *! z -! U *! U) +! y *! (W *! ((I1 +! I1) *! U)) +! (z *! z -! W *! W)); [|ring].
  rewrite HU, HW, ZW. destruct y as [p r]. apply C_eq; cbn; ring.
Qed.
Lemma depressed : forall a A B C D X, let P := B - 3 * (A * A) / 8 in let Q := C - 1 / 2 * A * B + A * A * A / 8 in let R := D - 1 / 4 * A * C + A * A * B / 16 - 3 * (A * A) * (A * A) / 256 in
  cpev [a * D; a * C; a * B; a * A; a] X = RtoC a *! cpev [R; Q; P; 0; 1] (X +! RtoC (A / 4)).
Proof. intros a A B C D X P Q R. set (t := A / 4). assert (EA : A = 4 * t) by (unfold t; field). clearbody t. unfold P, Q, R. subst A. destruct X as [p r]. apply C_eq; cbn; field. Qed.
Lemma quad1 : forall Eps (u w y1 y2 : C), 0 < Eps -> Eps <= 1 -> SolveQuadraticC Rralg Eps (cre Rralg 1) u w = (y1, y2) -> forall y, w +! y *! (u +! y *! I1) = (y -! y1) *! (y -! y2).
Proof.
  intros Eps u w y1 y2 H0 H1 E y. replace ((y -! y1) *! (y -! y2)) with (I1 *! ((y -! y1) *! (y -! y2))) by ring. apply (quadC_ok Eps I1 u w); auto. unfold cabs, I1. anum. cbn [fst snd]. replace (1 * 1 + 0 * 0) with 1 by ring. rewrite sqrt_1. lra.
Qed.
Lemma Csub_shift : forall X y s : C, X -! csub Rtrig y s = X +! s -! y.
Proof. intros. change (csub Rtrig y s) with (y -! s). ring. Qed.
Lemma is_zero_C : forall U : C, aeqb Rarith (fst U) 0 && aeqb Rarith (snd U) 0 = true -> U = Z0.
Proof.
  intros U H. apply andb_prop in H. destruct H as (H1 & H2). unfold aeqb in *. apply C_eq; cbn; rnum; [destruct (Rltb_spec 0 (fst U)); destruct (Rltb_spec (fst U) 0)|destruct (Rltb_spec 0 (snd U)); destruct (Rltb_spec (snd U) 0)]; cbn in *; try discriminate; lra.
Qed.
Lemma quartic_ok : forall Eps a b c d e, 0 < Eps -> Eps <= 1 -> Eps <= Rabs a ->
  let A := b / a in let Q := d / a - 1 / 2 * A * (c / a) + A * A * A / 8 in
  exists x1 x2 x3 x4, SolveQuartic Rralg Eps a b c d e = (Some x1, Some x2, Some x3, Some x4) /\
    forall X, RtoC a *! factors [x1; x2; x3; x4] X = cpev [e; d; c; b; a] X -! (if Rltb Eps (Rabs Q) then Z0 else RtoC (a * Q) *! (X +! RtoC (A / 4))).
Proof.
  intros Eps a b c d e HE HE1 Ha A Q. assert (Na : a <> 0) by (intros ->; rewrite Rabs_R0 in Ha; lra). unfold SolveQuartic. anum. destruct (Rltb_spec (Rabs a) Eps); [lra|]. cbv zeta. fold A. set (B := c / a) in *. set (C := d / a) in *. set (D := e / a) in *. fold Q.
  set (P := B - 3 * (A * A) / 8). set (R := D - 1 / 4 * A * C + A * A * B / 16 - 3 * (A * A) * (A * A) / 256).
  assert (EA : b = a * A) by (unfold A; field; auto). assert (EB : c = a * B) by (unfold B; field; auto). assert (EC : d = a * C) by (unfold C; field; auto). assert (ED : e = a * D) by (unfold D; field; auto).
  assert (DP : forall X, cpev [e; d; c; b; a] X = RtoC a *! cpev [R; Q; P; 0; 1] (X +! RtoC (A / 4))) by (intros; rewrite EA, EB, EC, ED; apply depressed).
  clearbody R P. destruct (Rltb_spec Eps (Rabs Q)) as [G|G]; cbn [negb].
  - assert (NQ : Q <> 0) by (intros E; rewrite E, Rabs_R0 in G; lra).
    destruct (cubic_ok Eps 1 (- P / 2) (- R) (R * P / 2 - Q * Q / 8) HE) as (k & z1 & z2 & z3 & EZ & HZ & _ & _); [rewrite Rabs_R1; auto|]. rewrite EZ.
    set (Uof := fun z : cplx => csqrt Rralg (csub Rtrig (cmul Rtrig (cre Rralg 2) z) (cre Rralg P))).
    assert (PK : forall z U, pick_larger Rralg P (pick_larger Rralg P (z1, Uof z1) z2) z3 = (z, U) -> In z [z1; z2; z3] /\ U = Uof z).
    { assert (PL : forall s z, pick_larger Rralg P s z = s \/ pick_larger Rralg P s z = (z, Uof z)) by (intros s z; unfold pick_larger; cbv zeta; match goal with |- context [if ?x then _ else _] => destruct x end; auto).
      intros z U. destruct (PL (z1, Uof z1) z2) as [E|E]; rewrite E; [destruct (PL (z1, Uof z1) z3) as [E'|E']|destruct (PL (z2, Uof z2) z3) as [E'|E']]; rewrite E'; intros X; injection X as <- <-; cbn [In]; tauto. }
    fold (Uof z1). destruct (pick_larger Rralg P (pick_larger Rralg P (z1, Uof z1) z2) z3) as [z U] eqn:EP. destruct (PK z U eq_refl) as (Hin & HU0). clear PK EP.
    assert (HU : U *! U = (I1 +! I1) *! z -! RtoC P). { rewrite HU0. unfold Uof. rewrite csqrt_sq. apply C_eq; cbn; ring. }
    destruct (ferrari_ne P Q R z U NQ (root_of_factors _ _ _ _ HZ Hin) HU) as (NU & HK). destruct (aeqb Rarith (fst U) 0 && aeqb Rarith (snd U) 0) eqn:EU; [exfalso; apply NU, is_zero_C; exact EU|].
    set (W := cdiv Rralg (cre Rralg Q) (cmul Rtrig (cre Rralg 2) U)). assert (HW : W *! ((I1 +! I1) *! U) = RtoC Q).
    { assert (E2 : cmul Rtrig (cre Rralg 2) U = (I1 +! I1) *! U) by (apply C_eq; cbn; ring). unfold W. rewrite E2. apply cdiv_mul. intros E. apply C_integral in E. destruct E as [E|E]; [|contradiction]. unfold Cadd, I1, Z0 in E. cbn in E. injection E as E1. lra. }
    pose proof (ferrari P Q R z U W NU HU HK HW) as FR. destruct (SolveQuadraticC Rralg Eps (cre Rralg 1) U (csub Rtrig z W)) as [y1 y2] eqn:E1. destruct (SolveQuadraticC Rralg Eps (cre Rralg 1) (copp Rralg U) (cadd Rtrig z W)) as [y3 y4] eqn:E2.
    do 4 eexists. split; [reflexivity|]. intros X. rewrite DP, FR. cbn [factors]. rewrite !Csub_shift. change (cre Rralg (A / 4)) with (RtoC (A / 4)). set (y := X +! RtoC (A / 4)).
    pose proof (quad1 _ _ _ _ _ HE HE1 E1 y) as F1. pose proof (quad1 _ _ _ _ _ HE HE1 E2 y) as F2. change (csub Rtrig z W) with (z -! W) in F1. change (cadd Rtrig z W) with (z +! W) in F2. change (copp Rralg U) with (Copp U) in F2. rewrite F1, F2. change (1, 0) with I1. ring.
  - destruct (SolveQuadraticC Rralg Eps (cre Rralg 1) (cre Rralg P) (cre Rralg R)) as [t1 t2] eqn:E1. do 4 eexists. split; [reflexivity|]. intros X. rewrite DP. cbn [factors]. rewrite !Csub_shift. change (cre Rralg (A / 4)) with (RtoC (A / 4)). set (y := X +! RtoC (A / 4)).
    pose proof (quad1 _ _ _ _ _ HE HE1 E1 (y *! y)) as F1. change (copp Rralg) with Copp. change (1, 0) with I1. pose proof (csqrt_sq t1) as S1. pose proof (csqrt_sq t2) as S2. set (s1 := csqrt Rralg t1) in *. set (s2 := csqrt Rralg t2) in *. change (cre Rralg P) with (RtoC P) in F1. change (cre Rralg R) with (RtoC R) in F1.
    transitivity (RtoC a *! ((y *! y -! s1 *! s1) *! (y *! y -! s2 *! s2))); [ring|]. rewrite S1, S2, <- F1. clearbody y. clear. destruct y as [p r]. apply C_eq; cbn; ring.
Qed.
