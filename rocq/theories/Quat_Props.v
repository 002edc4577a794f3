(** * C68: vectors of space; and concrete instances for C65-C68 *)
From Coq Require Import List Arith Bool Lia ZArith Reals Lra Psatz.
From Verif Require Import Base Num RootFind_Model RootFind_Proofs Fourier_Model Fourier_Spec Quat_Model Quat_Spec Quat_Proofs Quat_Conv Quat_Euler.
Import ListNotations.
Local Open Scope R_scope.

Lemma len3_sq : forall v, len3 v * len3 v = dot3 v v.
Proof. intros v. apply sqrt_sqrt. unfold dot3. nra. Qed.
Lemma len3_pos : forall v, 0 <= len3 v.
Proof. intros v. apply sqrt_pos. Qed.
Lemma len3_zero : forall v, len3 v = 0 -> v = zero3.
Proof. intros v H. pose proof (len3_sq v) as S. rewrite H in S. destruct v as [x y z]. unfold dot3 in S. fields. assert (x = 0 /\ y = 0 /\ z = 0) as (-> & -> & ->); [|reflexivity]. repeat split; nra. Qed.
Lemma unit_vec : forall v, v <> zero3 -> GetAsUnitVector Rm v = v_div Rm v (len3 v) /\ 0 < len3 v /\ dot3 (GetAsUnitVector Rm v) (GetAsUnitVector Rm v) = 1.
Proof.
  intros v H. unfold GetAsUnitVector. rewrite NormL2_len. assert (L : 0 < len3 v). { pose proof (len3_pos v). destruct (Req_dec (len3 v) 0) as [E|E]; [|lra]. now apply len3_zero in E. }
  qng. destruct (Raeqb (len3 v) 0) as [E|_]; [lra|]. split; auto. split; auto.
  pose proof (len3_sq v) as S. unfold dot3, v_div in *. qng. fieldsg. set (n := len3 v) in *. replace (vx v / n * (vx v / n) + vy v / n * (vy v / n) + vz v / n * (vz v / n)) with ((vx v * vx v + vy v * vy v + vz v * vz v) / (n * n)) by (field; lra). rewrite <- S. field. lra.
Qed.

(** unit vectors: same direction, length one; the zero vector stays zero *)
Theorem C68_unit : forall v,
  (v <> zero3 -> GetAsUnitVector Rm v = v_Normalized Rm v /\ dot3 (GetAsUnitVector Rm v) (GetAsUnitVector Rm v) = 1 /\ v_scale Rm (GetAsUnitVector Rm v) (len3 v) = v) /\
  GetAsUnitVector Rm zero3 = zero3 /\ v_Normalized Rm zero3 = zero3.
Proof.
  intros v. split; [|split].
  - intros H. destruct (unit_vec v H) as (E & L & U). split; [|split; auto].
    + rewrite E. unfold v_Normalized. rewrite NormL2_len. qng. destruct (Rltb_spec 0 (len3 v)); [reflexivity|lra].
    + rewrite E. unfold v_scale, v_div. qng. fieldsg. destruct v as [x y z]. fieldsg. f_equal; field; lra.
  - unfold GetAsUnitVector. rewrite NormL2_len. qng. destruct (Raeqb (len3 zero3) 0) as [_|N]; [reflexivity|]. exfalso. apply N. unfold len3, dot3, zero3. fieldsg. replace (0 * 0 + 0 * 0 + 0 * 0) with 0 by ring. apply sqrt_0.
  - unfold v_Normalized. rewrite NormL2_len. qng. destruct (Rltb_spec 0 (len3 zero3)) as [L|_]; [|reflexivity]. exfalso. revert L. unfold len3, dot3, zero3. fieldsg. replace (0 * 0 + 0 * 0 + 0 * 0) with 0 by ring. rewrite sqrt_0. lra.
Qed.
Print Assumptions C68_unit.

(** two perpendicular vectors: together with the direction of [a] an orthonormal frame; none exactly for the zero vector *)
Theorem C68_perpendicular : forall a,
  (GetPerpendicularVectors Rm a = None <-> a = zero3) /\
  forall u w, GetPerpendicularVectors Rm a = Some (u, w) -> dot3 u u = 1 /\ dot3 w w = 1 /\ dot3 a u = 0 /\ dot3 a w = 0 /\ dot3 u w = 0.
Proof.
  intros a. assert (IZ : v_isZero Rm a = true <-> a = zero3).
  { unfold v_isZero. qng. destruct a as [x y z]. fieldsg. unfold zero3. destruct (Raeqb x 0), (Raeqb y 0), (Raeqb z 0); cbn [andb]; subst; split; intros H; auto; try discriminate; injection H; intros; lra. }
  unfold GetPerpendicularVectors. destruct (v_isZero Rm a) eqn:E; [split; [tauto|discriminate]|]. assert (NZ : a <> zero3) by (intros H; apply IZ in H; congruence). split; [split; [discriminate|tauto]|].
  intros u w. qng. set (np := if _ : bool then _ else _).
  assert (NP : VectorProduct Rm a np <> zero3).
  { destruct a as [x y z]. unfold zero3 in *. fieldsg. unfold np. clear np IZ E. fieldsg.
    assert (M : forall t, Rabs t = 0 -> t = 0) by (intros t Ht; destruct (Req_dec t 0); auto; exfalso; apply (Rabs_no_R0 t); auto).
    intros H. apply NZ.
    destruct (Rltb_spec (Rabs y) (Rabs x)) as [A|A], (Rltb_spec (Rabs z) (Rabs x)) as [B|B], (Rltb_spec (Rabs x) (Rabs y)) as [C|C], (Rltb_spec (Rabs z) (Rabs y)) as [D|D]; cbn [negb andb] in H;
    unfold VectorProduct in H; qn; fields; injection H; intros H3 H2 H1; pose proof (Rabs_pos x) as PX; pose proof (Rabs_pos y) as PY; pose proof (Rabs_pos z) as PZ;
    (assert (E0 : (x = 0 /\ y = 0) \/ (x = 0 /\ z = 0) \/ (y = 0 /\ z = 0)) by (first [left; split; lra | right; left; split; lra | right; right; split; lra]));
    destruct E0 as [[E1 E2]|[[E1 E2]|[E1 E2]]]; try rewrite E1 in *; try rewrite E2 in *; rewrite ?Rabs_R0 in *; try (exfalso; lra).
 all: f_equal; auto; first [lra | apply M; lra]. }
  set (p := VectorProduct Rm a np) in *. destruct (unit_vec p NP) as (E1 & L1 & U1). set (v1 := GetAsUnitVector Rm p) in *.
  assert (P1 : dot3 a v1 = 0). { rewrite E1. set (n := len3 p) in *. assert (Hn : n <> 0) by lra. clearbody n. unfold dot3, v_div, p, VectorProduct. qng. fieldsg. field. auto. }
  assert (N2 : VectorProduct Rm a v1 <> zero3).
  { intros H. apply NZ. apply len3_zero. apply Rsqr_0_uniq. unfold Rsqr. rewrite len3_sq.
    assert (X : dot3 (VectorProduct Rm a v1) (VectorProduct Rm a v1) = dot3 a a * dot3 v1 v1 - dot3 a v1 * dot3 a v1) by (unfold dot3, VectorProduct; qng; fieldsg; ring).
    rewrite H, U1, P1 in X. unfold dot3 at 1, zero3 in X. fields. lra. }
  destruct (unit_vec _ N2) as (E2 & L2 & U2). intros H. injection H as <- <-. repeat split; auto.
  - rewrite E2. set (n := len3 (VectorProduct Rm a v1)) in *. assert (Hn : n <> 0) by lra. clearbody n v1. unfold dot3, v_div, VectorProduct. qng. fieldsg. field. auto.
  - rewrite E2. set (n := len3 (VectorProduct Rm a v1)) in *. assert (Hn : n <> 0) by lra. clearbody n v1. unfold dot3, v_div, VectorProduct. qng. fieldsg. field. auto.
Qed.
Print Assumptions C68_perpendicular.

(** the angle between two vectors: in [0, pi], with a.b = |a||b| cos; refused for vectors shorter than the machine epsilon *)
Theorem C68_angle : forall a b,
  (len3 a < / 2 ^ 52 \/ len3 b < / 2 ^ 52 -> AngleToVector Rm a b = Throw DivideByZero) /\
  (/ 2 ^ 52 <= len3 a -> / 2 ^ 52 <= len3 b -> exists t, AngleToVector Rm a b = Ok t /\ 0 <= t <= PI /\ dot3 a b = len3 a * len3 b * cos t /\ AngleToVector Rm b a = Ok t).
Proof.
  assert (EP : 1 / IZR (2 ^ 52) = / 2 ^ 52). { rewrite (pow_IZR 2 52). unfold Rdiv. rewrite Rmult_1_l. reflexivity. }
  assert (PE : 0 < / 2 ^ 52) by (apply Rinv_0_lt_compat; lra).
  intros a b. split.
  - intros H. unfold AngleToVector. rewrite !NormL2_len. qng. rewrite EP. destruct (Rltb_spec (len3 a) (/ 2 ^ 52)), (Rltb_spec (len3 b) (/ 2 ^ 52)); cbn [orb]; auto. lra.
  - intros A B. set (c := dot3 a b / (len3 a * len3 b)).
    assert (CS : dot3 a b * dot3 a b <= (len3 a * len3 b) * (len3 a * len3 b)).
    { replace (len3 a * len3 b * (len3 a * len3 b)) with ((len3 a * len3 a) * (len3 b * len3 b)) by ring. rewrite !len3_sq.
      assert (X : dot3 (cross3 a b) (cross3 a b) = dot3 a a * dot3 b b - dot3 a b * dot3 a b) by (unfold dot3, cross3; fieldsg; ring). assert (0 <= dot3 (cross3 a b) (cross3 a b)) by (unfold dot3; nra). lra. }
    assert (PP : 0 < len3 a * len3 b) by nra. assert (CB : -1 <= c <= 1).
    { assert (E : c * (len3 a * len3 b) = dot3 a b) by (unfold c; field; lra). rewrite <- E in CS. set (n := len3 a * len3 b) in *. assert (c * c <= 1). { apply (Rmult_le_reg_r (n * n)); [nra|lra]. } split; nra. }
    assert (G : forall x y, len3 x = len3 a -> len3 y = len3 b -> dot3 x y = dot3 a b \/ dot3 y x = dot3 a b -> AngleToVector Rm x y = Ok (acos c) /\ AngleToVector Rm y x = Ok (acos c)).
    { intros x y X Y D. assert (D' : dot3 x y = dot3 a b /\ dot3 y x = dot3 a b) by (unfold dot3 in *; split; destruct D; lra). destruct D' as [D1 D2].
      unfold AngleToVector. rewrite !NormL2_len, X, Y. change (v_dot Rm x y) with (dot3 x y). change (v_dot Rm y x) with (dot3 y x). qng. rewrite EP, D1, D2. rewrite (Rmult_comm (len3 b)). fold c.
      destruct (Rltb_spec (len3 a) (/ 2 ^ 52)); [lra|]. destruct (Rltb_spec (len3 b) (/ 2 ^ 52)); [lra|]. cbn [orb].
      assert (Q : (if Rltb (-1) (if Rltb c 1 then c else 1) then (if Rltb c 1 then c else 1) else -1) = c). { destruct (Rltb_spec c 1) as [P|P]; [|replace c with 1 by lra]; [destruct (Rltb_spec (-1) c)|destruct (Rltb_spec (-1) 1)]; lra. }
      rewrite Q. auto. }
    destruct (G a b) as [G1 G2]; auto. exists (acos c). split; auto. split; [apply acos_bound|]. split; auto. rewrite cos_acos by auto. unfold c. field. split; nra.
Qed.
Print Assumptions C68_angle.

(** vectors of the same direction are parallel; perpendicularity is the scalar product being below 1e-10 in size *)
Theorem C68_parallel : forall a k, a <> zero3 -> 0 < k -> IsParallelTo Rm a (v_scale Rm a k) = true /\
  forall b, IsPerpendicularTo Rm a b = true <-> Rabs (dot3 a b) < 1 / IZR (10 ^ 10).
Proof.
  intros a k H K. split.
  - assert (L : 0 < len3 a) by now apply unit_vec. assert (LK : len3 (v_scale Rm a k) = len3 a * k).
    { unfold len3 at 1. replace (dot3 (v_scale Rm a k) (v_scale Rm a k)) with ((len3 a * k) * (len3 a * k)). { apply sqrt_square. nra. } transitivity (len3 a * len3 a * (k * k)); [ring|]. rewrite len3_sq. unfold dot3, v_scale. qng. fieldsg. ring. }
    unfold IsParallelTo. rewrite !NormL2_len, LK. unfold v_scale, ParTol. qng. fieldsg.
    assert (Z : forall x, x / len3 a - x * k / (len3 a * k) = 0) by (intros x; field; lra). rewrite !Z, Rabs_R0.
    destruct (Rltb_spec 0 (1 / IZR (10 ^ 10))) as [_|N]; [reflexivity|]. exfalso. apply N. apply Rdiv_lt_0_compat; [lra|apply (IZR_lt 0); reflexivity].
  - intros b. unfold IsPerpendicularTo. change (v_dot Rm a b) with (dot3 a b). qng. destruct (Rltb_spec (Rabs (dot3 a b)) (1 / IZR (10 ^ 10))); split; intros; auto; try discriminate; lra.
Qed.
Print Assumptions C68_parallel.

(** Opposite vectors lie on one line but are not reported parallel, because the test compares the unit vectors and not their directions up to sign. *)
Theorem C68_antiparallel_refuted : exists a, a <> zero3 /\ cross3 a (v_neg Rm a) = zero3 /\ IsParallelTo Rm a (v_neg Rm a) = false.
Proof.
  exists (V3 1 0 0). split; [intros H; injection H; lra|]. split; [unfold cross3, v_neg, zero3; qng; fieldsg; f_equal; ring|].
  unfold IsParallelTo. rewrite !NormL2_len. assert (L1 : len3 (V3 1 0 0) = 1). { unfold len3, dot3. fieldsg. replace (1 * 1 + 0 * 0 + 0 * 0) with 1 by ring. apply sqrt_1. }
  assert (L2 : len3 (v_neg Rm (V3 1 0 0)) = 1). { unfold len3, dot3, v_neg. qng. fieldsg. replace (- (1) * - (1) + - 0 * - 0 + - 0 * - 0) with 1 by ring. apply sqrt_1. }
  rewrite L1, L2. unfold ParTol, v_neg. qng. fieldsg. replace (1 / 1 - - (1) / 1) with 2 by field. rewrite (Rabs_right 2) by lra.
  destruct (Rltb_spec 2 (1 / IZR (10 ^ 10))) as [L|_]; [|reflexivity]. exfalso. assert (1 / IZR (10 ^ 10) < 1 / 1). { apply Rmult_lt_compat_l; [lra|]. apply Rinv_lt_contravar; [rewrite Rmult_1_l; apply (IZR_lt 0); reflexivity|apply (IZR_lt 1); reflexivity]. } lra.
Qed.
Print Assumptions C68_antiparallel_refuted.

(** ** Concrete instances *)
(** a unit quaternion, its inverse, and the vector it turns *)
Example unit_example : unit4 (Q4 (3 / 5) 0 0 (4 / 5)) /\ Rotate Rm (Q4 (3 / 5) 0 0 (4 / 5)) (V3 1 0 0) = V3 (-7 / 25) (24 / 25) 0 /\ q_mul Rm (Q4 1 2 3 4) (Q4 5 6 7 8) = Q4 (-60) 12 30 24.
Proof. split; [unfold unit4; fieldsg; field|]. split; qsimp; f_equal; field. Qed.
Example norm_example : / 10 ^ 12 <= NormSquared Rm (Q4 1 2 3 4) /\ exists r, Inverse Rm (Q4 1 2 3 4) = Ok r.
Proof. assert (H : / 10 ^ 12 <= NormSquared Rm (Q4 1 2 3 4)). { unfold NormSquared. qng. fieldsg. assert (/ 10 ^ 12 <= / 1) by (apply Rinv_le_contravar; lra). lra. } split; auto. destruct (proj1 (proj2 (C65_inverse (Q4 1 2 3 4))) H) as (r & E & _). eauto. Qed.
(** matrices for which each branch of FromRotationMatrix is taken *)
Example matrix_example : rot_matrix (M3 (-7 / 25) (-24 / 25) 0 (24 / 25) (-7 / 25) 0 0 0 1) /\ rot_matrix (M3 1 0 0 0 (-1) 0 0 0 (-1)) /\ rot_matrix (M3 (-1) 0 0 0 1 0 0 0 (-1)) /\ rot_matrix (M3 (-1) 0 0 0 (-1) 0 0 0 1).
Proof. unfold rot_matrix, det3, row0, row1, row2, cross3, dot3. fieldsg. repeat split; field. Qed.
Example axis_angle_example : dot3 (V3 (3 / 5) 0 (4 / 5)) (V3 (3 / 5) 0 (4 / 5)) = 1 /\ 2 / 10 ^ 6 <= sin (PI / 2) /\ 0 <= PI <= 2 * PI.
Proof. rewrite sin_PI2. pose proof PI2_1. unfold dot3. fieldsg. repeat split; lra. Qed.
(** half a turn about z, and the point halfway along it *)
Example slerp_example : exists r, Slerp Rm (Q4 1 0 0 0) (Q4 0 0 0 1) (1 / 2) = Ok r /\ Dot Rm (Q4 1 0 0 0) r = cos (PI / 4).
Proof.
  assert (D : Dot Rm (Q4 1 0 0 0) (Q4 0 0 0 1) = 0) by (unfold Dot; qng; fieldsg; ring).
  destruct (C67_slerp (Q4 1 0 0 0) (Q4 0 0 0 1) (1 / 2)) as (r & E & _ & _ & _ & _ & H); [unfold unit4; fieldsg; ring..|]. exists r. split; auto. rewrite D, Rabs_R0 in H. destruct H as (_ & -> & _); [lra|]. rewrite acos_0. f_equal. field.
Qed.
Example perpendicular_example : V3 1 2 3 <> zero3 /\ exists u w, GetPerpendicularVectors Rm (V3 1 2 3) = Some (u, w).
Proof.
  assert (N : V3 1 2 3 <> zero3) by (intros H; injection H; lra). split; auto. destruct (GetPerpendicularVectors Rm (V3 1 2 3)) as [[u w]|] eqn:E; [eauto|]. exfalso. now apply (proj1 (C68_perpendicular (V3 1 2 3))) in E.
Qed.
