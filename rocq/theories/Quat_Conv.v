(** * C67: conversions between quaternions, matrices, axis-angle and Euler angles, and interpolation *)
From Coq Require Import List Arith Bool Lia ZArith Reals Lra Psatz.
From Verif Require Import Base Num RootFind_Model RootFind_Proofs Fourier_Model Fourier_Spec Quat_Model Quat_Spec Quat_Proofs.
Import ListNotations.
Local Open Scope R_scope.

(** ** rotation matrices *)
Lemma cross_of_orthonormal : forall a b c, dot3 a a = 1 -> dot3 b b = 1 -> dot3 c c = 1 -> dot3 b c = 0 -> dot3 a (cross3 b c) = 1 -> a = cross3 b c.
Proof.
  intros [a1 a2 a3] [b1 b2 b3] [c1 c2 c3]. unfold dot3, cross3. fields. intros A B C BC D.
  set (x := b2 * c3 - b3 * c2) in *. set (y := b3 * c1 - b1 * c3) in *. set (z := b1 * c2 - b2 * c1) in *.
  assert (X : x * x + y * y + z * z = 1). { unfold x, y, z. transitivity ((b1 * b1 + b2 * b2 + b3 * b3) * (c1 * c1 + c2 * c2 + c3 * c3) - (b1 * c1 + b2 * c2 + b3 * c3) * (b1 * c1 + b2 * c2 + b3 * c3)); [ring|]. rewrite B, C, BC. ring. }
  assert (Z : (a1 - x) * (a1 - x) + (a2 - y) * (a2 - y) + (a3 - z) * (a3 - z) + 0 * 0 = 0) by lra.
  destruct (sq4_zero _ _ _ _ Z) as (? & ? & ? & _). f_equal; lra.
Qed.
Lemma rot_facts : forall m, rot_matrix m ->
  row0 m = cross3 (row1 m) (row2 m) /\ row1 m = cross3 (row2 m) (row0 m) /\ row2 m = cross3 (row0 m) (row1 m).
Proof.
  intros m (A & B & C & AB & AC & BC & D). unfold det3 in D. repeat split; apply cross_of_orthonormal; auto.
  - rewrite <- AC. unfold dot3. ring.
  - rewrite <- D. unfold dot3, cross3. fields. ring.
  - rewrite <- D. unfold dot3, cross3. fields. ring.
Qed.

Lemma pivot : forall P n1 n2 n3 r11 r22 r33 r12 r13 r23, 0 < P -> n1 * n1 = P * r11 -> n2 * n2 = P * r22 -> n3 * n3 = P * r33 -> n1 * n2 = P * r12 -> n1 * n3 = P * r13 -> n2 * n3 = P * r23 ->
  let s := sqrt P * 2 in let p := 1 / 4 * s in let k1 := n1 / s in let k2 := n2 / s in let k3 := n3 / s in
  p * p = P / 4 /\ p * k1 = n1 / 4 /\ p * k2 = n2 / 4 /\ p * k3 = n3 / 4 /\ k1 * k1 = r11 / 4 /\ k2 * k2 = r22 / 4 /\ k3 * k3 = r33 / 4 /\ k1 * k2 = r12 / 4 /\ k1 * k3 = r13 / 4 /\ k2 * k3 = r23 / 4.
Proof.
  intros P n1 n2 n3 r11 r22 r33 r12 r13 r23 H E1 E2 E3 E4 E5 E6 s. assert (0 < sqrt P) by now apply sqrt_lt_R0. assert (sqrt P * sqrt P = P) by (apply sqrt_sqrt; lra).
  assert (S : s <> 0) by (unfold s; lra). assert (SS : s * s = 4 * P) by (unfold s; lra). clearbody s.
  assert (Q : forall n k r, n * k = P * r -> (n / s) * (k / s) = r / 4). { intros n k r E. replace (n / s * (k / s)) with (n * k / (s * s)) by (field; auto). rewrite SS, E. field. lra. }
  intros p k1 k2 k3. unfold p, k1, k2, k3. repeat split; try (apply Q; auto); try (field; auto). lra.
Qed.

Ltac piv := cbv zeta in *; repeat match goal with |- context [1 / 4 * (sqrt ?P * 2)] => set (piv := 1 / 4 * (sqrt P * 2)) in *; clearbody piv | |- context [?n / (sqrt ?P * 2)] => let k := fresh "k" in set (k := n / (sqrt P * 2)) in *; clearbody k end; split; [lra|f_equal; lra].

(** a rotation matrix comes back unchanged from the quaternion computed from it *)
Theorem C67_from_matrix : forall m, rot_matrix m -> unit4 (FromRotationMatrix Rm m) /\ ToRotationMatrix Rm (FromRotationMatrix Rm m) = m.
Proof.
  intros m H. destruct (rot_facts m H) as (K0 & K1 & K2). destruct H as (R00 & R11 & R22 & R01 & R02 & R12 & D).
  destruct m as [a b c d e f g h i]. unfold det3, row0, row1, row2, cross3, dot3 in *. fields.
  injection K0 as Ka Kb Kc. injection K1 as Kd Ke Kf. injection K2 as Kg Kh Ki.
  assert (C00 : a * a + d * d + g * g = 1) by (rewrite Ka at 1; rewrite Kd at 1; rewrite Kg at 1; lra).
  assert (C11 : b * b + e * e + h * h = 1) by (rewrite Kb at 1; rewrite Ke at 1; rewrite Kh at 1; lra).
  assert (C22 : c * c + f * f + i * i = 1) by (rewrite Kc at 1; rewrite Kf at 1; rewrite Ki at 1; lra).
  assert (C01 : a * b + d * e + g * h = 0) by (rewrite Ka at 1; rewrite Kd at 1; rewrite Kg at 1; ring).
  assert (C02 : a * c + d * f + g * i = 0) by (rewrite Ka at 1; rewrite Kd at 1; rewrite Kg at 1; ring).
  assert (C12 : b * c + e * f + h * i = 0) by (rewrite Kb at 1; rewrite Ke at 1; rewrite Kh at 1; ring).
  clear D.
  assert (WX : (h - f) * (h - f) = (1 + a + e + i) * (1 + a - e - i)) by lra.
  assert (WY : (c - g) * (c - g) = (1 + a + e + i) * (1 + e - a - i)) by lra.
  assert (WZ : (d - b) * (d - b) = (1 + a + e + i) * (1 + i - a - e)) by lra.
  assert (XY : (b + d) * (b + d) = (1 + a - e - i) * (1 + e - a - i)) by lra.
  assert (XZ : (c + g) * (c + g) = (1 + a - e - i) * (1 + i - a - e)) by lra.
  assert (YZ : (f + h) * (f + h) = (1 + e - a - i) * (1 + i - a - e)) by lra.
  assert (Wxy : (h - f) * (c - g) = (1 + a + e + i) * (b + d)) by lra.
  assert (Wxz : (h - f) * (d - b) = (1 + a + e + i) * (c + g)) by lra.
  assert (Wyz : (c - g) * (d - b) = (1 + a + e + i) * (f + h)) by lra.
  assert (Xwy : (h - f) * (b + d) = (1 + a - e - i) * (c - g)) by lra.
  assert (Xwz : (h - f) * (c + g) = (1 + a - e - i) * (d - b)) by lra.
  assert (Xyz : (b + d) * (c + g) = (1 + a - e - i) * (f + h)) by lra.
  assert (Ywx : (c - g) * (b + d) = (1 + e - a - i) * (h - f)) by lra.
  assert (Ywz : (c - g) * (f + h) = (1 + e - a - i) * (d - b)) by lra.
  assert (Yxz : (b + d) * (f + h) = (1 + e - a - i) * (c + g)) by lra.
  assert (Zwx : (d - b) * (c + g) = (1 + i - a - e) * (h - f)) by lra.
  assert (Zwy : (d - b) * (f + h) = (1 + i - a - e) * (c - g)) by lra.
  assert (Zxy : (c + g) * (f + h) = (1 + i - a - e) * (b + d)) by lra.
  clear Ka Kb Kc Kd Ke Kf Kg Kh Ki R00 R11 R22 R01 R02 R12 C00 C11 C22 C01 C02 C12.
  unfold FromRotationMatrix, quarter, ToRotationMatrix, unit4. qng. fieldsg.
  destruct (Rltb_spec 0 (a + e + i)) as [T|T]; [|destruct (Rltb_spec e a) as [T1|T1]; destruct (Rltb_spec i a) as [T2|T2]; cbn [andb]; [|destruct (Rltb_spec i e) as [T3|T3]..]]; fieldsg.
  - destruct (pivot (a + e + i + 1) (h - f) (c - g) (d - b) (1 + a - e - i) (1 + e - a - i) (1 + i - a - e) (b + d) (c + g) (f + h)) as (E0 & E1 & E2 & E3 & E4 & E5 & E6 & E7 & E8 & E9); try lra; piv.
  - destruct (pivot (1 + a - e - i) (h - f) (b + d) (c + g) (1 + a + e + i) (1 + e - a - i) (1 + i - a - e) (c - g) (d - b) (f + h)) as (E0 & E1 & E2 & E3 & E4 & E5 & E6 & E7 & E8 & E9); try lra; piv.
  - destruct (pivot (1 + e - a - i) (c - g) (b + d) (f + h) (1 + a + e + i) (1 + a - e - i) (1 + i - a - e) (h - f) (d - b) (c + g)) as (E0 & E1 & E2 & E3 & E4 & E5 & E6 & E7 & E8 & E9); try lra.
  - destruct (pivot (1 + i - a - e) (d - b) (c + g) (f + h) (1 + a + e + i) (1 + a - e - i) (1 + e - a - i) (h - f) (c - g) (b + d)) as (E0 & E1 & E2 & E3 & E4 & E5 & E6 & E7 & E8 & E9); try lra; piv.
  - destruct (pivot (1 + e - a - i) (c - g) (b + d) (f + h) (1 + a + e + i) (1 + a - e - i) (1 + i - a - e) (h - f) (d - b) (c + g)) as (E0 & E1 & E2 & E3 & E4 & E5 & E6 & E7 & E8 & E9); try lra; piv.
  - destruct (pivot (1 + i - a - e) (d - b) (c + g) (f + h) (1 + a + e + i) (1 + a - e - i) (1 + e - a - i) (h - f) (c - g) (b + d)) as (E0 & E1 & E2 & E3 & E4 & E5 & E6 & E7 & E8 & E9); try lra; piv.
  - destruct (pivot (1 + e - a - i) (c - g) (b + d) (f + h) (1 + a + e + i) (1 + a - e - i) (1 + i - a - e) (h - f) (d - b) (c + g)) as (E0 & E1 & E2 & E3 & E4 & E5 & E6 & E7 & E8 & E9); try lra; piv.
  - destruct (pivot (1 + i - a - e) (d - b) (c + g) (f + h) (1 + a + e + i) (1 + a - e - i) (1 + e - a - i) (h - f) (c - g) (b + d)) as (E0 & E1 & E2 & E3 & E4 & E5 & E6 & E7 & E8 & E9); try lra; piv.
Qed.
Print Assumptions C67_from_matrix.

(** and a unit quaternion comes back up to sign, with a positive component *)
Theorem C67_matrix_round_trip : forall q, unit4 q -> FromRotationMatrix Rm (ToRotationMatrix Rm q) = q \/ FromRotationMatrix Rm (ToRotationMatrix Rm q) = q_neg Rm q.
Proof.
  intros q U. destruct (C66_matrix q U) as [A R]. destruct (C67_from_matrix _ R) as [U' E]. apply C66_double_cover; auto.
  intros v. rewrite <- A, <- (proj1 (C66_matrix _ U')). now rewrite E.
Qed.
Print Assumptions C67_matrix_round_trip.

(** ** axis and angle *)
Lemma tol_val : DefaultTolerance Rm = / 10 ^ 6.
Proof. unfold DefaultTolerance. qng. replace (IZR (10 ^ 6)) with (10 ^ 6); [field|]. rewrite (pow_IZR 10 6). reflexivity. Qed.
Lemma NormL2_len : forall v, NormL2 Rm v = len3 v.
Proof. intros v. unfold NormL2, len3, dot3. qng. f_equal. ring. Qed.
Lemma axis_far : forall q, 2 / 10 ^ 6 <= len3 (q_vec q) -> GetRotationAxis Rm q = v_div Rm (q_vec q) (len3 (q_vec q)) /\ 0 < len3 (q_vec q).
Proof.
  intros q H. unfold GetRotationAxis. rewrite NormL2_len, thr_val. unfold isIdentity. rewrite tol_val. qng. change (V3 (qx q) (qy q) (qz q)) with (q_vec q).
  assert (L : 0 < 2 / 10 ^ 6) by (apply Rdiv_lt_0_compat; lra). split; [|lra].
  destruct (Rltb_spec (len3 (q_vec q)) (/ 10 ^ 12)) as [G|G]. { exfalso. lra. }
  destruct (Rltb_spec (Rabs (qw q - 1)) (/ 10 ^ 6)) as [_|_]; [|reflexivity].
  destruct (Rltb_spec (Rabs (qx q)) (/ 10 ^ 6)) as [X|_]; [|reflexivity].
  destruct (Rltb_spec (Rabs (qy q)) (/ 10 ^ 6)) as [Y|_]; [|reflexivity].
  destruct (Rltb_spec (Rabs (qz q)) (/ 10 ^ 6)) as [Z|_]; [|reflexivity]. exfalso.
  assert (S : forall x, Rabs x < / 10 ^ 6 -> x * x < / 10 ^ 6 * / 10 ^ 6). { intros x A. pose proof (Rabs_pos x). assert (E : x * x = Rabs x * Rabs x) by (rewrite <- Rabs_mult; symmetry; apply Rabs_right; nra). rewrite E. nra. }
  apply S in X. apply S in Y. apply S in Z. assert (len3 (q_vec q) * len3 (q_vec q) = qx q * qx q + qy q * qy q + qz q * qz q).
  { unfold len3, q_vec, dot3. fieldsg. apply sqrt_sqrt. nra. }
  set (n := len3 (q_vec q)) in *. set (t := / 10 ^ 6) in *. assert (2 * t <= n) by (unfold t; lra). assert (0 < t) by (unfold t; apply Rinv_0_lt_compat; lra). nra.
Qed.
Lemma angle_val : forall q, -1 <= qw q <= 1 -> GetRotationAngle Rm q = 2 * acos (qw q).
Proof.
  intros q H. unfold GetRotationAngle. qng. destruct (Rltb_spec 1 (qw q)) as [A|A]; [lra|]. destruct (Rltb_spec (qw q) (-1)) as [B|B]; [lra|reflexivity].
Qed.
Lemma unit_w : forall q, unit4 q -> -1 <= qw q <= 1.
Proof. intros q U. unfold unit4 in U. split; nra. Qed.

(** an axis and angle come back, and the quaternion is rebuilt from its axis and angle; the vector part must be at least 2e-6 long *)
Theorem C67_axis_angle : 
  (forall u a, dot3 u u = 1 -> 0 <= a <= 2 * PI -> GetRotationAngle Rm (FromAxisAngle Rm u a) = a) /\
  (forall u a, dot3 u u = 1 -> 0 <= a <= 2 * PI -> 2 / 10 ^ 6 <= sin (a / 2) -> ToAxisAngle Rm (FromAxisAngle Rm u a) = (u, a)) /\
  (forall q, unit4 q -> 2 / 10 ^ 6 <= len3 (q_vec q) -> let '(u, a) := ToAxisAngle Rm q in dot3 u u = 1 /\ 0 <= a <= 2 * PI /\ FromAxisAngle Rm u a = q).
Proof.
  assert (G : forall u a, dot3 u u = 1 -> 0 <= a <= 2 * PI -> GetRotationAngle Rm (FromAxisAngle Rm u a) = a).
  { intros u a U A. rewrite angle_val; [|apply unit_w, C66_axis_angle; auto]. unfold FromAxisAngle. qng. fieldsg. rewrite acos_cos by lra. field. }
  split; auto. split.
  - intros u a U A S. unfold ToAxisAngle. rewrite G by auto. f_equal.
    assert (L : len3 (q_vec (FromAxisAngle Rm u a)) = sin (a / 2)).
    { unfold len3, FromAxisAngle, q_vec, dot3 in *. qng. fieldsg. replace (vx u * sin (a / 2) * (vx u * sin (a / 2)) + vy u * sin (a / 2) * (vy u * sin (a / 2)) + vz u * sin (a / 2) * (vz u * sin (a / 2))) with ((vx u * vx u + vy u * vy u + vz u * vz u) * (sin (a / 2) * sin (a / 2))) by ring. rewrite U, Rmult_1_l. apply sqrt_square. lra. }
    destruct (axis_far (FromAxisAngle Rm u a)) as [-> P]; [rewrite L; auto|]. rewrite L in *. unfold v_div, q_vec, FromAxisAngle. qng. fieldsg. destruct u as [x y z]. fieldsg. f_equal; field; lra.
  - intros q U L. unfold ToAxisAngle. destruct (axis_far q L) as [-> P]. assert (W := unit_w q U). rewrite angle_val by auto.
    assert (N : len3 (q_vec q) * len3 (q_vec q) = qx q * qx q + qy q * qy q + qz q * qz q) by (unfold len3, q_vec, dot3; fieldsg; apply sqrt_sqrt; nra).
    assert (SA : sin (acos (qw q)) = len3 (q_vec q)).
    { rewrite sin_acos by auto. assert (E : 1 - (qw q)² = len3 (q_vec q) * len3 (q_vec q)) by (unfold unit4 in U; unfold Rsqr; lra). rewrite E. apply sqrt_square. lra. }
    set (n := len3 (q_vec q)) in *. pose proof (acos_bound (qw q)) as AB. repeat split; try lra.
    + unfold dot3, v_div, q_vec. qng. fieldsg. replace (qx q / n * (qx q / n) + qy q / n * (qy q / n) + qz q / n * (qz q / n)) with ((qx q * qx q + qy q * qy q + qz q * qz q) / (n * n)) by (field; lra). rewrite <- N. field. lra.
    + unfold FromAxisAngle, v_div, q_vec. qng. fieldsg. replace (2 * acos (qw q) / 2) with (acos (qw q)) by field. rewrite SA, cos_acos by auto. destruct q as [w x y z]. fieldsg. f_equal; field; lra.
Qed.
Print Assumptions C67_axis_angle.

(** Small rotations lose their axis: [isIdentity]'s tolerance 1e-6 is used to decide that there is no axis, so a rotation by 1e-6 about x is reported as one about z. *)
Theorem C67_small_angle_refuted : exists u a, dot3 u u = 1 /\ 0 < a < PI /\ ToAxisAngle Rm (FromAxisAngle Rm u a) = (V3 0 0 1, a) /\ V3 0 0 1 <> u.
Proof.
  set (a := / 10 ^ 6). assert (P : 0 < a) by (unfold a; apply Rinv_0_lt_compat; lra). assert (A1 : a < 1) by (unfold a; rewrite <- Rinv_1; apply Rinv_lt_contravar; lra). assert (HP := PI2_1). assert (PI = 2 * (PI / 2)) by field.
  exists (V3 1 0 0), a. assert (U : dot3 (V3 1 0 0) (V3 1 0 0) = 1) by (unfold dot3; fieldsg; ring). split; auto. split; [lra|]. split; [|intros E; injection E; lra].
  unfold ToAxisAngle. rewrite (proj1 C67_axis_angle) by (auto; lra). f_equal. unfold GetRotationAxis.
  assert (I : isIdentity Rm (FromAxisAngle Rm (V3 1 0 0) a) = true); [|rewrite I; reflexivity].
  assert (S0 : 0 < sin (a / 2)) by (apply sin_gt_0; lra). assert (S1 : sin (a / 2) < a / 2) by (apply sin_lt_x; lra).
  assert (C : cos (a / 2) = 1 - 2 * sin (a / 4) * sin (a / 4)). { replace (a / 2) with (2 * (a / 4)) by field. apply cos_2a_sin. }
  assert (T0 : 0 < sin (a / 4)) by (apply sin_gt_0; lra). assert (T1 : sin (a / 4) < a / 4) by (apply sin_lt_x; lra).
  unfold isIdentity. rewrite tol_val. unfold FromAxisAngle. qng. fieldsg. fold a.
  assert (B : forall x, -a < x < a -> Rltb (Rabs x) a = true). { intros x Hx. destruct (Rltb_spec (Rabs x) a) as [_|N]; auto. exfalso. apply N. apply Rabs_def1; lra. }
  rewrite !B; auto; try lra. rewrite C. split; nra.
Qed.
Print Assumptions C67_small_angle_refuted.
