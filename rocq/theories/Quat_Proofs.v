(** * C65: quaternion algebra; C66: rotation by unit quaternions *)
From Coq Require Import List Arith Bool Lia ZArith Reals Lra Psatz.
From Verif Require Import Base Num RootFind_Model RootFind_Proofs Fourier_Model Fourier_Spec Quat_Model Quat_Spec.
Import ListNotations.
Local Open Scope R_scope.

Ltac qn := cbn [Rm mtr Rtrig tar Rarith aops altb alit asqrt tcos tsin tpi macos masin matan2 Rnum nadd nmul nsub nopp ndiv n0 n1] in *; rewrite ?Rabs_aabs in *.
Ltac comps := repeat match goal with q : quat R |- _ => destruct q | v : vec3 R |- _ => destruct v | m : mat3 R |- _ => destruct m end.
Ltac fields := cbn [qw qx qy qz vx vy vz m00 m01 m02 m10 m11 m12 m20 m21 m22] in *.
Ltac qng := cbn [Rm mtr Rtrig tar Rarith aops altb alit asqrt tcos tsin tpi macos masin matan2 Rnum nadd nmul nsub nopp ndiv n0 n1]; rewrite ?Rabs_aabs.
Ltac fieldsg := cbn [qw qx qy qz vx vy vz m00 m01 m02 m10 m11 m12 m20 m21 m22].
Ltac qsimp := unfold q_sub, q_neg, q_scale, q_mul, q_add, Conjugate, NormSquared, q_pure, q_of, q_vec, q_id, Dot, Rotate, v_sub, v_add, v_scale, v_neg, VectorProduct, v_dot, ToRotationMatrix, m3_app, app3, det3, row0, row1, row2, lin3, cross3, dot3, unit4; qng; fieldsg.
Ltac qsimpa := unfold q_sub, q_neg, q_scale, q_mul, q_add, Conjugate, NormSquared, q_pure, q_of, q_vec, q_id, Dot, Rotate, v_sub, v_add, v_scale, v_neg, VectorProduct, v_dot, ToRotationMatrix, m3_app, app3, det3, row0, row1, row2, lin3, cross3, dot3, unit4 in *; qn; fields.
Ltac qring := comps; qsimp; try (f_equal; ring); try ring.

Lemma thr_pos : 0 < QuaternionZeroThreshold Rm.
Proof. unfold QuaternionZeroThreshold. qn. apply Rdiv_lt_0_compat; [lra|]. apply (IZR_lt 0). reflexivity. Qed.
Lemma thr_val : QuaternionZeroThreshold Rm = / 10 ^ 12.
Proof. unfold QuaternionZeroThreshold. qn. replace (IZR (10 ^ 12)) with (10 ^ 12); [field|]. rewrite (pow_IZR 10 12). reflexivity. Qed.
Lemma NS_nonneg : forall q, 0 <= NormSquared Rm q.
Proof. intros q. qring. nra. Qed.

Lemma sq4_zero : forall a b c d, a * a + b * b + c * c + d * d = 0 -> a = 0 /\ b = 0 /\ c = 0 /\ d = 0.
Proof. intros a b c d H. repeat split; nra. Qed.

(** ** C65 *)
(** the quaternions are Hamilton's: an associative unital ring with i^2 = j^2 = k^2 = ijk = -1 *)
Theorem C65_ring : forall p q r : quat R,
  q_mul Rm p (q_mul Rm q r) = q_mul Rm (q_mul Rm p q) r /\ q_mul Rm (q_id Rm) p = p /\ q_mul Rm p (q_id Rm) = p /\
  q_mul Rm p (q_add Rm q r) = q_add Rm (q_mul Rm p q) (q_mul Rm p r) /\ q_mul Rm (q_add Rm p q) r = q_add Rm (q_mul Rm p r) (q_mul Rm q r) /\
  q_add Rm p q = q_add Rm q p /\ q_add Rm p (q_add Rm q r) = q_add Rm (q_add Rm p q) r /\ q_sub Rm p q = q_add Rm p (q_neg Rm q) /\ q_add Rm p (q_neg Rm p) = Q4 0 0 0 0 /\
  (forall s, q_scale Rm p s = q_mul Rm (Q4 s 0 0 0) p /\ q_scale Rm p s = q_mul Rm p (Q4 s 0 0 0) /\ (s <> 0 -> q_scale Rm (q_div Rm p s) s = p)) /\
  (let i := Q4 0 1 0 0 in let j := Q4 0 0 1 0 in let k := Q4 0 0 0 1 in let m1 := Q4 (-1) 0 0 0 in
   q_mul Rm i i = m1 /\ q_mul Rm j j = m1 /\ q_mul Rm k k = m1 /\ q_mul Rm i j = k /\ q_mul Rm j i = q_neg Rm k /\ q_mul Rm j k = i /\ q_mul Rm k i = j).
Proof.
  intros p q r. repeat split; qring; try (f_equal; ring).
  intros Hs. unfold q_div. qsimp. f_equal; field; auto.
Qed.
Print Assumptions C65_ring.

(** the conjugate reverses products, the norm is multiplicative, and q q* = |q|^2 *)
Theorem C65_norm : forall p q : quat R,
  Conjugate Rm (q_mul Rm p q) = q_mul Rm (Conjugate Rm q) (Conjugate Rm p) /\ Conjugate Rm (Conjugate Rm p) = p /\
  q_mul Rm p (Conjugate Rm p) = Q4 (NormSquared Rm p) 0 0 0 /\ q_mul Rm (Conjugate Rm p) p = Q4 (NormSquared Rm p) 0 0 0 /\
  Norm Rm p * Norm Rm p = NormSquared Rm p /\ 0 <= Norm Rm p /\ (NormSquared Rm p = 0 <-> p = Q4 0 0 0 0) /\ Dot Rm p p = NormSquared Rm p /\
  NormSquared Rm (q_mul Rm p q) = NormSquared Rm p * NormSquared Rm q /\ Norm Rm (q_mul Rm p q) = Norm Rm p * Norm Rm q /\
  Dot Rm p q * Dot Rm p q <= NormSquared Rm p * NormSquared Rm q.
Proof.
  intros p q. assert (M : NormSquared Rm (q_mul Rm p q) = NormSquared Rm p * NormSquared Rm q) by qring.
  assert (Z : NormSquared Rm p = 0 <-> p = Q4 0 0 0 0). { split; [|intros ->; qring]. destruct p as [w x y z]. unfold NormSquared. qn. fields. intros H. assert (w = 0 /\ x = 0 /\ y = 0 /\ z = 0) as (-> & -> & -> & ->); [|reflexivity]. repeat split; nra. }
  split; [qring|]. split; [qring|]. split; [qring|]. split; [qring|]. split; [|split; [|split; [exact Z|split; [qring|split; [exact M|split]]]]].
  - unfold Norm. qn. apply sqrt_sqrt, NS_nonneg.
  - unfold Norm. qn. apply sqrt_pos.
  - unfold Norm. qn. rewrite M. apply sqrt_mult; apply NS_nonneg.
  - destruct p as [a b c d], q as [e f g h]. unfold Dot, NormSquared. qn. fields.
    assert (E : (a * a + b * b + c * c + d * d) * (e * e + f * f + g * g + h * h) - (a * e + b * f + c * g + d * h) * (a * e + b * f + c * g + d * h) =
      (a * f - b * e) * (a * f - b * e) + (a * g - c * e) * (a * g - c * e) + (a * h - d * e) * (a * h - d * e) + (b * g - c * f) * (b * g - c * f) + (b * h - d * f) * (b * h - d * f) + (c * h - d * g) * (c * h - d * g)) by ring.
    assert (forall x, 0 <= x * x) as S by (intros x; nra).
    pose proof (S (a * f - b * e)). pose proof (S (a * g - c * e)). pose proof (S (a * h - d * e)). pose proof (S (b * g - c * f)). pose proof (S (b * h - d * f)). pose proof (S (c * h - d * g)). lra.
Qed.
Print Assumptions C65_norm.

(** the inverse is two-sided; it is refused exactly below the threshold, and for unit quaternions it is the conjugate *)
Theorem C65_inverse : forall q,
  (NormSquared Rm q < / 10 ^ 12 -> Inverse Rm q = Throw DomainError) /\
  (/ 10 ^ 12 <= NormSquared Rm q -> exists r, Inverse Rm q = Ok r /\ q_mul Rm q r = q_id Rm /\ q_mul Rm r q = q_id Rm) /\
  (unit4 q -> Inverse Rm q = Ok (Conjugate Rm q)).
Proof.
  intros q. unfold Inverse. rewrite thr_val. pose proof thr_pos as P. rewrite thr_val in P. qn. destruct (Rltb_spec (NormSquared Rm q) (/ 10 ^ 12)) as [L|L].
  - repeat split; auto; [lra|]. intros U. exfalso. unfold unit4 in U. unfold NormSquared in L. qn. assert (/ 10 ^ 12 < 1); [|lra]. rewrite <- Rinv_1. apply Rinv_lt_contravar; lra.
  - repeat split; [lra| |].
    + intros _. eexists. split; [reflexivity|]. assert (N : NormSquared Rm q <> 0) by lra. destruct q as [w x y z]. unfold NormSquared in *. qsimpa. split; f_equal; field; auto.
    + intros U. assert (N : NormSquared Rm q = 1) by (unfold unit4 in U; unfold NormSquared; qn; lra). rewrite N. unfold Conjugate. qn. do 2 f_equal; field.
Qed.
Print Assumptions C65_inverse.

(** Non-zero quaternions are refused: the thresholds are absolute, so a quaternion of length 1e-7 has no inverse although 1e7 of it does. *)
Theorem C65_small_refuted : exists q, q <> Q4 0 0 0 0 /\ Inverse Rm q = Throw DomainError /\ exists r, Inverse Rm (q_scale Rm q (10 ^ 7)) = Ok r.
Proof.
  set (e := / 10 ^ 7). assert (He : e * 10 ^ 7 = 1) by (unfold e; field). assert (0 < e) by (unfold e; apply Rinv_0_lt_compat; lra). exists (Q4 e 0 0 0). split; [intros E; injection E; lra|]. split.
  - apply C65_inverse. unfold NormSquared. qn. fields. assert (E : e * e = / 10 ^ 14) by (unfold e; field). assert (/ 10 ^ 14 < / 10 ^ 12) by (apply Rinv_lt_contravar; lra). lra.
  - eexists. apply C65_inverse. unfold unit4, q_scale. qn. fields. rewrite He. ring.
Qed.
Print Assumptions C65_small_refuted.

(** normalisation: a positive multiple of unit length; refused exactly below the threshold *)
Theorem C65_normalized : forall q,
  (Norm Rm q < / 10 ^ 12 -> Normalized Rm q = Throw DomainError) /\
  (/ 10 ^ 12 <= Norm Rm q -> exists r, Normalized Rm q = Ok r /\ unit4 r /\ q_scale Rm r (Norm Rm q) = q).
Proof.
  intros q. unfold Normalized. rewrite thr_val. pose proof thr_pos as P. rewrite thr_val in P. qn. destruct (Rltb_spec (Norm Rm q) (/ 10 ^ 12)) as [L|L]; split; auto; try lra.
  intros _. eexists. split; [reflexivity|]. assert (N : Norm Rm q <> 0) by lra. pose proof (proj1 (proj2 (proj2 (proj2 (proj2 (C65_norm q q)))))) as S. set (n := Norm Rm q) in *. destruct q as [w x y z]. unfold NormSquared in S. qn. fields. split.
  - unfold unit4. fields. replace (w * (1 / n) * (w * (1 / n)) + x * (1 / n) * (x * (1 / n)) + y * (1 / n) * (y * (1 / n)) + z * (1 / n) * (z * (1 / n))) with ((w * w + x * x + y * y + z * z) / (n * n)) by (field; auto). rewrite <- S. field. auto.
  - unfold q_scale. qn. fields. f_equal; field; auto.
Qed.
Print Assumptions C65_normalized.

(** ** C66 *)
Lemma sandwich : forall q s v, unit4 q -> q_mul Rm (q_mul Rm q (q_of s v)) (Conjugate Rm q) = q_of s (Rotate Rm q v).
Proof.
  intros q s v U. destruct q as [w x y z], v as [a b c]. qsimpa. f_equal.
  - transitivity (s * (w * w + x * x + y * y + z * z)); [ring|rewrite U; ring].
  - transitivity (a * (w * w + x * x + y * y + z * z) + (y * c - z * b) * (2 * w) + (y * (x * b - y * a) - z * (z * a - x * c)) * 2); [ring|rewrite U; ring].
  - transitivity (b * (w * w + x * x + y * y + z * z) + (z * a - x * c) * (2 * w) + (z * (y * c - z * b) - x * (x * b - y * a)) * 2); [ring|rewrite U; ring].
  - transitivity (c * (w * w + x * x + y * y + z * z) + (x * b - y * a) * (2 * w) + (x * (z * a - x * c) - y * (y * c - z * b)) * 2); [ring|rewrite U; ring].
Qed.
Lemma unit_NS : forall q, unit4 q <-> NormSquared Rm q = 1.
Proof. intros q. unfold unit4, NormSquared. qn. tauto. Qed.
Lemma unit_mul : forall p q, unit4 p -> unit4 q -> unit4 (q_mul Rm p q).
Proof. intros p q. rewrite !unit_NS. intros A B. replace (NormSquared Rm (q_mul Rm p q)) with (NormSquared Rm p * NormSquared Rm q) by qring. rewrite A, B. ring. Qed.
Lemma unit_Conj : forall q, unit4 q -> unit4 (Conjugate Rm q).
Proof. intros q U. unfold unit4, Conjugate in *. qn. fields. lra. Qed.
Lemma q_assoc : forall p q r, q_mul Rm p (q_mul Rm q r) = q_mul Rm (q_mul Rm p q) r.
Proof. intros p q r. exact (proj1 (C65_ring p q r)). Qed.
Lemma unit_conj : forall q, unit4 q -> q_mul Rm (Conjugate Rm q) q = q_id Rm /\ q_mul Rm q (Conjugate Rm q) = q_id Rm.
Proof. intros q U. apply (proj1 (unit_NS q)) in U. destruct (C65_norm q q) as (_ & _ & A & B & _). rewrite A, B, U. unfold q_id. qn. auto. Qed.
Lemma sandwich_pure : forall q v, unit4 q -> q_mul Rm (q_mul Rm q (q_pure Rm v)) (Conjugate Rm q) = q_pure Rm (Rotate Rm q v).
Proof. intros q v U. unfold q_pure. now rewrite sandwich. Qed.
Lemma of_inj : forall s (u v : vec3 R), q_of s u = q_of s v -> u = v.
Proof. intros s [] [] H. unfold q_of in H. fields. injection H as -> -> ->. reflexivity. Qed.

Lemma pure_mul : forall a b, q_mul Rm (q_pure Rm a) (q_pure Rm b) = q_of (- dot3 a b) (cross3 a b).
Proof. intros [] []. qsimp. f_equal; ring. Qed.

(** Rotate is conjugation by the quaternion: v' = q [0, v] q^-1, whose scalar part is 0 *)
Theorem C66_conjugation : forall q v, unit4 q -> exists r, Inverse Rm q = Ok r /\ q_mul Rm (q_mul Rm q (q_pure Rm v)) r = q_pure Rm (Rotate Rm q v).
Proof. intros q v U. exists (Conjugate Rm q). split; [apply C65_inverse; auto|]. apply sandwich_pure; auto. Qed.
Print Assumptions C66_conjugation.

(** it is a proper rotation of space *)
Theorem C66_rotation : forall q, unit4 q -> rotation (Rotate Rm q) /\ forall v, len3 (Rotate Rm q v) = len3 v.
Proof.
  intros q U. assert (R : rotation (Rotate Rm q)).
  { destruct q as [w x y z]. unfold unit4 in U. fields. split; [|split].
    - intros s [a b c] t [d e f]. qsimp. f_equal; ring.
    - intros [a b c] [d e f]. qsimp.
      assert (W : w * w = 1 - (x * x + y * y + z * z)) by lra.
      match goal with |- ?l = ?r => transitivity (r + 4 * (w * w + x * x + y * y + z * z - 1) * ((y * c - z * b) * (y * f - z * e) + (z * a - x * c) * (z * d - x * f) + (x * b - y * a) * (x * e - y * d))) end; [ring|]. rewrite U. ring.
    - intros u v. set (q := Q4 w x y z). assert (U' : unit4 q) by exact U.
      pose proof pure_mul as P.
      assert (E : q_mul Rm (q_pure Rm (Rotate Rm q u)) (q_pure Rm (Rotate Rm q v)) = q_mul Rm (q_mul Rm q (q_mul Rm (q_pure Rm u) (q_pure Rm v))) (Conjugate Rm q)).
      { rewrite <- !sandwich_pure by auto. destruct (unit_conj q U') as [I _].
        replace (q_mul Rm (q_mul Rm (q_mul Rm q (q_pure Rm u)) (Conjugate Rm q)) (q_mul Rm (q_mul Rm q (q_pure Rm v)) (Conjugate Rm q)))
           with (q_mul Rm (q_mul Rm (q_mul Rm q (q_pure Rm u)) (q_mul Rm (Conjugate Rm q) q)) (q_mul Rm (q_pure Rm v) (Conjugate Rm q))) by now rewrite !q_assoc.
        rewrite I. rewrite (proj1 (proj2 (proj2 (C65_ring (q_mul Rm q (q_pure Rm u)) q q)))). now rewrite !q_assoc. }
      rewrite !P, sandwich in E by auto. assert (D := f_equal (@qw R) E). unfold q_of in D at 1 2. fields. rewrite D in E. symmetry. exact (of_inj _ _ _ E). }
  split; auto. intros v. unfold len3. now rewrite (proj1 (proj2 R)).
Qed.
Print Assumptions C66_rotation.

(** composition of rotations is the product of quaternions; q and -q rotate alike; the inverse undoes the rotation *)
Theorem C66_compose : forall p q v, unit4 p -> unit4 q ->
  unit4 (q_mul Rm p q) /\ Rotate Rm (q_mul Rm p q) v = Rotate Rm p (Rotate Rm q v) /\ Rotate Rm (q_neg Rm q) v = Rotate Rm q v /\ Rotate Rm (q_id Rm) v = v /\
  exists r, Inverse Rm q = Ok r /\ unit4 r /\ Rotate Rm r (Rotate Rm q v) = v /\ Rotate Rm q (Rotate Rm r v) = v.
Proof.
  intros p q v U W. assert (UM := unit_mul p q U W).
  assert (C : forall p q v, unit4 p -> unit4 q -> Rotate Rm (q_mul Rm p q) v = Rotate Rm p (Rotate Rm q v)).
  { clear. intros p q v U W. apply (of_inj 0). change (q_pure Rm (Rotate Rm (q_mul Rm p q) v) = q_pure Rm (Rotate Rm p (Rotate Rm q v))). rewrite <- (sandwich_pure (q_mul Rm p q)) by now apply unit_mul. rewrite <- (sandwich_pure p), <- (sandwich_pure q) by auto. rewrite (proj1 (C65_norm p q)). now rewrite !q_assoc. }
  assert (I : forall v, Rotate Rm (q_id Rm) v = v) by (intros []; qsimp; f_equal; ring).
  assert (UC := unit_Conj q W).
  split; auto. split; auto. split; [qring|]. split; auto. exists (Conjugate Rm q). split; [apply C65_inverse; auto|]. split; auto.
  destruct (unit_conj q W) as [A B]. rewrite <- !C by auto. now rewrite A, B, !I.
Qed.
Print Assumptions C66_compose.

(** only q and -q give the same rotation *)
Theorem C66_double_cover : forall p q, unit4 p -> unit4 q -> (forall v, Rotate Rm p v = Rotate Rm q v) -> p = q \/ p = q_neg Rm q.
Proof.
  intros p q U W H.
  assert (X := H (V3 1 0 0)). assert (Y := H (V3 0 1 0)). assert (Z := H (V3 0 0 1)). clear H.
  destruct p as [w x y z], q as [w' x' y' z']. qsimpa. injection X as X1 X2 X3. injection Y as Y1 Y2 Y3. injection Z as Z1 Z2 Z3.
  assert (E1 : x * x = x' * x') by lra. assert (E2 : y * y = y' * y') by lra. assert (E3 : z * z = z' * z') by lra. assert (E0 : w * w = w' * w') by lra.
  assert (F1 : x * y = x' * y') by lra. assert (F2 : x * z = x' * z') by lra. assert (F3 : y * z = y' * z') by lra.
  assert (G1 : w * x = w' * x') by lra. assert (G2 : w * y = w' * y') by lra. assert (G3 : w * z = w' * z') by lra.
  assert (D : (w * w' + x * x' + y * y' + z * z') * (w * w' + x * x' + y * y' + z * z') = 1).
  { transitivity ((w' * w' + x' * x' + y' * y' + z' * z') * (w' * w' + x' * x' + y' * y' + z' * z')); [|rewrite W; ring].
    transitivity ((w*w) * (w'*w') + (x*x)*(x'*x') + (y*y)*(y'*y') + (z*z)*(z'*z') + 2 * ((w*x)*(w'*x')) + 2 * ((w*y)*(w'*y')) + 2 * ((w*z)*(w'*z')) + 2 * ((x*y)*(x'*y')) + 2 * ((x*z)*(x'*z')) + 2 * ((y*z)*(y'*z'))); [ring|].
    rewrite E0, E1, E2, E3, F1, F2, F3, G1, G2, G3. ring. }
  set (d := w * w' + x * x' + y * y' + z * z') in *. assert (Hd : d = 1 \/ d = -1). { assert ((d - 1) * (d + 1) = 0) by lra. destruct (Rmult_integral _ _ H); [left|right]; lra. }
  destruct Hd as [Hd|Hd]; [left|right].
  - assert (S : (w - w') * (w - w') + (x - x') * (x - x') + (y - y') * (y - y') + (z - z') * (z - z') = 0) by (unfold d in Hd; lra). destruct (sq4_zero _ _ _ _ S) as (A1 & A2 & A3 & A4). f_equal; lra.
  - assert (S : (w + w') * (w + w') + (x + x') * (x + x') + (y + y') * (y + y') + (z + z') * (z + z') = 0) by (unfold d in Hd; lra). destruct (sq4_zero _ _ _ _ S) as (A1 & A2 & A3 & A4). f_equal; lra.
Qed.
Print Assumptions C66_double_cover.

(** the rotation matrix applies the same rotation, is orthogonal with determinant 1 *)
Theorem C66_matrix : forall q, unit4 q -> (forall v, app3 (ToRotationMatrix Rm q) v = Rotate Rm q v) /\ rot_matrix (ToRotationMatrix Rm q).
Proof.
  intros q U. assert (A : forall v, app3 (ToRotationMatrix Rm q) v = Rotate Rm q v).
  { intros [a b c]. destruct q as [w x y z]. qsimp. f_equal; ring. }
  split; auto. assert (UC := unit_Conj q U).
  destruct (C66_rotation _ UC) as [(_ & D & X) _].
  assert (R0 : row0 (ToRotationMatrix Rm q) = Rotate Rm (Conjugate Rm q) (V3 1 0 0)) by qring.
  assert (R1 : row1 (ToRotationMatrix Rm q) = Rotate Rm (Conjugate Rm q) (V3 0 1 0)) by qring.
  assert (R2 : row2 (ToRotationMatrix Rm q) = Rotate Rm (Conjugate Rm q) (V3 0 0 1)) by qring.
  unfold rot_matrix, det3. rewrite R0, R1, R2, <- X, !D. unfold dot3, cross3. fields. repeat split; ring.
Qed.
Print Assumptions C66_matrix.

Lemma half_angle : forall a, cos a = 1 - 2 * (sin (a / 2) * sin (a / 2)) /\ sin a = 2 * (sin (a / 2) * cos (a / 2)) /\ cos (a / 2) * cos (a / 2) = 1 - sin (a / 2) * sin (a / 2).
Proof.
  intros a. assert (S := sin2_cos2 (a / 2)). unfold Rsqr in S. repeat split; try lra.
  - replace a with (2 * (a / 2)) at 1 by field. rewrite cos_2a_sin. ring.
  - replace a with (2 * (a / 2)) at 1 by field. rewrite sin_2a. ring.
Qed.
(** axis and angle: a unit quaternion which rotates by Rodrigues' formula *)
Theorem C66_axis_angle : forall u a, dot3 u u = 1 -> unit4 (FromAxisAngle Rm u a) /\ forall v, Rotate Rm (FromAxisAngle Rm u a) v = rodrigues u a v.
Proof.
  intros u a H. destruct (half_angle a) as (C & S & W). unfold FromAxisAngle, rodrigues. qn. set (s := sin (a / 2)) in *. set (c := cos (a / 2)) in *. rewrite C, S. destruct u as [x y z]. unfold dot3 in H. fields. split.
  - unfold unit4. fields. transitivity (c * c + (x * x + y * y + z * z) * (s * s)); [ring|]. rewrite H, W. ring.
  - intros [d e f]. qsimp.
    f_equal.
    + transitivity (d + (y * f - z * e) * (2 * (s * c)) + 2 * (s * s) * (x * (x * d + y * e + z * f) - d * (x * x + y * y + z * z))); [ring|]. rewrite H. ring.
    + transitivity (e + (z * d - x * f) * (2 * (s * c)) + 2 * (s * s) * (y * (x * d + y * e + z * f) - e * (x * x + y * y + z * z))); [ring|]. rewrite H. ring.
    + transitivity (f + (x * e - y * d) * (2 * (s * c)) + 2 * (s * s) * (z * (x * d + y * e + z * f) - f * (x * x + y * y + z * z))); [ring|]. rewrite H. ring.
Qed.
Print Assumptions C66_axis_angle.

(** Euler angles: ZYX turns first about x by roll, then about y by pitch, then about z by yaw; XYZ the other way round *)
Theorem C66_euler : forall yaw pitch roll v,
  let rx := rodrigues (V3 1 0 0) roll in let ry := rodrigues (V3 0 1 0) pitch in let rz := rodrigues (V3 0 0 1) yaw in
  unit4 (FromEulerZYX Rm yaw pitch roll) /\ Rotate Rm (FromEulerZYX Rm yaw pitch roll) v = rz (ry (rx v)) /\
  unit4 (FromEulerXYZ Rm roll pitch yaw) /\ Rotate Rm (FromEulerXYZ Rm roll pitch yaw) v = rx (ry (rz v)).
Proof.
  intros yaw pitch roll v rx ry rz.
  assert (EX : dot3 (V3 1 0 0) (V3 1 0 0) = 1) by (unfold dot3; fields; ring).
  assert (EY : dot3 (V3 0 1 0) (V3 0 1 0) = 1) by (unfold dot3; fields; ring).
  assert (EZ : dot3 (V3 0 0 1) (V3 0 0 1) = 1) by (unfold dot3; fields; ring).
  destruct (C66_axis_angle _ roll EX) as [UX RX]. destruct (C66_axis_angle _ pitch EY) as [UY RY]. destruct (C66_axis_angle _ yaw EZ) as [UZ RZ].
  set (qX := FromAxisAngle Rm (V3 1 0 0) roll) in *. set (qY := FromAxisAngle Rm (V3 0 1 0) pitch) in *. set (qZ := FromAxisAngle Rm (V3 0 0 1) yaw) in *.
  assert (F1 : FromEulerZYX Rm yaw pitch roll = q_mul Rm qZ (q_mul Rm qY qX)).
  { unfold FromEulerZYX, qX, qY, qZ, FromAxisAngle, q_mul. qn. fields. replace (yaw * (1 / 2)) with (yaw / 2) by field. replace (pitch * (1 / 2)) with (pitch / 2) by field. replace (roll * (1 / 2)) with (roll / 2) by field. f_equal; ring. }
  assert (F2 : FromEulerXYZ Rm roll pitch yaw = q_mul Rm qX (q_mul Rm qY qZ)).
  { unfold FromEulerXYZ, qX, qY, qZ, FromAxisAngle, q_mul. qn. fields. replace (yaw * (1 / 2)) with (yaw / 2) by field. replace (pitch * (1 / 2)) with (pitch / 2) by field. replace (roll * (1 / 2)) with (roll / 2) by field. f_equal; ring. }
  rewrite F1, F2. assert (UYX := unit_mul _ _ UY UX). assert (UYZ := unit_mul _ _ UY UZ). repeat split.
  - now apply unit_mul.
  - destruct (C66_compose qZ (q_mul Rm qY qX) v UZ UYX) as (_ & -> & _). destruct (C66_compose qY qX v UY UX) as (_ & -> & _). rewrite RX, RY, RZ. reflexivity.
  - now apply unit_mul.
  - destruct (C66_compose qX (q_mul Rm qY qZ) v UX UYZ) as (_ & -> & _). destruct (C66_compose qY qZ v UY UZ) as (_ & -> & _). rewrite RX, RY, RZ. reflexivity.
Qed.
Print Assumptions C66_euler.
