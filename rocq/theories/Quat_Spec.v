(** * Rotations of space, independently of the code *)
From Coq Require Import Reals Lra.
From Verif Require Import Num RootFind_Model RootFind_Proofs Fourier_Model Fourier_Spec Quat_Model.
Local Open Scope R_scope.

(** the four-quadrant angle of the point (x, y), as C's atan2(y, x) *)
Definition Ratan2 (y x : R) : R :=
  if Rlt_dec 0 x then atan (y / x)
  else if Rlt_dec x 0 then (if Rle_dec 0 y then atan (y / x) + PI else atan (y / x) - PI)
  else if Rlt_dec 0 y then PI / 2 else if Rlt_dec y 0 then - (PI / 2) else 0.
(** real arithmetic with the standard library's functions *)
Definition Rm : mtrig R := mkMtrig R Rtrig acos asin Ratan2.

(** scalar and vector product, length, and scaling of vectors of space *)
Definition dot3 (a b : vec3 R) : R := vx a * vx b + vy a * vy b + vz a * vz b.
Definition cross3 (a b : vec3 R) : vec3 R := V3 (vy a * vz b - vz a * vy b) (vz a * vx b - vx a * vz b) (vx a * vy b - vy a * vx b).
Definition lin3 (s : R) (a : vec3 R) (t : R) (b : vec3 R) : vec3 R := V3 (s * vx a + t * vx b) (s * vy a + t * vy b) (s * vz a + t * vz b).
Definition len3 (a : vec3 R) : R := sqrt (dot3 a a).
Definition zero3 : vec3 R := V3 0 0 0.
(** a proper rotation: linear, keeps scalar and vector products *)
Definition rotation (f : vec3 R -> vec3 R) : Prop :=
  (forall s a t b, f (lin3 s a t b) = lin3 s (f a) t (f b)) /\ (forall a b, dot3 (f a) (f b) = dot3 a b) /\ (forall a b, f (cross3 a b) = cross3 (f a) (f b)).
(** Rodrigues' formula: the right-handed rotation about the unit vector [u] by the angle [t] *)
Definition rodrigues (u : vec3 R) (t : R) (v : vec3 R) : vec3 R :=
  lin3 1 (lin3 (cos t) v (sin t) (cross3 u v)) ((1 - cos t) * dot3 u v) u.
(** a unit quaternion *)
Definition unit4 (q : quat R) : Prop := qw q * qw q + qx q * qx q + qy q * qy q + qz q * qz q = 1.
(** a rotation matrix: orthonormal rows, determinant 1 *)
Definition row0 (m : mat3 R) := V3 (m00 m) (m01 m) (m02 m).
Definition row1 (m : mat3 R) := V3 (m10 m) (m11 m) (m12 m).
Definition row2 (m : mat3 R) := V3 (m20 m) (m21 m) (m22 m).
Definition det3 (m : mat3 R) : R := dot3 (row0 m) (cross3 (row1 m) (row2 m)).
Definition rot_matrix (m : mat3 R) : Prop :=
  dot3 (row0 m) (row0 m) = 1 /\ dot3 (row1 m) (row1 m) = 1 /\ dot3 (row2 m) (row2 m) = 1 /\
  dot3 (row0 m) (row1 m) = 0 /\ dot3 (row0 m) (row2 m) = 0 /\ dot3 (row1 m) (row2 m) = 0 /\ det3 m = 1.
(** matrix times vector and matrix times matrix *)
Definition app3 (m : mat3 R) (v : vec3 R) : vec3 R := V3 (dot3 (row0 m) v) (dot3 (row1 m) v) (dot3 (row2 m) v).
