(** * Model of quaternions and Cartesian 3-vectors (mml/base/Quaternions.h, mml/base/Vector/VectorTypes.h)

    Arithmetic is exact ([arith T] of RootFind_Model.v) with the cosine, sine and PI of [trig] (Fourier_Model.v) and an inverse
    cosine, an inverse sine and atan2.  [Real] is double: the thresholds are those of PrecisionValues<double>.  Printing is left
    out.  QuaternionError is a std::domain_error ([DomainError]).  The mutating operators are the functions returning the new value. *)

From Coq Require Import List Bool Arith ZArith.
From Verif Require Import Base Num RootFind_Model Fourier_Model.
Import ListNotations.

Record mtrig (T : Type) := mkMtrig { mtr : trig T; macos : T -> T; masin : T -> T; matan2 : T -> T -> T }.
Arguments mtr {T} _. Arguments macos {T} _ _. Arguments masin {T} _ _. Arguments matan2 {T} _ _ _.

(** VectorTypes.h:302-327 Vector3Cartesian: X(), Y(), Z() *)
Record vec3 (T : Type) := V3 { vx : T; vy : T; vz : T }.
Arguments V3 {T} _ _ _. Arguments vx {T} _. Arguments vy {T} _. Arguments vz {T} _.
(** Quaternions.h:60-72 the four components *)
Record quat (T : Type) := Q4 { qw : T; qx : T; qy : T; qz : T }.
Arguments Q4 {T} _ _ _ _. Arguments qw {T} _. Arguments qx {T} _. Arguments qy {T} _. Arguments qz {T} _.
(** a 3 x 3 matrix, row by row *)
Record mat3 (T : Type) := M3 { m00 : T; m01 : T; m02 : T; m10 : T; m11 : T; m12 : T; m20 : T; m21 : T; m22 : T }.
Arguments M3 {T} _ _ _ _ _ _ _ _ _.
Arguments m00 {T} _. Arguments m01 {T} _. Arguments m02 {T} _. Arguments m10 {T} _. Arguments m11 {T} _. Arguments m12 {T} _.
Arguments m20 {T} _. Arguments m21 {T} _. Arguments m22 {T} _.

Section Quat.
Context {T : Type} (B : mtrig T).
Local Notation A := (tar (mtr B)).
Local Notation "a + b" := (nadd (aops A) a b).
Local Notation "a - b" := (nsub (aops A) a b).
Local Notation "a * b" := (nmul (aops A) a b).
Local Notation "a / b" := (ndiv (aops A) a b).
Local Notation "- a" := (nopp (aops A) a).
Local Notation "a <? b" := (altb A a b).
Local Notation "a <=? b" := (negb (altb A b a)).
Local Notation lit := (alit A).
Local Notation abs := (aabs A).
Local Notation sqrt := (asqrt A).
Local Notation cos := (tcos (mtr B)).
Local Notation sin := (tsin (mtr B)).
Local Notation half := (lit 1 / lit 2).

(** MMLPrecision.h:143, 146 *)
Definition QuaternionZeroThreshold : T := lit 1 / lit (10 ^ 12).
Definition DefaultTolerance : T := lit 1 / lit (10 ^ 6).

(** VectorTypes.h:390-393, 406-412, 415-421, 396-402, 425-431, 434-440 *)
Definition v_dot (a b : vec3 T) : T := vx a * vx b + vy a * vy b + vz a * vz b.
Definition v_add (a b : vec3 T) : vec3 T := V3 (vx a + vx b) (vy a + vy b) (vz a + vz b).
Definition v_sub (a b : vec3 T) : vec3 T := V3 (vx a - vx b) (vy a - vy b) (vz a - vz b).
Definition v_neg (a : vec3 T) : vec3 T := V3 (- vx a) (- vy a) (- vz a).
Definition v_scale (a : vec3 T) (s : T) : vec3 T := V3 (vx a * s) (vy a * s) (vz a * s).
Definition v_div (a : vec3 T) (s : T) : vec3 T := V3 (vx a / s) (vy a / s) (vz a / s).
(** VectorTypes.h:556-565 VectorProduct *)
Definition VectorProduct (a b : vec3 T) : vec3 T :=
  V3 (vy a * vz b - vz a * vy b) (vz a * vx b - vx a * vz b) (vx a * vy b - vy a * vx b).
(** VectorN.h:298-312 NormL2: the sum starts at 0 *)
Definition NormL2 (a : vec3 T) : T := sqrt (lit 0 + vx a * vx a + vy a * vy a + vz a * vz a).
(** VectorN.h:187-194 isZero *)
Definition v_isZero (a : vec3 T) : bool := aeqb A (vx a) (lit 0) && aeqb A (vy a) (lit 0) && aeqb A (vz a) (lit 0).
(** VectorTypes.h:356-372 Normalized *)
Definition v_Normalized (a : vec3 T) : vec3 T := let n := NormL2 a in if lit 0 <? n then v_div a n else V3 (lit 0) (lit 0) (lit 0).
(** VectorTypes.h:373-380 GetAsUnitVector *)
Definition GetAsUnitVector (a : vec3 T) : vec3 T := if aeqb A (NormL2 a) (lit 0) then V3 (lit 0) (lit 0) (lit 0) else v_div a (NormL2 a).
(** VectorTypes.h:480-489 IsParallelTo with the default tolerance (MMLPrecision.h:111); division by a zero norm is not modelled *)
Definition ParTol : T := lit 1 / lit (10 ^ 10).
Definition IsParallelTo (a b : vec3 T) : bool :=
  let n1 := NormL2 a in let n2 := NormL2 b in
  (abs (vx a / n1 - vx b / n2) <? ParTol) && (abs (vy a / n1 - vy b / n2) <? ParTol) && (abs (vz a / n1 - vz b / n2) <? ParTol).
(** VectorTypes.h:492-498 IsPerpendicularTo with the default tolerance (MMLPrecision.h:155) *)
Definition IsPerpendicularTo (a b : vec3 T) : bool := abs (v_dot a b) <? lit 1 / lit (10 ^ 10).
(** VectorTypes.h:503-521 GetPerpendicularVectors; [None] is the result false *)
Definition GetPerpendicularVectors (a : vec3 T) : option (vec3 T * vec3 T) :=
  if v_isZero a then None else
  let np := if (abs (vx a) <=? abs (vy a)) && (abs (vx a) <=? abs (vz a)) then V3 (lit 1) (lit 0) (lit 0)
            else if (abs (vy a) <=? abs (vx a)) && (abs (vy a) <=? abs (vz a)) then V3 (lit 0) (lit 1) (lit 0)
            else V3 (lit 0) (lit 0) (lit 1) in
  let v1 := GetAsUnitVector (VectorProduct a np) in
  Some (v1, GetAsUnitVector (VectorProduct a v1)).
(** VectorTypes.h:526-536 AngleToVector; epsilon is that of double *)
Definition AngleToVector (a b : vec3 T) : res T :=
  let na := NormL2 a in let nb := NormL2 b in
  let eps := lit 1 / lit (2 ^ 52) in
  if (na <? eps) || (nb <? eps) then Throw DivideByZero else
  let c := v_dot a b / (na * nb) in
  let c := if c <? lit 1 then c else lit 1 in
  let c := if lit (-1) <? c then c else lit (-1) in
  Ok (macos B c).

(** Quaternions.h:84-87 Identity *)
Definition q_id : quat T := Q4 (lit 1) (lit 0) (lit 0) (lit 0).
(** Quaternions.h:74-76, 78-80 from scalar and vector *)
Definition q_of (w : T) (v : vec3 T) : quat T := Q4 w (vx v) (vy v) (vz v).
Definition q_pure (v : vec3 T) : quat T := q_of (lit 0) v.
(** Quaternions.h:175-178 Vector() *)
Definition q_vec (q : quat T) : vec3 T := V3 (qx q) (qy q) (qz q).
(** Quaternions.h:92-102 FromAxisAngle *)
Definition FromAxisAngle (axis : vec3 T) (angle : T) : quat T :=
  let halfAngle := angle / lit 2 in
  let s := sin halfAngle in
  Q4 (cos halfAngle) (vx axis * s) (vy axis * s) (vz axis * s).
(** Quaternions.h:109-124 FromEulerZYX *)
Definition FromEulerZYX (yaw pitch roll : T) : quat T :=
  let cy := cos (yaw * half) in let sy := sin (yaw * half) in
  let cp := cos (pitch * half) in let sp := sin (pitch * half) in
  let cr := cos (roll * half) in let sr := sin (roll * half) in
  Q4 (cr * cp * cy + sr * sp * sy) (sr * cp * cy - cr * sp * sy) (cr * sp * cy + sr * cp * sy) (cr * cp * sy - sr * sp * cy).
(** Quaternions.h:131-146 FromEulerXYZ *)
Definition FromEulerXYZ (roll pitch yaw : T) : quat T :=
  let cr := cos (roll * half) in let sr := sin (roll * half) in
  let cp := cos (pitch * half) in let sp := sin (pitch * half) in
  let cy := cos (yaw * half) in let sy := sin (yaw * half) in
  Q4 (cr * cp * cy - sr * sp * sy) (sr * cp * cy + cr * sp * sy) (cr * sp * cy - sr * cp * sy) (cr * cp * sy + sr * sp * cy).
(** Quaternions.h:181-187, 190-196, 199-202, 205-211, 214-218 *)
Definition q_add (p q : quat T) : quat T := Q4 (qw p + qw q) (qx p + qx q) (qy p + qy q) (qz p + qz q).
Definition q_sub (p q : quat T) : quat T := Q4 (qw p - qw q) (qx p - qx q) (qy p - qy q) (qz p - qz q).
Definition q_neg (p : quat T) : quat T := Q4 (- qw p) (- qx p) (- qy p) (- qz p).
Definition q_scale (p : quat T) (s : T) : quat T := Q4 (qw p * s) (qx p * s) (qy p * s) (qz p * s).
Definition q_div (p : quat T) (s : T) : quat T := let inv := lit 1 / s in q_scale p inv.
(** Quaternions.h:222-230 the Hamilton product (and 263-267 *=) *)
Definition q_mul (p q : quat T) : quat T := Q4
  (qw p * qw q - qx p * qx q - qy p * qy q - qz p * qz q)
  (qw p * qx q + qx p * qw q + qy p * qz q - qz p * qy q)
  (qw p * qy q - qx p * qz q + qy p * qw q + qz p * qx q)
  (qw p * qz q + qx p * qy q - qy p * qx q + qz p * qw q).
(** Quaternions.h:271-274 Conjugate *)
Definition Conjugate (q : quat T) : quat T := Q4 (qw q) (- qx q) (- qy q) (- qz q).
(** Quaternions.h:277-283 NormSquared, 286-289 Norm *)
Definition NormSquared (q : quat T) : T := qw q * qw q + qx q * qx q + qy q * qy q + qz q * qz q.
Definition Norm (q : quat T) : T := sqrt (NormSquared q).
(** Quaternions.h:293-304 Inverse *)
Definition Inverse (q : quat T) : res (quat T) :=
  let n := NormSquared q in
  if n <? QuaternionZeroThreshold then Throw DomainError else
  let inv := lit 1 / n in
  Ok (Q4 (qw q * inv) (- qx q * inv) (- qy q * inv) (- qz q * inv)).
(** Quaternions.h:307-318 Normalize, 321-326 Normalized *)
Definition Normalized (q : quat T) : res (quat T) :=
  let n := Norm q in
  if n <? QuaternionZeroThreshold then Throw DomainError else
  let inv := lit 1 / n in
  Ok (Q4 (qw q * inv) (qx q * inv) (qy q * inv) (qz q * inv)).
(** Quaternions.h:329-332 isUnit, 335-341 isIdentity with the default tolerance *)
Definition isUnit (q : quat T) : bool := abs (NormSquared q - lit 1) <? DefaultTolerance.
Definition isIdentity (q : quat T) : bool :=
  (abs (qw q - lit 1) <? DefaultTolerance) && (abs (qx q) <? DefaultTolerance) && (abs (qy q) <? DefaultTolerance) && (abs (qz q) <? DefaultTolerance).
(** Quaternions.h:344-350 Dot *)
Definition Dot (p q : quat T) : T := qw p * qw q + qx p * qx q + qy p * qy q + qz p * qz q.
(** Quaternions.h:356-369 Rotate *)
Definition Rotate (q : quat T) (v : vec3 T) : vec3 T :=
  let u := V3 (qx q) (qy q) (qz q) in
  let w := qw q in
  let uv := VectorProduct u v in
  let uuv := VectorProduct u uv in
  v_add (v_add v (v_scale uv (lit 2 * w))) (v_scale uuv (lit 2)).
(** Quaternions.h:373-385 GetRotationAxis *)
Definition GetRotationAxis (q : quat T) : vec3 T :=
  if isIdentity q then V3 (lit 0) (lit 0) (lit 1) else
  let axis := V3 (qx q) (qy q) (qz q) in
  let n := NormL2 axis in
  if n <? QuaternionZeroThreshold then V3 (lit 0) (lit 0) (lit 1) else v_div axis n.
(** Quaternions.h:389-398 GetRotationAngle *)
Definition GetRotationAngle (q : quat T) : T :=
  let w := qw q in
  let w := if lit 1 <? w then lit 1 else w in
  let w := if w <? lit (-1) then lit (-1) else w in
  lit 2 * macos B w.
(** Quaternions.h:403-407 ToAxisAngle *)
Definition ToAxisAngle (q : quat T) : vec3 T * T := (GetRotationAxis q, GetRotationAngle q).
(** Quaternions.h:411-433 ToEulerZYX: (yaw, pitch, roll) *)
Definition ToEulerZYX (q : quat T) : vec3 T :=
  let w := qw q in let x := qx q in let y := qy q in let z := qz q in
  let sinr_cosp := lit 2 * (w * x + y * z) in
  let cosr_cosp := lit 1 - lit 2 * (x * x + y * y) in
  let roll := matan2 B sinr_cosp cosr_cosp in
  let sinp := lit 2 * (w * y - z * x) in
  let pitch := if lit 1 <=? abs sinp then acopysign A (tpi (mtr B) / lit 2) sinp else masin B sinp in
  let siny_cosp := lit 2 * (w * z + x * y) in
  let cosy_cosp := lit 1 - lit 2 * (y * y + z * z) in
  let yaw := matan2 B siny_cosp cosy_cosp in
  V3 yaw pitch roll.
(** Quaternions.h:438-460 ToRotationMatrix *)
Definition ToRotationMatrix (q : quat T) : mat3 T :=
  let w := qw q in let x := qx q in let y := qy q in let z := qz q in
  M3 (lit 1 - lit 2 * (y * y + z * z)) (lit 2 * (x * y - w * z)) (lit 2 * (x * z + w * y))
     (lit 2 * (x * y + w * z)) (lit 1 - lit 2 * (x * x + z * z)) (lit 2 * (y * z - w * x))
     (lit 2 * (x * z - w * y)) (lit 2 * (y * z + w * x)) (lit 1 - lit 2 * (x * x + y * y)).
(** Quaternions.h:466-510 FromRotationMatrix *)
Definition quarter : T := lit 1 / lit 4.
Definition FromRotationMatrix (m : mat3 T) : quat T :=
  let trace := m00 m + m11 m + m22 m in
  if lit 0 <? trace then
    let s := sqrt (trace + lit 1) * lit 2 in
    Q4 (quarter * s) ((m21 m - m12 m) / s) ((m02 m - m20 m) / s) ((m10 m - m01 m) / s)
  else if (m11 m <? m00 m) && (m22 m <? m00 m) then
    let s := sqrt (lit 1 + m00 m - m11 m - m22 m) * lit 2 in
    Q4 ((m21 m - m12 m) / s) (quarter * s) ((m01 m + m10 m) / s) ((m02 m + m20 m) / s)
  else if m22 m <? m11 m then
    let s := sqrt (lit 1 + m11 m - m00 m - m22 m) * lit 2 in
    Q4 ((m02 m - m20 m) / s) ((m01 m + m10 m) / s) (quarter * s) ((m12 m + m21 m) / s)
  else
    let s := sqrt (lit 1 + m22 m - m00 m - m11 m) * lit 2 in
    Q4 ((m10 m - m01 m) / s) ((m02 m + m20 m) / s) ((m12 m + m21 m) / s) (quarter * s).
(** Quaternions.h:517-520 Lerp *)
Definition Lerp (q1 q2 : quat T) (t : T) : quat T := q_add (q_scale q1 (lit 1 - t)) (q_scale q2 t).
(** Quaternions.h:527-562 Slerp *)
Definition Slerp (q1 q2 : quat T) (t : T) : res (quat T) :=
  let dot := Dot q1 q2 in
  let '(q2, dot) := if dot <? lit 0 then (q_neg q2, - dot) else (q2, dot) in
  if lit 9995 / lit 10000 <? dot then Normalized (Lerp q1 q2 t) else
  let theta := macos B dot in
  let sinTheta := sin theta in
  if abs sinTheta <? lit 1 / lit (10 ^ 6) then Normalized (Lerp q1 q2 t) else
  let w1 := sin ((lit 1 - t) * theta) / sinTheta in
  let w2 := sin (t * theta) / sinTheta in
  Ok (q_add (q_scale q1 w1) (q_scale q2 w2)).
(** matrix times vector (MatrixNM.h operator*, for three rows and columns) *)
Definition m3_app (m : mat3 T) (v : vec3 T) : vec3 T :=
  V3 (m00 m * vx v + m01 m * vy v + m02 m * vz v) (m10 m * vx v + m11 m * vy v + m12 m * vz v) (m20 m * vx v + m21 m * vy v + m22 m * vz v).
End Quat.
