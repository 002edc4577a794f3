(** * Model of the coordinate transformations (mml/core/CoordTransf.h, mml/core/CoordTransf/*.h) and metric tensors (mml/core/MetricTensor.h)

    Arithmetic is exact, with the trigonometric functions of [mtrig] (Quat_Model.v).  The template methods over N coordinates
    are modelled for N = 3.  [eps] is std::numeric_limits<Real>::epsilon(), equal to Constants::Eps.  The component functions
    returned by coordTransfFunc(i) compute the components of transf, so transf stands for both. *)

From Coq Require Import List Bool Arith ZArith.
From Verif Require Import Base Num RootFind_Model Fourier_Model Quat_Model.
Import ListNotations.

(** VectorTypes.h Vector2Cartesian, Vector2Polar; Vector4Minkowski *)
Record pair2 (T : Type) := P2 { p0 : T; p1 : T }.
Arguments P2 {T} _ _. Arguments p0 {T} _. Arguments p1 {T} _.
Record vec4 (T : Type) := V4 { w0 : T; w1 : T; w2 : T; w3 : T }.
Arguments V4 {T} _ _ _ _. Arguments w0 {T} _. Arguments w1 {T} _. Arguments w2 {T} _. Arguments w3 {T} _.
(** a transformation of three coordinates and its inverse: the functions coordTransfFunc and inverseCoordTransfFunc *)
Record transf3 (T : Type) := mkTransf { tf : vec3 T -> vec3 T; tinv : vec3 T -> vec3 T }.
Arguments mkTransf {T} _ _. Arguments tf {T} _ _. Arguments tinv {T} _ _.

(** VectorN.h operator[] for three coordinates; the index is 0, 1 or 2 *)
Definition v3get {T} (v : vec3 T) (i : nat) : T := match i with 0 => vx v | 1 => vy v | _ => vz v end.
Definition v3set {T} (v : vec3 T) (i : nat) (t : T) : vec3 T :=
  match i with 0 => V3 t (vy v) (vz v) | 1 => V3 (vx v) t (vz v) | _ => V3 (vx v) (vy v) t end.
Definition v3of {T} (f : nat -> T) : vec3 T := V3 (f 0) (f 1) (f 2).

Section Coord.
Context {T : Type} (B : mtrig T).
Local Notation A := (tar (mtr B)).
Local Notation "a + b" := (nadd (aops A) a b).
Local Notation "a - b" := (nsub (aops A) a b).
Local Notation "a * b" := (nmul (aops A) a b).
Local Notation "a / b" := (ndiv (aops A) a b).
Local Notation "- a" := (nopp (aops A) a).
Local Notation "a <? b" := (altb A a b).
Local Notation lit := (alit A).
Local Notation abs := (aabs A).
Local Notation sqrt := (asqrt A).
Local Notation cos := (tcos (mtr B)).
Local Notation sin := (tsin (mtr B)).
Local Notation acos := (macos B).
Local Notation atan2 := (matan2 B).
Variable eps : T.

(** std::clamp *)
Definition clamp (x lo hi : T) : T := if x <? lo then lo else if hi <? x then hi else x.

(** CoordTransfSpherical.h:72-77  x, y, z of (r, theta, phi) *)
Definition sph_to_cart (q : vec3 T) : vec3 T :=
  V3 (vx q * sin (vy q) * cos (vz q)) (vx q * sin (vy q) * sin (vz q)) (vx q * cos (vy q)).
(** CoordTransfSpherical.h:83-91  r, theta, phi of (x, y, z) *)
Definition sph_r (q : vec3 T) : T := sqrt (vx q * vx q + vy q * vy q + vz q * vz q).
Definition sph_theta (q : vec3 T) : T :=
  let r := sqrt (vx q * vx q + vy q * vy q + vz q * vz q) in
  if r <? eps * lit 100 then lit 0 else acos (clamp (vz q / r) (- lit 1) (lit 1)).
Definition sph_phi (q : vec3 T) : T := atan2 (vy q) (vx q).
Definition cart_to_sph (q : vec3 T) : vec3 T := V3 (sph_r q) (sph_theta q) (sph_phi q).
(** CoordTransfSpherical.h:103-110 and 182-226  CoordTransfSphericalToCartesian; CoordTransfCartesianToSpherical exchanges the two *)
Definition SphericalToCartesian : transf3 T := mkTransf sph_to_cart cart_to_sph.
Definition CartesianToSpherical : transf3 T := mkTransf cart_to_sph sph_to_cart.

(** CoordTransfSpherical.h:114-128  getBasisVec *)
Definition sph_basis (ind : Z) (pos : vec3 T) : vec3 T :=
  let r := vx pos in let th := vy pos in let ph := vz pos in
  match ind with
  | 0%Z => V3 (sin th * cos ph) (sin th * sin ph) (cos th)
  | 1%Z => V3 (r * cos th * cos ph) (r * cos th * sin ph) (- r * sin th)
  | 2%Z => V3 (- r * sin th * sin ph) (r * sin th * cos ph) (lit 0)
  | _ => V3 (lit 0) (lit 0) (lit 0)
  end.
(** CoordTransfSpherical.h:133-147  getUnitBasisVec *)
Definition sph_unit_basis (ind : Z) (pos : vec3 T) : vec3 T :=
  let th := vy pos in let ph := vz pos in
  match ind with
  | 0%Z => V3 (sin th * cos ph) (sin th * sin ph) (cos th)
  | 1%Z => V3 (cos th * cos ph) (cos th * sin ph) (- sin th)
  | 2%Z => V3 (- sin ph) (cos ph) (lit 0)
  | _ => V3 (lit 0) (lit 0) (lit 0)
  end.
(** CoordTransfSpherical.h:152-166  getInverseBasisVec *)
Definition sph_inverse_basis (ind : Z) (pos : vec3 T) : vec3 T :=
  let r := vx pos in let th := vy pos in let ph := vz pos in
  match ind with
  | 0%Z => V3 (sin th * cos ph) (r * cos th * cos ph) (- r * sin th * sin ph)
  | 1%Z => V3 (sin th * sin ph) (r * cos th * sin ph) (r * sin th * cos ph)
  | 2%Z => V3 (cos th) (- r * sin th) (lit 0)
  | _ => V3 (lit 0) (lit 0) (lit 0)
  end.
(** CoordTransfSpherical.h:170-184  getInverseUnitBasisVec *)
Definition sph_inverse_unit_basis (ind : Z) (pos : vec3 T) : vec3 T :=
  let th := vy pos in let ph := vz pos in
  match ind with
  | 0%Z => V3 (sin th * cos ph) (cos th * cos ph) (- sin ph)
  | 1%Z => V3 (sin th * sin ph) (cos th * sin ph) (cos ph)
  | 2%Z => V3 (cos th) (- sin th) (lit 0)
  | _ => V3 (lit 0) (lit 0) (lit 0)
  end.

(** CoordTransfCylindrical.h:61-87 and 93-127 *)
Definition cyl_to_cart (q : vec3 T) : vec3 T := V3 (vx q * cos (vy q)) (vx q * sin (vy q)) (vz q).
Definition cart_to_cyl (q : vec3 T) : vec3 T := V3 (sqrt (vx q * vx q + vy q * vy q)) (atan2 (vy q) (vx q)) (vz q).
Definition CylindricalToCartesian : transf3 T := mkTransf cyl_to_cart cart_to_cyl.
Definition CartesianToCylindrical : transf3 T := mkTransf cart_to_cyl cyl_to_cart.

(** CoordTransf2D.h:35-71  CoordTransfPolarToCartesian2D *)
Definition polar_transf (q : pair2 T) : pair2 T := P2 (p0 q * cos (p1 q)) (p0 q * sin (p1 q)).
Definition polar_inverse (q : pair2 T) : pair2 T := P2 (sqrt (p0 q * p0 q + p1 q * p1 q)) (atan2 (p1 q) (p0 q)).
(** CoordTransf2D.h:103-150  CoordTransfCart2DRotation; func1 writes the product out, the others use MatrixNM::operator*,
    which adds to 0 *)
Definition rot2_transf (t : T) (q : pair2 T) : pair2 T :=
  P2 (cos t * p0 q + (- sin t) * p1 q) (lit 0 + sin t * p0 q + cos t * p1 q).
Definition rot2_inverse (t : T) (q : pair2 T) : pair2 T :=
  P2 (lit 0 + cos t * p0 q + sin t * p1 q) (lit 0 + (- sin t) * p0 q + cos t * p1 q).
(** CoordTransf2D.h:183-217  CoordTransfObliqueToCartesian2D and 247-281 CoordTransfCartesianToOblique2D; ArgumentError is a
    std::invalid_argument *)
Definition oblique2_new (t : T) : res unit := if abs (sin t) <? eps then Throw InvalidArgument else Ok tt.
Definition oblique2_to_cart (t : T) (q : pair2 T) : pair2 T := P2 (p0 q + p1 q * cos t) (p1 q * sin t).
Definition cart_to_oblique2 (t : T) (q : pair2 T) : pair2 T := let q2 := p1 q / sin t in P2 (p0 q - q2 * cos t) q2.

(** CoordTransf3D.h:66-84, 135-145, 196-206  rotations about the axes *)
Definition rotX_transf (t : T) (q : vec3 T) : vec3 T := V3 (vx q) (vy q * cos t - vz q * sin t) (vy q * sin t + vz q * cos t).
Definition rotX_inverse (t : T) (q : vec3 T) : vec3 T := V3 (vx q) (vy q * cos t + vz q * sin t) (- vy q * sin t + vz q * cos t).
Definition rotY_transf (t : T) (q : vec3 T) : vec3 T := V3 (vx q * cos t + vz q * sin t) (vy q) (- vx q * sin t + vz q * cos t).
Definition rotY_inverse (t : T) (q : vec3 T) : vec3 T := V3 (vx q * cos t - vz q * sin t) (vy q) (vx q * sin t + vz q * cos t).
Definition rotZ_transf (t : T) (q : vec3 T) : vec3 T := V3 (vx q * cos t - vy q * sin t) (vx q * sin t + vy q * cos t) (vz q).
Definition rotZ_inverse (t : T) (q : vec3 T) : vec3 T := V3 (vx q * cos t + vy q * sin t) (- vx q * sin t + vy q * cos t) (vz q).
(** CoordTransf3D.h:243-261  buildEulerZYZMatrix *)
Definition euler_matrix (al be ga : T) : mat3 T :=
  let ca := cos al in let sa := sin al in let cb := cos be in let sb := sin be in let cg := cos ga in let sg := sin ga in
  M3 (ca * cb * cg - sa * sg) (- ca * cb * sg - sa * cg) (ca * sb)
     (sa * cb * cg + ca * sg) (- sa * cb * sg + ca * cg) (sa * sb)
     (- sb * cg) (sb * sg) cb.
(** CoordTransf3D.h:268-296 *)
Definition euler_transf (al be ga : T) (q : vec3 T) : vec3 T := m3_app B (euler_matrix al be ga) q.
Definition euler_inverse (al be ga : T) (q : vec3 T) : vec3 T := m3_app B (euler_matrix (- ga) (- be) (- al)) q.

(** CoordTransf3D.h:340-373  CoordTransf3DCartOrthogonal: the matrix and its transpose.  GeometryError is a std::domain_error *)
Definition OrthogonalityTolerance : T := lit 1 / lit (10 ^ 10).
Definition orthogonal_new (b1 b2 b3 : vec3 T) : res (mat3 T * mat3 T) :=
  if (OrthogonalityTolerance <? abs (v_dot B b1 b2)) || (OrthogonalityTolerance <? abs (v_dot B b1 b3)) || (OrthogonalityTolerance <? abs (v_dot B b2 b3))
  then Throw DomainError
  else Ok (M3 (vx b1) (vy b1) (vz b1) (vx b2) (vy b2) (vz b2) (vx b3) (vy b3) (vz b3),
           M3 (vx b1) (vx b2) (vx b3) (vy b1) (vy b2) (vy b3) (vz b1) (vz b2) (vz b3)).
Definition orthogonal_transf (o : mat3 T * mat3 T) (q : vec3 T) : vec3 T := m3_app B (fst o) q.
Definition orthogonal_inverse (o : mat3 T * mat3 T) (q : vec3 T) : vec3 T := m3_app B (snd o) q.
(** CoordTransf3D.h:395-402 and 587-594  IsRightHanded *)
Definition is_right_handed (b1 b2 b3 : vec3 T) : bool := lit 0 <? v_dot B (VectorProduct B b1 b2) b3.

(** CoordTransf3D.h:514-541  CoordTransfCartesianToOblique3D: the basis as columns and the dual basis.  [inv] is
    MatrixNM::GetInverse; its result is stored but never read, it can only throw *)
Definition LinearDependenceTolerance : T := lit 1 / lit (10 ^ 12).
Definition oblique3_new (inv : mat3 T -> res (mat3 T)) (b1 b2 b3 : vec3 T) : res (mat3 T * (vec3 T * vec3 T * vec3 T)) :=
  let bm := M3 (vx b1) (vx b2) (vx b3) (vy b1) (vy b2) (vy b3) (vz b1) (vz b2) (vz b3) in
  let V := v_dot B b1 (VectorProduct B b2 b3) in
  if abs V <? LinearDependenceTolerance then Throw SingularError
  else
    let d1 := v_scale B (VectorProduct B b2 b3) (lit 1 / V) in
    let d2 := v_scale B (VectorProduct B b3 b1) (lit 1 / V) in
    let d3 := v_scale B (VectorProduct B b1 b2) (lit 1 / V) in
    _ <- inv bm ;; Ok (bm, (d1, d2, d3)).
(** CoordTransf3D.h:556-572  transf, transfInverse *)
Definition oblique3_transf (o : mat3 T * (vec3 T * vec3 T * vec3 T)) (q : vec3 T) : vec3 T :=
  let '(_, (d1, d2, d3)) := o in V3 (v_dot B q d1) (v_dot B q d2) (v_dot B q d3).
Definition oblique3_inverse (o : mat3 T * (vec3 T * vec3 T * vec3 T)) (q : vec3 T) : vec3 T := m3_app B (fst o) q.

(** CoordTransfLorentz.h:47-78  CoordTransfLorentzXAxis: gamma and beta determine both matrices;
    std::range_error is [OtherError] *)
Definition lorentz_new (v : T) : res (T * T) :=
  if (v <? lit 0) || negb (v <? lit 1) then Throw OtherError
  else Ok (lit 1 / sqrt (lit 1 - v * v), v).
(** CoordTransfLorentz.h:81-102; MatrixNM::operator* adds to 0 *)
Definition lorentz_transf (o : T * T) (q : vec4 T) : vec4 T :=
  let '(gamma, beta) := o in
  V4 (lit 0 + gamma * w0 q + (- beta * gamma) * w1 q + lit 0 * w2 q + lit 0 * w3 q)
     (lit 0 + (- beta * gamma) * w0 q + gamma * w1 q + lit 0 * w2 q + lit 0 * w3 q)
     (lit 0 + lit 0 * w0 q + lit 0 * w1 q + lit 1 * w2 q + lit 0 * w3 q)
     (lit 0 + lit 0 * w0 q + lit 0 * w1 q + lit 0 * w2 q + lit 1 * w3 q).
Definition lorentz_inverse (o : T * T) (q : vec4 T) : vec4 T :=
  let '(gamma, beta) := o in
  V4 (lit 0 + gamma * w0 q + (beta * gamma) * w1 q + lit 0 * w2 q + lit 0 * w3 q)
     (lit 0 + (beta * gamma) * w0 q + gamma * w1 q + lit 0 * w2 q + lit 0 * w3 q)
     (lit 0 + lit 0 * w0 q + lit 0 * w1 q + lit 1 * w2 q + lit 0 * w3 q)
     (lit 0 + lit 0 * w0 q + lit 0 * w1 q + lit 0 * w2 q + lit 1 * w3 q).

(** MetricTensor.h:294-300, 312-322, 356-366, 400-412  Component(i, j, pos) *)
Definition metric_cartesian (i j : nat) : T := if Nat.eqb i j then lit 1 else lit 0.
Definition metric_spherical (i j : nat) (pos : vec3 T) : T :=
  match i, j with 0, 0 => lit 1 | 1, 1 => vx pos * vx pos | 2, 2 => vx pos * vx pos * sin (vy pos) * sin (vy pos) | _, _ => lit 0 end.
Definition metric_cylindrical (i j : nat) (pos : vec3 T) : T :=
  match i, j with 0, 0 => lit 1 | 1, 1 => vx pos * vx pos | 2, 2 => lit 1 | _, _ => lit 0 end.
Definition metric_minkowski (i j : nat) : T :=
  match i, j with 0, 0 => - lit 1 | 1, 1 => lit 1 | 2, 2 => lit 1 | 3, 3 => lit 1 | _, _ => lit 0 end.
(** SingularityHandling.h:177-197  SafeDivide with the policy Throw; [tol] is DEFAULT_SINGULARITY_TOL *)
Definition safe_divide (tol num den : T) : res T := if abs den <? tol then Throw DomainError else Ok (num / den).
(** MetricTensor.h:330-348  MetricTensorSphericalContravar::Component *)
Definition metric_spherical_contravar (tol : T) (i j : nat) (pos : vec3 T) : res T :=
  match i, j with
  | 0, 0 => Ok (lit 1)
  | 1, 1 => safe_divide tol (lit 1) (vx pos * vx pos)
  | 2, 2 => safe_divide tol (lit 1) (vx pos * vx pos * sin (vy pos) * sin (vy pos))
  | _, _ => Ok (lit 0)
  end.

(** DerivationScalarFunction.h:165-199 and 201-204  NDer4Partial; MMLBase/DerivationBase ScaleStep *)
Definition NDer4Partial (f : vec3 T -> T) (i : nat) (p : vec3 T) (h : T) : T :=
  let x := v3get p i in
  let yh := f (v3set p i (x + h)) in
  let ymh := f (v3set p i (x - h)) in
  let y2h := f (v3set p i (x + lit 2 * h)) in
  let ym2h := f (v3set p i (x - lit 2 * h)) in
  let y2 := ym2h - y2h in
  let y1 := yh - ymh in
  (y2 + lit 8 * y1) / (lit 12 * h).
Variable h0 : T.
Definition Partial (f : vec3 T -> T) (i : nat) (p : vec3 T) : T :=
  let x := v3get p i in NDer4Partial f i p (h0 * (if lit 1 <? abs x then abs x else lit 1)).

(** CoordTransf.h:85-94, 111-123  getBasisVec, jacobian (the inherited versions) *)
Definition ct_basis (t : transf3 T) (ind : nat) (pos : vec3 T) : vec3 T := v3of (fun i => Partial (fun q => v3get (tf t q) i) ind pos).
Definition ct_jacobian (t : transf3 T) (pos : vec3 T) (i j : nat) : T := Partial (fun q => v3get (tf t q) i) j pos.
(** CoordTransf.h:128-137  transfVecContravariant *)
Definition ct_contravariant (t : transf3 T) (v pos : vec3 T) : vec3 T :=
  v3of (fun i => lit 0 + Partial (fun q => v3get (tf t q) i) 0 pos * v3get v 0 + Partial (fun q => v3get (tf t q) i) 1 pos * v3get v 1
                 + Partial (fun q => v3get (tf t q) i) 2 pos * v3get v 2).
(** CoordTransf.h:142-152  transfInverseVecCovariant: [pos] in source coordinates *)
Definition ct_inverse_covariant (t : transf3 T) (v pos : vec3 T) : vec3 T :=
  v3of (fun i => lit 0 + Partial (fun q => v3get (tf t q) 0) i pos * v3get v 0 + Partial (fun q => v3get (tf t q) 1) i pos * v3get v 1
                 + Partial (fun q => v3get (tf t q) 2) i pos * v3get v 2).
(** CoordTransf.h:198-209  transfVecCovariant: [pos] in target coordinates *)
Definition ct_covariant (t : transf3 T) (v pos : vec3 T) : vec3 T :=
  v3of (fun i => lit 0 + Partial (fun q => v3get (tinv t q) 0) i pos * v3get v 0 + Partial (fun q => v3get (tinv t q) 1) i pos * v3get v 1
                 + Partial (fun q => v3get (tinv t q) 2) i pos * v3get v 2).
(** MetricTensor.h:379-390  MetricTensorFromCoordTransf::Component; DerivePartial is NDer4Partial *)
Definition metric_from_transf (t : transf3 T) (i j : nat) (pos : vec3 T) : T :=
  lit 0 + Partial (fun q => v3get (tf t q) 0) i pos * Partial (fun q => v3get (tf t q) 0) j pos
  + Partial (fun q => v3get (tf t q) 1) i pos * Partial (fun q => v3get (tf t q) 1) j pos
  + Partial (fun q => v3get (tf t q) 2) i pos * Partial (fun q => v3get (tf t q) 2) j pos.
(** CoordTransf.h:231-261  transfTensor2; [c1], [c2] tell whether the first and the second index is contravariant *)
Definition ct_coef (t : transf3 T) (c : bool) (i k : nat) (pos : vec3 T) : T :=
  if c then Partial (fun q => v3get (tf t q) i) k pos else Partial (fun q => v3get (tinv t q) k) i pos.
Definition ct_tensor2 (t : transf3 T) (c1 c2 : bool) (g : nat -> nat -> T) (pos : vec3 T) (i j : nat) : T :=
  fold_left (fun s k => fold_left (fun s l => s + ct_coef t c1 i k pos * ct_coef t c2 j l pos * g k l) [0; 1; 2] s) [0; 1; 2] (lit 0).
End Coord.
