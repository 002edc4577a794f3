(** * Model of the Jacobi eigenvalue solver (mml/algorithms/EigenSystemSolvers.h) and of the storage of MatrixSym

    Arithmetic is exact.  [Zthr] is PrecisionValues<Real>::EigenSolverZeroThreshold.  Timing, the algorithm name and the
    error text are left out. *)

From Coq Require Import List Bool Arith ZArith.
From Verif Require Import Base Num RootFind_Model Fourier_Model Mat_Model.
Import ListNotations.
Local Open Scope nat_scope.

(** MatrixSym.h:108-112  _dim and the lower triangle, row by row *)
Record symmat (T : Type) := mkSym { s_dim : nat; s_data : list T }.
Arguments mkSym {T} _ _. Arguments s_dim {T} _. Arguments s_data {T} _.

(** the arithmetic with cos, sin (in [etr]) and atan *)
Record eigalg (T : Type) := mkEig { etr : trig T; eatan : T -> T }.
Arguments etr {T} _. Arguments eatan {T} _ _.

(** EigenSystemSolvers.h:112-117  the numerical part of Result *)
Record eigres (T : Type) := mkRes { r_values : list T; r_vectors : matrix T; r_converged : bool; r_iterations : Z; r_residual : T }.
Arguments mkRes {T} _ _ _ _ _. Arguments r_values {T} _. Arguments r_vectors {T} _. Arguments r_converged {T} _. Arguments r_iterations {T} _. Arguments r_residual {T} _.

(** EigenSystemSolvers.h:39-58  EigenSolverConfig *)
Record eigconfig (T : Type) := mkCfg { cf_tolerance : T; cf_max_iterations : Z; cf_sort : bool; cf_vectors : bool }.
Arguments cf_tolerance {T} _. Arguments cf_max_iterations {T} _. Arguments cf_sort {T} _. Arguments cf_vectors {T} _.

(** MatrixSym.h:126-131  linearIndex *)
Definition sym_index (i j : nat) : nat := if i <? j then j * (j + 1) / 2 + i else i * (i + 1) / 2 + j.
(** MatrixSym.h:562 and 568  operator()(i, j), unchecked *)
Definition sym_get {T} (A : symmat T) (i j : nat) : res T := vget (s_data A) (sym_index i j).
Definition sym_set {T} (A : symmat T) (i j : nat) (x : T) : res (symmat T) :=
  d <- vset (s_data A) (sym_index i j) x ;; Ok (mkSym (s_dim A) d).
(** MatrixSym.h:134-143 and 156-165  MatrixSym(dim), zero initialised.  A dimension that passes the first limit has at
    most 50005000 elements; the second limit is 50000000 *)
Definition sym_new {T} (z : T) (dim : Z) : res (symmat T) :=
  if (dim =? 0)%Z then Ok (mkSym 0 [])
  else if ((dim <? 0) || (10000 <? dim))%Z then Throw DimensionError
  else if (50000000 <? dim * (dim + 1) / 2)%Z then Throw BadAlloc
  else Ok (mkSym (Z.to_nat dim) (repeat z (Z.to_nat (dim * (dim + 1) / 2)))).

Section Eig.
Context {T : Type} (E : eigalg T).
Local Notation TR := (etr E).
Local Notation AR := (tar (etr E)).
Local Notation ops := (aops (tar (etr E))).
Local Notation "a + b" := (nadd ops a b).
Local Notation "a - b" := (nsub ops a b).
Local Notation "a * b" := (nmul ops a b).
Local Notation "a / b" := (ndiv ops a b).
Local Notation "- a" := (nopp ops a).
Local Notation "a <? b" := (altb AR a b).
Local Notation lit := (alit AR).
Variable Zthr : T.

(** EigenSystemSolvers.h:247-266  ComputeRotationAngle *)
Definition jac_angle (A : matrix T) (p q : nat) : res T :=
  apq <- mget A p q ;;
  if aabs AR apq <? Zthr then Ok (lit 0)
  else
    aqq <- mget A q q ;; app <- mget A p p ;;
    let tau := (aqq - app) / (lit 2 * apq) in
    let t := if negb (tau <? lit 0) then lit 1 / (tau + asqrt AR (lit 1 + tau * tau))
             else (- lit 1) / ((- tau) + asqrt AR (lit 1 + tau * tau)) in
    Ok (eatan E t).

(** EigenSystemSolvers.h:269-299  ApplyRotation *)
Definition jac_rot_sides (A : matrix T) (p q : nat) (c s : T) (n : nat) : res (matrix T) :=
  for_range 0 n (fun A i =>
    if negb (Nat.eqb i p) && negb (Nat.eqb i q) then
      aip <- mget A i p ;; aiq <- mget A i q ;;
      A <- mset A i p (c * aip - s * aiq) ;;
      x <- mget A i p ;; A <- mset A p i x ;;
      A <- mset A i q (s * aip + c * aiq) ;;
      y <- mget A i q ;; mset A q i y
    else Ok A) A.
Definition jac_rot_block (A : matrix T) (p q : nat) (c s : T) : res (matrix T) :=
  app <- mget A p p ;; aqq <- mget A q q ;; apq <- mget A p q ;;
  A <- mset A p p (c * c * app - lit 2 * s * c * apq + s * s * aqq) ;;
  A <- mset A q q (s * s * app + lit 2 * s * c * apq + c * c * aqq) ;;
  A <- mset A p q (lit 0) ;;
  mset A q p (lit 0).
Definition jac_rot_vectors (V : matrix T) (p q : nat) (c s : T) (n : nat) : res (matrix T) :=
  for_range 0 n (fun V i =>
    vip <- mget V i p ;; viq <- mget V i q ;;
    V <- mset V i p (c * vip - s * viq) ;;
    mset V i q (s * vip + c * viq)) V.
Definition jac_apply (A V : matrix T) (p q : nat) (c s : T) (n : nat) : res (matrix T * matrix T) :=
  A <- jac_rot_sides A p q c s n ;;
  A <- jac_rot_block A p q c s ;;
  V <- jac_rot_vectors V p q c s n ;;
  Ok (A, V).

(** EigenSystemSolvers.h:302-309  OffDiagonalNorm *)
Definition jac_off (A : matrix T) (n : nat) : res T :=
  sum <- for_range 0 (Nat.sub n 1) (fun acc i =>
           for_range (Nat.add i 1) n (fun acc j => x <- mget A i j ;; y <- mget A i j ;; Ok (acc + x * y)) acc) (lit 0) ;;
  Ok (asqrt AR sum).

(** EigenSystemSolvers.h:163-176  one sweep *)
Definition jac_step (n : nat) (DV : matrix T * matrix T) (p q : nat) : res (matrix T * matrix T) :=
  let '(D, V) := DV in
  dpq <- mget D p q ;;
  if aabs AR dpq <? Zthr then Ok (D, V)
  else
    theta <- jac_angle D p q ;;
    jac_apply D V p q (tcos TR theta) (tsin TR theta) n.
Definition jac_sweep (n : nat) (DV : matrix T * matrix T) : res (matrix T * matrix T) :=
  for_range 0 (Nat.sub n 1) (fun DV p => for_range (Nat.add p 1) n (fun DV q => jac_step n DV p q) DV) DV.

(** EigenSystemSolvers.h:161-180  the sweeps; the fuel is one more than the number of sweeps allowed *)
Fixpoint jac_loop (fuel : nat) (n : nat) (tol : T) (maxIter : Z) (DV : matrix T * matrix T) (sweep : Z) (off : T) : res (matrix T * matrix T * Z * T) :=
  match fuel with
  | 0 => NoFuel
  | S f =>
    if (tol <? off) && (sweep <? maxIter)%Z then
      DV <- jac_sweep n DV ;;
      off <- jac_off (fst DV) n ;;
      jac_loop f n tol maxIter DV (sweep + 1)%Z off
    else Ok (DV, sweep, off)
  end.

(** EigenSystemSolvers.h:317-321  the position of the smallest remaining value *)
Definition eig_min (ev : list T) (i n : nat) : res nat :=
  for_range (Nat.add i 1) n (fun m j => x <- vget ev j ;; y <- vget ev m ;; Ok (if x <? y then j else m)) i.
(** EigenSystemSolvers.h:312-330  SortEigenvalues *)
Definition eig_sort (ev : list T) (V : matrix T) : res (list T * matrix T) :=
  let n := length ev in
  for_range 0 (Nat.sub n 1) (fun s i =>
    let '(ev, V) := s in
    m <- eig_min ev i n ;;
    if negb (Nat.eqb m i) then
      x <- vget ev i ;; y <- vget ev m ;;
      ev <- vset ev i y ;; ev <- vset ev m x ;;
      V <- for_range 0 n (fun V row => mswap V row i row m) V ;;
      Ok (ev, V)
    else Ok (ev, V)) (ev, V).

(** EigenSystemSolvers.h:146-198  Solve(const MatrixSym&, tol, maxIter) *)
Definition jac_solve (A : symmat T) (tol : T) (maxIter : Z) : res (eigres T) :=
  let n := s_dim A in
  _ <- mat_new ops (Z.of_nat n) (Z.of_nat n) ;;
  D <- mat_new ops (Z.of_nat n) (Z.of_nat n) ;;
  D <- for_range 0 n (fun D i => for_range 0 n (fun D j =>
         x <- (if Nat.leb i j then sym_get A i j else sym_get A j i) ;; mset D i j x) D) D ;;
  V <- mat_identity ops (Z.of_nat n) ;;
  off <- jac_off D n ;;
  st <- jac_loop (S (Z.to_nat maxIter)) n tol maxIter (D, V) 0 off ;;
  let '(D, V, sweep, off) := st in
  ev <- for_range 0 n (fun ev i => x <- mget D i i ;; vset ev i x) (repeat (n0 ops) n) ;;
  sv <- eig_sort ev V ;;
  Ok (mkRes (fst sv) (snd sv) (negb (tol <? off)) sweep off).

(** EigenSystemSolvers.h:202-211  Solve(const Matrix&, tol, maxIter): the symmetric part.  [half] is 0.5 *)
Definition jac_symmetrise (A : matrix T) : res (symmat T) :=
  let n := m_rows A in
  S <- sym_new (n0 ops) (Z.of_nat n) ;;
  for_range 0 n (fun S i => for_range i n (fun S j =>
    x <- mget A i j ;; y <- mget A j i ;; sym_set S i j ((lit 1 / lit 2) * (x + y))) S) S.
Definition jac_solve_matrix (A : matrix T) (tol : T) (maxIter : Z) : res (eigres T) :=
  S <- jac_symmetrise A ;; jac_solve S tol maxIter.

(** EigenSystemSolvers.h:218-232  Solve(const MatrixSym&, config); the boolean is status == Success *)
Definition jac_solve_config (A : symmat T) (cfg : eigconfig T) : res (eigres T * bool) :=
  let maxIter := if (0 <? cf_max_iterations cfg)%Z then cf_max_iterations cfg else 100%Z in
  r <- jac_solve A (cf_tolerance cfg) maxIter ;;
  Ok (r, if negb (r_converged r) then false else true).
(** EigenSystemSolvers.h:235-243  Solve(const Matrix&, config) *)
Definition jac_solve_matrix_config (A : matrix T) (cfg : eigconfig T) : res (eigres T * bool) :=
  S <- jac_symmetrise A ;; jac_solve_config S cfg.
End Eig.
