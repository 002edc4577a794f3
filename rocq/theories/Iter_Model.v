(** * Model of the iterative solvers of linear systems (mml/core/LinAlgEqSolvers/LinAlgEqSolvers_iterative.h)

    Exact arithmetic ([arith T]).  Not modelled: the names, messages and times in the result, the overloads with a configuration object
    (they call the functions here and set those fields), NaN and overflow. *)

From Coq Require Import List Bool Arith ZArith.
From Verif Require Import Base Num Mat_Model RootFind_Model.
Import ListNotations.

(** LinAlgEqSolvers_iterative.h:78-97 IterativeSolverResult *)
Record itres (T : Type) := mkIR { ir_x : list T; ir_iter : Z; ir_residual : T; ir_conv : bool }.
Arguments mkIR {T} _ _ _ _. Arguments ir_x {T} _. Arguments ir_iter {T} _. Arguments ir_residual {T} _. Arguments ir_conv {T} _.

Section Iter.
Context {T : Type} (A : arith T).
Local Notation Op := (aops A).
Local Notation "a + b" := (nadd Op a b).
Local Notation "a - b" := (nsub Op a b).
Local Notation "a * b" := (nmul Op a b).
Local Notation "a / b" := (ndiv Op a b).
Local Notation "a <? b" := (altb A a b).
Local Notation lit := (alit A).
(** std::numeric_limits<Real>::epsilon() *)
Definition it_eps : T := lit 1 / lit (2 ^ 52).
(** Vector.h:382-395 NormL2 *)
Definition norm_l2 (v : list T) : res T :=
  s <- for_range 0 (length v) (fun s i => x <- vget v i ;; Ok (s + x * x)) (lit 0) ;; Ok (asqrt A s).
(** Vector.h:232-241 operator- *)
Definition vec_minus (a b : list T) : res (list T) :=
  if negb (Nat.eqb (length a) (length b)) then Throw DimensionError else
  for_range 0 (length b) (fun r i => x <- vget a i ;; y <- vget b i ;; vset r i (x - y)) (repeat (lit 0) (length b)).

(** LinAlgEqSolvers_iterative.h:141-158, 295-312, 459-480: the checks; the same in all three classes *)
Definition check (M : matrix T) (b : list T) : res unit :=
  let n := m_rows M in
  if negb (Nat.eqb (m_cols M) n) then Throw DimensionError
  else if negb (Nat.eqb (length b) n) then Throw DimensionError
  else
    maxDiag <- for_range 0 n (fun s i => x <- mget M i i ;; let mag := aabs A x in Ok (if s <? mag then mag else s)) (lit 0) ;;
    let diagTol := maxDiag * it_eps in
    let diagTol := if diagTol <? it_eps then it_eps else diagTol in
    for_range 0 n (fun u i => x <- mget M i i ;; if aabs A x <? diagTol then Throw SingularError else Ok u) tt.
(** :160-165, 314-319, 482-487 the start: x0 if it has the right length, else zero *)
Definition start (n : nat) (x0 : list T) : list T := if Nat.eqb (length x0) n then x0 else repeat (lit 0) n.
(** :168-169, 321-322, 489-490 *)
Definition b_norm_of (b : list T) : res T := s <- norm_l2 b ;; Ok (if aeqb A s (lit 0) then lit 1 else s).
(** :190-191, 345-346, 517-518 the residual *)
Definition residual_of (M : matrix T) (b x : list T) (b_norm : T) : res T :=
  ax <- mat_vec Op M x ;; r <- vec_minus ax b ;; s <- norm_l2 r ;; Ok (s / b_norm).

(** :177-187: one Jacobi sweep; x_new is written completely, so its old contents ([x] here) do not matter *)
Definition jacobi_sweep (M : matrix T) (b x : list T) : res (list T) :=
  let n := m_rows M in
  for_range 0 n (fun x_new i =>
    sigma <- for_range 0 n (fun s j => if negb (Nat.eqb j i) then a <- mget M i j ;; y <- vget x j ;; Ok (s + a * y) else Ok s) (lit 0) ;;
    bi <- vget b i ;; d <- mget M i i ;; vset x_new i ((bi - sigma) / d)) x.
(** :330-342, 498-514: the sum over j < i and j > i, read from the vector being updated *)
Definition gs_sigma (M : matrix T) (x : list T) (i : nat) : res T :=
  s <- for_range 0 i (fun s j => a <- mget M i j ;; y <- vget x j ;; Ok (s + a * y)) (lit 0) ;;
  for_range (Nat.add i 1) (m_rows M) (fun s j => a <- mget M i j ;; y <- vget x j ;; Ok (s + a * y)) s.
Definition gs_sweep (M : matrix T) (b x : list T) : res (list T) :=
  for_range 0 (m_rows M) (fun x i =>
    sigma <- gs_sigma M x i ;; bi <- vget b i ;; d <- mget M i i ;; vset x i ((bi - sigma) / d)) x.
Definition sor_sweep (omega : T) (M : matrix T) (b x : list T) : res (list T) :=
  for_range 0 (m_rows M) (fun x i =>
    sigma <- gs_sigma M x i ;; bi <- vget b i ;; d <- mget M i i ;;
    let x_gs := (bi - sigma) / d in
    xi <- vget x i ;; vset x i ((lit 1 - omega) * xi + omega * x_gs)) x.

(** :171-205, 324-356, 492-528: for (iter = 1; iter <= maxIter; iter++) with the break on convergence; [togo] = rounds left *)
Fixpoint it_loop (sweep : list T -> res (list T)) (M : matrix T) (b : list T) (b_norm tol : T) (togo : nat) (iter : Z) (x : list T) (residual : T) : res (itres T) :=
  match togo with
  | O => Ok (mkIR x iter residual false)
  | S togo =>
    x <- sweep x ;;
    r <- residual_of M b x b_norm ;;
    if r <? tol then Ok (mkIR x iter r true) else it_loop sweep M b b_norm tol togo (iter + 1)%Z x r
  end.
Definition it_solve (sweep : matrix T -> list T -> list T -> res (list T)) (M : matrix T) (b x0 : list T) (tol : T) (maxIter : Z) : res (itres T) :=
  _ <- check M b ;;
  b_norm <- b_norm_of b ;;
  it_loop (sweep M b) M b b_norm tol (Z.to_nat maxIter) 1 (start (m_rows M) x0) (lit 0).
(** :135-206 JacobiSolver::Solve *)
Definition JacobiSolve := it_solve jacobi_sweep.
(** :289-357 GaussSeidelSolver::Solve *)
Definition GaussSeidelSolve := it_solve gs_sweep.
(** :452-529 SORSolver::Solve *)
Definition SORSolve (M : matrix T) (b : list T) (omega : T) (x0 : list T) (tol : T) (maxIter : Z) : res (itres T) :=
  if negb (lit 0 <? omega) || negb (omega <? lit 2) then Throw NumericalError else it_solve (sor_sweep omega) M b x0 tol maxIter.
(** :538-547 SORSolver::SolveOptimal; [sn] is std::sin, [pi] Constants::PI *)
Definition SORSolveOptimal (sn : T -> T) (pi : T) (M : matrix T) (b x0 : list T) (tol : T) (maxIter : Z) : res (itres T) :=
  SORSolve M b (lit 2 / (lit 1 + sn (pi / lit (Z.of_nat (m_rows M))))) x0 tol maxIter.
(** :212-223, 363-374, 553-565 SolveSimple (ConvergenceError is written OtherError) *)
Definition simple (r : res (itres T)) : res (list T) := r <- r ;; if ir_conv r then Ok (ir_x r) else Throw OtherError.
Definition JacobiSimple (M : matrix T) (b : list T) (tol : T) (maxIter : Z) : res (list T) := simple (JacobiSolve M b [] tol maxIter).
Definition GaussSeidelSimple (M : matrix T) (b : list T) (tol : T) (maxIter : Z) : res (list T) := simple (GaussSeidelSolve M b [] tol maxIter).
Definition SORSimple (M : matrix T) (b : list T) (omega tol : T) (maxIter : Z) : res (list T) := simple (SORSolve M b omega [] tol maxIter).
(** :579-600 EstimateOptimalOmega; [huge] is numeric_limits<Real>::max(), [zero_tol] PrecisionValues<Real>::EigenSolverZeroThreshold *)
Definition EstimateOptimalOmega (huge zero_tol : T) (M : matrix T) (b : list T) (numSamples testIter : Z) : res T :=
  '(best, _) <- for_range 0 (Z.to_nat (numSamples + 1)) (fun '(bestOmega, bestResidual) i =>
    let omega := lit 1 + lit 95 / lit 100 * lit (Z.of_nat i) / lit numSamples in
    r <- SORSolve M b omega [] zero_tol testIter ;;
    Ok (if ir_residual r <? bestResidual then (omega, ir_residual r) else (bestOmega, bestResidual))) (lit 1, huge) ;;
  Ok best.
End Iter.
