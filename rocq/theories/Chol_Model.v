(** * Model of CholeskySolver (mml/core/LinAlgEqSolvers/LinAlgDirect.h:881-1028)

    Parametric in the element type and in the four non-field operations the code uses. *)

From Coq Require Import List Arith Bool ZArith.
From Verif Require Import Base Num Mat_Model.
Import ListNotations.

Record cholops (T : Type) := mkCholOps {
  c_le0 : T -> bool;         (* x <= 0.0 *)
  c_sqrt : T -> T;           (* std::sqrt *)
  c_log : T -> T;            (* std::log *)
  c_far : T -> T -> bool     (* Abs(x - y) > IsMatrixSymmetricTolerance *)
}.
Arguments c_le0 {T} _ _.
Arguments c_sqrt {T} _ _.
Arguments c_log {T} _ _.
Arguments c_far {T} _ _ _.

(** the members n, el *)
Record chol (T : Type) := mkChol { ch_n : nat; ch_l : matrix T }.
Arguments mkChol {T} _ _.
Arguments ch_n {T} _.
Arguments ch_l {T} _.

Section Chol.
Context {T : Type} (O : numops T) (H : cholops T).

(** Matrix.h:691-700 isSymmetric() with the default tolerance; the early [return false] is the
    state [false], after which nothing more is read *)
Definition mat_is_symmetric (A : matrix T) : res bool :=
  if negb (Nat.eqb (m_rows A) (m_cols A)) then Ok false
  else for_range 0 (m_rows A) (fun s i =>
         for_range (i + 1) (m_cols A) (fun s j =>
           if s : bool then x <- mget A i j ;; y <- mget A j i ;; Ok (negb (c_far H x y)) else Ok false) s) true.

(** LinAlgDirect.h:917-922: sum = el[i][j] - sum_{k<i} el[i][k]*el[j][k] *)
Definition chol_sum (A : matrix T) (i j : nat) : res T :=
  s <- mget A i j ;;
  for_range 0 i (fun s k => x <- mget A i k ;; y <- mget A j k ;; Ok (nsub O s (nmul O x y))) s.

(** LinAlgDirect.h:912-940: the decomposition loops *)
Definition chol_step (i : nat) (A : matrix T) (j : nat) : res (matrix T) :=
  s <- chol_sum A i j ;;
  if Nat.eqb i j then
    if c_le0 H s then Throw SingularError else mset A i i (c_sqrt H s)
  else d <- mget A i i ;; mset A j i (ndiv O s d).
Definition chol_decomp (n : nat) (A : matrix T) : res (matrix T) :=
  for_range 0 n (fun A i => for_range i n (chol_step i) A) A.

(** LinAlgDirect.h:942-945: zero the upper triangle *)
Definition chol_clear (n : nat) (A : matrix T) : res (matrix T) :=
  for_range 0 n (fun A i => for_range (i + 1) n (fun A j => mset A i j (n0 O)) A) A.

(** LinAlgDirect.h:901-946  constructor *)
Definition chol_ctor (A : matrix T) : res (chol T) :=
  if negb (Nat.eqb (m_rows A) (m_cols A)) then Throw DimensionError
  else if Nat.eqb (m_rows A) 0 then Throw DimensionError
  else
    sym <- mat_is_symmetric A ;;
    if negb (sym : bool) then Throw DimensionError
    else
      L <- chol_decomp (m_rows A) A ;;
      L <- chol_clear (m_rows A) L ;;
      Ok (mkChol (m_rows A) L).

(** std::vector::resize *)
Definition vec_resize (v : list T) (n : nat) : list T := firstn n v ++ repeat (n0 O) (n - length v).

(** LinAlgDirect.h:966-973 *)
Definition chol_forward (S : chol T) (b x : list T) : res (list T) :=
  for_range 0 (ch_n S) (fun x i =>
    s <- vget b i ;;
    s <- for_range 0 i (fun s k => l <- mget (ch_l S) i k ;; y <- vget x k ;; Ok (nsub O s (nmul O l y))) s ;;
    d <- mget (ch_l S) i i ;; vset x i (ndiv O s d)) x.
(** LinAlgDirect.h:975-982 *)
Definition chol_backward (S : chol T) (x : list T) : res (list T) :=
  for_down 0 (ch_n S) (fun x i =>
    s <- vget x i ;;
    s <- for_range (i + 1) (ch_n S) (fun s k => l <- mget (ch_l S) k i ;; y <- vget x k ;; Ok (nsub O s (nmul O l y))) s ;;
    d <- mget (ch_l S) i i ;; vset x i (ndiv O s d)) x.

(** LinAlgDirect.h:953-983  void Solve(b, x): the new x *)
Definition chol_solve_into (S : chol T) (b x : list T) : res (list T) :=
  if negb (Nat.eqb (length b) (ch_n S)) then Throw DimensionError
  else
    x <- chol_forward S b (vec_resize x (ch_n S)) ;;
    chol_backward S x.
(** LinAlgDirect.h:953-983 called as Solve(v, v): b and x are the same object *)
Definition chol_solve_alias (S : chol T) (v : list T) : res (list T) :=
  if negb (Nat.eqb (length v) (ch_n S)) then Throw DimensionError
  else
    v <- for_range 0 (ch_n S) (fun x i =>
      s <- vget x i ;;
      s <- for_range 0 i (fun s k => l <- mget (ch_l S) i k ;; y <- vget x k ;; Ok (nsub O s (nmul O l y))) s ;;
      d <- mget (ch_l S) i i ;; vset x i (ndiv O s d)) (vec_resize v (ch_n S)) ;;
    chol_backward S v.
(** LinAlgDirect.h:988-993  Vector Solve(b) *)
Definition chol_solve (S : chol T) (b : list T) : res (list T) :=
  chol_solve_into S b (repeat (n0 O) (length b)).

(** LinAlgDirect.h:997-1018  inverse(ainv) *)
Definition chol_inverse (S : chol T) (ainv : matrix T) : res (matrix T) :=
  let n := ch_n S in
  R <- mat_resize O ainv (Z.of_nat n) (Z.of_nat n) false ;;
  '(R, _, _) <- for_range 0 n (fun '(R, ei, col) j =>
    ei <- for_range 0 n (fun ei i => vset ei i (if Nat.eqb i j then n1 O else n0 O)) ei ;;
    col <- chol_solve_into S ei col ;;
    R <- for_range 0 n (fun R i => x <- vget col i ;; mset R i j x) R ;;
    Ok (R, ei, col)) (R, repeat (n0 O) n, repeat (n0 O) n) ;;
  Ok R.

(** LinAlgDirect.h:1022-1031  logdet() *)
Definition chol_logdet (S : chol T) : res T :=
  s <- for_range 0 (ch_n S) (fun s i => d <- mget (ch_l S) i i ;; Ok (nadd O s (c_log H d))) (n0 O) ;;
  Ok (nmul O (nadd O (n1 O) (n1 O)) s).
End Chol.
