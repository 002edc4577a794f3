(** * Model of Matrix::Invert and of GaussJordanSolver

    Element type and magnitudes are abstract ([numops], [magops]).  The arithmetic is exact: the
    tests for NaN and infinity of LinAlgDirect.h:161-170 can only fire for a zero pivot, and
    division by zero elsewhere yields whatever [ndiv] says (in C++ an infinity or NaN). *)

From Coq Require Import List Arith Bool ZArith.
From Verif Require Import Base Num Mat_Model Lin_Base.
Import ListNotations.

Section Gauss.
Context {T M : Type} (O : numops T) (G : magops T M).

(** Matrix.h:1101-1106, LinAlgDirect.h:129-133: the largest magnitude of an entry *)
Definition max_abs (A : matrix T) (n : nat) : res M :=
  for_range 0 n (fun m i => for_range 0 n (fun m j =>
    x <- mget A i j ;; Ok (if mlt G m (mabs G x) then mabs G x else m)) m) (mzero G).

(** Matrix.h:1110-1126, LinAlgDirect.h:138-149: pivot search; [None] = irow, icol not assigned *)
Definition find_pivot (A : matrix T) (n : nat) (ipiv : list nat) : res (M * option (nat * nat)) :=
  for_range 0 n (fun st j =>
    pj <- vget ipiv j ;;
    if Nat.eqb pj 1 then Ok st
    else for_range 0 n (fun '(big, p) k =>
      pk <- vget ipiv k ;;
      if Nat.eqb pk 0 then
        x <- mget A j k ;;
        Ok (if negb (mlt G (mabs G x) big) then (mabs G x, Some (j, k)) else (big, p))
      else Ok (big, p)) st) (mzero G, None).

(** for (l < m) std::swap(a[r][l], a[c][l]) *)
Definition swap_rows (A : matrix T) (m r c : nat) : res (matrix T) :=
  for_range 0 m (fun A l => mswap A r l c l) A.
(** for (l < m) a[c][l] *= p *)
Definition scale_row (A : matrix T) (m c : nat) (p : T) : res (matrix T) :=
  for_range 0 m (fun A l => x <- mget A c l ;; mset A c l (nmul O x p)) A.
(** for (l < m) a[r][l] -= a[c][l] * d *)
Definition sub_row (A : matrix T) (m r c : nat) (d : T) : res (matrix T) :=
  for_range 0 m (fun A l => x <- mget A r l ;; y <- mget A c l ;; mset A r l (nsub O x (nmul O y d))) A.

(** Matrix.h:1155-1161, LinAlgDirect.h:182-186: unscramble the columns *)
Definition unscramble (A : matrix T) (n : nat) (indxr indxc : list nat) : res (matrix T) :=
  for_down 0 n (fun A l =>
    r <- vget indxr l ;; c <- vget indxc l ;;
    if Nat.eqb r c then Ok A else for_range 0 n (fun A k => mswap A k r k c) A) A.

(** Matrix.h:1090-1162  Invert (1166-1171: inverse is a copy followed by Invert) *)
Definition mat_invert (A : matrix T) : res (matrix T) :=
  if negb (Nat.eqb (m_rows A) (m_cols A)) then Throw DimensionError
  else
    let n := m_rows A in
    norm <- max_abs A n ;;
    let thr := mthr G norm n in
    '(A, _, indxr, indxc) <- for_range 0 n (fun '(A, ipiv, indxr, indxc) i =>
      '(_, p) <- find_pivot A n ipiv ;;
      let '(irow, icol) := match p with Some q => q | None => (0, 0) end in
      k <- vget ipiv icol ;; ipiv <- vset ipiv icol (k + 1) ;;
      A <- (if Nat.eqb irow icol then Ok A else swap_rows A n irow icol) ;;
      indxr <- vset indxr i irow ;; indxc <- vset indxc i icol ;;
      piv <- mget A icol icol ;;
      if mlt G (mabs G piv) thr then Throw SingularError
      else
        let pivinv := ndiv O (n1 O) piv in
        A <- mset A icol icol (n1 O) ;;
        A <- scale_row A n icol pivinv ;;
        A <- for_range 0 n (fun A ll =>
               if Nat.eqb ll icol then Ok A
               else dum <- mget A ll icol ;; A <- mset A ll icol (n0 O) ;; sub_row A n ll icol dum) A ;;
        Ok (A, ipiv, indxr, indxc)) (A, repeat 0 n, repeat 0 n, repeat 0 n) ;;
    unscramble A n indxr indxc.

(** LinAlgDirect.h:110-187  SolveInPlace(Matrix& a, Matrix& b): the new values of a and b *)
Definition gj_solve (A B : matrix T) : res (matrix T * matrix T) :=
  let n := m_rows A in let m := m_cols B in
  if negb (Nat.eqb (m_rows A) (m_cols A)) then Throw DimensionError
  else if Nat.eqb (m_rows A) 0 || Nat.eqb (m_cols A) 0 then Throw DimensionError
  else if Nat.eqb (m_rows B) 0 || Nat.eqb (m_cols B) 0 then Throw DimensionError
  else if negb (Nat.eqb (m_rows A) (m_rows B)) then Throw DimensionError
  else
    norm <- max_abs A n ;;
    let thr := mthr G norm n in
    '(A, B, _, indxr, indxc) <- for_range 0 n (fun '(A, B, ipiv, indxr, indxc) i =>
      '(_, p) <- find_pivot A n ipiv ;;
      match p with
      | None => UB
      | Some (irow, icol) =>
        k <- vget ipiv icol ;; ipiv <- vset ipiv icol (k + 1) ;;
        A <- (if Nat.eqb irow icol then Ok A else swap_rows A n irow icol) ;;
        B <- (if Nat.eqb irow icol then Ok B else swap_rows B m irow icol) ;;
        indxr <- vset indxr i irow ;; indxc <- vset indxc i icol ;;
        piv <- mget A icol icol ;;
        if mlt G (mabs G piv) thr then Throw SingularError
        else if negb (mlt G (mzero G) (mabs G piv)) then Throw NumericalError (* pivinv is not finite *)
        else
          let pivinv := ndiv O (n1 O) piv in
          A <- mset A icol icol (n1 O) ;;
          A <- scale_row A n icol pivinv ;;
          B <- scale_row B m icol pivinv ;;
          '(A, B) <- for_range 0 n (fun '(A, B) ll =>
                 if Nat.eqb ll icol then Ok (A, B)
                 else dum <- mget A ll icol ;; A <- mset A ll icol (n0 O) ;;
                      A <- sub_row A n ll icol dum ;;
                      B <- sub_row B m ll icol dum ;; Ok (A, B)) (A, B) ;;
          Ok (A, B, ipiv, indxr, indxc)
      end) (A, B, repeat 0 n, repeat 0 n, repeat 0 n) ;;
    A <- unscramble A n indxr indxc ;;
    Ok (A, B).

(** BaseUtils/MatrixOps.h:51-58  ColumnMatrixFromVector *)
Definition column_matrix (b : list T) : res (matrix T) :=
  R <- mat_alloc (length b) 1 (n0 O) ;;
  for_range 0 (length b) (fun R i => x <- vget b i ;; mset R i 0 x) R.

(** LinAlgDirect.h:195-207  SolveInPlace(Matrix& a, Vector& b), 215-228 Solve, 236-251 SolveConst:
    the new a and the solution (SolveConst works on a copy of a) *)
Definition gj_solve_vec (A : matrix T) (b : list T) : res (matrix T * list T) :=
  if negb (Nat.eqb (m_rows A) (m_cols A)) then Throw DimensionError
  else if negb (Nat.eqb (m_rows A) (length b)) then Throw DimensionError
  else if Nat.eqb (length b) 0 then Throw DimensionError
  else
    B <- column_matrix b ;;
    '(A, B) <- gj_solve A B ;;
    x <- mat_col O B 0%Z ;;
    Ok (A, x).

End Gauss.
