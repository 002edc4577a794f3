(** * Model of LUSolver and LUSolverInPlace

    Exact arithmetic: the NaN/infinity tests (LinAlgDirect.h:304-307, 351-359, 499-502) cannot fire
    and are left out.  [_d] (a Real, +1 or -1) is modelled by the element it is converted to in
    det(). *)

From Coq Require Import List Arith Bool ZArith.
From Verif Require Import Base Num Mat_Model Lin_Base Gauss_Model.
Import ListNotations.

(** the members _n, _lu, _indx, _d *)
Record lu_solver (T : Type) := mkLU { lu_n : nat; lu_m : matrix T; lu_indx : list nat; lu_d : T }.
Arguments mkLU {T} _ _ _ _.
Arguments lu_n {T} _.
Arguments lu_m {T} _.
Arguments lu_indx {T} _.
Arguments lu_d {T} _.

Section LU.
Context {T M : Type} (O : numops T) (G : magops T M).

(** LinAlgDirect.h:298-301, 511-513: the largest magnitude in row i *)
Definition row_max (A : matrix T) (n i : nat) : res M :=
  for_range 0 n (fun big j => x <- mget A i j ;; Ok (if mlt G big (mabs G x) then mabs G x else big)) (mzero G).

(** LinAlgDirect.h:294-316, 507-520: scale factors and the norm *)
Definition lu_scale (A : matrix T) (n : nat) : res (list T * M) :=
  for_range 0 n (fun '(vv, norm) i =>
    big <- row_max A n i ;;
    if negb (mlt G (mzero G) big) then Throw SingularError   (* big == 0.0 *)
    else vv <- vset vv i (mrec G big) ;; Ok (vv, if mlt G norm big then big else norm))
    (repeat (n0 O) n, mzero G).

(** LinAlgDirect.h:321-330, 522-530 *)
Definition lu_pivot (A : matrix T) (vv : list T) (n k : nat) : res (M * nat) :=
  for_range k n (fun '(big, imax) i =>
    v <- vget vv i ;; x <- mget A i k ;;
    let temp := mabs G (nmul O v x) in
    Ok (if mlt G big temp then (temp, i) else (big, imax))) (mzero G, k).

(** LinAlgDirect.h:348-363, 543-547: elimination below the pivot *)
Definition lu_elim (A : matrix T) (n k : nat) : res (matrix T) :=
  for_range (k + 1) n (fun A i =>
    x <- mget A i k ;; p <- mget A k k ;;
    let t := ndiv O x p in
    A <- mset A i k t ;;
    for_range (k + 1) n (fun A j =>
      y <- mget A i j ;; z <- mget A k j ;; mset A i j (nsub O y (nmul O t z))) A) A.

(** LinAlgDirect.h:282-365 LUSolver constructor, 488-549 LUSolverInPlace constructor *)
Definition lu_ctor (A : matrix T) : res (lu_solver T) :=
  if negb (Nat.eqb (m_rows A) (m_cols A)) then Throw DimensionError
  else if Nat.eqb (m_rows A) 0 then Throw DimensionError
  else
    let n := m_rows A in
    '(vv, norm) <- lu_scale A n ;;
    let thr := mthr G norm n in
    '(A, _, indx, d) <- for_range 0 n (fun '(A, vv, indx, d) k =>
      '(_, imax) <- lu_pivot A vv n k ;;
      '(A, vv, d) <- (if Nat.eqb k imax then Ok (A, vv, d)
                      else A <- swap_rows A n imax k ;;
                           v <- vget vv k ;; vv <- vset vv imax v ;; Ok (A, vv, nopp O d)) ;;
      indx <- vset indx k imax ;;
      p <- mget A k k ;;
      if mlt G (mabs G p) thr then Throw SingularError
      else A <- lu_elim A n k ;; Ok (A, vv, indx, d)) (A, vv, repeat 0 n, n1 O) ;;
    Ok (mkLU n A indx d).

(** LinAlgDirect.h:413-426: forward substitution, unscrambling the permutation as it goes *)
Definition lu_forward (S : lu_solver T) (x : list T) : res (list T) :=
  '(x, _) <- for_range 0 (lu_n S) (fun '(x, ii) i =>
    ip <- vget (lu_indx S) i ;;
    sum <- vget x ip ;; xi <- vget x i ;; x <- vset x ip xi ;;
    '(sum, ii) <- (if negb (Nat.eqb ii 0) then
                     s <- for_range (ii - 1) i (fun s j =>
                            l <- mget (lu_m S) i j ;; y <- vget x j ;; Ok (nsub O s (nmul O l y))) sum ;;
                     Ok (s, ii)
                   else Ok (sum, if mlt G (mzero G) (mabs G sum) then i + 1 else ii)) ;; (* sum != 0.0 *)
    x <- vset x i sum ;; Ok (x, ii)) (x, 0) ;;
  Ok x.

(** LinAlgDirect.h:428-433: back substitution *)
Definition lu_backward (S : lu_solver T) (x : list T) : res (list T) :=
  for_down 0 (lu_n S) (fun x i =>
    xi <- vget x i ;;
    s <- for_range (i + 1) (lu_n S) (fun s j =>
           u <- mget (lu_m S) i j ;; y <- vget x j ;; Ok (nsub O s (nmul O u y))) xi ;;
    u <- mget (lu_m S) i i ;;
    vset x i (ndiv O s u)) x.

(** LinAlgDirect.h:398-435, 592-624  bool Solve(b, x): the returned flag and the new x *)
Definition lu_solve_into (S : lu_solver T) (b x : list T) : res (bool * list T) :=
  if negb (Nat.eqb (length b) (lu_n S)) || negb (Nat.eqb (length x) (lu_n S)) then Ok (false, x)
  else
    x <- for_range 0 (lu_n S) (fun x i => y <- vget b i ;; vset x i y) x ;;
    x <- lu_forward S x ;;
    x <- lu_backward S x ;;
    Ok (true, x).

(** LinAlgDirect.h:437-444, 630-637  Vector Solve(b) *)
Definition lu_solve (S : lu_solver T) (b : list T) : res (list T) :=
  '(ok, x) <- lu_solve_into S b (repeat (n0 O) (length b)) ;;
  if ok then Ok x else Throw DimensionError.

(** one column of 384-394 / 571-580: read column j of R into xx, solve, write it to column j of [out] *)
Definition lu_column (S : lu_solver T) (R : matrix T) (n j : nat) (xx : list T) : res (list T) :=
  xx <- for_range 0 n (fun xx i => y <- mget R i j ;; vset xx i y) xx ;;
  '(_, xx) <- lu_solve_into S xx xx ;;       (* Solve(xx, xx): b and x alias; b is read before x is changed *)
  Ok xx.
Definition put_column (Out : matrix T) (n j : nat) (xx : list T) : res (matrix T) :=
  for_range 0 n (fun Out i => y <- vget xx i ;; mset Out i j y) Out.

(** LinAlgDirect.h:371-395  LUSolver::Solve(matRHS, outSol): the new outSol *)
Definition lu_solve_mat (S : lu_solver T) (R Out : matrix T) : res (matrix T) :=
  let n := m_rows R in let m := m_cols R in
  if negb (Nat.eqb (m_rows R) (lu_n S)) then Throw DimensionError
  else if negb (Nat.eqb (m_rows Out) (lu_n S)) || negb (Nat.eqb (m_cols Out) m) then Throw DimensionError
  else
    '(Out, _) <- for_range 0 m (fun '(Out, xx) j =>
      xx <- lu_column S R n j xx ;; Out <- put_column Out n j xx ;; Ok (Out, xx)) (Out, repeat (n0 O) n) ;;
    Ok Out.
(** the same call with outSol and matRHS the same object *)
Definition lu_solve_mat_alias (S : lu_solver T) (R : matrix T) : res (matrix T) :=
  let n := m_rows R in let m := m_cols R in
  if negb (Nat.eqb (m_rows R) (lu_n S)) then Throw DimensionError
  else
    '(R, _) <- for_range 0 m (fun '(R, xx) j =>
      xx <- lu_column S R n j xx ;; R <- put_column R n j xx ;; Ok (R, xx)) (R, repeat (n0 O) n) ;;
    Ok R.

(** LinAlgDirect.h:559-583  LUSolverInPlace::Solve(matRHS) *)
Definition lu_solve_new (S : lu_solver T) (R : matrix T) : res (matrix T) :=
  if negb (Nat.eqb (m_rows R) (lu_n S)) then Throw DimensionError
  else
    Out <- mat_new O (Z.of_nat (m_rows R)) (Z.of_nat (m_cols R)) ;;
    lu_solve_mat S R Out.

(** LinAlgDirect.h:448-457  inverse(ainv) *)
Definition lu_inverse (S : lu_solver T) (ainv : matrix T) : res (matrix T) :=
  let n := lu_n S in
  R <- mat_resize O ainv (Z.of_nat n) (Z.of_nat n) false ;;
  R <- for_range 0 n (fun R i =>
         R <- for_range 0 n (fun R j => mset R i j (n0 O)) R ;; mset R i i (n1 O)) R ;;
  lu_solve_mat_alias S R.

(** LinAlgDirect.h:459-465  det() *)
Definition lu_det (S : lu_solver T) : res T :=
  for_range 0 (lu_n S) (fun dd i => u <- mget (lu_m S) i i ;; Ok (nmul O dd u)) (lu_d S).
End LU.
