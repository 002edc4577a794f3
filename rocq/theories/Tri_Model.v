(** * Model of TridiagonalMatrix (mml/base/Matrix/MatrixTriDiag.h)

    Row [i] holds [_belowDiag[i]] at column [i-1], [_diag[i]] at column [i] and [_aboveDiag[i]] at column
    [i+1].  Reading or writing a vector outside its range is [UB] (Vector::operator[] is unchecked).
    Printing is left out; [int] overflow of [3*dim-2] is not modelled. *)

From Coq Require Import List Arith Bool ZArith.
From Verif Require Import Base Num Mat_Model Lin_Base.
Import ListNotations.

(** MatrixTriDiag.h:34-37: _dim, _belowDiag, _diag, _aboveDiag *)
Record tridiag (T : Type) := mkTri { t_dim : Z; t_below : list T; t_diag : list T; t_above : list T }.
Arguments mkTri {T} _ _ _ _.
Arguments t_dim {T} _.
Arguments t_below {T} _.
Arguments t_diag {T} _.
Arguments t_above {T} _.

(** Vector::operator[](int) *)
Definition zget {A} (l : list A) (i : Z) : res A := if (i <? 0)%Z then UB else vget l (Z.to_nat i).
Definition zset {A} (l : list A) (i : Z) (x : A) : res (list A) := if (i <? 0)%Z then UB else vset l (Z.to_nat i) x.

Section Tri.
Context {T : Type} (O : numops T).

(** MatrixTriDiag.h:40-47  constructor from the three diagonals *)
Definition tri_new (dim : Z) (a d c : list T) : res (tridiag T) :=
  if (dim <? 3)%Z then Throw DimensionError
  else if negb (Z.of_nat (length a) =? dim)%Z || negb (Z.of_nat (length d) =? dim)%Z || negb (Z.of_nat (length c) =? dim)%Z then Throw DimensionError
  else Ok (mkTri dim a d c).

(** MatrixTriDiag.h:49-68  constructor from a list, row by row.  The three vectors are allocated first, so a negative
    dimension throws (Vector.h:70-76); the size is compared as an unsigned number, so dim = 0 is refused.  [p] is the
    iterator; dereferencing it past the end is [UB]. *)
Definition tri_of_list (dim : Z) (values : list T) : res (tridiag T) :=
  if (dim <? 0)%Z then Throw DimensionError
  else if (dim =? 0)%Z || negb (Z.of_nat (length values) =? dim * 3 - 2)%Z then Throw DimensionError
  else
    let n := Z.to_nat dim in
    b <- vset (repeat (n0 O) n) 0 (n0 O) ;;
    x <- vget values 0 ;; d <- vset (repeat (n0 O) n) 0 x ;;
    y <- vget values 1 ;; a <- vset (repeat (n0 O) n) 0 y ;;
    '(b, d, a, p) <- for_range 1 (n - 1) (fun '(b, d, a, p) i =>
      x <- vget values p ;; b <- vset b i x ;;
      y <- vget values (p + 1) ;; d <- vset d i y ;;
      z <- vget values (p + 2) ;; a <- vset a i z ;;
      Ok (b, d, a, p + 3)) (b, d, a, 2) ;;
    x <- vget values p ;; b <- vset b (n - 1) x ;;
    y <- vget values (p + 1) ;; d <- vset d (n - 1) y ;;
    a <- vset a (n - 1) (n0 O) ;;
    Ok (mkTri dim b d a).

(** MatrixTriDiag.h:73-82  operator() const *)
Definition tri_get (A : tridiag T) (i j : Z) : res T :=
  if (i =? j)%Z then zget (t_diag A) i
  else if (i =? j - 1)%Z then zget (t_above A) i
  else if (i =? j + 1)%Z && (j <? t_dim A - 1)%Z then zget (t_below A) i
  else Ok (n0 O).
(** MatrixTriDiag.h:83-92  operator(), used to assign *)
Definition tri_set (A : tridiag T) (i j : Z) (x : T) : res (tridiag T) :=
  if (i =? j)%Z then d <- zset (t_diag A) i x ;; Ok (mkTri (t_dim A) (t_below A) d (t_above A))
  else if (i =? j - 1)%Z then a <- zset (t_above A) i x ;; Ok (mkTri (t_dim A) (t_below A) (t_diag A) a)
  else if (i =? j + 1)%Z && (j <? t_dim A - 1)%Z then b <- zset (t_below A) i x ;; Ok (mkTri (t_dim A) b (t_diag A) (t_above A))
  else Throw IndexError.

(** one of the loops "for i < v.size(): v[i] op= w[i]" *)
Definition zip_loop (f : T -> T -> T) (v w : list T) : res (list T) :=
  for_range 0 (length v) (fun v i => x <- vget v i ;; y <- vget w i ;; vset v i (f x y)) v.
(** MatrixTriDiag.h:111-141  operator+, operator- *)
Definition tri_zip (f : T -> T -> T) (A B : tridiag T) : res (tridiag T) :=
  if negb (t_dim A =? t_dim B)%Z then Throw DimensionError
  else b <- zip_loop f (t_below A) (t_below B) ;; d <- zip_loop f (t_diag A) (t_diag B) ;; a <- zip_loop f (t_above A) (t_above B) ;;
       Ok (mkTri (t_dim A) b d a).
Definition tri_add := tri_zip (nadd O).
Definition tri_sub := tri_zip (nsub O).
(** MatrixTriDiag.h:143-184  scaling by a number from either side and division *)
Definition map_loop (f : T -> T) (v : list T) : res (list T) :=
  for_range 0 (length v) (fun v i => x <- vget v i ;; vset v i (f x)) v.
Definition tri_map (f : T -> T) (A : tridiag T) : res (tridiag T) :=
  b <- map_loop f (t_below A) ;; d <- map_loop f (t_diag A) ;; a <- map_loop f (t_above A) ;; Ok (mkTri (t_dim A) b d a).
Definition tri_scale (A : tridiag T) (s : T) := tri_map (fun x => nmul O x s) A.
Definition tri_div (A : tridiag T) (s : T) := tri_map (fun x => ndiv O x s) A.

(** MatrixTriDiag.h:186-204  GetTranspose *)
Definition tri_transpose (A : tridiag T) : res (tridiag T) :=
  let n := Z.to_nat (t_dim A) in
  b <- vset (repeat (n0 O) n) 0 (n0 O) ;;
  b <- for_range 1 n (fun b i => x <- vget (t_above A) (i - 1) ;; vset b i x) b ;;
  a <- for_range 0 (n - 1) (fun a i => x <- vget (t_below A) (i + 1) ;; vset a i x) (repeat (n0 O) n) ;;
  a <- vset a (n - 1) (n0 O) ;;
  tri_new (t_dim A) b (t_diag A) a.
End Tri.

Section TriSolve.
Context {T M : Type} (O : numops T) (G : magops T M).
(** numeric_limits<Real>::epsilon(), and "maxDiag * epsilon" *)
Variable meps : M.
Variable mscale : M -> M.

(** MatrixTriDiag.h:222-229  the tolerance *)
Definition tri_tol (A : tridiag T) : res M :=
  m <- for_range 0 (length (t_below A)) (fun m i => x <- vget (t_diag A) i ;; Ok (if mlt G m (mabs G x) then mabs G x else m)) (mzero G) ;;
  Ok (if mlt G (mscale m) meps then meps else mscale m).
(** MatrixTriDiag.h:216-246  Solve(rhs, sol); [rhs = None]: the same object is passed twice *)
Definition tri_solve (A : tridiag T) (rhs : option (list T)) (sol : list T) : res (list T) :=
  let n := length (t_below A) in
  let r (sol : list T) := match rhs with Some v => v | None => sol end in
  tol <- tri_tol A ;;
  d0 <- vget (t_diag A) 0 ;;
  if mlt G (mabs G d0) tol then Throw SingularError
  else
    r0 <- vget (r sol) 0 ;;
    sol <- vset sol 0 (ndiv O r0 d0) ;;
    '(sol, gam, _) <- for_range 1 n (fun '(sol, gam, bet) j =>
      a <- vget (t_above A) (j - 1) ;;
      gam <- vset gam j (ndiv O a bet) ;;
      d <- vget (t_diag A) j ;; b <- vget (t_below A) j ;; g <- vget gam j ;;
      let bet := nsub O d (nmul O b g) in
      if mlt G (mabs G bet) tol then Throw SingularError
      else
        rj <- vget (r sol) j ;; s <- vget sol (j - 1) ;;
        sol <- vset sol j (ndiv O (nsub O rj (nmul O b s)) bet) ;;
        Ok (sol, gam, bet)) (sol, repeat (n0 O) n, d0) ;;
    for_down 0 (n - 1) (fun sol j =>
      g <- vget gam (j + 1) ;; s1 <- vget sol (j + 1) ;; s <- vget sol j ;;
      vset sol j (nsub O s (nmul O g s1))) sol.
(** MatrixTriDiag.h:247-252  Solve(rhs) *)
Definition tri_solve_new (A : tridiag T) (rhs : list T) : res (list T) :=
  tri_solve A (Some rhs) (repeat (n0 O) (length rhs)).
End TriSolve.
