(** * Model of BandDiagonalMatrix (mml/base/Matrix/MatrixBandDiag.h) and BandDiagonalSolver
      (mml/core/LinAlgEqSolvers/LinAlgDirect.h:659-880)

    The band widths are [nat]: negative widths, which the C++ constructor does not reject, are not
    modelled.  Row and column arguments are non-negative. *)

From Coq Require Import List Arith Bool ZArith.
From Verif Require Import Base Num Mat_Model Lin_Base.
Import ListNotations.

(** MatrixBandDiag.h:94-96: _dim, _m1, _m2, _data *)
Record band (T : Type) := mkBand { bd_dim : nat; bd_m1 : nat; bd_m2 : nat; bd_data : matrix T }.
Arguments mkBand {T} _ _ _ _.
Arguments bd_dim {T} _.
Arguments bd_m1 {T} _.
Arguments bd_m2 {T} _.
Arguments bd_data {T} _.

(** LinAlgDirect.h:662-668: _n, _m1, _m2, _au, _al, _indx, _d *)
Record bsolver (T : Type) := mkBS { bs_n : nat; bs_m1 : nat; bs_m2 : nat; bs_au : matrix T; bs_al : matrix T; bs_indx : list nat; bs_d : T }.
Arguments mkBS {T} _ _ _ _ _ _ _.
Arguments bs_n {T} _.
Arguments bs_m1 {T} _.
Arguments bs_m2 {T} _.
Arguments bs_au {T} _.
Arguments bs_al {T} _.
Arguments bs_indx {T} _.
Arguments bs_d {T} _.

Section BandMatrix.
Context {T : Type} (O : numops T).

(** MatrixBandDiag.h:118-125  constructor *)
Definition band_new (dim m1 m2 : nat) (data : matrix T) : res (band T) :=
  if negb (Nat.eqb (m_rows data) dim) || negb (Nat.eqb (m_cols data) (m1 + m2 + 1)) then Throw DimensionError
  else Ok (mkBand dim m1 m2 data).

(** MatrixBandDiag.h:230  IsInBand *)
Definition in_band (B : band T) (i j : nat) : bool := negb ((j + bd_m1 B <? i) || (i + bd_m2 B <? j)).

(** MatrixBandDiag.h:136-141  operator() const *)
Definition band_get (B : band T) (i j : nat) : res T :=
  if (j + bd_m1 B <? i) || (i + bd_m2 B <? j) then Ok (n0 O) else mget (bd_data B) i (j + bd_m1 B - i).
(** MatrixBandDiag.h:149-154  operator(), used to assign *)
Definition band_set (B : band T) (i j : nat) (x : T) : res (band T) :=
  if (j + bd_m1 B <? i) || (i + bd_m2 B <? j) then Throw IndexError
  else D <- mset (bd_data B) i (j + bd_m1 B - i) x ;; Ok (mkBand (bd_dim B) (bd_m1 B) (bd_m2 B) D).

(** the loop bounds j_start = max(0, i - m1) and j_end + 1 = min(dim, i + m2 + 1) *)
Definition j_start (B : band T) (i : nat) : nat := i - bd_m1 B.
Definition j_stop (B : band T) (i : nat) : nat := Nat.min (bd_dim B) (i + bd_m2 B + 1).

(** MatrixBandDiag.h:168-186  operator*(Vector) *)
Definition band_mul_vec (B : band T) (x : list T) : res (list T) :=
  if negb (Nat.eqb (length x) (bd_dim B)) then Throw InvalidArgument
  else for_range 0 (bd_dim B) (fun r i =>
         s <- for_range (j_start B i) (j_stop B i) (fun s j => a <- band_get B i j ;; y <- vget x j ;; Ok (nadd O s (nmul O a y))) (n0 O) ;;
         vset r i s) (repeat (n0 O) (bd_dim B)).

(** MatrixBandDiag.h:198-206  ToFullMatrix *)
Definition band_full (B : band T) : res (matrix T) :=
  F <- mat_new O (Z.of_nat (bd_dim B)) (Z.of_nat (bd_dim B)) ;;
  for_range 0 (bd_dim B) (fun F i => for_range 0 (bd_dim B) (fun F j => x <- band_get B i j ;; mset F i j x) F) F.

(** MatrixBandDiag.h:239-242, 254-257, 262-276: scalar multiplication, negation, addition, subtraction *)
Definition band_scale (B : band T) (s : T) : res (band T) :=
  D <- mat_scale O (bd_data B) s ;; band_new (bd_dim B) (bd_m1 B) (bd_m2 B) D.
Definition band_neg (B : band T) : res (band T) :=
  D <- mat_neg O (bd_data B) ;; band_new (bd_dim B) (bd_m1 B) (bd_m2 B) D.
Definition same_shape (A B : band T) : bool :=
  Nat.eqb (bd_dim A) (bd_dim B) && Nat.eqb (bd_m1 A) (bd_m1 B) && Nat.eqb (bd_m2 A) (bd_m2 B).
Definition band_add (A B : band T) : res (band T) :=
  if negb (same_shape A B) then Throw DimensionError
  else D <- mat_add O (bd_data A) (bd_data B) ;; band_new (bd_dim A) (bd_m1 A) (bd_m2 A) D.
Definition band_sub (A B : band T) : res (band T) :=
  if negb (same_shape A B) then Throw DimensionError
  else D <- mat_sub_op O (bd_data A) (bd_data B) ;; band_new (bd_dim A) (bd_m1 A) (bd_m2 A) D.

(** MatrixBandDiag.h:317-322  Trace *)
Definition band_trace (B : band T) : res T :=
  for_range 0 (bd_dim B) (fun s i => x <- band_get B i i ;; Ok (nadd O s x)) (n0 O).

(** MatrixBandDiag.h:360-376  Transpose *)
Definition band_transpose (B : band T) : res (band T) :=
  D <- mat_new O (Z.of_nat (bd_dim B)) (Z.of_nat (bd_m1 B + bd_m2 B + 1)) ;;
  D <- for_range 0 (bd_dim B) (fun D i =>
    for_range (j_start B i) (j_stop B i) (fun D j =>
      x <- mget (bd_data B) i (j + bd_m1 B - i) ;; mset D j (i + bd_m2 B - j) x) D) D ;;
  band_new (bd_dim B) (bd_m2 B) (bd_m1 B) D.

(** MatrixBandDiag.h:417-422  GetDiagonal() *)
Definition band_diag (B : band T) : res (list T) :=
  for_range 0 (bd_dim B) (fun v i => x <- band_get B i i ;; vset v i x) (repeat (n0 O) (bd_dim B)).

(** MatrixBandDiag.h:401-407  IsEqualTo; [near] is |x - y| <= tolerance *)
Definition band_equal (near : T -> T -> bool) (A B : band T) : bool :=
  same_shape A B && mat_eqb near (bd_data A) (bd_data B).
End BandMatrix.

Section BandSolver.
Context {T M : Type} (O : numops T) (G : magops T M) (madd : M -> M -> M).

(** LinAlgDirect.h:690-704: copy the band into _au and compute the largest absolute row sum *)
Definition bs_copy (B : band T) (AU : matrix T) : res (matrix T * M) :=
  let n := bd_dim B in let m1 := bd_m1 B in let mm := bd_m1 B + bd_m2 B + 1 in
  for_range 0 n (fun '(AU, norm) i =>
    '(AU, rs) <- for_range 0 mm (fun '(AU, rs) j =>
      if (m1 <=? j + i) && (j + i - m1 <? n) then
        x <- band_get O B i (j + i - m1) ;; AU <- mset AU i j x ;; Ok (AU, madd rs (mabs G x))
      else AU <- mset AU i j (n0 O) ;; Ok (AU, rs)) (AU, mzero G) ;;
    Ok (AU, if mlt G norm rs then rs else norm)) (AU, mzero G).

(** LinAlgDirect.h:707-718: left-justify the first rows *)
Definition bs_justify (m1 mm : nat) (AU : matrix T) : res (matrix T) :=
  '(AU, _) <- for_range 0 m1 (fun '(AU, l) i =>
    AU <- for_range (m1 - i) mm (fun AU j => x <- mget AU i j ;; mset AU i (j - l) x) AU ;;
    let l := l - 1 in
    AU <- for_range (mm - l - 1) mm (fun AU j => mset AU i j (n0 O)) AU ;;
    Ok (AU, l)) (AU, m1) ;;
  Ok AU.

(** LinAlgDirect.h:725-738: pivot search in the first column of rows k .. l-1 *)
Definition bs_pivot (AU : matrix T) (k l : nat) : res (T * nat) :=
  d0 <- mget AU k 0 ;;
  for_range (k + 1) l (fun '(dum, i) j =>
    x <- mget AU j 0 ;; Ok (if mlt G (mabs G dum) (mabs G x) then (x, j) else (dum, i))) (d0, k).

(** LinAlgDirect.h:746-751: interchange rows k and i *)
Definition bs_swap (AU : matrix T) (mm k i : nat) : res (matrix T) :=
  for_range 0 mm (fun AU j => mswap AU k j i j) AU.

(** LinAlgDirect.h:754-761: multipliers and elimination, shifting each row left by one *)
Definition bs_elim (mm k l : nat) (AU AL : matrix T) : res (matrix T * matrix T) :=
  for_range (k + 1) l (fun '(AU, AL) i2 =>
    x <- mget AU i2 0 ;; p <- mget AU k 0 ;;
    let dum := ndiv O x p in
    AL <- mset AL k (i2 - k - 1) dum ;;
    AU <- for_range 1 mm (fun AU j => y <- mget AU i2 j ;; z <- mget AU k j ;; mset AU i2 (j - 1) (nsub O y (nmul O dum z))) AU ;;
    AU <- mset AU i2 (mm - 1) (n0 O) ;;
    Ok (AU, AL)) (AU, AL).

(** LinAlgDirect.h:679-763  constructor *)
Definition bs_ctor (B : band T) : res (bsolver T) :=
  let n := bd_dim B in let m1 := bd_m1 B in let m2 := bd_m2 B in let mm := m1 + m2 + 1 in
  AU <- mat_new O (Z.of_nat n) (Z.of_nat mm) ;;
  AL <- mat_new O (Z.of_nat n) (Z.of_nat m1) ;;
  '(AU, norm) <- bs_copy B AU ;;
  let thr := mthr G norm n in
  AU <- bs_justify m1 mm AU ;;
  '(AU, AL, indx, d, _) <- for_range 0 n (fun '(AU, AL, indx, d, l) k =>
    let l := if l <? n then l + 1 else l in
    '(dum, i) <- bs_pivot AU k l ;;
    indx <- vset indx k (i + 1) ;;
    if mlt G (mabs G dum) thr then Throw SingularError
    else
      '(AU, d) <- (if negb (Nat.eqb i k) then AU <- bs_swap AU mm k i ;; Ok (AU, nopp O d) else Ok (AU, d)) ;;
      '(AU, AL) <- bs_elim mm k l AU AL ;;
      Ok (AU, AL, indx, d, l)) (AU, AL, repeat 0 n, n1 O, m1) ;;
  Ok (mkBS n m1 m2 AU AL indx d).

(** LinAlgDirect.h:783-794: forward substitution *)
Definition bs_forward (S : bsolver T) (x : list T) : res (list T) :=
  '(x, _) <- for_range 0 (bs_n S) (fun '(x, l) k =>
    ip <- vget (bs_indx S) k ;;
    let j := ip - 1 in
    x <- (if negb (Nat.eqb j k) then xk <- vget x k ;; xj <- vget x j ;; x <- vset x k xj ;; vset x j xk else Ok x) ;;
    let l := if l <? bs_n S then l + 1 else l in
    x <- for_range (k + 1) l (fun x j2 =>
      y <- vget x j2 ;; a <- mget (bs_al S) k (j2 - k - 1) ;; z <- vget x k ;; vset x j2 (nsub O y (nmul O a z))) x ;;
    Ok (x, l)) (x, bs_m1 S) ;;
  Ok x.

(** LinAlgDirect.h:796-806: back substitution *)
Definition bs_backward (S : bsolver T) (x : list T) : res (list T) :=
  let mm := bs_m1 S + bs_m2 S + 1 in
  '(x, _) <- for_down 0 (bs_n S) (fun '(x, l) i =>
    dum <- vget x i ;;
    dum <- for_range 1 l (fun d k => a <- mget (bs_au S) i k ;; y <- vget x (k + i) ;; Ok (nsub O d (nmul O a y))) dum ;;
    p <- mget (bs_au S) i 0 ;;
    x <- vset x i (ndiv O dum p) ;;
    Ok (x, if l <? mm then l + 1 else l)) (x, 1) ;;
  Ok x.

(** LinAlgDirect.h:771-809  bool Solve(b, x) *)
Definition bs_solve_into (S : bsolver T) (b x : list T) : res (bool * list T) :=
  if negb (Nat.eqb (length b) (bs_n S)) || negb (Nat.eqb (length x) (bs_n S)) then Ok (false, x)
  else
    x <- for_range 0 (bs_n S) (fun x i => y <- vget b i ;; vset x i y) x ;;
    x <- bs_forward S x ;;
    x <- bs_backward S x ;;
    Ok (true, x).

(** LinAlgDirect.h:817-824  Vector Solve(b) *)
Definition bs_solve (S : bsolver T) (b : list T) : res (list T) :=
  '(ok, x) <- bs_solve_into S b (repeat (n0 O) (bs_n S)) ;;
  if ok then Ok x else Throw DimensionError.

(** LinAlgDirect.h:831-853  Matrix Solve(B) *)
Definition bs_solve_mat (S : bsolver T) (R : matrix T) : res (matrix T) :=
  let n := bs_n S in
  if negb (Nat.eqb (m_rows R) n) then Throw DimensionError
  else
    X <- mat_new O (Z.of_nat n) (Z.of_nat (m_cols R)) ;;
    '(X, _, _) <- for_range 0 (m_cols R) (fun '(X, b, x) j =>
      b <- for_range 0 n (fun b i => y <- mget R i j ;; vset b i y) b ;;
      '(_, x) <- bs_solve_into S b x ;;
      X <- for_range 0 n (fun X i => y <- vget x i ;; mset X i j y) X ;;
      Ok (X, b, x)) (X, repeat (n0 O) n, repeat (n0 O) n) ;;
    Ok X.

(** LinAlgDirect.h:859-865  Det() *)
Definition bs_det (S : bsolver T) : res T :=
  for_range 0 (bs_n S) (fun dd i => u <- mget (bs_au S) i 0 ;; Ok (nmul O dd u)) (bs_d S).
End BandSolver.
