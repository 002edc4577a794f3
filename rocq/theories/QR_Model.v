(** * Model of QRSolver (mml/core/LinAlgEqSolvers/LinAlgQR.h), for a real element type

    Exact arithmetic ([arith T]); _m, _n are natural numbers (row and column counts of a matrix). *)

From Coq Require Import List Bool Arith ZArith.
From Verif Require Import Base Num Mat_Model RootFind_Model.
Import ListNotations.

(** LinAlgQR.h:30-38 the members *)
Record qr (T : Type) := mkQR { q_m : nat; q_n : nat; q_QR : matrix T; q_c : list T; q_d : list T; q_sing : bool; q_refl : nat }.
Arguments mkQR {T} _ _ _ _ _ _ _.
Arguments q_m {T} _. Arguments q_n {T} _. Arguments q_QR {T} _. Arguments q_c {T} _. Arguments q_d {T} _. Arguments q_sing {T} _. Arguments q_refl {T} _.

Section QR.
Context {T : Type} (A : arith T).
Local Notation O := (aops A).
Local Notation "a + b" := (nadd O a b).
Local Notation "a - b" := (nsub O a b).
Local Notation "a * b" := (nmul O a b).
Local Notation "a / b" := (ndiv O a b).
Local Notation "- a" := (nopp O a).
Local Notation "a <? b" := (altb A a b).
Local Notation lit := (alit A).
(** std::numeric_limits<Real>::epsilon() *)
Definition qr_eps : T := lit 1 / lit (2 ^ 52).

(** LinAlgQR.h:66-67: int ncols = (_m == _n) ? _n - 1 : _n *)
Definition ncols (m n : nat) : nat := if Nat.eqb m n then Nat.sub n 1 else n.

(** LinAlgQR.h:69-72 *)
Definition qr_scale (m k : nat) (M : matrix T) : res T :=
  for_range k m (fun s i => x <- mget M i k ;; let a := aabs A x in Ok (if s <? a then a else s)) (lit 0).
(** sum += _QR[i][k] * M[i][j] for i = k .. m-1 (LinAlgQR.h:86-88, 101-103, 288-290) *)
Definition qr_dot (m k : nat) (Q M : matrix T) (j : nat) : res T :=
  for_range k m (fun s i => v <- mget Q i k ;; x <- mget M i j ;; Ok (s + v * x)) (lit 0).
(** LinAlgQR.h:99-109: the transformation of column j *)
Definition qr_column (m k : nat) (ck : T) (M : matrix T) (j : nat) : res (matrix T) :=
  s <- qr_dot m k M M j ;;
  let tau := s / ck in
  for_range k m (fun M i => x <- mget M i j ;; v <- mget M i k ;; mset M i j (x - tau * v)) M.
(** LinAlgQR.h:67-111: one round; the state is _QR, _c, _d, _sing, _num_reflections *)
Definition qr_round (m n : nat) (st : matrix T * list T * list T * bool * nat) (k : nat) : res (matrix T * list T * list T * bool * nat) :=
  let '(M, c, d, sing, refl) := st in
  scale <- qr_scale m k M ;;
  if scale <? qr_eps then
    d <- vset d k (lit 0) ;; c <- vset c k (lit 0) ;; Ok (M, c, d, true, refl)
  else
    M <- for_range k m (fun M i => x <- mget M i k ;; mset M i k (x / scale)) M ;;
    sum <- qr_dot m k M M k ;;
    x <- mget M k k ;;
    let sigma := if negb (x <? lit 0) then asqrt A sum else - asqrt A sum in
    M <- mset M k k (x + sigma) ;;
    x <- mget M k k ;;
    let ck := sigma * x in
    c <- vset c k ck ;;
    d <- vset d k (- scale * sigma) ;;
    M <- for_range (Nat.add k 1) n (qr_column m k ck) M ;;
    Ok (M, c, d, sing, Nat.add refl 1).
(** LinAlgQR.h:118-124: the largest magnitude in a *)
Definition qr_norm (m n : nat) (a : matrix T) : res T :=
  for_range 0 m (fun s i => for_range 0 n (fun s j => x <- mget a i j ;; let y := aabs A x in Ok (if s <? y then y else s)) s) (lit 0).
(** LinAlgQR.h:52-129 constructor *)
Definition qr_ctor (a : matrix T) : res (qr T) :=
  let m := m_rows a in let n := m_cols a in
  if Nat.ltb m n then Throw DimensionError else
  '(M, c, d, sing, refl) <- for_range 0 (ncols m n) (qr_round m n) (a, repeat (lit 0) n, repeat (lit 0) n, false, 0) ;;
  if Nat.eqb m n then
    x <- mget M (Nat.sub n 1) (Nat.sub n 1) ;;
    d <- vset d (Nat.sub n 1) x ;;
    norm <- qr_norm m n a ;;
    let threshold := qr_eps * norm * lit (Z.of_nat n) in
    x <- vget d (Nat.sub n 1) ;;
    Ok (mkQR m n M c d (if aabs A x <? threshold then true else sing) refl)
  else Ok (mkQR m n M c d sing refl).

(** std::vector::resize (Vector::Resize) *)
Definition qr_resize (v : list T) (n : nat) : list T := firstn n v ++ repeat (lit 0) (Nat.sub n (length v)).
(** qtb[i] = b[i] for all i *)
Definition qr_copy (n : nat) (b x : list T) : res (list T) := for_range 0 n (fun x i => v <- vget b i ;; vset x i v) x.
(** one reflection of a vector: LinAlgQR.h:215-227, 246-258 *)
Definition qr_reflect (S : qr T) (x : list T) (k : nat) : res (list T) :=
  c <- vget (q_c S) k ;;
  if negb (aeqb A c (lit 0)) then
    s <- for_range k (q_m S) (fun s i => v <- mget (q_QR S) i k ;; y <- vget x i ;; Ok (s + v * y)) (lit 0) ;;
    let tau := s / c in
    for_range k (q_m S) (fun x i => y <- vget x i ;; v <- mget (q_QR S) i k ;; vset x i (y - tau * v)) x
  else Ok x.
(** LinAlgQR.h:202-229 QtMultiply: the new qtb *)
Definition qr_QtMultiply (S : qr T) (b qtb : list T) : res (list T) :=
  if negb (Nat.eqb (length b) (q_m S)) then Throw DimensionError else
  x <- qr_copy (q_m S) b (qr_resize qtb (q_m S)) ;;
  for_range 0 (ncols (q_m S) (q_n S)) (qr_reflect S) x.
(** LinAlgQR.h:233-260 QMultiply *)
Definition qr_QMultiply (S : qr T) (b qb : list T) : res (list T) :=
  if negb (Nat.eqb (length b) (q_m S)) then Throw DimensionError else
  x <- qr_copy (q_m S) b (qr_resize qb (q_m S)) ;;
  for_down 0 (ncols (q_m S) (q_n S)) (qr_reflect S) x.
(** LinAlgQR.h:178-198 RSolve; [b] is read before [x] is written, also when they are the same vector (the loop copies x[i] = b[i]) *)
Definition qr_RSolve (S : qr T) (b x : list T) : res (list T) :=
  if negb (Nat.eqb (length b) (q_n S)) then Throw DimensionError
  else if q_sing S then Throw SingularError
  else
    x <- qr_copy (q_n S) b (qr_resize x (q_n S)) ;;
    for_down 0 (q_n S) (fun x i =>
      s <- vget x i ;;
      s <- for_range (Nat.add i 1) (q_n S) (fun s j => r <- mget (q_QR S) i j ;; y <- vget x j ;; Ok (s - r * y)) s ;;
      d <- vget (q_d S) i ;; vset x i (s / d)) x.
(** LinAlgQR.h:133-147 Solve(b, x) *)
Definition qr_Solve_into (S : qr T) (b x : list T) : res (list T) :=
  if negb (Nat.eqb (q_m S) (q_n S)) then Throw DimensionError
  else if negb (Nat.eqb (length b) (q_m S)) then Throw DimensionError
  else if q_sing S then Throw SingularError
  else x <- qr_QtMultiply S b x ;; qr_RSolve S x x.
(** LinAlgQR.h:149-154 *)
Definition qr_Solve (S : qr T) (b : list T) : res (list T) := qr_Solve_into S b (repeat (lit 0) (q_n S)).
(** LinAlgQR.h:158-182 LeastSquaresSolve *)
Definition qr_LeastSquaresSolve (S : qr T) (b : list T) : res (list T) :=
  if negb (Nat.eqb (length b) (q_m S)) then Throw DimensionError
  else if q_sing S then Throw SingularError
  else
    qtb <- qr_QtMultiply S b (repeat (lit 0) (q_m S)) ;;
    x <- qr_copy (q_n S) qtb (qr_resize (repeat (lit 0) (q_n S)) (q_n S)) ;;
    qr_RSolve S x x.
(** LinAlgQR.h:263-277 GetR *)
Definition qr_GetR (S : qr T) : res (matrix T) :=
  let n := q_n S in
  R <- mat_new O (Z.of_nat n) (Z.of_nat n) ;;
  for_range 0 n (fun R i => for_range 0 n (fun R j =>
    x <- (if Nat.leb i j then (if Nat.eqb i j then vget (q_d S) i else mget (q_QR S) i j) else Ok (lit 0)) ;; mset R i j x) R) R.
(** LinAlgQR.h:280-309 GetQ *)
Definition qr_GetQ (S : qr T) : res (matrix T) :=
  let m := q_m S in let n := q_n S in
  Q <- mat_new O (Z.of_nat m) (Z.of_nat n) ;;
  Q <- for_range 0 m (fun Q i => for_range 0 n (fun Q j => mset Q i j (if Nat.eqb i j then lit 1 else lit 0)) Q) Q ;;
  for_down 0 n (fun Q k =>
    c <- vget (q_c S) k ;;
    if negb (aeqb A c (lit 0)) then
      for_range 0 n (fun Q j =>
        s <- qr_dot m k (q_QR S) Q j ;;
        let tau := s / c in
        for_range k m (fun Q i => x <- mget Q i j ;; v <- mget (q_QR S) i k ;; mset Q i j (x - tau * v)) Q) Q
    else Ok Q) Q.
(** LinAlgQR.h:313-331 det *)
Definition qr_det (S : qr T) : res T :=
  if negb (Nat.eqb (q_m S) (q_n S)) then Throw DimensionError
  else if q_sing S then Ok (lit 0)
  else
    dd <- for_range 0 (q_n S) (fun dd i => d <- vget (q_d S) i ;; Ok (dd * d)) (lit 1) ;;
    Ok (if Nat.eqb (Nat.modulo (q_refl S) 2) 1 then - dd else dd).
(** LinAlgQR.h:337-361 inverse(ainv) *)
Definition qr_inverse (S : qr T) (ainv : matrix T) : res (matrix T) :=
  if negb (Nat.eqb (q_m S) (q_n S)) then Throw DimensionError
  else if q_sing S then Throw SingularError
  else
    let n := q_n S in
    R <- mat_resize O ainv (Z.of_nat n) (Z.of_nat n) false ;;
    '(R, _, _) <- for_range 0 n (fun '(R, ei, col) j =>
      ei <- for_range 0 n (fun ei i => vset ei i (if Nat.eqb i j then lit 1 else lit 0)) ei ;;
      col <- qr_Solve_into S ei col ;;
      R <- for_range 0 n (fun R i => x <- vget col i ;; mset R i j x) R ;;
      Ok (R, ei, col)) (R, repeat (lit 0) n, repeat (lit 0) n) ;;
    Ok R.
End QR.
