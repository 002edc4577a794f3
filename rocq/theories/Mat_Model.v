(** * Model of mml/base/Matrix/Matrix.h

    The element type is abstract ([numops]).  Dimensions are held as [nat] (they are non-negative
    [int]s in C++); arguments that the code checks for negativity are [Z].  Reading or writing
    outside [_data] is [UB] (operator() is unchecked in C++). *)

From Coq Require Import List Arith Bool ZArith.
From Verif Require Import Base Num.
Import ListNotations.

(** Matrix.h:91-101 [class Matrix]: _rows, _cols, _data *)
Record matrix (T : Type) := mkMat { m_rows : nat; m_cols : nat; m_data : list T }.
Arguments mkMat {T} _ _ _.
Arguments m_rows {T} _.
Arguments m_cols {T} _.
Arguments m_data {T} _.

(** Matrix.h:107-122 ValidateDimensions (the multiplication cannot overflow below the first limit) *)
Definition validate_dims (r c : nat) : res unit :=
  if ((100000 <? Z.of_nat r) || (100000 <? Z.of_nat c))%Z then Throw DimensionError
  else if (100000000 <? Z.of_nat r * Z.of_nat c)%Z then Throw BadAlloc
  else Ok tt.

Section MatrixModel.
Context {T : Type} (O : numops T).

(** Matrix.h:137  Matrix() *)
Definition mat_empty : matrix T := mkMat 0 0 [].

(** Matrix.h:144-162, 168-180  Matrix(rows, cols) and Matrix(rows, cols, val) for non-negative sizes *)
Definition mat_alloc (r c : nat) (val : T) : res (matrix T) :=
  if (Nat.eqb r 0) || (Nat.eqb c 0) then Ok mat_empty
  else _ <- validate_dims r c ;; Ok (mkMat r c (repeat val (r * c))).

(** Matrix.h:144-162  Matrix(int rows, int cols) *)
Definition mat_new (rows cols : Z) : res (matrix T) :=
  if ((rows <? 0) || (cols <? 0))%Z then Throw DimensionError
  else mat_alloc (Z.to_nat rows) (Z.to_nat cols) (n0 O).

(** Matrix.h:168-180  Matrix(int rows, int cols, const Type& val) *)
Definition mat_new_val (rows cols : Z) (val : T) : res (matrix T) :=
  if ((rows <? 0) || (cols <? 0))%Z then Throw DimensionError
  else mat_alloc (Z.to_nat rows) (Z.to_nat cols) val.

(** Matrix.h:185-205  Matrix(const vector<vector<Type>>&) *)
Definition mat_of_rows (rows : list (list T)) : res (matrix T) :=
  match rows with
  | [] => Ok mat_empty
  | [] :: _ => Ok mat_empty
  | r0 :: _ =>
      let c := length r0 in
      _ <- validate_dims (length rows) c ;;
      data <- for_each (fun acc row =>
                if Nat.eqb (length row) c then Ok (acc ++ row) else Throw DimensionError) rows [] ;;
      Ok (mkMat (length rows) c data)
  end.

(** Matrix.h:254-281  Matrix(int, int, initializer_list, strictMode) *)
Definition mat_of_list (rows cols : Z) (values : list T) (strict : bool) : res (matrix T) :=
  if ((rows <? 0) || (cols <? 0))%Z then Throw DimensionError
  else
    let r := Z.to_nat rows in let c := Z.to_nat cols in
    if (Nat.eqb r 0) || (Nat.eqb c 0) then Ok mat_empty
    else
      _ <- validate_dims r c ;;
      if strict && negb (Nat.eqb (length values) (r * c)) then Throw DimensionError
      else Ok (mkMat r c (firstn (r * c) (values ++ repeat (n0 O) (r * c)))).

(** Matrix.h:104  idx;  Matrix.h:774-776  operator()(i, j), unchecked *)
Definition midx (A : matrix T) (i j : nat) : nat := i * m_cols A + j.
Definition mget (A : matrix T) (i j : nat) : res T := vget (m_data A) (midx A i j).
Definition mset (A : matrix T) (i j : nat) (x : T) : res (matrix T) :=
  d <- vset (m_data A) (midx A i j) x ;; Ok (mkMat (m_rows A) (m_cols A) d).

(** Matrix.h:786-800  at(i, j) *)
Definition mat_at (A : matrix T) (i j : Z) : res T :=
  if ((i <? 0) || (Z.of_nat (m_rows A) <=? i) || (j <? 0) || (Z.of_nat (m_cols A) <=? j))%Z
  then Throw IndexError
  else mget A (Z.to_nat i) (Z.to_nat j).
Definition mat_at_set (A : matrix T) (i j : Z) (x : T) : res (matrix T) :=
  if ((i <? 0) || (Z.of_nat (m_rows A) <=? i) || (j <? 0) || (Z.of_nat (m_cols A) <=? j))%Z
  then Throw IndexError
  else mset A (Z.to_nat i) (Z.to_nat j) x.

(** Matrix.h:301-318  submatrix constructor, GetSubmatrix (548-551) *)
Definition mat_sub (A : matrix T) (ir ic rn cn : Z) : res (matrix T) :=
  let R := Z.of_nat (m_rows A) in let C := Z.of_nat (m_cols A) in
  if ((ir <? 0) || (R <=? ir) || (ic <? 0) || (C <=? ic))%Z then Throw DimensionError
  else if ((rn <=? 0) || (cn <=? 0))%Z then Throw DimensionError
  else if ((R <? ir + rn) || (C <? ic + cn))%Z then Throw DimensionError
  else
    let i0 := Z.to_nat ir in let j0 := Z.to_nat ic in
    data <- for_range 0 (Z.to_nat rn) (fun acc i =>
              for_range 0 (Z.to_nat cn) (fun acc j => x <- mget A (i0 + i) (j0 + j) ;; Ok (acc ++ [x])) acc) [] ;;
    Ok (mkMat (Z.to_nat rn) (Z.to_nat cn) data).

(** Matrix.h:347-374  Resize.  For simple numeric types the non-preserving branch zero-fills. *)
Definition mat_resize (A : matrix T) (rows cols : Z) (preserve : bool) : res (matrix T) :=
  if (Z.eqb rows (Z.of_nat (m_rows A))) && (Z.eqb cols (Z.of_nat (m_cols A))) then Ok A
  else if ((rows <=? 0) || (cols <=? 0))%Z then Throw DimensionError
  else
    let r := Z.to_nat rows in let c := Z.to_nat cols in
    _ <- validate_dims r c ;;
    if preserve then
      data <- for_range 0 (Nat.min (m_rows A) r) (fun d i =>
                for_range 0 (Nat.min (m_cols A) c) (fun d j =>
                  x <- mget A i j ;; vset d (i * c + j) x) d) (repeat (n0 O) (r * c)) ;;
      Ok (mkMat r c data)
    else Ok (mkMat r c (repeat (n0 O) (r * c))).

(** Matrix.h:378-386  MakeUnitMatrix *)
Definition mat_make_unit (A : matrix T) : res (matrix T) :=
  if negb (Nat.eqb (m_rows A) (m_cols A)) then Throw DimensionError
  else
    for_range 0 (m_rows A) (fun A i => mset A i i (n1 O))
              (mkMat (m_rows A) (m_cols A) (repeat (n0 O) (length (m_data A)))).

(** Matrix.h:393-401  Identity *)
Definition mat_identity (dim : Z) : res (matrix T) :=
  if (dim <=? 0)%Z then Throw DimensionError
  else A <- mat_new dim dim ;; mat_make_unit A.

(** Matrix.h:406-416  Diagonal *)
Definition mat_diagonal (d : list T) : res (matrix T) :=
  let n := length d in
  if Nat.eqb n 0 then Throw DimensionError
  else A <- mat_alloc n n (n0 O) ;;
       for_range 0 n (fun A i => x <- vget d i ;; mset A i i x) A.

(** Matrix.h:461-470  VectorFromRow *)
Definition mat_row (A : matrix T) (i : Z) : res (list T) :=
  if ((i <? 0) || (Z.of_nat (m_rows A) <=? i))%Z then Throw IndexError
  else for_range 0 (m_cols A) (fun v j => x <- mget A (Z.to_nat i) j ;; vset v j x) (repeat (n0 O) (m_cols A)).
(** Matrix.h:476-485  VectorFromColumn *)
Definition mat_col (A : matrix T) (j : Z) : res (list T) :=
  if ((j <? 0) || (Z.of_nat (m_cols A) <=? j))%Z then Throw IndexError
  else for_range 0 (m_rows A) (fun v i => x <- mget A i (Z.to_nat j) ;; vset v i x) (repeat (n0 O) (m_rows A)).
(** Matrix.h:493-502  diagonal *)
Definition mat_diag (A : matrix T) : res (list T) :=
  if negb (Nat.eqb (m_rows A) (m_cols A)) then Throw DimensionError
  else for_range 0 (m_rows A) (fun v i => x <- mget A i i ;; vset v i x) (repeat (n0 O) (m_rows A)).

(** Matrix.h:510-522  GetLower;  528-540  GetUpper *)
Definition mat_lower (A : matrix T) (incl_diag : bool) : res (matrix T) :=
  if negb (Nat.eqb (m_rows A) (m_cols A)) then Throw DimensionError
  else
    R <- mat_alloc (m_rows A) (m_cols A) (n0 O) ;;
    for_range 0 (m_rows A) (fun R i =>
      for_range 0 (if incl_diag then i + 1 else i) (fun R j => x <- mget A i j ;; mset R i j x) R) R.
Definition mat_upper (A : matrix T) (incl_diag : bool) : res (matrix T) :=
  if negb (Nat.eqb (m_rows A) (m_cols A)) then Throw DimensionError
  else
    R <- mat_alloc (m_rows A) (m_cols A) (n0 O) ;;
    for_range 0 (m_rows A) (fun R i =>
      for_range (if incl_diag then i else i + 1) (m_cols A) (fun R j => x <- mget A i j ;; mset R i j x) R) R.

(** Matrix.h:560-569  InitRowWithVector;  576-585  InitColWithVector *)
Definition mat_init_row (A : matrix T) (i : Z) (v : list T) : res (matrix T) :=
  if ((i <? 0) || (Z.of_nat (m_rows A) <=? i))%Z then Throw IndexError
  else if negb (Nat.eqb (length v) (m_cols A)) then Throw DimensionError
  else for_range 0 (m_cols A) (fun A j => x <- vget v j ;; mset A (Z.to_nat i) j x) A.
Definition mat_init_col (A : matrix T) (j : Z) (v : list T) : res (matrix T) :=
  if ((j <? 0) || (Z.of_nat (m_cols A) <=? j))%Z then Throw IndexError
  else if negb (Nat.eqb (length v) (m_rows A)) then Throw DimensionError
  else for_range 0 (m_rows A) (fun A i => x <- vget v i ;; mset A i (Z.to_nat j) x) A.

(** [std::swap(a(i,j), a(k,l))] *)
Definition mswap (A : matrix T) (i j k l : nat) : res (matrix T) :=
  x <- mget A i j ;; y <- mget A k l ;; A1 <- mset A i j y ;; mset A1 k l x.

(** Matrix.h:590-598  SwapRows;  603-611  SwapCols *)
Definition mat_swap_rows (A : matrix T) (k l : Z) : res (matrix T) :=
  let R := Z.of_nat (m_rows A) in
  if ((k <? 0) || (R <=? k) || (l <? 0) || (R <=? l))%Z then Throw DimensionError
  else if Z.eqb k l then Ok A
  else for_range 0 (m_cols A) (fun A j => mswap A (Z.to_nat k) j (Z.to_nat l) j) A.
Definition mat_swap_cols (A : matrix T) (k l : Z) : res (matrix T) :=
  let C := Z.of_nat (m_cols A) in
  if ((k <? 0) || (C <=? k) || (l <? 0) || (C <=? l))%Z then Throw DimensionError
  else if Z.eqb k l then Ok A
  else for_range 0 (m_rows A) (fun A i => mswap A i (Z.to_nat k) i (Z.to_nat l)) A.

(** Matrix.h:890-895  operator==; [eqb] is == on the element type *)
Definition mat_eqb (eqb : T -> T -> bool) (A B : matrix T) : bool :=
  Nat.eqb (m_rows A) (m_rows B) && Nat.eqb (m_cols A) (m_cols B) &&
  Nat.eqb (length (m_data A)) (length (m_data B)) &&
  forallb (fun p => eqb (fst p) (snd p)) (combine (m_data A) (m_data B)).

(** the loops [for (i < _data.size()) ret._data[i] = f(_data[i])] and the binary variant *)
Definition flat1 (f : T -> T) (A R : matrix T) : res (matrix T) :=
  d <- for_range 0 (length (m_data A)) (fun d i => x <- vget (m_data A) i ;; vset d i (f x)) (m_data R) ;;
  Ok (mkMat (m_rows R) (m_cols R) d).
Definition flat2 (f : T -> T -> T) (A B R : matrix T) : res (matrix T) :=
  d <- for_range 0 (length (m_data A))
         (fun d i => x <- vget (m_data A) i ;; y <- vget (m_data B) i ;; vset d i (f x y)) (m_data R) ;;
  Ok (mkMat (m_rows R) (m_cols R) d).

(** Matrix.h:923-929  unary operator- *)
Definition mat_neg (A : matrix T) : res (matrix T) :=
  R <- mat_alloc (m_rows A) (m_cols A) (n0 O) ;; flat1 (nopp O) A R.
(** Matrix.h:933-942  operator+ *)
Definition mat_add (A B : matrix T) : res (matrix T) :=
  if negb (Nat.eqb (m_rows A) (m_rows B)) || negb (Nat.eqb (m_cols A) (m_cols B)) then Throw DimensionError
  else R <- mat_alloc (m_rows A) (m_cols A) (n0 O) ;; flat2 (nadd O) A B R.
(** Matrix.h:957-966  operator- *)
Definition mat_sub_op (A B : matrix T) : res (matrix T) :=
  if negb (Nat.eqb (m_rows A) (m_rows B)) || negb (Nat.eqb (m_cols A) (m_cols B)) then Throw DimensionError
  else R <- mat_alloc (m_rows A) (m_cols A) (n0 O) ;; flat2 (nsub O) A B R.
(** Matrix.h:945-953  operator+=;  969-977  operator-=.  [None] as right operand means [*this]
    itself (a += a): each element is then read from the object being modified. *)
Definition flat2_assign (f : T -> T -> T) (A : matrix T) (B : option (matrix T)) : res (matrix T) :=
  d <- for_range 0 (length (m_data A))
         (fun d i => x <- vget d i ;;
            y <- vget (match B with Some b => m_data b | None => d end) i ;; vset d i (f x y)) (m_data A) ;;
  Ok (mkMat (m_rows A) (m_cols A) d).
Definition mat_op_assign (f : T -> T -> T) (A : matrix T) (B : option (matrix T)) : res (matrix T) :=
  let b := match B with Some b => b | None => A end in
  if negb (Nat.eqb (m_rows A) (m_rows b)) || negb (Nat.eqb (m_cols A) (m_cols b)) then Throw DimensionError
  else flat2_assign f A B.
Definition mat_add_assign := mat_op_assign (nadd O).
Definition mat_sub_assign := mat_op_assign (nsub O).

(** Matrix.h:981-996  operator*(Matrix) *)
Definition mat_mul (A B : matrix T) : res (matrix T) :=
  if negb (Nat.eqb (m_cols A) (m_rows B)) then Throw DimensionError
  else
    R <- mat_alloc (m_rows A) (m_cols B) (n0 O) ;;
    for_range 0 (m_rows A) (fun R i =>
      for_range 0 (m_cols B) (fun R j =>
        s <- for_range 0 (m_cols A) (fun s k =>
               x <- mget A i k ;; y <- mget B k j ;; Ok (nadd O s (nmul O x y))) (n0 O) ;;
        mset R i j s) R) R.

(** Matrix.h:999-1005  operator*(scalar), 1050-1053;  1016-1022  operator/(scalar) *)
Definition mat_scale (A : matrix T) (s : T) : res (matrix T) :=
  R <- mat_alloc (m_rows A) (m_cols A) (n0 O) ;; flat1 (fun x => nmul O x s) A R.
Definition mat_divide (A : matrix T) (s : T) : res (matrix T) :=
  R <- mat_alloc (m_rows A) (m_cols A) (n0 O) ;; flat1 (fun x => ndiv O x s) A R.

(** Matrix.h:1008-1013  operator*=(const Type& scalar);  1025-1030  operator/=.
    The scalar is taken by reference: [inr k] is a reference to element [k] of this very matrix. *)
Definition mat_scalar_assign (f : T -> T -> T) (A : matrix T) (s : T + nat) : res (matrix T) :=
  d <- for_range 0 (length (m_data A))
         (fun d i => x <- vget d i ;;
            y <- (match s with inl v => Ok v | inr k => vget d k end) ;; vset d i (f x y)) (m_data A) ;;
  Ok (mkMat (m_rows A) (m_cols A) d).
Definition mat_scale_assign := mat_scalar_assign (nmul O).
Definition mat_divide_assign := mat_scalar_assign (ndiv O).

(** Matrix.h:1034-1047  operator*(Vector);  1056-1069  Vector * Matrix *)
Definition mat_vec (A : matrix T) (v : list T) : res (list T) :=
  if negb (Nat.eqb (m_cols A) (length v)) then Throw DimensionError
  else
    for_range 0 (m_rows A) (fun r i =>
      s <- for_range 0 (m_cols A) (fun s j => x <- mget A i j ;; y <- vget v j ;; Ok (nadd O s (nmul O x y))) (n0 O) ;;
      vset r i s) (repeat (n0 O) (m_rows A)).
Definition vec_mat (v : list T) (A : matrix T) : res (list T) :=
  if negb (Nat.eqb (length v) (m_rows A)) then Throw DimensionError
  else
    for_range 0 (m_cols A) (fun r j =>
      s <- for_range 0 (m_rows A) (fun s i => x <- vget v i ;; y <- mget A i j ;; Ok (nadd O s (nmul O x y))) (n0 O) ;;
      vset r j s) (repeat (n0 O) (m_cols A)).

(** Matrix.h:1076-1085  trace *)
Definition mat_trace (A : matrix T) : res T :=
  if negb (Nat.eqb (m_rows A) (m_cols A)) then Throw DimensionError
  else for_range 0 (m_rows A) (fun s i => x <- mget A i i ;; Ok (nadd O s x)) (n0 O).

(** Matrix.h:1176-1184  Transpose (in place) *)
Definition mat_Transpose (A : matrix T) : res (matrix T) :=
  if negb (Nat.eqb (m_rows A) (m_cols A)) then Throw DimensionError
  else
    for_range 0 (m_rows A) (fun A i =>
      for_range (i + 1) (m_cols A) (fun A j => mswap A i j j i) A) A.

(** Matrix.h:1188-1195  transpose *)
Definition mat_transpose (A : matrix T) : res (matrix T) :=
  R <- mat_alloc (m_cols A) (m_rows A) (n0 O) ;;
  for_range 0 (m_rows A) (fun R i =>
    for_range 0 (m_cols A) (fun R j => x <- mget A i j ;; mset R j i x) R) R.

End MatrixModel.
