(** * Model of the binary file formats (mml/tools/serializer/MatrixIO.h, VectorIO.h; mml/MMLBase.h:141-150)

    A file is the list of its bytes (integers 0..255).  Opening succeeds: the failure branches only print and return
    false.  Integers are stored in the machine's byte order, little-endian here. *)

From Coq Require Import List Bool Arith ZArith.
From Verif Require Import Base Num Mat_Model.
Import ListNotations.
Local Open Scope nat_scope.

(** n bytes of z, least significant first, and back *)
Fixpoint le_bytes (n : nat) (z : Z) : list Z := match n with 0 => [] | S n' => (z mod 256)%Z :: le_bytes n' (z / 256)%Z end.
Fixpoint le_val (l : list Z) : Z := match l with [] => 0%Z | b :: l' => (b + 256 * le_val l')%Z end.

(** std::ifstream in binary mode: what is left to read, and the fail bit.  read(p, n) stores the bytes that are there,
    at most n; fewer than n set the fail bit, after which nothing is read any more. *)
Record istream := mkIn { in_rest : list Z; in_fail : bool }.
Definition is_read (n : nat) (st : istream) : list Z * istream :=
  if in_fail st then ([], st)
  else if n <=? length (in_rest st) then (firstn n (in_rest st), mkIn (skipn n (in_rest st)) false)
  else (in_rest st, mkIn [] true).
(** an uninitialised uint32_t is four indeterminate bytes; using it before all of them are stored is undefined *)
Definition read_u32 (st : istream) : res Z * istream :=
  let '(bs, st) := is_read 4 st in ((if length bs =? 4 then Ok (le_val bs) else UB), st).

(** how an element type is laid out in memory *)
Record codec (E : Type) := mkCodec { c_size : nat; c_enc : E -> list Z; c_dec : list Z -> E; c_ok : E -> Prop }.
Arguments c_size {E} _.
Arguments c_enc {E} _ _.
Arguments c_dec {E} _ _.
Arguments c_ok {E} _ _.

Section IO.
Context {E : Type} (O : numops E) (C : codec E).

(** writing into the memory of an array of elements: the first bytes are replaced, the others stay *)
Fixpoint chunks (n : nat) (l : list Z) : list (list Z) := match n with 0 => [] | S n' => firstn (c_size C) l :: chunks n' (skipn (c_size C) l) end.
Definition overwrite (data : list E) (bs : list Z) : list E :=
  let mem := flat_map (c_enc C) data in map (c_dec C) (chunks (length data) (bs ++ skipn (length bs) mem)).

(** MatrixIO.h:182-211 SaveMatrixToBinary; MMLBase.h:141,148 *)
Definition MAGIC_MATRIX : Z := 1296911437.  (* 0x4D4D4C4D *)
Definition save_matrix (M : matrix E) : list Z :=
  le_bytes 4 MAGIC_MATRIX ++ le_bytes 4 1 ++ le_bytes 4 (Z.of_nat (m_rows M)) ++ le_bytes 4 (Z.of_nat (m_cols M)) ++
  le_bytes 4 (Z.of_nat (c_size C)) ++ le_bytes 4 0 ++ flat_map (c_enc C) (m_data M).

(** MatrixIO.h:221-266 LoadMatrixFromBinary: the return value and the target afterwards *)
Definition load_matrix (file : list Z) (out : matrix E) : res (bool * matrix E) :=
  let st := mkIn file false in
  let '(magic, st) := read_u32 st in
  magic <- magic ;;
  if negb (magic =? MAGIC_MATRIX)%Z then Ok (false, out)
  else
    let '(version, st) := read_u32 st in
    version <- version ;;
    if negb (version =? 1)%Z then Ok (false, out)
    else
      let '(rows, st) := read_u32 st in
      let '(cols, st) := read_u32 st in
      let '(elemSize, st) := read_u32 st in
      let '(_, st) := is_read 4 st in
      elemSize <- elemSize ;;
      if negb (elemSize =? Z.of_nat (c_size C))%Z then Ok (false, out)
      else
        rows <- rows ;; cols <- cols ;;
        if ((rows =? 0) || (cols =? 0) || (100000 <? rows) || (100000 <? cols))%Z then Ok (false, out)
        else
          M <- mat_resize O out rows cols false ;;
          let '(bs, st) := is_read (Z.to_nat rows * Z.to_nat cols * c_size C) st in
          Ok (true, mkMat (m_rows M) (m_cols M) (overwrite (m_data M) bs)).

(** VectorIO.h:47-81 SaveComplexVector; a complex number is the pair of its parts *)
Definition MAGIC_COMPLEX : Z := 1296911427.  (* 0x4D4D4C43 *)
Definition save_complex (v : list (E * E)) : list Z :=
  le_bytes 4 MAGIC_COMPLEX ++ le_bytes 4 1 ++ le_bytes 4 (Z.of_nat (length v)) ++ le_bytes 4 (Z.of_nat (c_size C)) ++
  flat_map (fun p => c_enc C (fst p)) v ++ flat_map (fun p => c_enc C (snd p)) v.

(** reading [count] elements one by one into a zero-filled vector (VectorIO.h:138-147) *)
Fixpoint read_elems (count : nat) (st : istream) : list E * istream :=
  match count with
  | 0 => ([], st)
  | S k => let '(bs, st) := is_read (c_size C) st in
           let x := c_dec C (bs ++ skipn (length bs) (c_enc C (n0 O))) in
           let '(l, st) := read_elems k st in (x :: l, st)
  end.
(** VectorIO.h:89-156 LoadComplexVector.  tellg after the header is 16 or, on a failed stream, -1 (but then
    elemSize is indeterminate and was used before). *)
Definition load_complex (file : list Z) (out : list (E * E)) : res (bool * list (E * E)) :=
  let st := mkIn file false in
  let '(magic, st) := read_u32 st in
  magic <- magic ;;
  if negb (magic =? MAGIC_COMPLEX)%Z then Ok (false, out)
  else
    let '(version, st) := read_u32 st in
    version <- version ;;
    if negb (version =? 1)%Z then Ok (false, out)
    else
      let '(count, st) := read_u32 st in
      let '(elemSize, st) := read_u32 st in
      elemSize <- elemSize ;;
      if negb (elemSize =? Z.of_nat (c_size C))%Z then Ok (false, out)
      else
        count <- count ;;
        if (Z.of_nat (length (in_rest st)) <? count * elemSize * 2)%Z then Ok (false, out)
        else
          let '(re, st) := read_elems (Z.to_nat count) st in
          let '(im, st) := read_elems (Z.to_nat count) st in
          Ok (true, combine re im).

(** VectorIO.h:164-173, 181-190 SaveRealAsComplex / SaveVectorAsComplex *)
Definition save_real_as_complex (v : list E) : list Z := save_complex (map (fun x => (x, n0 O)) v).
(** VectorIO.h:198-211, 219-232 LoadComplexAsReal / LoadComplexAsVector *)
Definition load_complex_as_real (file : list Z) (out : list E) : res (bool * list E) :=
  ' (ok, v) <- load_complex file [] ;;
  if ok : bool then Ok (true, map fst v) else Ok (false, out).
End IO.
