(** * Model of the data loader (mml/tools/data_loader/DataLoaderTypes.h, DataLoaderParsing.h, DataLoaderCSV.h)

    A string is the list of its characters (bytes).  The character classes are those of the "C" locale on all 256
    bytes; passing a negative char to std::tolower / std::isspace, formally undefined, is taken to behave as in glibc
    (bytes above 127 are neither letters, digits nor white space).  Lengths fit their C++ types. *)

From Coq Require Import Ascii String DecimalString List Bool Arith ZArith.
From Verif Require Import Base.
Import ListNotations.
Local Open Scope nat_scope.
Local Open Scope list_scope.
Local Open Scope char_scope.

Definition str := list ascii.
Definition L (s : string) : str := list_ascii_of_string s.
Fixpoint streqb (a b : str) : bool :=
  match a, b with [], [] => true | x :: a', y :: b' => (x =? y)%char && streqb a' b' | _, _ => false end.

(** the blanks " \t\r\n" of find_first_not_of / find_last_not_of *)
Definition blank (c : ascii) : bool := (c =? " ") || (c =? "009") || (c =? "013") || (c =? "010").
(** std::isspace in the C locale: the blanks, vertical tab, form feed *)
Definition isspace (c : ascii) : bool := blank c || (c =? "011") || (c =? "012").
Definition isdigit (c : ascii) : bool := (48 <=? nat_of_ascii c)%nat && (nat_of_ascii c <=? 57)%nat.
Definition tolower (c : ascii) : ascii :=
  let n := nat_of_ascii c in if (65 <=? n)%nat && (n <=? 90)%nat then ascii_of_nat (n + 32) else c.

Fixpoint drop_blank (s : str) : str := match s with c :: s' => if blank c then drop_blank s' else s | [] => [] end.
(** DataLoaderParsing.h:214-219 Trim; the same characters are erased at DataLoaderParsing.h:49-52 and 128-131 *)
Definition Trim (s : str) : str := rev (drop_blank (rev (drop_blank s))).

(** DataLoaderParsing.h:222-230 RemoveBOM *)
Definition RemoveBOM (s : str) : str :=
  match s with
  | a :: b :: c :: s' => if (nat_of_ascii a =? 239)%nat && (nat_of_ascii b =? 187)%nat && (nat_of_ascii c =? 191)%nat then s' else s
  | _ => s
  end.

(** DataLoaderParsing.h:178-211 SplitLine: the state is (result so far, field, inQuotes); [result] and [field] grow at
    the end.  prevWasQuote is written and never read. *)
Fixpoint split_from (d : ascii) (result : list str) (field : str) (inq : bool) (line : str) : list str :=
  match line with
  | [] => result ++ [field]
  | c :: rest =>
    if (c =? """") then
      match inq, rest with
      | true, c2 :: rest2 => if (c2 =? """") then split_from d result (field ++ [""""]) inq rest2 else split_from d result field (negb inq) rest
      | _, _ => split_from d result field (negb inq) rest
      end
    else if (c =? d) && negb inq then split_from d (result ++ [field]) [] inq rest
    else split_from d result (field ++ [c]) inq rest
  end.
Definition SplitLine (line : str) (d : ascii) : list str := split_from d [] [] false line.

(** DataLoaderTypes.h:77-84 IsMissingValue *)
Definition IsMissingValue (s : str) : bool :=
  match s with
  | [] => true
  | _ => existsb (streqb (map tolower s)) (map L ["na"; "n/a"; "nan"; "null"; "none"; "."; "?"; "-"; ""])%string
  end.

(** ** Regular expressions (std::regex_match, ECMAScript, whole string), by derivatives *)
Inductive re : Type := RNone | REps | RCls (p : ascii -> bool) | RCat (a b : re) | RAlt (a b : re) | RStar (a : re).
Fixpoint nullable (r : re) : bool :=
  match r with
  | RNone | RCls _ => false
  | REps | RStar _ => true
  | RCat a b => nullable a && nullable b
  | RAlt a b => nullable a || nullable b
  end.
Fixpoint deriv (c : ascii) (r : re) : re :=
  match r with
  | RNone | REps => RNone
  | RCls p => if p c then REps else RNone
  | RCat a b => if nullable a then RAlt (RCat (deriv c a) b) (deriv c b) else RCat (deriv c a) b
  | RAlt a b => RAlt (deriv c a) (deriv c b)
  | RStar a => RCat (deriv c a) (RStar a)
  end.
Fixpoint regex_match (s : str) (r : re) : bool := match s with [] => nullable r | c :: s' => regex_match s' (deriv c r) end.

Definition rdigit := RCls isdigit.
Definition rone (s : string) := RCls (fun c => existsb (fun x => c =? x) (L s)).
Definition ropt r := RAlt r REps.
Definition rplus r := RCat r (RStar r).
Definition rcats (l : list re) : re := fold_right RCat REps l.
(** DataLoaderParsing.h:42-46 *)
Definition intPattern := rcats [ropt (rone "-+"); rplus rdigit].
Definition realPattern :=
  rcats [ropt (rone "-+"); RAlt (rcats [rplus rdigit; ropt (rone "."); RStar rdigit]) (rcats [rone "."; rplus rdigit]);
         ropt (rcats [rone "eE"; ropt (rone "-+"); rplus rdigit])].
Definition rdate := [rdigit; rdigit; rdigit; rdigit; rone "-/"; rdigit; ropt rdigit; rone "-/"; rdigit; ropt rdigit].
Definition datePattern := rcats rdate.
Definition rhm := [rdigit; ropt rdigit; rone ":"; rdigit; rdigit; ropt (rcats [rone ":"; rdigit; rdigit])].
Definition timePattern := rcats (rhm ++ [ropt (rcats [rone "."; rplus rdigit])]).
Definition dateTimePattern := rcats (rdate ++ [rone "T "] ++ rhm).

(** ** Types *)
(** DataLoaderTypes.h:45-54 ColumnType *)
Inductive ctype := REAL | INT | BOOL | STRING | DATE | TIME | DATETIME | MISSING.
Definition ctype_eqb (a b : ctype) : bool :=
  match a, b with
  | REAL, REAL | INT, INT | BOOL, BOOL | STRING, STRING | DATE, DATE | TIME, TIME | DATETIME, DATETIME | MISSING, MISSING => true
  | _, _ => false
  end.

(** what a field is taken for by InferColumnType (the counter it increments; KOther: none) *)
Inductive kind := KMissing | KInt | KReal | KBool | KDateTime | KDate | KTime | KOther.
(** DataLoaderParsing.h:48-90, the body of the loop *)
Definition classify (val : str) : kind :=
  let t := Trim val in
  if IsMissingValue t then KMissing
  else if regex_match t intPattern then KInt
  else if regex_match t realPattern then KReal
  else if existsb (streqb (map tolower t)) (map L ["true"; "false"; "yes"; "no"; "t"; "f"; "y"; "n"])%string then KBool
  else if regex_match t dateTimePattern then KDateTime
  else if regex_match t datePattern then KDate
  else if regex_match t timePattern then KTime
  else KOther.
Definition kind_eqb (a b : kind) : bool :=
  match a, b with
  | KMissing, KMissing | KInt, KInt | KReal, KReal | KBool, KBool | KDateTime, KDateTime | KDate, KDate | KTime, KTime | KOther, KOther => true
  | _, _ => false
  end.
Definition count_kind (k : kind) (values : list str) : nat := length (filter (fun v => kind_eqb k (classify v)) values).
(** DataLoaderParsing.h:97-105: count >= 0.9 * total in doubles; on counts below 2^50 that is 10 * count >= 9 * total
    (theorem C48_threshold_double) *)
Definition ninety (count total : nat) : bool := (9 * total <=? 10 * count)%nat.
(** DataLoaderParsing.h:31-108 InferColumnType *)
Definition InferColumnType (values : list str) : ctype :=
  match values with
  | [] => STRING
  | _ =>
    let total := length values - count_kind KMissing values in
    if (total =? 0)%nat then STRING
    else if ninety (count_kind KDateTime values) total then DATETIME
    else if ninety (count_kind KDate values) total then DATE
    else if ninety (count_kind KTime values) total then TIME
    else if ninety (count_kind KBool values) total then BOOL
    else if ninety (count_kind KInt values) total then INT
    else if ninety (count_kind KInt values + count_kind KReal values) total then REAL
    else STRING
  end.

(** std::stoi, base 10: white space, a sign, the longest run of digits; throws if there is no digit or the value is not
    an int (None) *)
Fixpoint drop_space (s : str) : str := match s with c :: s' => if isspace c then drop_space s' else s | [] => [] end.
Fixpoint digits_val (acc : Z) (s : str) : Z :=
  match s with c :: s' => if isdigit c then digits_val (acc * 10 + Z.of_nat (nat_of_ascii c - 48)) s' else acc | [] => acc end.
Definition starts_digit (s : str) : bool := match s with c :: _ => isdigit c | [] => false end.
Definition stoi (s : str) : option Z :=
  let s := drop_space s in
  let '(neg, s) := match s with c :: s' => if (c =? "-") then (true, s') else if (c =? "+") then (false, s') else (false, s) | [] => (false, s) end in
  if starts_digit s then
    let v := digits_val 0 s in
    let v := if neg : bool then Z.opp v else v in
    if ((- 2147483648 <=? v) && (v <=? 2147483647))%Z then Some v else None
  else None.
(** std::to_string of an integer *)
Definition to_string (z : Z) : str := L (NilZero.string_of_int (Z.to_int z)).

(** Real: the operations the loader uses.  [d_stod] is std::stod (None: it throws), [d_show] is operator<< with
    setprecision(6). *)
Record dnum (D : Type) := mkDnum { d_zero : D; d_nan : D; d_stod : str -> option D; d_show : D -> str; d_of_int : Z -> D }.
Arguments d_zero {D} _.
Arguments d_nan {D} _.
Arguments d_stod {D} _ _.
Arguments d_show {D} _ _.
Arguments d_of_int {D} _ _.

Section Data.
Context {D : Type} (N : dnum D).

(** DataLoaderTypes.h:91-102 DataColumn *)
Record column := mkCol { c_name : str; c_type : ctype; c_real : list D; c_int : list Z; c_bool : list bool;
  c_string : list str; c_date : list str; c_time : list str; c_mask : list bool }.
(** DataLoaderTypes.h:183-188 Dataset *)
Record dataset := mkData { ds_name : str; ds_cols : list column; ds_rows : nat }.

(** DataLoaderParsing.h:114-172 ParseValue: the ParseResult together with the output that was set *)
Inductive presult := PReal (d : D) | PInt (z : Z) | PBool (b : bool) | PStr (s : str) | PMissing | PInvalid.
Definition parsed (r : presult) : bool := match r with PMissing | PInvalid => false | _ => true end.
Definition ParseValue (value : str) (t : ctype) : presult :=
  let s := Trim value in
  if IsMissingValue s then PMissing
  else
    match t with
    | REAL => match d_stod N s with Some d => PReal d | None => PInvalid end
    | INT => match stoi s with Some z => PInt z | None => PInvalid end
    | BOOL =>
      let lower := map tolower s in
      if existsb (streqb lower) (map L ["true"; "yes"; "t"; "y"; "1"])%string then PBool true
      else if existsb (streqb lower) (map L ["false"; "no"; "f"; "n"; "0"])%string then PBool false
      else PInvalid
    | STRING | DATE | TIME | DATETIME => PStr s
    | MISSING => PInvalid
    end.

(** ** DataColumn *)
(** DataLoaderTypes.h:105-116 Size *)
Definition col_size (c : column) : nat :=
  match c_type c with
  | REAL => length (c_real c) | INT => length (c_int c) | BOOL => length (c_bool c) | STRING => length (c_string c)
  | DATE => length (c_date c) | TIME => length (c_time c) | DATETIME => length (c_date c) | MISSING => length (c_mask c)
  end.
(** DataLoaderTypes.h:119-122 IsMissing *)
Definition col_missing (c : column) (i : nat) : bool := nth i (c_mask c) false.
(** DataLoaderTypes.h:125-131 CountMissing *)
Definition col_count_missing (c : column) : nat := length (filter (fun m => m) (c_mask c)).
(** DataLoaderTypes.h:134-160 GetAsString *)
Definition col_string (c : column) (i : nat) : res str :=
  if (col_size c <=? i)%nat then Ok []
  else if col_missing c i then Ok (L "NA")
  else
    match c_type c with
    | REAL => x <- vget (c_real c) i ;; Ok (d_show N x)
    | INT => x <- vget (c_int c) i ;; Ok (to_string x)
    | BOOL => x <- vget (c_bool c) i ;; Ok (if x : bool then L "true" else L "false")
    | STRING => vget (c_string c) i
    | DATE => vget (c_date c) i
    | TIME => vget (c_time c) i
    | DATETIME => d <- vget (c_date c) i ;; t <- vget (c_time c) i ;; Ok (d ++ L " " ++ t)
    | MISSING => Ok (L "NA")
    end.
(** DataLoaderTypes.h:163-177 GetReal *)
Definition col_get_real (c : column) (i : nat) : res D :=
  if (col_size c <=? i)%nat || col_missing c i then Ok (d_nan N)
  else
    match c_type c with
    | REAL => vget (c_real c) i
    | INT => x <- vget (c_int c) i ;; Ok (d_of_int N x)
    | BOOL => x <- vget (c_bool c) i ;; Ok (d_of_int N (if x : bool then 1 else 0)%Z)
    | _ => Ok (d_nan N)
    end.

(** ** Dataset *)
(** DataLoaderTypes.h:200-210 operator[](size_t) *)
Definition ds_col (d : dataset) (i : nat) : res column :=
  match nth_error (ds_cols d) i with Some c => Ok c | None => Throw DataErr end.
(** DataLoaderTypes.h:213-225 operator[](name) *)
Definition ds_find (d : dataset) (nm : str) : res column :=
  match find (fun c => streqb (c_name c) nm) (ds_cols d) with Some c => Ok c | None => Throw DataErr end.
(** DataLoaderTypes.h:228-233 HasColumn *)
Definition ds_has (d : dataset) (nm : str) : bool := existsb (fun c => streqb (c_name c) nm) (ds_cols d).
(** DataLoaderTypes.h:236-243 GetColumnNames *)
Definition ds_names (d : dataset) : list str := map c_name (ds_cols d).
(** DataLoaderTypes.h:247-260 GetRealColumn *)
Definition ds_real_column (d : dataset) (nm : str) : res (list D) :=
  c <- ds_find d nm ;;
  match c_type c with
  | REAL => Ok (c_real c)
  | INT => Ok (map (d_of_int N) (c_int c))
  | _ => Throw DataErr
  end.
(** DataLoaderTypes.h:263-268 GetIntColumn *)
Definition ds_int_column (d : dataset) (nm : str) : res (list Z) :=
  c <- ds_find d nm ;; match c_type c with INT => Ok (c_int c) | _ => Throw DataErr end.
(** DataLoaderTypes.h:271-279 GetStringColumn *)
Definition ds_string_column (d : dataset) (nm : str) : res (list str) :=
  c <- ds_find d nm ;;
  for_range 0 (ds_rows d) (fun result i => s <- col_string c i ;; Ok (result ++ [s])) [].
(** DataLoaderTypes.h:282-287 GetBoolColumn *)
Definition ds_bool_column (d : dataset) (nm : str) : res (list bool) :=
  c <- ds_find d nm ;; match c_type c with BOOL => Ok (c_bool c) | _ => Throw DataErr end.

(** DataLoaderTypes.h:506-526 RowsToString, in two parts: a line of tab-separated texts, and the rows [idx] *)
Definition tab_line (cells : list str) : str :=
  (match cells with [] => [] | x :: l => x ++ flat_map (fun s => L (String "009" EmptyString) ++ s) l end) ++ ["010"].
Definition row_strings (d : dataset) (r : nat) : res (list str) :=
  for_each (fun acc c => s <- col_string c r ;; Ok (acc ++ [s])) (ds_cols d) [].
Definition rows_to_string (d : dataset) (idx : list nat) : res str :=
  for_each (fun oss r => cells <- row_strings d r ;; Ok (oss ++ tab_line cells)) idx (tab_line (ds_names d)).
(** DataLoaderTypes.h:365-367 Head, 370-373 Tail *)
Definition ds_head (d : dataset) (n : nat) : res str := rows_to_string d (seq 0 (Nat.min n (ds_rows d))).
Definition ds_tail (d : dataset) (n : nat) : res str :=
  let start := if (n <? ds_rows d)%nat then ds_rows d - n else 0 in rows_to_string d (seq start (ds_rows d - start)).
(** DataLoaderTypes.h:376-395, the shuffle of Sample: unsigned int arithmetic is modulo 2^32 *)
Definition lcg (state : Z) : Z := ((state * 1103515245 + 12345) mod 4294967296)%Z.
Definition sample_indices (rows n : nat) (seed : Z) : res (list nat) :=
  ' (idx, _) <- for_range 0 n (fun '(idx, state) i =>
      let state := lcg state in
      let j := i + Z.to_nat (state mod Z.of_nat (rows - i))%Z in
      a <- vget idx i ;; b <- vget idx j ;;
      idx <- vset idx i b ;; idx <- vset idx j a ;;
      Ok (idx, state)) (seq 0 rows, seed) ;;
  Ok (firstn n idx).
(** DataLoaderTypes.h:376-412 Sample *)
Definition ds_sample (d : dataset) (n : nat) (seed : Z) : res str :=
  if (ds_rows d <=? n)%nat then rows_to_string d (seq 0 (ds_rows d))
  else idx <- sample_indices (ds_rows d) n seed ;; rows_to_string d idx.

(** DataLoaderTypes.h:417-487 FilterRows *)
Definition gather {A} (data : list A) (keep : list nat) : res (list A) :=
  for_each (fun acc i => x <- vget data i ;; Ok (acc ++ [x])) keep [].
Definition filter_col (keep : list nat) (c : column) : res column :=
  let mask := map (col_missing c) keep in
  match c_type c with
  | REAL => x <- gather (c_real c) keep ;; Ok (mkCol (c_name c) (c_type c) x [] [] [] [] [] mask)
  | INT => x <- gather (c_int c) keep ;; Ok (mkCol (c_name c) (c_type c) [] x [] [] [] [] mask)
  | BOOL => x <- gather (c_bool c) keep ;; Ok (mkCol (c_name c) (c_type c) [] [] x [] [] [] mask)
  | STRING => x <- gather (c_string c) keep ;; Ok (mkCol (c_name c) (c_type c) [] [] [] x [] [] mask)
  | DATE => x <- gather (c_date c) keep ;; Ok (mkCol (c_name c) (c_type c) [] [] [] [] x [] mask)
  | DATETIME => x <- gather (c_date c) keep ;; y <- gather (c_time c) keep ;; Ok (mkCol (c_name c) (c_type c) [] [] [] [] x y mask)
  | TIME => x <- gather (c_time c) keep ;; Ok (mkCol (c_name c) (c_type c) [] [] [] [] [] x mask)
  | MISSING => Ok (mkCol (c_name c) (c_type c) [] [] [] [] [] [] mask)
  end.
Definition ds_filter (d : dataset) (nm : str) (predicate : str -> bool) : res dataset :=
  fc <- ds_find d nm ;;
  keep <- for_range 0 (ds_rows d) (fun keep i => s <- col_string fc i ;; Ok (if predicate s then keep ++ [i] else keep)) [] ;;
  cols <- for_each (fun cols c => c' <- filter_col keep c ;; Ok (cols ++ [c'])) (ds_cols d) [] ;;
  Ok (mkData (ds_name d ++ L "_filtered") cols (length keep)).
(** DataLoaderTypes.h:490-501 SelectColumns *)
Definition ds_select (d : dataset) (names : list str) : res dataset :=
  cols <- for_each (fun cols nm => c <- ds_find d nm ;; Ok (cols ++ [c])) names [] ;;
  Ok (mkData (ds_name d ++ L "_selected") cols (ds_rows d)).

(** ** Loading CSV *)
(** std::getline until the end: the lines of a text *)
Fixpoint lines_from (line : str) (s : str) : list str :=
  match s with
  | [] => match line with [] => [] | _ => [line] end
  | c :: s' => if (c =? "010") then line :: lines_from [] s' else lines_from (line ++ [c]) s'
  end.
Definition lines (s : str) : list str := lines_from [] s.
(** line.pop_back() if it ends in '\r' (DataLoaderCSV.h:67-68, 303-304) *)
Definition chop_cr (line : str) : str := match rev line with c :: r => if (c =? "013") then rev r else line | [] => line end.
Definition is_empty {A} (l : list A) : bool := match l with [] => true | _ => false end.
(** DataLoaderCSV.h:301-306: skip blank lines, split the others *)
Definition split_lines (d : ascii) (ls : list str) : list (list str) :=
  map (fun line => SplitLine (chop_cr line) d) (filter (fun line => negb (is_empty (Trim line))) ls).

(** vector::resize *)
Definition vresize {A} (l : list A) (n : nat) (a : A) : list A := firstn n l ++ repeat a (n - length l).
(** DataLoaderCSV.h:82-91, 317-326 *)
Definition col_header (hasHeader : bool) (row0 : list str) (c : nat) : res str :=
  if hasHeader then
    f <- vget row0 c ;;
    let nm := Trim f in Ok (if is_empty nm then L "Column" ++ to_string (Z.of_nat c) else nm)
  else Ok (L "Column" ++ to_string (Z.of_nat c)).
(** DataLoaderCSV.h:128-155, 340-366: a column with its storage allocated *)
Definition alloc_col (nm : str) (t : ctype) (rows : nat) : column :=
  let mask := repeat false rows in
  match t with
  | REAL => mkCol nm t (repeat (d_zero N) rows) [] [] [] [] [] mask
  | INT => mkCol nm t [] (repeat 0%Z rows) [] [] [] [] mask
  | BOOL => mkCol nm t [] [] (repeat false rows) [] [] [] mask
  | STRING | DATE | TIME | MISSING => mkCol nm t [] [] [] (repeat [] rows) [] [] mask
  | DATETIME => mkCol nm t [] [] [] [] (repeat [] rows) (repeat [] rows) mask
  end.
(** strVal.find_first_of("T ") and the two substrings *)
Fixpoint split_T (pre s : str) : option (str * str) :=
  match s with [] => None | c :: s' => if (c =? "T") || (c =? " ") then Some (pre, s') else split_T (pre ++ [c]) s' end.
(** DataLoaderCSV.h:162-214, 373-424: storing the parse of one field *)
Definition set_cell (rows : nat) (col : column) (i : nat) (value : str) : res column :=
  let r := ParseValue value (c_type col) in
  mask <- vset (c_mask col) i (negb (parsed r)) ;;
  let sv := match r with PStr s => s | _ => [] end in
  match c_type col with
  | REAL => x <- vset (c_real col) i (match r with PReal v => v | _ => d_nan N end) ;;
            Ok (mkCol (c_name col) (c_type col) x (c_int col) (c_bool col) (c_string col) (c_date col) (c_time col) mask)
  | INT => x <- vset (c_int col) i (match r with PInt v => v | _ => 0%Z end) ;;
            Ok (mkCol (c_name col) (c_type col) (c_real col) x (c_bool col) (c_string col) (c_date col) (c_time col) mask)
  | BOOL => x <- vset (c_bool col) i (match r with PBool v => v | _ => false end) ;;
            Ok (mkCol (c_name col) (c_type col) (c_real col) (c_int col) x (c_string col) (c_date col) (c_time col) mask)
  | STRING | MISSING => x <- vset (c_string col) i sv ;;
            Ok (mkCol (c_name col) (c_type col) (c_real col) (c_int col) (c_bool col) x (c_date col) (c_time col) mask)
  | DATE => x <- vset (vresize (c_date col) rows []) i sv ;;
            Ok (mkCol (c_name col) (c_type col) (c_real col) (c_int col) (c_bool col) (c_string col) x (c_time col) mask)
  | TIME => x <- vset (vresize (c_time col) rows []) i sv ;;
            Ok (mkCol (c_name col) (c_type col) (c_real col) (c_int col) (c_bool col) (c_string col) (c_date col) x mask)
  | DATETIME =>
      if is_empty sv then Ok (mkCol (c_name col) (c_type col) (c_real col) (c_int col) (c_bool col) (c_string col) (c_date col) (c_time col) mask)
      else
        let '(dt, tm) := match split_T [] sv with Some p => p | None => (sv, []) end in
        x <- vset (c_date col) i dt ;; y <- vset (c_time col) i tm ;;
        Ok (mkCol (c_name col) (c_type col) (c_real col) (c_int col) (c_bool col) (c_string col) x y mask)
  end.
(** DataLoaderCSV.h:128-216, 337-426: fill the columns from the rows *)
Definition fill (cols : list column) (rows : list (list str)) : res (list column) :=
  for_range 0 (length rows) (fun cols r =>
    row <- vget rows r ;;
    for_range 0 (length cols) (fun cols c =>
      col <- vget cols c ;;
      let value := nth c row [] in
      col' <- set_cell (length rows) col r value ;;
      vset cols c col') cols) cols.

(** DataLoaderCSV.h:290-428 LoadFromCSVString *)
Definition LoadFromCSVString (content : str) (d : ascii) (hasHeader : bool) : res dataset :=
  let allData := split_lines d (lines (RemoveBOM content)) in
  match allData with
  | [] => Throw DataErr
  | row0 :: rest =>
    let rows := if hasHeader then rest else allData in
    cols <- for_range 0 (length row0) (fun cols c =>
        nm <- col_header hasHeader row0 c ;;
        (* rows too short for the column are skipped *)
        let values := flat_map (fun row => match nth_error row c with Some v => [v] | None => [] end) rows in
        Ok (cols ++ [alloc_col nm (InferColumnType values) (length rows)])) [] ;;
    cols <- fill cols rows ;;
    Ok (mkData [] cols (length rows))
  end.

(** DataLoaderCSV.h:43-218 LoadCSV on a file that opens; [content] is the file.  The result also carries what was
    appended to the warnings, as (row number, number of fields). *)
Definition LoadCSV (filename content : str) (hasHeader : bool) (d : ascii) (inferTypes strict warn : bool) : res (dataset * list (nat * nat)) :=
  let ls := match lines content with [] => [] | l :: ls => RemoveBOM l :: ls end in
  let allData := split_lines d ls in
  match allData with
  | [] => Throw DataErr
  | row0 :: rest =>
    let rows := if hasHeader then rest else allData in
    let start := if hasHeader then 1 else 0 in
    let numCols := length row0 in
    names <- for_range 0 numCols (fun acc c => nm <- col_header hasHeader row0 c ;; Ok (acc ++ [nm])) [] ;;
    warnings <- (if strict || warn then
      for_range start (length allData) (fun acc r =>
        row <- vget allData r ;;
        if (length row =? numCols)%nat then Ok acc
        else if strict then Throw DataErr
        else Ok (acc ++ [(S r, length row)])) []
      else Ok []) ;;
    cols <- for_range 0 numCols (fun cols c =>
        nm <- vget names c ;;
        (* rows too short for the column count as empty *)
        let t := if inferTypes then InferColumnType (map (fun row => nth c row []) rows) else STRING in
        Ok (cols ++ [alloc_col nm t (length rows)])) [] ;;
    cols <- fill cols rows ;;
    Ok (mkData filename cols (length rows), warnings)
  end.
(** DataLoaderCSV.h:233-236 LoadTSV *)
Definition LoadTSV (filename content : str) (hasHeader inferTypes : bool) := LoadCSV filename content hasHeader "009" inferTypes false false.
End Data.
Arguments mkCol {D}.
Arguments mkData {D}.
