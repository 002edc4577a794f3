(** * Model of the JSON loader

    /repo/mml/tools/data_loader/DataLoaderJSON.h.  The parser state (the text and the position) is the text from the
    position on.  columnOrder and columnData are one list of (name, values), in the order of columnOrder: the keys of
    columnData are exactly the names in columnOrder, each once. *)

From Coq Require Import Ascii String List Bool Arith ZArith.
From Verif Require Import Base Data_Model.
Import ListNotations.
Local Open Scope nat_scope.
Local Open Scope list_scope.
Local Open Scope char_scope.

(** DataLoaderJSON.h:42-44 SkipWhitespace *)
Fixpoint skip_ws (s : str) : str := match s with c :: s' => if isspace c then skip_ws s' else s | [] => [] end.
(** DataLoaderJSON.h:46-49 Peek: the character; the position moves to it *)
Definition peek (s : str) : ascii := match skip_ws s with c :: _ => c | [] => "000" end.
(** DataLoaderJSON.h:51-54 Get *)
Definition getc (s : str) : ascii * str := match skip_ws s with c :: s' => (c, s') | [] => ("000", []) end.

(** DataLoaderJSON.h:66-74, the escapes *)
Definition unescape (esc : ascii) : ascii :=
  if esc =? "n" then "010" else if esc =? "t" then "009" else if esc =? "r" then "013" else esc.
(** DataLoaderJSON.h:60-81, after the opening quote *)
Fixpoint string_body (result s : str) : res (str * str) :=
  match s with
  | [] => Throw DataErr
  | c :: s' =>
    if c =? """" then Ok (result, s')
    else if c =? "\" then
      match s' with
      | esc :: s'' => string_body (result ++ [unescape esc]) s''
      | [] => Throw DataErr (* the backslash is the last character: appended, and the string is unterminated *)
      end
    else string_body (result ++ [c]) s'
  end.
(** DataLoaderJSON.h:56-81 ParseString *)
Definition parse_string (s : str) : res (str * str) :=
  let (c, s) := getc s in if c =? """" then string_body [] s else Throw DataErr.

(** DataLoaderJSON.h:87-88 *)
Definition num_char (c : ascii) : bool :=
  isdigit c || (c =? ".") || (c =? "e") || (c =? "E") || (c =? "+") || (c =? "-").
Fixpoint take_num (acc s : str) : str * str :=
  match s with c :: s' => if num_char c then take_num (acc ++ [c]) s' else (acc, s) | [] => (acc, []) end.
(** DataLoaderJSON.h:83-92 ParseNumber; json[pos] at the end of the text is the terminating NUL *)
Definition parse_number (s : str) : str * str :=
  match skip_ws s with c :: s' => if c =? "-" then take_num [c] s' else take_num [] (c :: s') | [] => ([], []) end.
(** json.substr(pos, n) == word, and the text after it *)
Fixpoint strip_prefix (w s : str) : option str :=
  match w, s with [], _ => Some s | a :: w', c :: s' => if c =? a then strip_prefix w' s' else None | _ :: _, [] => None end.
(** DataLoaderJSON.h:94-105 ParseBool *)
Definition parse_bool (s : str) : res (bool * str) :=
  let s := skip_ws s in
  match strip_prefix (L "true") s with
  | Some s' => Ok (true, s')
  | None => match strip_prefix (L "false") s with Some s' => Ok (false, s') | None => Throw DataErr end
  end.
(** DataLoaderJSON.h:107-114 ParseNull *)
Definition parse_null (s : str) : res str :=
  match strip_prefix (L "null") (skip_ws s) with Some s' => Ok s' | None => Throw DataErr end.
(** DataLoaderJSON.h:116-125 PeekType and 158-175, the value as a string *)
Definition parse_value (s : str) : res (str * str) :=
  let c := peek s in
  if c =? """" then parse_string s
  else if c =? "[" then Throw DataErr
  else if c =? "{" then Throw DataErr
  else if (c =? "t") || (c =? "f") then ' (b, s) <- parse_bool s ;; Ok (if b : bool then L "true" else L "false", s)
  else if c =? "n" then s <- parse_null s ;; Ok ([], s)
  else if (c =? "-") || isdigit c then Ok (parse_number s)
  else Throw DataErr.

Definition cols_t := list (str * list str).
(** columnData[key].push_back(value) *)
Fixpoint push_value (cols : cols_t) (key value : str) : cols_t :=
  match cols with
  | [] => [(key, [value])]
  | (k, vs) :: cols' => if streqb k key then (k, vs ++ [value]) :: cols' else (k, vs) :: push_value cols' key value
  end.
(** DataLoaderJSON.h:145-178, the pairs of one object *)
Fixpoint parse_pairs (fuel : nat) (cols : cols_t) (s : str) : res (cols_t * str) :=
  match fuel with
  | 0 => NoFuel
  | S fuel =>
    if peek s =? "}" then Ok (cols, s)
    else
      let s := if peek s =? "," then snd (getc s) else s in
      ' (key, s) <- parse_string s ;;
      let (c, s) := getc s in
      if c =? ":" then
        ' (value, s) <- parse_value s ;;
        parse_pairs fuel (push_value cols key value) s
      else Throw DataErr
  end.
(** DataLoaderJSON.h:183-191 *)
Definition max_rows (cols : cols_t) : nat := fold_left (fun m c => Nat.max m (length (snd c))) cols 0.
Definition pad (cols : cols_t) : cols_t := let m := max_rows cols in map (fun '(k, vs) => (k, vs ++ repeat [] (m - length vs))) cols.
(** DataLoaderJSON.h:138-192, the objects *)
Fixpoint parse_objects (fuel : nat) (cols : cols_t) (s : str) : res (cols_t * str) :=
  match fuel with
  | 0 => NoFuel
  | S fuel' =>
    if peek s =? "]" then Ok (cols, s)
    else
      let s := if peek s =? "," then snd (getc s) else s in
      let (c, s) := getc s in
      if c =? "{" then
        ' (cols, s) <- parse_pairs fuel cols s ;;
        let (c, s) := getc s in
        if c =? "}" then parse_objects fuel' (pad cols) s else Throw DataErr
      else Throw DataErr
  end.

Section D.
Context {D : Type} (N : dnum D).
Notation column := (@column D).
Notation dataset := (@dataset D).

(** DataLoaderJSON.h:203-206 and the allocations of 219-262, made when the first value is stored *)
Definition json_alloc (nm : str) (t : ctype) (rowCount n : nat) : column :=
  let mask := repeat false rowCount in
  match t with
  | REAL => mkCol nm t (repeat (d_zero N) n) [] [] [] [] [] mask
  | INT => mkCol nm t [] (repeat 0%Z n) [] [] [] [] mask
  | BOOL => mkCol nm t [] [] (repeat false n) [] [] [] mask
  | STRING | MISSING => mkCol nm t [] [] [] (repeat [] n) [] [] mask
  | DATE | TIME => mkCol nm t [] [] [] [] [] [] mask (* resized by [set_cell] *)
  | DATETIME => mkCol nm t [] [] [] [] (repeat [] n) (repeat [] n) mask
  end.
(** DataLoaderJSON.h:202-268, one column; storing a parsed value is as in the CSV loader ([set_cell]) *)
Definition json_column (rowCount : nat) (nm : str) (values : list str) : res column :=
  let col := json_alloc nm (InferColumnType values) rowCount (length values) in
  for_range 0 (length values) (fun col i => v <- vget values i ;; set_cell N (length values) col i v) col.
(** DataLoaderJSON.h:128-274 ParseArrayOfObjects *)
Definition parse_array (fuel : nat) (s : str) : res dataset :=
  let (c, s) := getc s in
  if c =? "[" then
    ' (cols, s) <- parse_objects fuel [] s ;;
    let (c, s) := getc s in
    if c =? "]" then
      match cols with
      | [] => Ok (mkData [] [] 0)
      | (_, vs0) :: _ =>
        columns <- for_each (fun acc '(nm, vs) => col <- json_column (length vs0) nm vs ;; Ok (acc ++ [col])) cols [] ;;
        Ok (mkData [] columns (length vs0))
      end
    else Throw DataErr
  else Throw DataErr.
(** DataLoaderJSON.h:281-298 LoadJSON on a file that opens *)
Definition LoadJSON (fuel : nat) (filename content : str) : res dataset :=
  d <- parse_array fuel (RemoveBOM content) ;;
  Ok (mkData filename (ds_cols d) (ds_rows d)).
End D.
