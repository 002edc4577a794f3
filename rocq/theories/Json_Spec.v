(** * C25: JSON texts *)

From Coq Require Import Ascii String List Bool Arith ZArith.
From Verif Require Import Data_Model.
Import ListNotations.
Local Open Scope nat_scope.
Local Open Scope list_scope.
Local Open Scope char_scope.

(** flat values and objects *)
Inductive jval := JString (v : str) | JNumber (t : str) | JBool (b : bool) | JNull.
Definition jobj := list (str * jval).

Definition ws (s : str) : Prop := Forall (fun c => isspace c = true) s.
(** the characters between the quotes, for a string value; \uXXXX, \b and \f are not here: see C25_unicode_refuted *)
Inductive body_text : str -> str -> Prop :=
| body_nil : body_text [] []
| body_plain : forall c v t, c <> """" -> c <> "\" -> body_text v t -> body_text (c :: v) (c :: t)
| body_escape : forall e c v t, In (e, c) [("""", """"); ("\", "\"); ("/", "/"); ("n", "010"); ("t", "009"); ("r", "013")] ->
    body_text v t -> body_text (c :: v) ("\" :: e :: t).
Definition string_text (v t : str) : Prop := exists b, t = """" :: b ++ [""""] /\ body_text v b.
(** -? digits (. digits)? ([eE] [+-]? digits)? *)
Definition digits (t : str) : Prop := t <> [] /\ Forall (fun c => isdigit c = true) t.
Definition number_text (t : str) : Prop :=
  exists s i f e, t = s ++ i ++ f ++ e /\ (s = [] \/ s = ["-"]) /\ digits i /\
    (f = [] \/ exists d, f = "." :: d /\ digits d) /\
    (e = [] \/ exists x s' d, e = x :: s' ++ d /\ (x = "e" \/ x = "E") /\ (s' = [] \/ s' = ["+"] \/ s' = ["-"]) /\ digits d).
Definition value_text (v : jval) (t : str) : Prop :=
  match v with
  | JString v => string_text v t
  | JNumber n => t = n /\ number_text n
  | JBool b => t = if b then L "true" else L "false"
  | JNull => t = L "null"
  end.
Definition pair_text (p : str * jval) (t : str) : Prop :=
  exists tk w1 w2 tv, t = tk ++ w1 ++ ":" :: w2 ++ tv /\ string_text (fst p) tk /\ ws w1 /\ ws w2 /\ value_text (snd p) tv.
(** items separated by commas, with white space anywhere between *)
Inductive more_text {A} (item : A -> str -> Prop) : list A -> str -> Prop :=
| more_nil : forall w, ws w -> more_text item [] w
| more_cons : forall w w' x t l r, ws w -> ws w' -> item x t -> more_text item l r -> more_text item (x :: l) (w ++ "," :: w' ++ t ++ r).
Inductive items_text {A} (item : A -> str -> Prop) : list A -> str -> Prop :=
| items_nil : forall w, ws w -> items_text item [] w
| items_cons : forall w x t l r, ws w -> item x t -> more_text item l r -> items_text item (x :: l) (w ++ t ++ r).
Definition object_text (o : jobj) (t : str) : Prop := exists b, t = "{" :: b ++ ["}"] /\ items_text pair_text o b.
Definition json_text (objs : list jobj) (t : str) : Prop := exists w b, t = w ++ "[" :: b ++ ["]"] /\ ws w /\ items_text object_text objs b.

(** what a value is as the text of a table cell *)
Definition cell (v : jval) : str :=
  match v with JString v => v | JNumber t => t | JBool b => if b then L "true" else L "false" | JNull => [] end.
Fixpoint lookup (k : str) (o : jobj) : option jval :=
  match o with [] => None | (k', v) :: o' => if list_eq_dec ascii_dec k' k then Some v else lookup k o' end.
(** the cell of key [k] in the row of object [o]: empty, that is missing, if the object has no such key *)
Definition cell_of (k : str) (o : jobj) : str := match lookup k o with Some v => cell v | None => [] end.
Definition keys (o : jobj) : list str := map fst o.
(** objects that make a table: none empty, no key twice, and every key is in the first object *)
Definition table (objs : list jobj) : Prop :=
  Forall (fun o => o <> [] /\ NoDup (keys o) /\ incl (keys o) (keys (hd [] objs))) objs.
