(** * Model of intervals (mml/base/Intervals.h)

    [D] is the type of end points and points with its [<] operator; nmax and pmax are
    -numeric_limits<double>::max() and numeric_limits<double>::max().  [a == b] is "neither a < b nor b < a",
    [a <= b] is "not b < a".  The classes with recurring point holes are not modelled. *)

From Coq Require Import List Bool Arith ZArith Reals.
From Verif Require Import Base.
Import ListNotations.

(** Intervals.h:95-100 EndpointType *)
Inductive etype := OPEN | CLOSED | NEG_INF | POS_INF.
Definition is_closed (t : etype) : bool := match t with CLOSED => true | _ => false end.
Definition is_open (t : etype) : bool := match t with OPEN => true | _ => false end.

Section Intervals.
Context {D : Type} (ltb : D -> D -> bool) (nmax pmax : D).
Definition leb a b := negb (ltb b a).
Definition eqbD a b := negb (ltb a b) && negb (ltb b a).
(** std::max and std::min *)
Definition maxD a b := if ltb a b then b else a.
Definition minD a b := if ltb b a then b else a.

(** Intervals.h:121-140 BaseInterval and its subclasses (the dynamic class picks [contains]) *)
Inductive iclass := IComplete | IOpen | IOpenClosed | IClosed | IClosedOpen | INegInfOpen | INegInfClosed | IOpenInf | IClosedInf.
Record interval := mkI { i_class : iclass; i_lo : D; i_loT : etype; i_up : D; i_upT : etype }.

(** Intervals.h:213-431 the constructors *)
Definition CompleteR := mkI IComplete nmax NEG_INF pmax POS_INF.
Definition OpenI lo up := mkI IOpen lo OPEN up OPEN.
Definition OpenClosedI lo up := mkI IOpenClosed lo OPEN up CLOSED.
Definition ClosedI lo up := mkI IClosed lo CLOSED up CLOSED.
Definition ClosedOpenI lo up := mkI IClosedOpen lo CLOSED up OPEN.
Definition NegInfToOpen up := mkI INegInfOpen nmax NEG_INF up OPEN.
Definition NegInfToClosed up := mkI INegInfClosed nmax NEG_INF up CLOSED.
Definition OpenToInf lo := mkI IOpenInf lo OPEN pmax POS_INF.
Definition ClosedToInf lo := mkI IClosedInf lo CLOSED pmax POS_INF.

(** Intervals.h:221, 281, 297, 313, 363, 385, 400, 415, 430 contains *)
Definition i_contains (i : interval) (x : D) : bool :=
  match i_class i with
  | IComplete => true
  | IOpen => ltb (i_lo i) x && ltb x (i_up i)
  | IOpenClosed => ltb (i_lo i) x && leb x (i_up i)
  | IClosed => leb (i_lo i) x && leb x (i_up i)
  | IClosedOpen => leb (i_lo i) x && ltb x (i_up i)
  | INegInfOpen => ltb x (i_up i)
  | INegInfClosed => leb x (i_up i)
  | IOpenInf => ltb (i_lo i) x
  | IClosedInf => leb (i_lo i) x
  end.

(** the four-way choice of a bounded interval class from the end point types, repeated through
    Intervals.h:531-538, 583-590, 597-615, 649-656, 665-708 *)
Definition mk_bounded (lt ut : etype) (lo up : D) : interval :=
  if is_closed lt && is_closed ut then ClosedI lo up
  else if is_open lt && is_closed ut then OpenClosedI lo up
  else if is_closed lt && is_open ut then ClosedOpenI lo up
  else OpenI lo up.

(** Intervals.h:500-541 Interval::Intersection; an Interval is the list of its components *)
Definition i_intersection (a b : interval) : list interval :=
  let lower := maxD (i_lo a) (i_lo b) in
  let upper := minD (i_up a) (i_up b) in
  if ltb upper lower then []
  else
    let lowerType :=
      if eqbD lower (i_lo a) && eqbD lower (i_lo b)
      then if is_closed (i_loT a) && is_closed (i_loT b) then CLOSED else OPEN
      else if eqbD lower (i_lo a) then i_loT a else i_loT b in
    let upperType :=
      if eqbD upper (i_up a) && eqbD upper (i_up b)
      then if is_closed (i_upT a) && is_closed (i_upT b) then CLOSED else OPEN
      else if eqbD upper (i_up a) then i_upT a else i_upT b in
    [mk_bounded lowerType upperType lower upper].

(** Intervals.h:551-631 Interval::Union *)
Definition i_union (a b : interval) : list interval :=
  let overlapsOrAdjacent :=
    if ltb (i_lo b) (i_up a) && ltb (i_lo a) (i_up b) then true
    else if eqbD (i_up a) (i_lo b) then is_closed (i_upT a) || is_closed (i_loT b)
    else if eqbD (i_up b) (i_lo a) then is_closed (i_upT b) || is_closed (i_loT a)
    else false in
  if overlapsOrAdjacent then
    let lower := minD (i_lo a) (i_lo b) in
    let upper := maxD (i_up a) (i_up b) in
    let lowerType :=
      if eqbD lower (i_lo a) && eqbD lower (i_lo b)
      then if is_closed (i_loT a) || is_closed (i_loT b) then CLOSED else OPEN
      else if eqbD lower (i_lo a) then i_loT a else i_loT b in
    let upperType :=
      if eqbD upper (i_up a) && eqbD upper (i_up b)
      then if is_closed (i_upT a) || is_closed (i_upT b) then CLOSED else OPEN
      else if eqbD upper (i_up a) then i_upT a else i_upT b in
    [mk_bounded lowerType upperType lower upper]
  else
    let first := if ltb (i_lo a) (i_lo b) then a else b in
    let second := if ltb (i_lo a) (i_lo b) then b else a in
    [mk_bounded (i_loT first) (i_upT first) (i_lo first) (i_up first);
     mk_bounded (i_loT second) (i_upT second) (i_lo second) (i_up second)].

(** Intervals.h:642-713 Interval::Difference *)
Definition flip (t : etype) : etype := if is_closed t then OPEN else CLOSED.
Definition i_difference (a b : interval) : list interval :=
  if leb (i_up b) (i_lo a) || leb (i_up a) (i_lo b) then [mk_bounded (i_loT a) (i_upT a) (i_lo a) (i_up a)]
  else if leb (i_lo b) (i_lo a) && leb (i_up a) (i_up b) then []
  else if leb (i_lo b) (i_lo a) && ltb (i_up b) (i_up a) then [mk_bounded (flip (i_upT b)) (i_upT a) (i_up b) (i_up a)]
  else if ltb (i_lo a) (i_lo b) && leb (i_up a) (i_up b) then [mk_bounded (i_loT a) (flip (i_loT b)) (i_lo a) (i_lo b)]
  else [mk_bounded (i_loT a) (flip (i_loT b)) (i_lo a) (i_lo b); mk_bounded (flip (i_upT b)) (i_upT a) (i_up b) (i_up a)].

(** Intervals.h:722-746 Interval::Complement *)
Definition i_complement (a : interval) : list interval :=
  match i_loT a, i_upT a with
  | NEG_INF, POS_INF => []
  | _, _ =>
    (match i_loT a with NEG_INF => [] | CLOSED => [NegInfToOpen (i_lo a)] | _ => [NegInfToClosed (i_lo a)] end) ++
    (match i_upT a with POS_INF => [] | CLOSED => [OpenToInf (i_up a)] | _ => [ClosedToInf (i_up a)] end)
  end.

(** Intervals.h:791-798 contains(x): the first component that contains x *)
Fixpoint c_contains (l : list interval) (x : D) : bool :=
  match l with [] => false | i :: l' => if i_contains i x then true else c_contains l' x end.
(** Intervals.h:749-766 getLowerBound, getUpperBound of a composite *)
Definition c_lower (zero : D) (l : list interval) : D :=
  match l with [] => zero | i :: _ => fold_left (fun m i => minD m (i_lo i)) l (i_lo i) end.
Definition c_upper (zero : D) (l : list interval) : D :=
  match l with [] => zero | i :: _ => fold_left (fun m i => maxD m (i_up i)) l (i_up i) end.
(** Intervals.h:819-828 intersects *)
Definition c_intersects (l : list interval) (o : interval) : bool :=
  existsb (fun i => leb (i_lo i) (i_up o) && leb (i_lo o) (i_up i)) l.
End Intervals.

(** Intervals.h:166-197 BaseInterval::GetEquidistantCovering, over the reals *)
Definition i_covering (i : @interval R) (numPoints : Z) : list R :=
  if (numPoints <=? 0)%Z then []
  else
    let lower := match i_loT i with NEG_INF => (- 10 ^ 10)%R | _ => i_lo i end in
    let upper := match i_upT i with POS_INF => (10 ^ 10)%R | _ => i_up i end in
    if (numPoints =? 1)%Z then [((lower + upper) / 2)%R]
    else
      let delta := ((upper - lower) / IZR (numPoints - 1))%R in
      map (fun k : nat =>
        let x := (lower + INR k * delta)%R in
        let x := if Nat.eqb k 0 && is_open (i_loT i) then (x + delta * (1 / 1000))%R else x in
        if Nat.eqb k (Z.to_nat numPoints - 1) && is_open (i_upT i) then (x - delta * (1 / 1000))%R else x)
        (seq 0 (Z.to_nat numPoints)).
