(** * Model of planar geometry: convex hull and polygon clipping
      (mml/algorithms/CompGeometry/ConvexHull.h, PolygonOps.h)

    Exact arithmetic [arith T]; a point is a pair; a polygon is its list of vertices.  [eps] is
    Constants::GEOMETRY_EPSILON. *)

From Coq Require Import List Bool Arith ZArith.
From Verif Require Import Base Num RootFind_Model.
Import ListNotations.

Section Geom.
Context {T : Type} (A : arith T) (eps : T).
Local Notation "a + b" := (nadd (aops A) a b).
Local Notation "a - b" := (nsub (aops A) a b).
Local Notation "a * b" := (nmul (aops A) a b).
Local Notation "a / b" := (ndiv (aops A) a b).
Local Notation "- a" := (nopp (aops A) a).
Local Notation "a <? b" := (altb A a b).
Local Notation "a <=? b" := (negb (altb A b a)).
Local Notation pt := (T * T)%type.

(** ConvexHull.h:32-34, PolygonOps.h:265-267 Cross *)
Definition cross (o a b : pt) : T := (fst a - fst o) * (snd b - snd o) - (snd a - snd o) * (fst b - fst o).

(** ConvexHull.h:60-63 the comparator: lexicographic.  Equivalent points are equal, so std::sort has one possible
    result; it is modelled by insertion sort. *)
Definition lex_lt (a b : pt) : bool := (fst a <? fst b) || (aeqb A (fst a) (fst b) && (snd a <? snd b)).
Fixpoint pinsert (x : pt) (l : list pt) : list pt := match l with [] => [x] | y :: l' => if lex_lt y x then y :: pinsert x l' else x :: l end.
Definition psort (l : list pt) : list pt := fold_right pinsert [] l.

(** ConvexHull.h:66-69 std::unique with a tolerance: a point is dropped if it is near the last one kept *)
Definition near (a b : pt) : bool := (aabs A (fst a - fst b) <? eps) && (aabs A (snd a - snd b) <? eps).
Fixpoint puniq_from (last : pt) (l : list pt) : list pt :=
  match l with [] => [] | x :: l' => if near last x then puniq_from last l' else x :: puniq_from x l' end.
Definition puniq (l : list pt) : list pt := match l with [] => [] | x :: l' => x :: puniq_from x l' end.

(** ConvexHull.h:80-84, 88-92 one point of a chain: pop while the turn is not to the left, then push.  The array
    hull[0..k) is the list [st] with hull[k-1] first; its size 2n is never reached (C42_hull_size). *)
Fixpoint pop_while (lowest : nat) (p : pt) (st : list pt) : list pt :=
  match st with
  | b :: ((a :: _) as st1) => if (lowest <=? length st)%nat && (cross a b p <=? eps) then pop_while lowest p st1 else st
  | _ => st
  end.
Definition chain_step (lowest : nat) (st : list pt) (p : pt) : list pt := p :: pop_while lowest p st.

(** ConvexHull.h:77-98 the two chains over the sorted points *)
Definition hull_stack (pts : list pt) : list pt :=
  let lower := fold_left (chain_step 2) pts [] in
  fold_left (chain_step (S (length lower))) (rev (firstn (length pts - 1) pts)) lower.
Definition chains (pts : list pt) : list pt := rev (tl (hull_stack pts)).

(** ConvexHull.h:48-98 ConvexHull2D::Compute *)
Definition convex_hull (points : list pt) : list pt :=
  if (length points <? 3)%nat then points
  else
    let ps := puniq (psort points) in
    if (length ps <? 3)%nat then ps else chains ps.

(** PolygonOps.h:272-299 IntersectSegmentWithLine; std::min/max *)
Definition amin (a b : T) : T := if b <? a then b else a.
Definition amax (a b : T) : T := if a <? b then b else a.
Definition seg_line (p1 p2 l1 l2 : pt) : option pt :=
  let dx := fst p2 - fst p1 in let dy := snd p2 - snd p1 in
  let lx := fst l2 - fst l1 in let ly := snd l2 - snd l1 in
  let denom := dx * ly - dy * lx in
  if aabs A denom <? eps then None
  else
    let t := ((fst l1 - fst p1) * ly - (snd l1 - snd p1) * lx) / denom in
    if (t <? - eps) || (alit A 1 + eps <? t) then None
    else
      let t := amax (alit A 0) (amin (alit A 1) t) in
      Some (fst p1 + t * dx, snd p1 + t * dy).

(** PolygonOps.h:302-337 ClipAgainstEdge; [next] of the last vertex is the first *)
Definition clip_inside (s e p : pt) : bool := - eps <=? cross s e p.
Definition clip_one (s e current next : pt) : list pt :=
  let ci := clip_inside s e current in let ni := clip_inside s e next in
  let cut := match seg_line current next s e with Some q => [q] | None => [] end in
  if ci then current :: (if ni then [] else cut) else if ni then cut else [].
Definition clip_edge (s e : pt) (poly : list pt) : list pt :=
  match poly with
  | [] => []
  | p0 :: tl => flat_map (fun cn => clip_one s e (fst cn) (snd cn)) (combine poly (tl ++ [p0]))
  end.
(** PolygonOps.h:45-63 ClipPolygon *)
Definition edges (poly : list pt) : list (pt * pt) := match poly with [] => [] | p0 :: tl => combine poly (tl ++ [p0]) end.
Definition clip_polygon (subject clip : list pt) : list pt :=
  if ((length subject <? 3) || (length clip <? 3))%nat then []
  else
    let output := fold_left (fun out e => match out with [] => [] | _ => clip_edge (fst e) (snd e) out end) (edges clip) subject in
    if (3 <=? length output)%nat then output else [].
(** PolygonOps.h:73-82 ClipToRect *)
Definition clip_to_rect (subject : list pt) (minX minY maxX maxY : T) : list pt :=
  clip_polygon subject [(minX, minY); (maxX, minY); (maxX, maxY); (minX, maxY)].
(** PolygonOps.h:187-213 PolygonUnionApprox: both branches return the hull *)
Definition polygon_union (a b : list pt) : list (list pt) :=
  let h := convex_hull (a ++ b) in if (3 <=? length h)%nat then [h] else [].
End Geom.
