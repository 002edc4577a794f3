(** * What is claimed of the planar geometry, over the real numbers

    A point is a pair of reals, a polygon the list of its vertices; the edges run from each vertex to the next and
    from the last to the first. *)
From Coq Require Import List Bool Arith Reals.
Import ListNotations.
Local Open Scope R_scope.

Notation rpt := (R * R)%type.

(** twice the signed area of the triangle a b c: positive iff c is to the left of the line from a to b *)
Definition orient (a b c : rpt) : R := (fst b - fst a) * (snd c - snd a) - (snd b - snd a) * (fst c - fst a).

(** vertex number i and the one after it *)
Definition vertex (h : list rpt) (i : nat) : rpt := nth i h (0, 0).
Definition after (h : list rpt) (i : nat) : rpt := vertex h ((i + 1) mod length h).

(** every vertex that is not an end of an edge is strictly to the left of it *)
Definition strictly_convex_ccw (h : list rpt) : Prop :=
  forall i j, (i < length h)%nat -> (j < length h)%nat -> j <> i -> j <> ((i + 1) mod length h)%nat -> 0 < orient (vertex h i) (after h i) (vertex h j).

(** the point is to the left of or on every edge *)
Definition left_of_edges (h : list rpt) (q : rpt) : Prop := forall i, (i < length h)%nat -> 0 <= orient (vertex h i) (after h i) q.

(** the point is a convex combination of vertices (three suffice in the plane) *)
Definition in_hull (h : list rpt) (q : rpt) : Prop :=
  exists a b c u v w, In a h /\ In b h /\ In c h /\ 0 <= u /\ 0 <= v /\ 0 <= w /\ u + v + w = 1 /\
    q = (u * fst a + v * fst b + w * fst c, u * snd a + v * snd b + w * snd c).

(** the tolerance [eps] separates: distinct points differ by at least eps in a coordinate, and no three points
    have an area in (0, eps] *)
Definition resolved (eps : R) (pts : list rpt) : Prop :=
  0 < eps /\
  (forall a b, In a pts -> In b pts -> a <> b -> eps <= Rabs (fst a - fst b) \/ eps <= Rabs (snd a - snd b)) /\
  (forall a b c, In a pts -> In b pts -> In c pts -> orient a b c <= 0 \/ eps < orient a b c).

(** an affine functional: non-negative on a half-plane *)
Definition affine (al be ga : R) (p : rpt) : R := al * fst p + be * snd p + ga.

(** the region of a polygon: the smallest convex set that contains its vertices *)
Definition between (a b : rpt) (t : R) : rpt := (fst a + t * (fst b - fst a), snd a + t * (snd b - snd a)).
Inductive region (h : list rpt) : rpt -> Prop :=
| region_vertex : forall v, In v h -> region h v
| region_segment : forall a b t, region h a -> region h b -> 0 <= t <= 1 -> region h (between a b t).

(** convex and counter-clockwise, repeated and aligned vertices allowed *)
Definition convex_ccw (h : list rpt) : Prop := forall v, In v h -> left_of_edges h v.
(** on the closed segment *)
Definition on_segment (a b p : rpt) : Prop := exists t, 0 <= t <= 1 /\ p = between a b t.
