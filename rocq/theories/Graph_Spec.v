(** * Specification of the graph container and of graph-theoretic notions

    Nothing here refers to adjacency lists or to any function of the model. *)

From Coq Require Import List Arith Bool.
Import ListNotations.

(** ** Abstract graphs: a number of vertices and a partial map from ordered pairs to weights *)
Record agraph (E : Type) := mkA { a_n : nat; a_edge : nat -> nat -> option E }.
Arguments mkA {E} _ _.
Arguments a_n {E} _.
Arguments a_edge {E} _ _ _.

Definition set1 {E} (m : nat -> nat -> option E) (u v : nat) (x : option E) :=
  fun a b => if Nat.eqb a u && Nat.eqb b v then x else m a b.

(** set an edge; in an undirected graph in both directions *)
Definition set_edge {E} (directed : bool) (m : nat -> nat -> option E) u v x :=
  if directed then set1 m u v x else set1 (set1 m u v x) v u x.

Definition a_addVertex {E} (a : agraph E) : agraph E := mkA (S (a_n a)) (a_edge a).

(** the circumstances under which adding an edge is legal *)
Definition can_add {E} (loops : bool) (a : agraph E) (u v : nat) : Prop :=
  u < a_n a /\ v < a_n a /\ (u = v -> loops = true) /\ a_edge a u v = None.

Definition a_clear {E} : agraph E := mkA 0 (fun _ _ => None).

(** number of edges; for undirected graphs a pair {u,v} counts once *)
Definition isSome {A} (o : option A) : bool := match o with Some _ => true | None => false end.

Definition edge_count {E} (directed : bool) (a : agraph E) : nat :=
  length (filter (fun p => (directed || (fst p <=? snd p)) && isSome (a_edge a (fst p) (snd p)))
                 (list_prod (seq 0 (a_n a)) (seq 0 (a_n a)))).

(** Mutator calls as data, to speak about call histories: addVertex(data), addEdge(from,to,w),
    removeEdge(from,to), clear(). *)
Inductive op (V E : Type) :=
| OpAddVertex (data : V)
| OpAddEdge (from to : nat) (w : E)
| OpRemoveEdge (from to : nat)
| OpClear.
Arguments OpAddVertex {V E} _.
Arguments OpAddEdge {V E} _ _ _.
Arguments OpRemoveEdge {V E} _ _.
Arguments OpClear {V E}.

(** What each call does to the edge map; illegal calls do nothing. *)
Inductive spec_op {V E} (directed loops : bool) : agraph E -> op V E -> agraph E -> Prop :=
| s_addV : forall a d, spec_op directed loops a (OpAddVertex d) (a_addVertex a)
| s_addE : forall a u v w, can_add loops a u v ->
    spec_op directed loops a (OpAddEdge u v w)
            (mkA (a_n a) (set_edge directed (a_edge a) u v (Some w)))
| s_addE_rejected : forall a u v w, ~ can_add loops a u v ->
    spec_op directed loops a (OpAddEdge u v w) a
| s_rem : forall a u v,
    spec_op directed loops a (OpRemoveEdge u v)
            (mkA (a_n a) (set_edge directed (a_edge a) u v None))
| s_clear : forall a, spec_op directed loops a OpClear a_clear.

Inductive spec_ops {V E} (directed loops : bool) : agraph E -> list (op V E) -> agraph E -> Prop :=
| s_nil : forall a, spec_ops directed loops a [] a
| s_cons : forall a o b ops c, spec_op directed loops a o b -> spec_ops directed loops b ops c ->
    spec_ops directed loops a (o :: ops) c.

(** ** Walks, over an arbitrary edge relation [edge u w v] (edge from u to v of weight w) *)
Section Walks.
Context {W : Type}.
Variable edge : nat -> W -> nat -> Prop.

(** [walk u ws v]: a walk from u to v whose successive edge weights are [ws] *)
Inductive walk : nat -> list W -> nat -> Prop :=
| walk_nil : forall u, walk u [] u
| walk_cons : forall u w v ws t, edge u w v -> walk v ws t -> walk u (w :: ws) t.

Definition reachable (u v : nat) : Prop := exists ws, walk u ws v.

(** [vwalk p]: [p] is a non-empty list of vertices, consecutive ones joined by an edge *)
Inductive vwalk : list nat -> list W -> Prop :=
| vwalk_one : forall u, vwalk [u] []
| vwalk_cons : forall u w v p ws, edge u w v -> vwalk (v :: p) ws -> vwalk (u :: v :: p) (w :: ws).

(** least number of edges of a walk from u to v *)
Definition hop_dist (u v : nat) (d : nat) : Prop :=
  (exists ws, walk u ws v /\ length ws = d) /\ (forall ws, walk u ws v -> d <= length ws).

End Walks.
