(** * Model of mml/base/Graph.h: the graph data structure

    [size_t] values are natural numbers (wrap-around at 2^64 is modelled only where the code
    subtracts: see [create_path]); vertex payloads have type [V], edge weights type [E]. *)

From Coq Require Import List Arith Bool.
From Verif Require Import Base Graph_Spec.
Import ListNotations.

Open Scope st_scope.
Section GraphModel.
Context {V E : Type}.

(** Graph.h:98-106 [struct Edge] and Graph.h:144-148, the data members of [class Graph].
    [g_directed = true] is [Type::Directed]. *)
Record edge := mkEdge { e_to : nat; e_w : E }.

Record graph := mkGraph {
  g_directed : bool;              (* _type *)
  g_vdata    : list V;            (* _vertexData *)
  g_adj      : list (list edge);  (* _adjList *)
  g_nedges   : nat;               (* _numEdges *)
  g_loops    : bool               (* _allowSelfLoops *)
}.

(** Graph.h:156-158  Graph(Type, bool) *)
Definition graph_empty (directed loops : bool) : graph :=
  mkGraph directed [] [] 0 loops.

(** Graph.h:161-168  Graph(size_t, Type, bool); [conv] is [static_cast<V>] from an index. *)
Definition graph_sized (conv : nat -> V) (n : nat) (directed loops : bool) : graph :=
  mkGraph directed (map conv (seq 0 n)) (repeat [] n) 0 loops.

(** Graph.h:175-181  addVertex: returns the new graph and the vertex index. *)
Definition addVertex (g : graph) (data : V) : graph * nat :=
  (mkGraph (g_directed g) (g_vdata g ++ [data]) (g_adj g ++ [[]]) (g_nedges g) (g_loops g),
   length (g_vdata g)).

(** Graph.h:184-197  vertexData *)
Definition vertexData (g : graph) (v : nat) : res V :=
  if length (g_vdata g) <=? v then Throw OutOfRange else vget (g_vdata g) v.

(** Graph.h:200  numVertices *)
Definition numVertices (g : graph) : nat := length (g_vdata g).

(** Graph.h:216-221, 239-243: scan of one adjacency list for a target. *)
Definition scan_to (l : list edge) (v : nat) : bool :=
  existsb (fun e => Nat.eqb (e_to e) v) l.

Definition set_adj (adj : list (list edge)) (g : graph) : graph :=
  mkGraph (g_directed g) (g_vdata g) adj (g_nedges g) (g_loops g).
Definition set_nedges (n : nat) (g : graph) : graph :=
  mkGraph (g_directed g) (g_vdata g) (g_adj g) n (g_loops g).

(** [_adjList[u].push_back(Edge(v,w))] *)
Definition push_edge (u v : nat) (w : E) : ST graph unit :=
  l <-- slift (fun g => vget (g_adj g) u) ;;
  adj <-- slift (fun g => vset (g_adj g) u (l ++ [mkEdge v w])) ;;
  swrite (set_adj adj).

(** Graph.h:208-231  addEdge *)
Definition addEdge (from to : nat) (w : E) : ST graph unit := fun g =>
  (if (length (g_vdata g) <=? from) || (length (g_vdata g) <=? to) then sthrow OutOfRange
   else if negb (g_loops g) && Nat.eqb from to then sthrow InvalidArgument
   else
     l <-- slift (fun g => vget (g_adj g) from) ;;
     if scan_to l to then sthrow InvalidArgument
     else
       _ <-- push_edge from to w ;;
       _ <-- swrite (fun g => set_nedges (S (g_nedges g)) g) ;;
       if negb (g_directed g) && negb (Nat.eqb from to)
       then push_edge to from w
       else sret tt) g.

(** Graph.h:234-245  hasEdge *)
Definition hasEdge (g : graph) (from to : nat) : res bool :=
  if (length (g_vdata g) <=? from) || (length (g_vdata g) <=? to) then Ok false
  else l <- vget (g_adj g) from ;; Ok (scan_to l to).

(** first edge to [v], as in the loops of Graph.h:253-257 and the find_if of Graph.h:271-272 *)
Definition find_to (l : list edge) (v : nat) : option edge :=
  find (fun e => Nat.eqb (e_to e) v) l.

(** Graph.h:248-259  edgeWeight *)
Definition edgeWeight (g : graph) (from to : nat) : res E :=
  if (length (g_vdata g) <=? from) || (length (g_vdata g) <=? to) then Throw OutOfRange
  else
    l <- vget (g_adj g) from ;;
    match find_to l to with
    | Some e => Ok (e_w e)
    | None => Throw InvalidArgument
    end.

(** Graph.h:262  numEdges *)
Definition numEdges (g : graph) : nat := g_nedges g.

(** Graph.h:271-277: find_if followed by erase of the first match. *)
Fixpoint erase_to (l : list edge) (v : nat) : list edge :=
  match l with
  | [] => []
  | e :: l' => if Nat.eqb (e_to e) v then l' else e :: erase_to l' v
  end.

(** [--_numEdges] on size_t.  Simplification: wrapping below zero is reported as [UB]
    (in C++ it would silently become 2^64-1); the invariant shows that it never happens. *)
Definition size_dec (n : nat) : res nat :=
  match n with 0 => UB | S k => Ok k end.

(** [erase] of the first edge to [v] in [_adjList[u]] *)
Definition erase_edge (u v : nat) : ST graph unit :=
  l <-- slift (fun g => vget (g_adj g) u) ;;
  adj <-- slift (fun g => vset (g_adj g) u (erase_to l v)) ;;
  swrite (set_adj adj).

(** Graph.h:265-290  removeEdge (the value is the returned bool) *)
Definition removeEdge (from to : nat) : ST graph bool := fun g =>
  (if (length (g_vdata g) <=? from) || (length (g_vdata g) <=? to) then sret false
   else
     l <-- slift (fun g => vget (g_adj g) from) ;;
     if negb (scan_to l to) then sret false
     else
       _ <-- erase_edge from to ;;
       cnt <-- slift (fun g => size_dec (g_nedges g)) ;;
       _ <-- swrite (set_nedges cnt) ;;
       if negb (g_directed g) && negb (Nat.eqb from to)
       then _ <-- erase_edge to from ;; sret true
       else sret true) g.

(** Graph.h:297-302  neighbors *)
Definition neighbors (g : graph) (v : nat) : res (list edge) :=
  if length (g_adj g) <=? v then Throw OutOfRange else vget (g_adj g) v.

(** Graph.h:305-313  degree, outDegree *)
Definition degree (g : graph) (v : nat) : res nat :=
  if length (g_adj g) <=? v then Throw OutOfRange
  else l <- vget (g_adj g) v ;; Ok (length l).

(** Graph.h:316-334  inDegree *)
Definition inDegree (g : graph) (v : nat) : res nat :=
  if length (g_adj g) <=? v then Throw OutOfRange
  else if negb (g_directed g) then degree g v
  else
    for_each (fun c l => for_each (fun c e => Ok (if Nat.eqb (e_to e) v then S c else c)) l c)
             (g_adj g) 0.

(** Graph.h:494-499  clear *)
Definition clear (g : graph) : graph :=
  mkGraph (g_directed g) [] [] 0 (g_loops g).

(** One mutator call by a client that catches exceptions and goes on using the object. *)
Definition exec_op (g : graph) (o : op V E) : res graph :=
  match o with
  | OpAddVertex d => Ok (fst (addVertex g d))
  | OpAddEdge u v w => run_catch (addEdge u v w) g
  | OpRemoveEdge u v => run_catch (removeEdge u v) g
  | OpClear => Ok (clear g)
  end.

Definition exec_ops (g : graph) (ops : list (op V E)) : res graph := for_each exec_op ops g.

End GraphModel.
Arguments edge E : clear implicits.
Arguments graph V E : clear implicits.

(** ** Factories (Graph.h:533-595), with [V] obtained by [conv] and [E{1}] = [one] *)
Section Factories.
Context {V E : Type} (conv : nat -> V) (one : E).

(** Graph.h:535-541  createPathGraph.  [n - 1] is size_t arithmetic: for n = 0 the bound is
    2^64-1, so the loop body runs at i = 0 and addEdge throws; modelled by letting the loop start. *)
Definition create_path_edges (g : graph V E) (n : nat) : res (graph V E) :=
  match n with
  | 0 => run (addEdge 0 1 one) g          (* first iteration of the wrapped loop; it throws *)
  | S k => for_range 0 k (fun g i => run (addEdge i (i + 1) one) g) g
  end.

Definition create_path (n : nat) : res (graph V E) :=
  create_path_edges (graph_sized conv n false false) n.

(** Graph.h:545-553  createCycleGraph *)
Definition create_cycle (n : nat) : res (graph V E) :=
  g <- create_path_edges (graph_sized conv n false false) n ;;
  if 2 <? n then run (addEdge (n - 1) 0 one) g else Ok g.

(** Graph.h:557-564  createCompleteGraph *)
Definition create_complete (n : nat) : res (graph V E) :=
  for_range 0 n (fun g i => for_range (i + 1) n (fun g j => run (addEdge i j one) g) g)
            (graph_sized conv n false false).

(** Graph.h:568-574  createStarGraph *)
Definition create_star (n : nat) : res (graph V E) :=
  for_range 1 n (fun g i => run (addEdge 0 i one) g) (graph_sized conv n false false).

(** Graph.h:578-595  createGridGraph *)
Definition create_grid (rows cols : nat) : res (graph V E) :=
  let idx r c := r * cols + c in
  for_range 0 rows (fun g r =>
    for_range 0 cols (fun g c =>
      g1 <- (if c + 1 <? cols then run (addEdge (idx r c) (idx r (c + 1)) one) g else Ok g) ;;
      (if r + 1 <? rows then run (addEdge (idx r c) (idx (r + 1) c) one) g1 else Ok g1)) g)
    (graph_sized conv (rows * cols) false false).

End Factories.
