(** * Model of mml/algorithms/GraphAlgorithms.h

    [GRAPH_NOT_FOUND] (Graph.h:32) in parent arrays is [None].  Hop distances of BFS/DFS are
    [option nat] with [None] = infinity (in C++ they are doubles holding small integers, exact up to
    2^53).  Weighted distances have an abstract type with the operations the code uses, see [DistOps].
    Loops over queues/stacks/priority queues carry fuel. *)

From Coq Require Import List Arith Bool.
From Verif Require Import Base Graph_Spec Graph_Model.
Import ListNotations.

(** ** Traversals *)

(** Graph.h:51-59 [struct TraversalResult] *)
Record traversal (D : Type) := mkTrav {
  t_order  : list nat;          (* visitOrder *)
  t_parent : list (option nat); (* parent *)
  t_dist   : list D;            (* distance *)
  t_count  : nat                (* nodesVisited *)
}.
Arguments mkTrav {D} _ _ _ _.
Arguments t_order {D} _.
Arguments t_parent {D} _.
Arguments t_dist {D} _.
Arguments t_count {D} _.

Definition empty_trav {D} : traversal D := mkTrav [] [] [] 0.

(** Graph.h:39-48 [struct PathResult] without the diagnostics string *)
Record path_result (D : Type) := mkPath {
  p_found : bool; p_path : list nat; p_weight : D; p_explored : nat }.
Arguments mkPath {D} _ _ _ _.
Arguments p_found {D} _.
Arguments p_path {D} _.
Arguments p_weight {D} _.
Arguments p_explored {D} _.

(** hop distance + 1 with infinity *)
Definition hop_succ (d : option nat) : option nat := option_map S d.

Section Traversals.
Context {V E : Type}.
Implicit Types g : graph V E.

(** local variables of BFS: visited, queue and the result under construction *)
Record bfs_st := mkBfs {
  b_vis : list bool; b_par : list (option nat); b_dist : list (option nat);
  b_queue : list nat; b_order : list nat; b_cnt : nat }.

(** body of the for loop, GraphAlgorithms.h:61-71 *)
Definition bfs_visit (u : nat) (s : bfs_st) (e : edge E) : res bfs_st :=
  let v := e_to e in
  b <- vget (b_vis s) v ;;
  if b then Ok s
  else
    vis <- vset (b_vis s) v true ;;
    par <- vset (b_par s) v (Some u) ;;
    du <- vget (b_dist s) u ;;
    dist <- vset (b_dist s) v (hop_succ du) ;;
    Ok (mkBfs vis par dist (b_queue s ++ [v]) (b_order s) (b_cnt s)).

(** one iteration of the while loop, GraphAlgorithms.h:53-72 *)
Definition bfs_step g (s : bfs_st) : res (bfs_st + bfs_st) :=
  match b_queue s with
  | [] => Ok (inr s)
  | u :: q =>
      l <- neighbors g u ;;
      s' <- for_each (bfs_visit u) l
              (mkBfs (b_vis s) (b_par s) (b_dist s) q (b_order s ++ [u]) (S (b_cnt s))) ;;
      Ok (inl s')
  end.

(** GraphAlgorithms.h:35-75  BFS *)
Definition BFS (fuel : nat) g (start : nat) : res (traversal (option nat)) :=
  let n := numVertices g in
  if n <=? start then Ok empty_trav
  else
    vis <- vset (repeat false n) start true ;;
    dist <- vset (repeat None n) start (Some 0) ;;
    s <- iter fuel (bfs_step g) (mkBfs vis (repeat None n) dist [start] [] 0) ;;
    Ok (mkTrav (b_order s) (b_par s) (b_dist s) (b_cnt s)).

(** GraphAlgorithms.h:79-107  BFSVisit.  The visitor is a predicate; the model returns the list of
    vertices on which it was called, in order. *)
Definition bfsv_push (s : list bool * list nat) (e : edge E) : res (list bool * list nat) :=
  let '(vis, q) := s in
  b <- vget vis (e_to e) ;;
  if b then Ok s else vis' <- vset vis (e_to e) true ;; Ok (vis', q ++ [e_to e]).

Definition bfsv_step g (visitor : nat -> bool) (s : list bool * list nat * list nat)
  : res ((list bool * list nat * list nat) + list nat) :=
  let '(vis, q, calls) := s in
  match q with
  | [] => Ok (inr calls)
  | u :: q' =>
      let calls' := calls ++ [u] in
      if negb (visitor u) then Ok (inr calls')
      else
        l <- neighbors g u ;;
        '(vis2, q2) <- for_each bfsv_push l (vis, q') ;;
        Ok (inl (vis2, q2, calls'))
  end.

Definition BFSVisit (fuel : nat) g (start : nat) (visitor : nat -> bool) : res (list nat) :=
  let n := numVertices g in
  if n <=? start then Ok []
  else
    vis <- vset (repeat false n) start true ;;
    iter fuel (bfsv_step g visitor) (vis, [start], []).

(** GraphAlgorithms.h:119-167  DFS (explicit stack; top of the stack = head of the list) *)
Record dfs_st := mkDfs {
  d_vis : list bool; d_par : list (option nat); d_dist : list (option nat);
  d_stack : list nat; d_order : list nat; d_cnt : nat }.

(** lines 151-163 *)
Definition dfs_push (u : nat) (s : dfs_st) (e : edge E) : res dfs_st :=
  let v := e_to e in
  b <- vget (d_vis s) v ;;
  if b then Ok s
  else
    p <- vget (d_par s) v ;;
    match p with
    | Some _ => Ok (mkDfs (d_vis s) (d_par s) (d_dist s) (v :: d_stack s) (d_order s) (d_cnt s))
    | None =>
        par <- vset (d_par s) v (Some u) ;;
        du <- vget (d_dist s) u ;;
        dist <- vset (d_dist s) v (hop_succ du) ;;
        Ok (mkDfs (d_vis s) par dist (v :: d_stack s) (d_order s) (d_cnt s))
    end.

(** lines 137-164 *)
Definition dfs_step g (s : dfs_st) : res (dfs_st + dfs_st) :=
  match d_stack s with
  | [] => Ok (inr s)
  | u :: st =>
      b <- vget (d_vis s) u ;;
      if b then Ok (inl (mkDfs (d_vis s) (d_par s) (d_dist s) st (d_order s) (d_cnt s)))
      else
        vis <- vset (d_vis s) u true ;;
        l <- neighbors g u ;;
        s' <- for_each (dfs_push u) (rev l)
                (mkDfs vis (d_par s) (d_dist s) st (d_order s ++ [u]) (S (d_cnt s))) ;;
        Ok (inl s')
  end.

Definition DFS (fuel : nat) g (start : nat) : res (traversal (option nat)) :=
  let n := numVertices g in
  if n <=? start then Ok empty_trav
  else
    dist <- vset (repeat None n) start (Some 0) ;;
    s <- iter fuel (dfs_step g) (mkDfs (repeat false n) (repeat None n) dist [start] [] 0) ;;
    Ok (mkTrav (d_order s) (d_par s) (d_dist s) (d_cnt s)).

(** GraphAlgorithms.h:171-201  DFSVisit; returns the vertices on which the visitor was called. *)
Definition dfsv_push (vis : list bool) (st : list nat) (e : edge E) : res (list nat) :=
  b <- vget vis (e_to e) ;; if b then Ok st else Ok (e_to e :: st).

Definition dfsv_step g (visitor : nat -> bool) (s : list bool * list nat * list nat)
  : res ((list bool * list nat * list nat) + list nat) :=
  let '(vis, stack, calls) := s in
  match stack with
  | [] => Ok (inr calls)
  | u :: st =>
      b <- vget vis u ;;
      if b then Ok (inl (vis, st, calls))
      else
        vis' <- vset vis u true ;;
        let calls' := calls ++ [u] in
        if negb (visitor u) then Ok (inr calls')
        else
          l <- neighbors g u ;;
          st' <- for_each (dfsv_push vis') (rev l) st ;;
          Ok (inl (vis', st', calls'))
  end.

Definition DFSVisit (fuel : nat) g (start : nat) (visitor : nat -> bool) : res (list nat) :=
  let n := numVertices g in
  if n <=? start then Ok []
  else iter fuel (dfsv_step g visitor) (repeat false n, [start], []).

(** GraphAlgorithms.h:347-393  ConnectedComponents.
    componentId uses [None] for GRAPH_NOT_FOUND.  State of the inner loop: ids, queue, component. *)
Definition cc_visit (num : nat) (s : list (option nat) * list nat) (e : edge E)
  : res (list (option nat) * list nat) :=
  let '(ids, q) := s in
  c <- vget ids (e_to e) ;;
  match c with
  | Some _ => Ok s
  | None => ids' <- vset ids (e_to e) (Some num) ;; Ok (ids', q ++ [e_to e])
  end.

Definition cc_bfs_step g (num : nat) (s : list (option nat) * list nat * list nat)
  : res ((list (option nat) * list nat * list nat) + (list (option nat) * list nat)) :=
  let '(ids, q, comp) := s in
  match q with
  | [] => Ok (inr (ids, comp))
  | u :: q' =>
      l <- neighbors g u ;;
      '(ids2, q2) <- for_each (cc_visit num) l (ids, q') ;;
      Ok (inl (ids2, q2, comp ++ [u]))
  end.

Record components := mkComp {
  c_num : nat; c_ids : list (option nat); c_lists : list (list nat) }.

Definition cc_outer (fuel : nat) g (s : components) (v : nat) : res components :=
  c <- vget (c_ids s) v ;;
  match c with
  | Some _ => Ok s
  | None =>
      ids <- vset (c_ids s) v (Some (c_num s)) ;;
      '(ids2, comp) <- iter fuel (cc_bfs_step g (c_num s)) (ids, [v], []) ;;
      Ok (mkComp (S (c_num s)) ids2 (c_lists s ++ [comp]))
  end.

Definition ConnectedComponents (fuel : nat) g : res components :=
  let n := numVertices g in
  if Nat.eqb n 0 then Ok (mkComp 0 [] [])
  else for_range 0 n (cc_outer fuel g) (mkComp 0 (repeat None n) []).

(** GraphAlgorithms.h:397-404  IsConnected *)
Definition IsConnected (fuel : nat) g : res bool :=
  if Nat.eqb (numVertices g) 0 then Ok true
  else r <- BFS fuel g 0 ;; Ok (Nat.eqb (t_count r) (numVertices g)).

(** GraphAlgorithms.h:411-435  ReconstructPath.  The loop state is (path so far, curr). *)
Definition recon_step (parent : list (option nat)) (start : nat) (s : list nat * option nat)
  : res ((list nat * option nat) + list nat) :=
  let '(path, curr) := s in
  match curr with
  | None => Ok (inr path)
  | Some c =>
      let path' := path ++ [c] in
      if Nat.eqb c start then Ok (inr path')
      else p <- vget parent c ;; Ok (inl (path', p))
  end.

Definition ReconstructPath (fuel : nat) (parent : list (option nat)) (start target : nat)
  : res (list nat) :=
  if length parent <=? target then Ok []
  else
    p <- vget parent target ;;
    match p with
    | None =>
        if negb (Nat.eqb target start) then Ok []
        else path <- iter fuel (recon_step parent start) ([], Some target) ;; Ok (rev path)
    | Some _ => path <- iter fuel (recon_step parent start) ([], Some target) ;; Ok (rev path)
    end.

(** GraphAlgorithms.h:439-474  ShortestPathUnweighted *)
Definition ShortestPathUnweighted (fuel : nat) g (start target : nat)
  : res (path_result (option nat)) :=
  let n := numVertices g in
  if (n <=? start) || (n <=? target) then Ok (mkPath false [] (Some 0) 0)
  else if Nat.eqb start target then Ok (mkPath true [start] (Some 0) 1)
  else
    r <- BFS fuel g start ;;
    d <- vget (t_dist r) target ;;
    match d with
    | None => Ok (mkPath false [] (Some 0) (t_count r))
    | Some _ =>
        path <- ReconstructPath fuel (t_parent r) start target ;;
        Ok (mkPath true path d (t_count r))
    end.

(** GraphAlgorithms.h:579-640  TopologicalSort: (isDAG, order) *)
Definition topo_dec (s : list nat * list nat) (e : edge E) : res (list nat * list nat) :=
  let '(indeg, q) := s in
  k <- vget indeg (e_to e) ;;
  match k with
  | 0 => UB   (* [--inDegree] on 0 would wrap around; shown impossible *)
  | S k' =>
      indeg' <- vset indeg (e_to e) k' ;;
      Ok (indeg', if Nat.eqb k' 0 then q ++ [e_to e] else q)
  end.

Definition topo_step g (s : list nat * list nat * list nat)
  : res ((list nat * list nat * list nat) + list nat) :=
  let '(indeg, q, order) := s in
  match q with
  | [] => Ok (inr order)
  | u :: q' =>
      l <- neighbors g u ;;
      '(indeg2, q2) <- for_each topo_dec l (indeg, q') ;;
      Ok (inl (indeg2, q2, order ++ [u]))
  end.

Definition topo_count (indeg : list nat) (e : edge E) : res (list nat) :=
  k <- vget indeg (e_to e) ;; vset indeg (e_to e) (S k).

Definition TopologicalSort (fuel : nat) g : res (bool * list nat) :=
  let n := numVertices g in
  if Nat.eqb n 0 then Ok (true, [])
  else if negb (g_directed g) then Ok (false, [])
  else
    indeg <- for_range 0 n (fun d u => l <- neighbors g u ;; for_each topo_count l d) (repeat 0 n) ;;
    q <- for_range 0 n (fun q v => k <- vget indeg v ;; Ok (if Nat.eqb k 0 then q ++ [v] else q)) [] ;;
    order <- iter fuel (topo_step g) (indeg, q, []) ;;
    if negb (Nat.eqb (length order) n) then Ok (false, []) else Ok (true, order).

(** GraphAlgorithms.h:644-648  IsDAG *)
Definition IsDAG (fuel : nat) g : res bool :=
  r <- TopologicalSort fuel g ;; Ok (fst r).

End Traversals.

(** ** Weighted shortest paths *)

(** Operations on distances ([Real]) used by Dijkstra and Bellman-Ford. *)
Record DistOps (E : Type) := mkDist {
  D : Type;
  d_zero : D;                    (* 0 *)
  d_inf : D;                     (* numeric_limits<Real>::infinity() *)
  d_add : D -> E -> D;           (* distance + static_cast<Real>(weight) *)
  d_ltb : D -> D -> bool;        (* operator< on Real *)
  d_isinf : D -> bool            (* d == infinity() *)
}.
Arguments D {E} _.
Arguments d_zero {E} _.
Arguments d_inf {E} _.
Arguments d_add {E} _ _ _.
Arguments d_ltb {E} _ _ _.
Arguments d_isinf {E} _ _.

Section Weighted.
Context {V E : Type} (O : DistOps E).
Implicit Types g : graph V E.

(** std::priority_queue<pair<Real,size_t>, ..., greater>: top() is a lexicographically least pair. *)
Definition pq_lt (a b : D O * nat) : bool :=
  d_ltb O (fst a) (fst b) || (negb (d_ltb O (fst b) (fst a)) && (snd a <? snd b)).

Fixpoint pq_pop (best : D O * nat) (l : list (D O * nat)) : (D O * nat) * list (D O * nat) :=
  match l with
  | [] => (best, [])
  | x :: l' =>
      if pq_lt x best then let '(m, r) := pq_pop x l' in (m, best :: r)
      else let '(m, r) := pq_pop best l' in (m, x :: r)
  end.

Record dij_st := mkDij {
  j_dist : list (D O); j_par : list (option nat); j_pq : list (D O * nat); j_cnt : nat }.

(** body of the relaxation loop, GraphAlgorithms.h:244-255 (and 318-329) *)
Definition dij_relax (u : nat) (s : dij_st) (e : edge E) : res dij_st :=
  let v := e_to e in
  du <- vget (j_dist s) u ;;
  let nd := d_add O du (e_w e) in
  dv <- vget (j_dist s) v ;;
  if d_ltb O nd dv then
    dist <- vset (j_dist s) v nd ;;
    par <- vset (j_par s) v (Some u) ;;
    Ok (mkDij dist par ((nd, v) :: j_pq s) (j_cnt s))
  else Ok s.

(** GraphAlgorithms.h:233-256 *)
Definition dij_step g (s : dij_st) : res (dij_st + dij_st) :=
  match j_pq s with
  | [] => Ok (inr s)
  | x :: rest =>
      let '((dist, u), pq') := pq_pop x rest in
      du <- vget (j_dist s) u ;;
      if d_ltb O du dist then Ok (inl (mkDij (j_dist s) (j_par s) pq' (j_cnt s)))
      else
        l <- neighbors g u ;;
        s' <- for_each (dij_relax u) l (mkDij (j_dist s) (j_par s) pq' (S (j_cnt s))) ;;
        Ok (inl s')
  end.

(** GraphAlgorithms.h:215-259  Dijkstra *)
Definition Dijkstra (fuel : nat) g (start : nat) : res (traversal (D O)) :=
  let n := numVertices g in
  if n <=? start then Ok empty_trav
  else
    dist <- vset (repeat (d_inf O) n) start (d_zero O) ;;
    s <- iter fuel (dij_step g) (mkDij dist (repeat None n) [(d_zero O, start)] 0) ;;
    Ok (mkTrav [] (j_par s) (j_dist s) (j_cnt s)).

(** GraphAlgorithms.h:305-311: follow parent pointers back from the target *)
Definition back_step (parent : list (option nat)) (s : list nat * option nat)
  : res ((list nat * option nat) + list nat) :=
  let '(path, curr) := s in
  match curr with
  | None => Ok (inr path)
  | Some c => p <- vget parent c ;; Ok (inl (path ++ [c], p))
  end.

(** GraphAlgorithms.h:292-330 *)
Definition dijp_step (fuel2 : nat) g (target : nat) (s : dij_st)
  : res (dij_st + (path_result (D O))) :=
  match j_pq s with
  | [] => Ok (inr (mkPath false [] (d_zero O) (j_cnt s)))
  | x :: rest =>
      let '((d, u), pq') := pq_pop x rest in
      let cnt := S (j_cnt s) in
      if Nat.eqb u target then
        dt <- vget (j_dist s) target ;;
        path <- iter fuel2 (back_step (j_par s)) ([], Some target) ;;
        Ok (inr (mkPath true (rev path) dt cnt))
      else
        du <- vget (j_dist s) u ;;
        if d_ltb O du d then Ok (inl (mkDij (j_dist s) (j_par s) pq' cnt))
        else
          l <- neighbors g u ;;
          s' <- for_each (dij_relax u) l (mkDij (j_dist s) (j_par s) pq' cnt) ;;
          Ok (inl s')
  end.

(** GraphAlgorithms.h:264-335  DijkstraPath *)
Definition DijkstraPath (fuel : nat) g (start target : nat) : res (path_result (D O)) :=
  let n := numVertices g in
  if (n <=? start) || (n <=? target) then Ok (mkPath false [] (d_zero O) 0)
  else if Nat.eqb start target then Ok (mkPath true [start] (d_zero O) 1)
  else
    dist <- vset (repeat (d_inf O) n) start (d_zero O) ;;
    iter fuel (dijp_step fuel g target) (mkDij dist (repeat None n) [(d_zero O, start)] 0).

(** GraphAlgorithms.h:489-558  BellmanFord *)
Definition bf_collect g : res (list (nat * nat * E)) :=
  for_range 0 (numVertices g)
    (fun es u => l <- neighbors g u ;; Ok (es ++ map (fun e => (u, e_to e, e_w e)) l)) [].

(** state of a relaxation round: distances, parents, changed *)
Definition bf_relax (s : list (D O) * list (option nat) * bool) (x : nat * nat * E)
  : res (list (D O) * list (option nat) * bool) :=
  let '(dist, par, changed) := s in
  let '(u, v, w) := x in
  du <- vget dist u ;;
  if d_isinf O du then Ok s
  else
    let nd := d_add O du w in
    dv <- vget dist v ;;
    if d_ltb O nd dv then
      dist' <- vset dist v nd ;;
      par' <- vset par v (Some u) ;;
      Ok (dist', par', true)
    else Ok s.

(** lines 512-531: at most n-1 rounds with early exit *)
Fixpoint bf_rounds (k : nat) (es : list (nat * nat * E)) (s : list (D O) * list (option nat))
  : res (list (D O) * list (option nat)) :=
  match k with
  | 0 => Ok s
  | S k' =>
      '(dist, par, changed) <- for_each bf_relax es (fst s, snd s, false) ;;
      if negb changed then Ok (dist, par) else bf_rounds k' es (dist, par)
  end.

(** lines 534-548: does some edge still improve? *)
Definition bf_check (dist : list (D O)) (_ : unit) (x : nat * nat * E) : res (unit + unit) :=
  let '(u, v, w) := x in
  du <- vget dist u ;;
  if d_isinf O du then Ok (inl tt)
  else dv <- vget dist v ;; if d_ltb O (d_add O du w) dv then Ok (inr tt) else Ok (inl tt).

Definition BellmanFord g (start : nat) : res (traversal (D O)) :=
  let n := numVertices g in
  if n <=? start then Ok empty_trav
  else
    dist0 <- vset (repeat (d_inf O) n) start (d_zero O) ;;
    es <- bf_collect g ;;
    '(dist, par) <- bf_rounds (n - 1) es (dist0, repeat None n) ;;
    r <- for_each_brk (bf_check dist) es tt ;;
    match r with
    | inr _ => Ok empty_trav
    | inl _ =>
        cnt <- for_range 0 n (fun c i => d <- vget dist i ;; Ok (if d_isinf O d then c else S c)) 0 ;;
        Ok (mkTrav [] par dist cnt)
    end.

(** GraphAlgorithms.h:562-566  HasNegativeCycle *)
Definition HasNegativeCycle g (start : nat) : res bool :=
  r <- BellmanFord g start ;; Ok (match t_parent r with [] => true | _ => false end).

End Weighted.

(** ** Union-find and spanning trees *)

(** GraphAlgorithms.h:657-692 detail::UnionFind *)
Record uf := mkUF { uf_parent : list nat; uf_rank : list nat }.

(** constructor, lines 660-664 *)
Definition uf_init (n : nat) : uf := mkUF (seq 0 n) (repeat 0 n).

(** lines 666-671  find with path compression (recursive in C++; the fuel bounds the recursion depth) *)
Fixpoint uf_find (fuel : nat) (u : uf) (x : nat) : res (uf * nat) :=
  match fuel with
  | 0 => NoFuel
  | S k =>
      p <- vget (uf_parent u) x ;;
      if Nat.eqb p x then Ok (u, p)
      else
        '(u1, r) <- uf_find k u p ;;
        par <- vset (uf_parent u1) x r ;;
        Ok (mkUF par (uf_rank u1), r)
  end.

(** lines 673-687  unite *)
Definition uf_unite (fuel : nat) (u : uf) (x y : nat) : res (uf * bool) :=
  '(u1, px) <- uf_find fuel u x ;;
  '(u2, py) <- uf_find fuel u1 y ;;
  if Nat.eqb px py then Ok (u2, false)
  else
    rx <- vget (uf_rank u2) px ;;
    ry <- vget (uf_rank u2) py ;;
    let '(px', py') := if rx <? ry then (py, px) else (px, py) in
    par <- vset (uf_parent u2) py' px' ;;
    rx' <- vget (uf_rank u2) px' ;;
    ry' <- vget (uf_rank u2) py' ;;
    if Nat.eqb rx' ry' then
      rk <- vset (uf_rank u2) px' (S rx') ;;
      Ok (mkUF par rk, true)
    else Ok (mkUF par (uf_rank u2), true).

(** Operations on weights used by the spanning-tree algorithms. *)
Record WeightOps (E : Type) := mkWOps {
  w_zero : E; w_plus : E -> E -> E; w_ltb : E -> E -> bool }.
Arguments w_zero {E} _.
Arguments w_plus {E} _ _ _.
Arguments w_ltb {E} _ _ _.

Section MST.
Context {V E : Type} (O : WeightOps E).
Implicit Types g : graph V E.

(** std::tuple<E,size_t,size_t> compared lexicographically *)
Definition tup_lt (a b : E * nat * nat) : bool :=
  let '(wa, ua, va) := a in let '(wb, ub, vb) := b in
  w_ltb O wa wb ||
  (negb (w_ltb O wb wa) && ((ua <? ub) || (negb (ub <? ua) && (va <? vb)))).

(** std::sort with operator<: modelled by insertion sort *)
Fixpoint tup_insert (x : E * nat * nat) (l : list (E * nat * nat)) : list (E * nat * nat) :=
  match l with
  | [] => [x]
  | y :: l' => if tup_lt y x then y :: tup_insert x l' else x :: l
  end.
Definition tup_sort (l : list (E * nat * nat)) : list (E * nat * nat) := fold_right tup_insert [] l.

(** Graph.h:72-80 [struct MSTResult] without diagnostics *)
Record mst := mkMst { m_complete : bool; m_edges : list (nat * nat * E); m_total : E }.

(** GraphAlgorithms.h:701-750  Kruskal *)
Definition kr_collect g : res (list (E * nat * nat)) :=
  for_range 0 (numVertices g)
    (fun es u => l <- neighbors g u ;;
       for_each (fun es e => Ok (if g_directed g || (u <? e_to e) then es ++ [(e_w e, u, e_to e)] else es)) l es) [].

Definition kr_step (fuel n : nat) (s : uf * list (nat * nat * E) * E) (x : E * nat * nat)
  : res ((uf * list (nat * nat * E) * E) + (list (nat * nat * E) * E)) :=
  let '(u, es, tot) := s in
  let '(w, a, b) := x in
  '(u', joined) <- uf_unite fuel u a b ;;
  if joined then
    let es' := es ++ [(a, b, w)] in
    let tot' := w_plus O tot w in
    if Nat.eqb (length es') (n - 1) then Ok (inr (es', tot')) else Ok (inl (u', es', tot'))
  else Ok (inl (u', es, tot)).

Definition Kruskal (fuel : nat) g : res mst :=
  let n := numVertices g in
  if Nat.eqb n 0 then Ok (mkMst true [] (w_zero O))
  else
    es <- kr_collect g ;;
    r <- for_each_brk (kr_step fuel n) (tup_sort es) (uf_init n, [], w_zero O) ;;
    let '(tree, tot) := match r with inl (_, t, w) => (t, w) | inr p => p end in
    Ok (mkMst (Nat.eqb (length tree) (n - 1)) tree tot).

(** GraphAlgorithms.h:756-812  Prim; pq ordered like the tuples above *)
Fixpoint tq_pop (best : E * nat * nat) (l : list (E * nat * nat))
  : (E * nat * nat) * list (E * nat * nat) :=
  match l with
  | [] => (best, [])
  | x :: l' =>
      if tup_lt x best then let '(m, r) := tq_pop x l' in (m, best :: r)
      else let '(m, r) := tq_pop best l' in (m, x :: r)
  end.

Record prim_st := mkPrim {
  q_in : list bool; q_pq : list (E * nat * nat); q_edges : list (nat * nat * E); q_tot : E; q_added : nat }.

Definition prim_step g (n : nat) (s : prim_st) : res (prim_st + prim_st) :=
  match q_pq s with
  | [] => Ok (inr s)
  | x :: rest =>
      if negb (q_added s <? n - 1) then Ok (inr s)
      else
        let '((w, u, v), pq') := tq_pop x rest in
        b <- vget (q_in s) v ;;
        if b then Ok (inl (mkPrim (q_in s) pq' (q_edges s) (q_tot s) (q_added s)))
        else
          inm <- vset (q_in s) v true ;;
          l <- neighbors g v ;;
          pq2 <- for_each (fun pq e => b <- vget inm (e_to e) ;;
                    Ok (if b then pq else (e_w e, v, e_to e) :: pq)) l pq' ;;
          Ok (inl (mkPrim inm pq2 (q_edges s ++ [(u, v, w)]) (w_plus O (q_tot s) w) (S (q_added s))))
  end.

Definition Prim (fuel : nat) g (start0 : nat) : res mst :=
  let n := numVertices g in
  if Nat.eqb n 0 then Ok (mkMst true [] (w_zero O))
  else
    let start := if n <=? start0 then 0 else start0 in
    inm <- vset (repeat false n) start true ;;
    l <- neighbors g start ;;
    let pq := fold_left (fun pq e => (e_w e, start, e_to e) :: pq) l [] in
    s <- iter fuel (prim_step g n) (mkPrim inm pq [] (w_zero O) 0) ;;
    Ok (mkMst (Nat.eqb (length (q_edges s)) (n - 1)) (q_edges s) (q_tot s)).

End MST.
