(** * Model of the KD-tree (mml/algorithms/.../KDTree.h)

    A point is a list of Dim coordinates.  [kdops T] is the arithmetic of Real that the code uses; <= and >= are
    "not greater", "not less" (no NaN).  std::nth_element is a parameter [nth_el less l mid]: the standard only says
    what it guarantees.  The recursion is on fuel (build) or on the tree (queries).  Timing is left out. *)

From Coq Require Import List Bool Arith ZArith.
From Verif Require Import Base.
Import ListNotations.

Record kdops (T : Type) := mkKd { k_sub : T -> T -> T; k_mul : T -> T -> T; k_add : T -> T -> T; k_zero : T; k_ltb : T -> T -> bool; k_max : T; k_sqrt : T -> T }.
Arguments k_sub {T} _ _ _. Arguments k_mul {T} _ _ _. Arguments k_add {T} _ _ _. Arguments k_zero {T} _. Arguments k_ltb {T} _ _ _. Arguments k_max {T} _. Arguments k_sqrt {T} _ _.

Section Kd.
Context {T : Type} (K : kdops T) (Dim : nat).
Context (nth_el : (nat -> nat -> bool) -> list nat -> nat -> list nat).
Notation ltb := (k_ltb K).
Notation point := (list T).

(** KDTree.h:129-137 Node; Null is an empty unique_ptr *)
Inductive kd := Null | Node (axis : nat) (split : T) (left right : kd) (idx : list nat).
Definition is_null (t : kd) : bool := match t with Null => true | _ => false end.
(** KDTree.h:61-67 KDTreeStats (without the time) *)
Record kdstats := mkStats { st_points : nat; st_nodes : nat; st_leaves : nat; st_depth : nat }.
Record kdtree := mkTree { t_root : kd; t_points : list point; t_leafmax : Z; t_stats : kdstats }.

(** the comparator of std::nth_element; a coordinate outside the array is undefined behaviour, which the callers
    below test first *)
Definition coord (pts : list point) (i axis : nat) : res T := p <- vget pts i ;; vget p axis.
Definition coord_less (pts : list point) (axis : nat) (a b : nat) : bool :=
  match coord pts a axis, coord pts b axis with Ok x, Ok y => ltb x y | _, _ => false end.

(** KDTree.h:336-377 buildRecursive; the statistics are threaded as (nodes, leaves, maximal depth) *)
Fixpoint build_rec (fuel : nat) (pts : list point) (leafmax : Z) (indices : list nat) (depth : nat) (s : nat * nat * nat) : res (kd * (nat * nat * nat)) :=
  match fuel with
  | 0 => NoFuel
  | S fuel' =>
    match indices with
    | [] => Ok (Null, s)
    | _ =>
      let '(nodes, leaves, maxd) := s in
      let maxd := Nat.max maxd depth in
      let nodes := S nodes in
      if (Z.of_nat (length indices) <=? leafmax)%Z then Ok (Node 0 (k_zero K) Null Null indices, (nodes, S leaves, maxd))
      else
        let axis := depth mod Dim in
        let mid := length indices / 2 in
        _ <- for_each (fun _ i => _ <- coord pts i axis ;; Ok tt) indices tt ;;
        let indices := nth_el (coord_less pts axis) indices mid in
        m <- vget indices mid ;;
        sv <- coord pts m axis ;;
        ' (l, s1) <- build_rec fuel' pts leafmax (firstn mid indices) (S depth) (nodes, leaves, maxd) ;;
        ' (r, s2) <- build_rec fuel' pts leafmax (skipn mid indices) (S depth) s1 ;;
        Ok (Node axis sv l r [], s2)
    end
  end.
(** KDTree.h:166-191 build *)
Definition kd_build (fuel : nat) (pts : list point) (leafmax : Z) : res kdtree :=
  match pts with
  | [] => Ok (mkTree Null [] leafmax (mkStats 0 0 0 0))
  | _ =>
    ' (r, s) <- build_rec fuel pts leafmax (seq 0 (length pts)) 0 (0, 0, 0) ;;
    let '(nodes, leaves, maxd) := s in
    Ok (mkTree r pts leafmax (mkStats (length pts) nodes leaves maxd))
  end.

(** KDTree.h:384-391 distanceSquared *)
Definition dist_sq (a b : point) : res T :=
  for_range 0 Dim (fun sum i => x <- vget a i ;; y <- vget b i ;; let diff := k_sub K x y in Ok (k_add K sum (k_mul K diff diff))) (k_zero K).

(** KDTree.h:393-427 nearestRecursive; state = (bestIndex, bestDistSq, nodesVisited); bestIndex None = SIZE_MAX *)
Definition nstate := (option nat * T * nat)%type.
Fixpoint nearest_rec (pts : list point) (query : point) (t : kd) (s : nstate) : res nstate :=
  match t with
  | Null => Ok s
  | Node axis sv l r idx =>
    let '(bi, bd, nv) := s in
    let s := (bi, bd, S nv) in
    if is_null l && is_null r then
      for_each (fun s i =>
        p <- vget pts i ;;
        d <- dist_sq query p ;;
        let '(bi, bd, nv) := s in
        Ok (if ltb d bd then (Some i, d, nv) else (bi, bd, nv))) idx s
    else
      q <- vget query axis ;;
      let diff := k_sub K q sv in
      let neg := ltb diff (k_zero K) in
      s <- (if neg then nearest_rec pts query l s else nearest_rec pts query r s) ;;
      let '(bi, bd, nv) := s in
      if ltb (k_mul K diff diff) bd then (if neg then nearest_rec pts query r s else nearest_rec pts query l s) else Ok s
  end.
(** KDTree.h:204-225 findNearest: None = not found *)
Definition find_nearest (t : kdtree) (query : point) : res (option (nat * T) * nat) :=
  match t_root t with
  | Null => Ok (None, 0)
  | _ => ' (bi, bd, nv) <- nearest_rec (t_points t) query (t_root t) (None, k_max K, 0) ;;
    Ok (match bi with Some i => Some (i, k_sqrt K bd) | None => None end, nv)
  end.

(** std::priority_queue<std::pair<Real,size_t>>: a list in descending order of the pairs *)
Definition pair_less (a b : T * nat) : bool := ltb (fst a) (fst b) || (negb (ltb (fst b) (fst a)) && (snd a <? snd b)).
Fixpoint heap_push (x : T * nat) (h : list (T * nat)) : list (T * nat) :=
  match h with [] => [x] | y :: h' => if pair_less x y then y :: heap_push x h' else x :: h end.

(** KDTree.h:429-464 kNearestRecursive *)
Definition kstate := (list (T * nat) * nat)%type.
Fixpoint knearest_rec (pts : list point) (query : point) (k : Z) (t : kd) (s : kstate) : res kstate :=
  match t with
  | Null => Ok s
  | Node axis sv l r idx =>
    let s := (fst s, S (snd s)) in
    if is_null l && is_null r then
      for_each (fun s i =>
        p <- vget pts i ;;
        d <- dist_sq query p ;;
        let h := fst s in
        if (Z.of_nat (length h) <? k)%Z then Ok (heap_push (d, i) h, snd s)
        else match h with
             | [] => UB
             | y :: h' => if ltb d (fst y) then Ok (heap_push (d, i) h', snd s) else Ok s
             end) idx s
    else
      q <- vget query axis ;;
      let diff := k_sub K q sv in
      let neg := ltb diff (k_zero K) in
      s <- (if neg then knearest_rec pts query k l s else knearest_rec pts query k r s) ;;
      let worst := match fst s with [] => k_max K | y :: _ => fst y end in
      if (Z.of_nat (length (fst s)) <? k)%Z || ltb (k_mul K diff diff) worst
      then (if neg then knearest_rec pts query k r s else knearest_rec pts query k l s) else Ok s
  end.
(** KDTree.h:233-261 findKNearest; the heap is emptied from the back: indices and distances in ascending order *)
Definition find_knearest (t : kdtree) (query : point) (k : Z) : res (list nat * list T * nat) :=
  match t_root t with
  | Null => Ok ([], [], 0)
  | _ =>
    if (k <=? 0)%Z then Ok ([], [], 0)
    else
      ' (h, nv) <- knearest_rec (t_points t) query k (t_root t) ([], 0) ;;
      Ok (map snd (rev h), map (fun e => k_sqrt K (fst e)) (rev h), nv)
  end.

(** KDTree.h:466-498 radiusRecursive *)
Fixpoint radius_rec (pts : list point) (query : point) (radiusSq : T) (t : kd) (s : list nat * list T) : res (list nat * list T) :=
  match t with
  | Null => Ok s
  | Node axis sv l r idx =>
    if is_null l && is_null r then
      for_each (fun s i =>
        p <- vget pts i ;;
        d <- dist_sq query p ;;
        Ok (if negb (ltb radiusSq d) then (fst s ++ [i], snd s ++ [d]) else s)) idx s
    else
      q <- vget query axis ;;
      let diff := k_sub K q sv in
      if ltb diff (k_zero K) then
        s <- radius_rec pts query radiusSq l s ;;
        (if negb (ltb radiusSq (k_mul K diff diff)) then radius_rec pts query radiusSq r s else Ok s)
      else
        s <- radius_rec pts query radiusSq r s ;;
        (if negb (ltb radiusSq (k_mul K diff diff)) then radius_rec pts query radiusSq l s else Ok s)
  end.
(** KDTree.h:269-290 findInRadius *)
Definition find_in_radius (t : kdtree) (query : point) (radius : T) : res (list nat * list T) :=
  match t_root t with
  | Null => Ok ([], [])
  | _ =>
    if ltb radius (k_zero K) then Ok ([], [])
    else
      ' (is_, ds) <- radius_rec (t_points t) query (k_mul K radius radius) (t_root t) ([], []) ;;
      Ok (is_, map (k_sqrt K) ds)
  end.

(** KDTree.h:500-531 boxRecursive *)
Definition in_box (p lo hi : point) : res bool :=
  for_range 0 Dim (fun inside i =>
    if inside : bool then x <- vget p i ;; a <- vget lo i ;; b <- vget hi i ;; Ok (negb (ltb x a || ltb b x)) else Ok false) true.
Fixpoint box_rec (pts : list point) (lo hi : point) (t : kd) (s : list nat) : res (list nat) :=
  match t with
  | Null => Ok s
  | Node axis sv l r idx =>
    if is_null l && is_null r then
      for_each (fun s i => p <- vget pts i ;; b <- in_box p lo hi ;; Ok (if b : bool then s ++ [i] else s)) idx s
    else
      a <- vget lo axis ;;
      s <- (if negb (ltb sv a) then box_rec pts lo hi l s else Ok s) ;;
      b <- vget hi axis ;;
      (if negb (ltb b sv) then box_rec pts lo hi r s else Ok s)
  end.
(** KDTree.h:297-307 findInBox *)
Definition find_in_box (t : kdtree) (lo hi : point) : res (list nat) :=
  match t_root t with Null => Ok [] | _ => box_rec (t_points t) lo hi (t_root t) [] end.

(** KDTree.h:663-692 FindNearestBruteForce2D (and 3D, 695-): found is set whenever there is a point *)
Definition brute_force (pts : list point) (query : point) : res (option (option nat * T)) :=
  match pts with
  | [] => Ok None
  | _ =>
    s <- for_range 0 (length pts) (fun s i =>
      p <- vget pts i ;; d <- dist_sq p query ;;
      Ok (if ltb d (snd s) then (Some i, d) else s)) (None, k_max K) ;;
    Ok (Some (fst s, k_sqrt K (snd s)))
  end.
End Kd.
