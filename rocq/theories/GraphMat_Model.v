(** * Model of the matrix conversions of mml/base/Graph.h

    Edge weights are of the matrix element type.  [Matrix<E> A(n, n)] is [mat_alloc n n 0]; the
    conversion of [n] from size_t to int is the identity for the sizes the constructor accepts
    (simplification: graphs of 2^31 or more vertices, where it would wrap, are rejected here too). *)

From Coq Require Import List Arith Bool.
From Verif Require Import Base Num Graph_Spec Graph_Model Mat_Model.
Import ListNotations.

Section GraphMat.
Context {V T : Type} (O : numops T).
Implicit Types g : graph V T.

(** the two loops that set every entry to zero: Graph.h:379-382, 402-405, 426-428 *)
Definition zero_fill (A : matrix T) (n : nat) : res (matrix T) :=
  for_range 0 n (fun A i => for_range 0 n (fun A j => x <- Ok (n0 O) ;; mset A i j x) A) A.

(** Graph.h:374-394  toAdjacencyMatrix *)
Definition toAdjacencyMatrix g : res (matrix T) :=
  let n := numVertices g in
  A <- mat_alloc n n (n0 O) ;;
  A <- zero_fill A n ;;
  for_range 0 n (fun A i =>
    l <- vget (g_adj g) i ;;
    for_each (fun A e => mset A i (e_to e) (e_w e)) l A) A.

(** the accumulation [deg += edge.weight]: Graph.h:410-412, 453-457 *)
Definition sum_weights (l : list (edge T)) : res T :=
  for_each (fun d e => Ok (nadd O d (e_w e))) l (n0 O).

(** Graph.h:397-417  toDegreeMatrix *)
Definition toDegreeMatrix g : res (matrix T) :=
  let n := numVertices g in
  D <- mat_alloc n n (n0 O) ;;
  D <- zero_fill D n ;;
  for_range 0 n (fun D i =>
    l <- vget (g_adj g) i ;;
    deg <- sum_weights l ;;
    mset D i i deg) D.

(** Graph.h:421-443  toLaplacianMatrix *)
Definition toLaplacianMatrix g : res (matrix T) :=
  let n := numVertices g in
  L <- mat_alloc n n (n0 O) ;;
  L <- zero_fill L n ;;
  for_range 0 n (fun L i =>
    l <- vget (g_adj g) i ;;
    '(L, deg) <- for_each (fun '(L, deg) e =>
        L <- mset L i (e_to e) (nopp O (e_w e)) ;; Ok (L, nadd O deg (e_w e))) l (L, n0 O) ;;
    mset L i i deg) L.

(** Graph.h:447-487  toNormalizedLaplacian, for weights of type Real; [isq d] stands for the
    expression [deg > 0 ? 1 / sqrt(deg) : 0] of lines 461-465. *)
Definition toNormalizedLaplacian (isq : T -> T) g : res (matrix T) :=
  let n := numVertices g in
  L <- mat_alloc n n (n0 O) ;;
  deg <- for_range 0 n (fun d i =>
           l <- vget (g_adj g) i ;; s <- sum_weights l ;; vset d i s) (repeat (n0 O) n) ;;
  inv <- for_range 0 n (fun v i => d <- vget deg i ;; vset v i (isq d)) (repeat (n0 O) n) ;;
  L <- for_range 0 n (fun L i => for_range 0 n (fun L j =>
           x <- Ok (if Nat.eqb i j then n1 O else n0 O) ;; mset L i j x) L) L ;;
  for_range 0 n (fun L i =>
    l <- vget (g_adj g) i ;;
    for_each (fun L e =>
      a <- vget inv i ;; b <- vget inv (e_to e) ;; x <- mget L i (e_to e) ;;
      mset L i (e_to e) (nsub O x (nmul O (nmul O a (e_w e)) b))) l L) L.

End GraphMat.
