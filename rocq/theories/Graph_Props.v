(** * Theorems about the graph container: C01, C02, C15 *)

From Coq Require Import List Arith Bool Lia ZArith.
From Verif Require Import Base Graph_Spec Graph_Model Graph_Proofs Graph_Factories.
Import ListNotations.

(** ** C01 *)

(** What a client observes of a graph is exactly the abstract edge map [a]. *)
Definition observes {V E} (directed : bool) (g : graph V E) (a : agraph E) : Prop :=
  numVertices g = a_n a /\
  (forall u v, hasEdge g u v = Ok (isSome (a_edge a u v))) /\
  (forall u v w, edgeWeight g u v = Ok w <-> a_edge a u v = Some w) /\
  numEdges g = edge_count directed a /\
  (directed = false -> forall u v, a_edge a u v = a_edge a v u) /\
  (forall u, u < a_n a -> exists l, neighbors g u = Ok l /\ NoDup (map e_to l) /\
     degree g u = Ok (length l) /\
     (forall v w, In (mkEdge v w) l <-> a_edge a u v = Some w)) /\
  (forall v, v < a_n a ->
     inDegree g v = Ok (length (filter (fun u => isSome (a_edge a u v)) (seq 0 (a_n a))))) /\
  (forall u, a_n a <= u -> neighbors g u = Throw OutOfRange /\ degree g u = Throw OutOfRange /\
     inDegree g u = Throw OutOfRange) /\
  (forall u v, a_edge a u v = None ->
     edgeWeight g u v = if (a_n a <=? u) || (a_n a <=? v) then Throw OutOfRange
                        else Throw InvalidArgument) /\
  (forall u v w, a_edge a u v = Some w -> u < a_n a /\ v < a_n a).

(** *** Counting the edges that enter a vertex *)
Lemma count_list : forall E (l : list (edge E)) v c, NoDup (targets l) ->
  for_each (fun c e => Ok (if Nat.eqb (e_to e) v then S c else c)) l c =
  Ok ((if isSome (find_to l v) then 1 else 0) + c).
Proof.
  intros E l v. induction l as [|e l IH]; intros c Hnd; [reflexivity|].
  unfold targets in Hnd. simpl in Hnd. inversion Hnd as [|? ? Hn Hnd']; subst. simpl.
  rewrite IH by auto. unfold find_to at 2. simpl. fold (find_to l v).
  destruct (Nat.eqb_spec (e_to e) v) as [He|He]; [|reflexivity].
  destruct (find_to l v) eqn:F; [|reflexivity]. apply find_to_Some in F. destruct F as [F1 F2].
  exfalso. apply Hn. rewrite He, <- F2. apply in_map; auto.
Qed.

Lemma count_lists : forall E (f : nat -> bool) v (ls : list (list (edge E))) k c,
  (forall i l, nth_error ls i = Some l -> NoDup (targets l) /\ isSome (find_to l v) = f (k + i)) ->
  for_each (fun c l => for_each (fun c e => Ok (if Nat.eqb (e_to e) v then S c else c)) l c) ls c =
  Ok (length (filter f (seq k (length ls))) + c).
Proof.
  intros E f v ls. induction ls as [|l ls IH]; intros k c H; [reflexivity|].
  destruct (H 0 l eq_refl) as [H1 H2]. rewrite Nat.add_0_r in H2.
  cbn [for_each length seq filter]. rewrite count_list by auto. cbn [bind]. rewrite (IH (S k)).
  - rewrite H2. destruct (f k); cbn [length]; f_equal; lia.
  - intros i l' Hi. rewrite (Nat.add_succ_comm k i). apply (H (S i) l' Hi).
Qed.

Lemma inDegree_repr : forall V E (g : graph V E) a v, repr g a -> v < a_n a ->
  inDegree g v = Ok (length (filter (fun u => isSome (a_edge a u v)) (seq 0 (a_n a)))).
Proof.
  intros V E g a v H Hv. unfold inDegree, degree. rewrite (r_adj _ _ H).
  destruct (Nat.leb_spec (a_n a) v); [lia|].
  destruct (g_directed g) eqn:D; simpl.
  - rewrite <- (r_adj _ _ H). rewrite (count_lists E (fun u => isSome (a_edge a u v)) v (g_adj g) 0).
    + f_equal. lia.
    + intros i l Hl. split; [apply (r_dup _ _ H i l Hl)|]. simpl.
      rewrite <- (r_edge _ _ H i l v Hl). unfold opt_w. destruct (find_to l v); auto.
  - destruct (repr_adj _ _ v H Hv) as [l Hl]. unfold vget. rewrite Hl. simpl. f_equal.
    rewrite <- (map_length e_to l). fold (targets l).
    replace (length (targets l)) with (length (filter (fun _ => true) (targets l))).
    2:{ f_equal. induction (targets l); simpl; congruence. }
    apply filter_same_length; [apply (r_dup _ _ H v l Hl)|apply seq_NoDup|].
    intros x. rewrite in_seq. rewrite <- scan_to_In, scan_to_find.
    rewrite (r_sym _ _ H D x v), <- (r_edge _ _ H v l x Hl). unfold opt_w.
    destruct (find_to l x) eqn:F; simpl; split; intros [? ?]; try discriminate; split; auto.
    split; [lia|]. assert (G : a_edge a v x = Some (e_w e)).
    { rewrite <- (r_edge _ _ H v l x Hl). unfold opt_w. rewrite F. reflexivity. }
    apply (r_dom _ _ H) in G. lia.
Qed.

Lemma repr_observes : forall V E (g : graph V E) a, repr g a -> observes (g_directed g) g a.
Proof.
  intros V E g a H. pose proof (repr_gwf g a H) as W. unfold observes.
  split; [apply (r_n _ _ H)|].
  split; [intros; apply hasEdge_repr; auto|].
  split; [intros; apply (gedge_repr g a H)|].
  split; [apply (r_cnt _ _ H)|].
  split; [apply (r_sym _ _ H)|].
  split.
  - intros u Hu. destruct (repr_adj _ _ u H Hu) as [l Hl]. exists l. unfold neighbors, degree, vget.
    rewrite (r_adj _ _ H). destruct (Nat.leb_spec (a_n a) u); [lia|]. rewrite Hl. simpl.
    split; auto. split; [apply (r_dup _ _ H u l Hl)|]. split; auto.
    intros v w. rewrite (w_edge _ W u l Hl). apply (gedge_repr g a H).
  - split; [intros v Hv; apply inDegree_repr; auto|].
    split; [|split; [|apply (r_dom _ _ H)]].
    + intros u Hu. unfold neighbors, degree, inDegree. rewrite (r_adj _ _ H).
      apply Nat.leb_le in Hu. rewrite Hu. auto.
    + intros u v Huv. rewrite (edgeWeight_repr g a u v H), Huv. reflexivity.
Qed.

(** After every history of mutator calls, on every graph, whatever the client passes and whatever
    calls throw, the calls run without undefined behaviour and the object observed is the edge map the
    specification [spec_ops] assigns to that history. *)
Theorem C01_graph_is_edge_map :
  forall (V E : Type) (conv : nat -> V) (n : nat) (directed loops : bool) (ops : list (op V E)),
  exists g a,
    exec_ops (graph_sized conv n directed loops) ops = Ok g /\
    spec_ops directed loops (mkA n (fun _ _ => None)) ops a /\
    observes directed g a.
Proof.
  intros V E conv n d lp ops.
  destruct (exec_ops_repr ops _ _ (repr_sized conv n d lp)) as (g & a & E' & S' & H' & D' & _).
  simpl in D', S'. exists g, a. split; auto. split; auto. rewrite <- D'. apply repr_observes; auto.
Qed.
Print Assumptions C01_graph_is_edge_map.

(** The specification determines the abstract graph up to pointwise equality, so the theorem pins
    down all observations. *)
Theorem C01_spec_deterministic :
  forall (V E : Type) directed loops (ops : list (op V E)) a b a' b',
  a_n a = a_n b -> (forall u v, a_edge a u v = a_edge b u v) ->
  spec_ops directed loops a ops a' -> spec_ops directed loops b ops b' ->
  a_n a' = a_n b' /\ (forall u v, a_edge a' u v = a_edge b' u v).
Proof.
  intros V E d lp ops. induction ops as [|o ops IH]; intros a b a' b' Hn He Ha Hb.
  - inversion Ha; inversion Hb; subst. auto.
  - inversion Ha as [|? ? a1 ? ? Ha1 Ha2]; subst. inversion Hb as [|? ? b1 ? ? Hb1 Hb2]; subst.
    assert (Hc : forall u v, can_add lp a u v <-> can_add lp b u v).
    { intros u v. unfold can_add. rewrite Hn, He. tauto. }
    eapply (IH a1 b1); eauto.
    + destruct Ha1; inversion Hb1; subst; simpl; auto; try congruence.
    + destruct Ha1; inversion Hb1; subst; simpl; auto.
      * intros x y. unfold set_edge, set1. destruct d; rewrite He; auto.
      * exfalso. apply H5. apply Hc. auto.
      * exfalso. apply H. apply Hc. auto.
      * intros x y. unfold set_edge, set1. destruct d; rewrite He; auto.
Qed.
Print Assumptions C01_spec_deterministic.

(** Non-vacuity: a history with successes, rejections and a removal, computed. *)
Example C01_example :
  match exec_ops (graph_sized (fun i => i) 3 false false)
    [OpAddEdge 0 1 5%Z; OpAddEdge 1 0 7%Z; OpAddEdge 1 1 1%Z; OpAddVertex 9; OpAddEdge 3 1 2%Z;
     OpRemoveEdge 1 0; OpAddEdge 0 9 1%Z] with
  | Ok g => numVertices g = 4 /\ numEdges g = 1 /\ hasEdge g 1 3 = Ok true /\ hasEdge g 0 1 = Ok false
  | _ => False
  end.
Proof. vm_compute. auto. Qed.

(** *** Vertex payloads *)

(** What a call does to the sequence of payloads: only addVertex and clear touch it. *)
Definition payload_after {V E} (d : list V) (o : op V E) : list V :=
  match o with OpAddVertex x => d ++ [x] | OpClear => [] | _ => d end.

Definition keeps {V E A} (m : ST (graph V E) A) : Prop := forall g, g_vdata (snd (m g)) = g_vdata g.

Lemma keeps_bind : forall V E A B (m : ST (graph V E) A) (k : A -> ST (graph V E) B),
  keeps m -> (forall x, keeps (k x)) -> keeps (sbind m k).
Proof.
  intros V E A B m k Hm Hk g. unfold sbind. specialize (Hm g).
  destruct (m g) as [[x|e| |] s]; simpl in *; auto. rewrite <- Hm. apply Hk.
Qed.

Lemma keeps_slift : forall V E A (f : graph V E -> res A), keeps (slift f).
Proof. intros V E A f g. unfold slift. destruct (f g); reflexivity. Qed.

Ltac keeps := repeat first [ apply keeps_slift | apply keeps_bind; [|intros] | intros ?g; reflexivity ].

Lemma addEdge_vdata : forall V E u v w, keeps (V := V) (E := E) (addEdge u v w).
Proof.
  intros V E u v w g. unfold addEdge.
  destruct ((length (g_vdata g) <=? u) || (length (g_vdata g) <=? v)); [reflexivity|].
  destruct (negb (g_loops g) && Nat.eqb u v); [reflexivity|].
  match goal with |- g_vdata (snd (?m g)) = _ => enough (K : keeps m) by apply K end.
  apply keeps_bind; [keeps|intros l]. destruct (scan_to l v); [keeps|].
  unfold push_edge. keeps. destruct (negb (g_directed g) && negb (Nat.eqb u v)); keeps.
Qed.

Lemma removeEdge_vdata : forall V E u v, keeps (V := V) (E := E) (removeEdge u v).
Proof.
  intros V E u v g. unfold removeEdge.
  destruct ((length (g_vdata g) <=? u) || (length (g_vdata g) <=? v)); [reflexivity|].
  match goal with |- g_vdata (snd (?m g)) = _ => enough (K : keeps m) by apply K end.
  apply keeps_bind; [keeps|intros l]. destruct (negb (scan_to l v)); [keeps|].
  unfold erase_edge. keeps. destruct (negb (g_directed g) && negb (Nat.eqb u v)); keeps.
Qed.

Lemma exec_op_vdata : forall V E (g g' : graph V E) o, exec_op g o = Ok g' ->
  g_vdata g' = payload_after (g_vdata g) o.
Proof.
  intros V E g g' [d|u v w|u v|] H; simpl in *.
  - inversion H; reflexivity.
  - rewrite <- (addEdge_vdata V E u v w g). unfold run_catch in H.
    destruct (addEdge u v w g) as [[x|e| |] s]; inversion H; reflexivity.
  - rewrite <- (removeEdge_vdata V E u v g). unfold run_catch in H.
    destruct (removeEdge u v g) as [[x|e| |] s]; inversion H; reflexivity.
  - inversion H; reflexivity.
Qed.

Lemma exec_ops_vdata : forall V E ops (g g' : graph V E), exec_ops g ops = Ok g' ->
  g_vdata g' = fold_left payload_after ops (g_vdata g).
Proof.
  intros V E ops. induction ops as [|o ops IH]; intros g g' H; unfold exec_ops in *; simpl in *.
  - inversion H; reflexivity.
  - apply bind_Ok in H. destruct H as (g1 & H1 & H2). rewrite (IH g1 g' H2).
    rewrite (exec_op_vdata _ _ _ _ _ H1). reflexivity.
Qed.

(** After every history, [vertexData] returns the payloads of the vertices in creation order (the
    converted indices for those made by the constructor), throws [out_of_range] outside, and
    [addVertex] returns the index of the vertex it made. *)
Theorem C01_vertex_data :
  forall (V E : Type) (conv : nat -> V) (n : nat) (directed loops : bool) (ops : list (op V E)),
  exists g, exec_ops (graph_sized conv n directed loops) ops = Ok g /\
    let payloads := fold_left payload_after ops (map conv (seq 0 n)) in
    numVertices g = length payloads /\
    (forall v x, nth_error payloads v = Some x -> vertexData g v = Ok x) /\
    (forall v, length payloads <= v -> vertexData g v = Throw OutOfRange) /\
    (forall x, snd (addVertex g x) = numVertices g /\
               vertexData (fst (addVertex g x)) (numVertices g) = Ok x).
Proof.
  intros V E conv n d lp ops.
  destruct (exec_ops_repr ops _ _ (repr_sized conv n d lp)) as (g & a & E' & _).
  exists g. split; auto. apply exec_ops_vdata in E'. simpl in E'. cbv zeta. rewrite <- E'.
  split; [reflexivity|]. split; [|split].
  - intros v x Hx. unfold vertexData, vget. rewrite Hx.
    destruct (Nat.leb_spec (length (g_vdata g)) v) as [Hl|Hl]; auto.
    apply nth_error_None in Hl. congruence.
  - intros v Hv. unfold vertexData. apply Nat.leb_le in Hv. rewrite Hv. reflexivity.
  - intros x. split; [reflexivity|]. unfold vertexData, numVertices, addVertex, vget. simpl.
    rewrite app_length. simpl. destruct (Nat.leb_spec (length (g_vdata g) + 1) (length (g_vdata g)));
      [lia|]. rewrite nth_error_app2 by lia. rewrite Nat.sub_diag. reflexivity.
Qed.
Print Assumptions C01_vertex_data.

Example C01_vertex_data_example :
  match exec_ops (graph_sized (fun i => i * 10) 2 true false)
    [OpAddEdge 0 1 5%Z; OpAddVertex 7; OpAddEdge 2 1 5%Z; OpAddEdge 2 2 1%Z] with
  | Ok g => vertexData g 1 = Ok 10 /\ vertexData g 2 = Ok 7 /\ vertexData g 3 = Throw OutOfRange /\
            inDegree g 1 = Ok 2 /\ inDegree g 0 = Ok 0
  | _ => False
  end.
Proof. vm_compute. auto. Qed.

(** ** C02 *)

(** [addEdge] throws exactly when the edge cannot legally be added, and then the object is unchanged;
    otherwise it succeeds.  [removeEdge] never throws and, when it returns false, changes nothing; it
    returns false exactly when there is no such edge. *)
Theorem C02_throwing_mutators :
  forall (V E : Type) (g : graph V E) u v w, api_graph g ->
  exists a, observes (g_directed g) g a /\
    (can_add (g_loops g) a u v -> exists g', addEdge u v w g = (Ok tt, g') /\
        observes (g_directed g) g' (mkA (a_n a) (set_edge (g_directed g) (a_edge a) u v (Some w)))) /\
    (~ can_add (g_loops g) a u v -> exists e, addEdge u v w g = (Throw e, g)) /\
    (a_edge a u v = None -> removeEdge u v g = (Ok false, g)) /\
    (a_edge a u v <> None -> exists g', removeEdge u v g = (Ok true, g') /\
        observes (g_directed g) g' (mkA (a_n a) (set_edge (g_directed g) (a_edge a) u v None))).
Proof.
  intros V E g u v w Hg. destruct (api_repr g Hg) as [a H]. exists a.
  split; [apply repr_observes; auto|].
  split.
  { intros Hc. destruct (addEdge_ok g a u v w H Hc) as (g' & E' & H' & D' & _). exists g'. split; auto.
    rewrite <- D' at 1. apply repr_observes; auto. }
  split; [intros Hc; eapply addEdge_fail; eauto|].
  split; [intros Hn; eapply removeEdge_false; eauto|].
  intros Hs. destruct (a_edge a u v) eqn:F; [|congruence].
  destruct (removeEdge_true g a u v e H F) as (g' & E' & H' & D' & _). exists g'. split; auto.
  rewrite <- D' at 1. apply repr_observes; auto.
Qed.
Print Assumptions C02_throwing_mutators.

Example C02_example :
  let g := graph_sized (fun i => i) 3 true false in
  api_graph g /\
  fst (addEdge 0 0 1%Z g) = Throw InvalidArgument /\ fst (addEdge 0 3 1%Z g) = Throw OutOfRange /\
  (exists g1, addEdge 0 1 4%Z g = (Ok tt, g1) /\ fst (addEdge 0 1 5%Z g1) = Throw InvalidArgument /\
     fst (addEdge 1 0 5%Z g1) = Ok tt /\ fst (removeEdge 0 1 g1) = Ok true).
Proof.
  split; [exists (fun i => i), 3, true, false, []; reflexivity|].
  vm_compute. repeat apply conj; auto. eexists. auto.
Qed.

(** Adding a new edge and removing it again restores every observation. *)
Theorem C02_remove_undoes_add :
  forall (V E : Type) (g g1 : graph V E) u v w, api_graph g ->
  addEdge u v w g = (Ok tt, g1) ->
  exists g2, removeEdge u v g1 = (Ok true, g2) /\
    numVertices g2 = numVertices g /\ numEdges g2 = numEdges g /\
    (forall x y, hasEdge g2 x y = hasEdge g x y) /\
    (forall x y w', edgeWeight g2 x y = Ok w' <-> edgeWeight g x y = Ok w').
Proof.
  intros V E g g1 u v w Hg Hadd. destruct (api_repr g Hg) as [a H].
  destruct (can_add_dec (g_loops g) a u v) as [Hc|Hc].
  2:{ destruct (addEdge_fail g a u v w H Hc) as (e & Ee). congruence. }
  destruct (addEdge_ok g a u v w H Hc) as (g' & E' & H' & D' & _).
  assert (g' = g1) by congruence. subst g'.
  set (a1 := mkA (a_n a) (set_edge (g_directed g) (a_edge a) u v (Some w))) in *.
  assert (F : a_edge a1 u v = Some w).
  { unfold a1, set_edge, set1; simpl. destruct (g_directed g); rewrite !Nat.eqb_refl; simpl; auto.
    destruct (Nat.eqb u v && Nat.eqb v u); auto. }
  destruct (removeEdge_true g1 a1 u v w H' F) as (g2 & E2 & H2 & D2 & _).
  exists g2. split; auto.
  assert (R : repr g2 a).
  { eapply repr_ext; [exact H2|reflexivity|]. intros x y. simpl. rewrite D'.
    destruct Hc as (_ & _ & _ & Hnone). pose proof (r_sym _ _ H) as Hs.
    unfold set_edge, set1. destruct (g_directed g).
    - destruct (Nat.eqb_spec x u); destruct (Nat.eqb_spec y v); simpl; subst; auto.
    - repeat match goal with |- context [Nat.eqb ?p ?q] => destruct (Nat.eqb_spec p q) end;
        simpl; subst; auto; rewrite (Hs eq_refl); auto. }
  split; [rewrite (r_n _ _ R), (r_n _ _ H); auto|].
  split; [rewrite (r_cnt _ _ R), (r_cnt _ _ H), D2, D'; auto|].
  split; [intros; rewrite !(hasEdge_repr _ a); auto|].
  intros x y w'. fold (gedge g2 x w' y). fold (gedge g x w' y).
  rewrite (gedge_repr g2 a R), (gedge_repr g a H). tauto.
Qed.
Print Assumptions C02_remove_undoes_add.

(** ** C15 *)
Section Factories.
Context {V E : Type} (conv : nat -> V) (one : E).

(** The graph has [n] vertices, [c] edges, all of weight [one], and its edge relation is [R]. *)
Definition is_graph (g : graph V E) (n c : nat) (R : nat -> nat -> Prop) : Prop :=
  numVertices g = n /\ numEdges g = c /\
  (forall u v, hasEdge g u v = Ok true <-> R u v) /\
  (forall u v, hasEdge g u v = Ok true \/ hasEdge g u v = Ok false) /\
  (forall u v, R u v -> edgeWeight g u v = Ok one).

Lemma FS_is_graph : forall n P c g R, FS one n P c g -> (forall u v, P u v = true <-> R u v) ->
  is_graph g n c R.
Proof.
  intros n P c g R H HR. unfold is_graph.
  split; [eapply FS_n; eauto|]. split; [apply H|].
  split. { intros u v. rewrite (FS_hasEdge one n P c g u v H), <- HR.
           split; [intros G; inversion G; auto|intros ->; auto]. }
  split. { intros u v. rewrite (FS_hasEdge one n P c g u v H). destruct (P u v); auto. }
  intros u v HRuv. eapply FS_weight; eauto. apply HR; auto.
Qed.

Theorem C15_path_graph : forall n, 1 <= n ->
  exists g, create_path conv one n = Ok g /\
    is_graph g n (n - 1) (fun u v => u < n /\ v < n /\ (v = u + 1 \/ u = v + 1)).
Proof.
  intros n Hn. destruct (wp_elim _ _ _ (create_path_ok conv one n Hn)) as (g & E1 & H).
  exists g. split; auto. eapply FS_is_graph; eauto. intros u v. unfold P_path.
  rewrite orb_true_iff, !andb_true_iff, !Nat.eqb_eq, !Nat.ltb_lt. lia.
Qed.

Theorem C15_cycle_graph : forall n, 3 <= n ->
  exists g, create_cycle conv one n = Ok g /\
    is_graph g n n (fun u v => u < n /\ v < n /\ (v = (u + 1) mod n \/ u = (v + 1) mod n)).
Proof.
  intros n Hn. assert (H1 : 1 <= n) by lia.
  destruct (wp_elim _ _ _ (create_cycle_ok conv one n H1)) as (g & E1 & H).
  rewrite (proj2 (Nat.ltb_lt 2 n)) in H by lia.
  exists g. split; auto. eapply FS_is_graph; eauto. intros u v. unfold P_cycle, P_path.
  rewrite (proj2 (Nat.ltb_lt 2 n)) by lia. simpl.
  rewrite !orb_true_iff, !andb_true_iff, !Nat.eqb_eq, !Nat.ltb_lt.
  assert (M : forall x, x < n -> (x + 1) mod n = if Nat.eqb x (n - 1) then 0 else x + 1).
  { intros x Hx. destruct (Nat.eqb_spec x (n - 1)).
    - subst. replace (n - 1 + 1) with n by lia. apply Nat.mod_same; lia.
    - apply Nat.mod_small; lia. }
  split.
  - intros [[[-> G]|[-> G]]|[[-> ->]|[-> ->]]]; (split; [lia|]; split; [lia|]).
    + left. rewrite M by lia. destruct (Nat.eqb_spec u (n - 1)); lia.
    + right. rewrite M by lia. destruct (Nat.eqb_spec v (n - 1)); lia.
    + left. rewrite M by lia. rewrite Nat.eqb_refl; auto.
    + right. rewrite M by lia. rewrite Nat.eqb_refl; auto.
  - intros (Hu & Hv & [G|G]); rewrite M in G by lia.
    + destruct (Nat.eqb_spec u (n - 1)); lia.
    + destruct (Nat.eqb_spec v (n - 1)); lia.
Qed.

Theorem C15_complete_graph : forall n,
  exists g c, create_complete conv one n = Ok g /\ 2 * c = n * (n - 1) /\
    is_graph g n c (fun u v => u < n /\ v < n /\ u <> v).
Proof.
  intros n. destruct (wp_elim _ _ _ (create_complete_ok conv one n)) as (g & E1 & c & Hc & H).
  exists g, c. split; auto. split; auto. eapply FS_is_graph; eauto. intros u v. unfold P_compl.
  repeat (rewrite ?orb_true_iff, ?andb_true_iff, ?Nat.eqb_eq, ?Nat.ltb_lt). lia.
Qed.

Theorem C15_star_graph : forall n,
  exists g, create_star conv one n = Ok g /\
    is_graph g n (n - 1) (fun u v => u < n /\ v < n /\ u <> v /\ (u = 0 \/ v = 0)).
Proof.
  intros n. destruct (wp_elim _ _ _ (create_star_ok conv one n)) as (g & E1 & H).
  exists g. split; auto. eapply FS_is_graph; eauto. intros u v. unfold P_star.
  rewrite !orb_true_iff, !andb_true_iff, !Nat.eqb_eq, !Nat.ltb_lt, !Nat.leb_le. lia.
Qed.

(** grid: vertex (r,c) has index r*cols+c; vertices are adjacent iff their Manhattan distance is 1 *)
Theorem C15_grid_graph : forall rows cols,
  exists g, create_grid conv one rows cols = Ok g /\
    numVertices g = rows * cols /\
    numEdges g = rows * (cols - 1) + (rows - 1) * cols /\
    (forall r c r' c', r < rows -> r' < rows -> c < cols -> c' < cols ->
       hasEdge g (r * cols + c) (r' * cols + c') =
       Ok (Nat.eqb ((r - r') + (r' - r) + (c - c') + (c' - c)) 1)).
Proof.
  intros rows cols. destruct (wp_elim _ _ _ (create_grid_ok conv one rows cols)) as (g & E1 & H).
  exists g. split; auto. split; [eapply FS_n; eauto|]. split; [apply H|].
  intros r c r' c' Hr Hr' Hc Hc'. rewrite (FS_hasEdge one _ _ _ g _ _ H). f_equal.
  apply eq_true_iff_eq. unfold P_grid. rewrite !grid_mod by auto.
  repeat (rewrite ?orb_true_iff, ?andb_true_iff, ?Nat.eqb_eq, ?Nat.ltb_lt).
  assert (B : forall r c, r < rows -> c < cols -> r * cols + c < rows * cols) by (intros; nia).
  pose proof (B r c Hr Hc) as B1. pose proof (B r' c' Hr' Hc') as B2.
  assert (Rows : r' = r \/ r' = r + 1 \/ r = r' + 1 \/ r + 2 <= r' \/ r' + 2 <= r) by lia.
  destruct Rows as [->|[->|[->|[L|L]]]].
  - lia.
  - split; [|lia]. intros [[_ [[G1 G2]|[G1 G2]]]|[_ [[G1 G2]|[G1 G2]]]]; nia.
  - split; [|lia]. intros [[_ [[G1 G2]|[G1 G2]]]|[_ [[G1 G2]|[G1 G2]]]]; nia.
  - split; [|lia]. intros [[_ [[G1 G2]|[G1 G2]]]|[_ [[G1 G2]|[G1 G2]]]]; nia.
  - split; [|lia]. intros [[_ [[G1 G2]|[G1 G2]]]|[_ [[G1 G2]|[G1 G2]]]]; nia.
Qed.

(** Finding: size 0 is not handled by the path and cycle factories ([n - 1] wraps around and
    addEdge throws), although the other factories return the empty graph for it. *)
Theorem C15_path_cycle_zero_throws :
  create_path conv one 0 = Throw OutOfRange /\ create_cycle conv one 0 = Throw OutOfRange /\
  (exists g, create_complete conv one 0 = Ok g) /\ (exists g, create_star conv one 0 = Ok g) /\
  (exists g, create_grid conv one 0 0 = Ok g).
Proof. repeat apply conj; try reflexivity; eexists; reflexivity. Qed.

End Factories.
Print Assumptions C15_path_graph.
Print Assumptions C15_cycle_graph.
Print Assumptions C15_complete_graph.
Print Assumptions C15_star_graph.
Print Assumptions C15_grid_graph.
Print Assumptions C15_path_cycle_zero_throws.

Example C15_example :
  (exists g, create_grid (fun i => i) 1%Z 2 3 = Ok g /\ numEdges g = 7 /\ hasEdge g 2 5 = Ok true /\ hasEdge g 2 3 = Ok false)
  /\ (exists g, create_cycle (fun i => i) 1%Z 4 = Ok g /\ numEdges g = 4 /\ hasEdge g 3 0 = Ok true).
Proof. split; eexists; split; try (vm_compute; reflexivity); vm_compute; auto. Qed.
