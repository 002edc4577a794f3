(** * C03, C04, C13: traversals and path reconstruction *)

From Coq Require Import List Arith Bool Lia Sorted.
From Verif Require Import Base Graph_Spec Graph_Model Graph_Proofs GraphAlg_Model GraphAlg_Tree
  GraphAlg_Bfs GraphAlg_Dfs GraphAlg_Visit.
Import ListNotations.

(** ** C03  BFS *)

(** What a correct breadth-first search result is, independently of how it is computed. *)
Record bfs_correct {W} (edge : nat -> W -> nat -> Prop) (n start : nat)
  (order : list nat) (parent dist : list (option nat)) : Prop := {
  bc_plen : length parent = n;
  bc_dlen : length dist = n;
  bc_nodup : NoDup order;
  bc_reach : forall v, In v order <-> reachable edge start v;
  bc_order : forall i j u v du dv, i <= j -> nth_error order i = Some u -> nth_error order j = Some v ->
     hop_dist edge start u du -> hop_dist edge start v dv -> du <= dv;
  bc_dist : forall v k, nth_error dist v = Some (Some k) <-> hop_dist edge start v k;
  bc_inf : forall v, nth_error dist v = Some None <-> v < n /\ ~ reachable edge start v;
  bc_parent : forall v p, nth_error parent v = Some (Some p) ->
     exists w k, edge p w v /\ hop_dist edge start p k /\ hop_dist edge start v (S k);
  bc_noparent : forall v, nth_error parent v = Some None <-> v < n /\ (v = start \/ ~ reachable edge start v)
}.

Lemma binv_correct : forall V E (g : graph V E) start L o par dist,
  gwf g -> start < numVertices g ->
  binv g start L o [] no_part (map (fun d => isSome d) dist) par dist ->
  bfs_correct (gedge g) (numVertices g) start o par dist.
Proof.
  intros V E g start L o par dist Hg Hs H.
  pose proof (binv_hop g start Hs L o _ par dist H) as Hhop.
  assert (Eo : map fst L = o) by (rewrite (bi_seq _ _ _ _ _ _ _ _ _ H), app_nil_r; auto).
  assert (Hd : forall v k, In (v, k) L <-> hop_dist (gedge g) start v k).
  { intros v k. split.
    - intros Hin. split; [apply (bi_walk _ _ _ _ _ _ _ _ _ H); auto|].
      intros ws Hw. destruct (Hhop ws v Hw) as (k' & Hk' & Hle).
      rewrite (binv_fun g start _ _ _ _ _ _ _ H v k k' Hin Hk'). auto.
    - intros [(ws & Hw & Hlen) Hmin]. destruct (Hhop ws v Hw) as (k' & Hk' & Hle).
      destruct (bi_walk _ _ _ _ _ _ _ _ _ H _ _ Hk') as (ws' & Hw' & Hlen').
      specialize (Hmin ws' Hw'). replace k with k' by lia. auto. }
  assert (Hr : forall v, In v o <-> reachable (gedge g) start v).
  { intros v. rewrite <- Eo. split.
    - intros Hin. destruct (binv_in g start _ _ _ _ _ _ _ H v Hin) as [k Hk].
      destruct (bi_walk _ _ _ _ _ _ _ _ _ H _ _ Hk) as (ws & Hw & _). exists ws. auto.
    - intros (ws & Hw). destruct (Hhop ws v Hw) as (k & Hk & _). apply in_map_iff. exists (v, k). auto. }
  constructor.
  - apply (bi_pl _ _ _ _ _ _ _ _ _ H).
  - apply (bi_dl _ _ _ _ _ _ _ _ _ H).
  - rewrite <- Eo. apply (bi_nd _ _ _ _ _ _ _ _ _ H).
  - auto.
  - intros i j u v du dv Hij Hi Hj Hu Hv. apply Hd in Hu, Hv. rewrite <- Eo in Hi, Hj.
    rewrite nth_error_map in Hi, Hj.
    destruct (nth_error L i) as [[u' ku]|] eqn:Ei; [|discriminate].
    destruct (nth_error L j) as [[v' kv]|] eqn:Ej; [|discriminate].
    simpl in Hi, Hj. inversion Hi; inversion Hj; subst.
    assert (ku = du) by (eapply (binv_fun g start _ _ _ _ _ _ _ H); eauto using nth_error_In).
    assert (kv = dv) by (eapply (binv_fun g start _ _ _ _ _ _ _ H); eauto using nth_error_In).
    subst. destruct (Nat.eq_dec i j) as [->|Hne].
    { rewrite Ei in Ej. inversion Ej. auto. }
    destruct (nth_error_split _ _ Ei) as (A & B & EL & HA).
    assert (HB : In (v, dv) B).
    { rewrite EL in Ej. rewrite nth_error_app2 in Ej by lia.
      destruct (j - length A) as [|m] eqn:Em; [lia|]. simpl in Ej. eapply nth_error_In; eauto. }
    eapply (StronglySorted_mid (map snd L) (map snd A) (map snd B)).
    + rewrite EL, map_app. reflexivity.
    + apply in_map_iff. exists (v, dv). auto.
    + apply (bi_sort _ _ _ _ _ _ _ _ _ H).
  - intros v k. rewrite <- Hd. apply (bi_dist _ _ _ _ _ _ _ _ _ H).
  - intros v. rewrite <- Hr, <- Eo. split.
    + intros Hv. split.
      * rewrite <- (bi_dl _ _ _ _ _ _ _ _ _ H). eapply nth_error_Some_lt; eauto.
      * intros Hin. destruct (binv_in g start _ _ _ _ _ _ _ H v Hin) as [k Hk].
        apply (bi_dist _ _ _ _ _ _ _ _ _ H) in Hk. congruence.
    + intros [Hv Hn]. destruct (nth_error_lt _ dist v) as [d Hd'].
      { rewrite (bi_dl _ _ _ _ _ _ _ _ _ H). auto. }
      destruct d as [k|]; auto. exfalso. apply Hn. apply (bi_dist _ _ _ _ _ _ _ _ _ H) in Hd'.
      apply in_map_iff. exists (v, k). auto.
  - intros v p Hp.
    assert (Hv : v < numVertices g).
    { rewrite <- (bi_pl _ _ _ _ _ _ _ _ _ H). eapply nth_error_Some_lt; eauto. }
    assert (Hin : In v (map fst L)).
    { destruct (in_dec Nat.eq_dec v (map fst L)); auto.
      rewrite (bi_parn _ _ _ _ _ _ _ _ _ H v Hv) in Hp; [discriminate|auto]. }
    destruct (binv_in g start _ _ _ _ _ _ _ H v Hin) as [k Hk].
    destruct (in_split _ _ Hk) as (A & B & EL).
    destruct (Nat.eq_dec v start) as [->|Hne].
    { rewrite (bi_par0 _ _ _ _ _ _ _ _ _ H) in Hp. discriminate. }
    destruct (bi_par _ _ _ _ _ _ _ _ _ H _ _ _ _ EL Hne) as (p' & w & kp & Hp' & He & HA & ->).
    rewrite Hp in Hp'. inversion Hp'; subst p'. exists w, kp. split; auto. split; apply Hd; auto.
    rewrite EL. apply in_or_app; auto.
  - intros v. rewrite <- Hr, <- Eo. split.
    + intros Hp. split.
      * rewrite <- (bi_pl _ _ _ _ _ _ _ _ _ H). eapply nth_error_Some_lt; eauto.
      * destruct (Nat.eq_dec v start) as [->|Hne]; auto. right. intros Hin.
        destruct (binv_in g start _ _ _ _ _ _ _ H v Hin) as [k Hk].
        destruct (in_split _ _ Hk) as (A & B & EL).
        destruct (bi_par _ _ _ _ _ _ _ _ _ H _ _ _ _ EL Hne) as (p' & w & kp & Hp' & _). congruence.
    + intros [Hv [->|Hn]]; [apply (bi_par0 _ _ _ _ _ _ _ _ _ H)|].
      apply (bi_parn _ _ _ _ _ _ _ _ _ H); auto.
Qed.

Theorem C03_bfs : forall V E (g : graph V E) start, api_graph g -> start < numVertices g ->
  exists N, forall fuel, N <= fuel -> exists r, BFS fuel g start = Ok r /\
    bfs_correct (gedge g) (numVertices g) start (t_order r) (t_parent r) (t_dist r) /\
    t_count r = length (t_order r) /\ hd_error (t_order r) = Some start.
Proof.
  intros V E g start Ha Hs. pose proof (api_gwf g Ha) as Hg.
  exists (S (numVertices g)). intros fuel Hf.
  destruct (bfs_main g Hg start Hs fuel ltac:(lia)) as (r & L & Hr & HL & Hc).
  exists r. split; auto. split; [eapply binv_correct; eauto|]. split; auto.
  pose proof (bi_seq _ _ _ _ _ _ _ _ _ HL) as Eo. rewrite app_nil_r in Eo. rewrite <- Eo.
  pose proof (bi_start _ _ _ _ _ _ _ _ _ HL) as Hh. destruct L; simpl in *; inversion Hh; auto.
Qed.
Print Assumptions C03_bfs.

(** An out-of-range start vertex gives the empty result. *)
Theorem C03_bfs_bad_start : forall V E (g : graph V E) start fuel, numVertices g <= start ->
  BFS fuel g start = Ok (mkTrav [] [] [] 0).
Proof.
  intros V E g start fuel H. unfold BFS. apply Nat.leb_le in H. rewrite H. reflexivity.
Qed.
Print Assumptions C03_bfs_bad_start.

(** BFSVisit calls the visitor on the vertices in BFS order, up to and including the first one for
    which it returns false. *)
Theorem C03_bfs_visit : forall V E (g : graph V E) start (visitor : nat -> bool), api_graph g ->
  start < numVertices g ->
  exists N, forall fuel, N <= fuel -> exists r, BFS fuel g start = Ok r /\
    BFSVisit fuel g start visitor = Ok (until visitor (t_order r)).
Proof.
  intros V E g start f Ha Hs. pose proof (api_gwf g Ha) as Hg.
  exists (S (numVertices g)). intros fuel Hf.
  destruct (bfs_main g Hg start Hs fuel ltac:(lia)) as (r & L & Hr & _).
  exists r. split; auto. unfold BFS in Hr. unfold BFSVisit.
  destruct (Nat.leb_spec (numVertices g) start); [lia|].
  apply bind_Ok in Hr. destruct Hr as (vis & Hv & Hr). rewrite Hv. cbv beta iota delta [bind].
  apply bind_Ok in Hr. destruct Hr as (dist & _ & Hr).
  apply bind_Ok in Hr. destruct Hr as (s & Hs' & Hr). inversion Hr; subst. simpl.
  destruct (bfsv_sim g f _ _ _ Hs') as (rest & E1 & E2). simpl in *. rewrite E1. apply E2.
Qed.
Print Assumptions C03_bfs_visit.

(** ** C04  DFS *)

Theorem C04_dfs : forall V E (g : graph V E) start, api_graph g -> start < numVertices g ->
  exists N, forall fuel, N <= fuel -> exists r, DFS fuel g start = Ok r /\
    NoDup (t_order r) /\ t_count r = length (t_order r) /\
    (forall v, In v (t_order r) <-> reachable (gedge g) start v) /\
    (* the order is the preorder of the recursive search taking neighbours in adjacency order *)
    dfs_pre (adj_list g) [] [start] (t_order r) /\
    (* parents: visited earlier, joined by an edge *)
    length (t_parent r) = numVertices g /\ length (t_dist r) = numVertices g /\
    nth_error (t_parent r) start = Some None /\ nth_error (t_dist r) start = Some (Some 0) /\
    (forall A v B, t_order r = A ++ v :: B -> v <> start ->
       exists p w k, nth_error (t_parent r) v = Some (Some p) /\ In p A /\ gedge g p w v /\
         nth_error (t_dist r) p = Some (Some k) /\ nth_error (t_dist r) v = Some (Some (S k))) /\
    (forall v, v < numVertices g -> ~ reachable (gedge g) start v ->
       nth_error (t_parent r) v = Some None /\ nth_error (t_dist r) v = Some None).
Proof.
  intros V E g start Ha Hs. pose proof (api_gwf g Ha) as Hg.
  destruct (dfs_main g Hg start Hs) as (N & HN). exists N. intros fuel Hf.
  destruct (HN fuel Hf) as (s & H1 & H2 & H3 & H4). eexists. split; [exact H1|].
  destruct H3 as (HD & Hc & Hh). rewrite H4 in HD. simpl.
  assert (Hhd : hd_error (d_order s) = Some start).
  { destruct Hh as [[_ ?]|]; auto. congruence. }
  assert (Hst : In start (d_order s)) by (destruct (d_order s); inversion Hhd; left; auto).
  assert (Hr : forall v, In v (d_order s) <-> reachable (gedge g) start v).
  { intros v. split.
    - (* by position in the order *)
      assert (G : forall k A v B, length A = k -> d_order s = A ++ v :: B -> reachable (gedge g) start v).
      { intros k. induction k as [k IH] using lt_wf_ind. intros A x B HA EL.
        destruct (di_tree _ _ _ _ _ _ _ _ HD A x B EL) as [->|(p & Hp & HpA)].
        - exists []. constructor.
        - destruct (in_split _ _ HpA) as (A1 & A2 & EA). subst A.
          rewrite <- app_assoc in EL. rewrite app_length in HA. simpl in HA.
          destruct (IH (length A1) ltac:(lia) A1 p _ eq_refl EL) as (ws & Hws).
          destruct (di_par _ _ _ _ _ _ _ _ HD x p Hp) as (_ & _ & (w & Hw) & _).
          exists (ws ++ [w]). eapply walk_snoc; eauto. }
      intros Hin. destruct (in_split _ _ Hin) as (A & B & EL). eapply G; eauto.
    - intros (ws & Hw). revert ws v Hw. apply walk_rind; auto.
      intros ws v w t Hw Hin He. destruct (di_closed _ _ _ _ _ _ _ _ HD v w t He Hin I) as [?|[]]. auto. }
  split; [apply (di_nd _ _ _ _ _ _ _ _ HD)|].
  split; [auto|].
  split; [auto|].
  split.
  { assert (HI0 : dfs_inv g start (mkDfs (repeat false (numVertices g)) (repeat None (numVertices g))
       (upd (repeat None (numVertices g)) start (Some 0)) [start] [] 0)).
    { apply dfs_inv_init; auto. }
    apply (dfs_iter_pre g Hg start Hs _ _ _ HI0 H2). }
  split; [apply (di_pl _ _ _ _ _ _ _ _ HD)|].
  split; [apply (di_dl _ _ _ _ _ _ _ _ HD)|].
  split; [apply (di_par0 _ _ _ _ _ _ _ _ HD)|].
  split; [apply (di_dist0 _ _ _ _ _ _ _ _ HD)|].
  split.
  { intros A v B EL Hne. destruct (di_tree _ _ _ _ _ _ _ _ HD A v B EL) as [?|(p & Hp & HpA)]; [congruence|].
    destruct (di_par _ _ _ _ _ _ _ _ HD v p Hp) as (_ & _ & (w & Hw) & k & K1 & K2).
    exists p, w, k. auto. }
  intros v Hv Hn. rewrite <- Hr in Hn.
  assert (Hp : nth_error (d_par s) v = Some None).
  { destruct (nth_error_lt _ (d_par s) v) as [[p|] Hp]; auto.
    - rewrite (di_pl _ _ _ _ _ _ _ _ HD); auto.
    - destruct (di_disc _ _ _ _ _ _ _ _ HD v p Hp) as [?|[]]. contradiction. }
  split; auto. apply (di_parn _ _ _ _ _ _ _ _ HD); auto. congruence.
Qed.
Print Assumptions C04_dfs.

Theorem C04_dfs_visit : forall V E (g : graph V E) start (visitor : nat -> bool), api_graph g ->
  start < numVertices g ->
  exists N, forall fuel, N <= fuel -> exists r, DFS fuel g start = Ok r /\
    DFSVisit fuel g start visitor = Ok (until visitor (t_order r)).
Proof.
  intros V E g start f Ha Hs. pose proof (api_gwf g Ha) as Hg.
  destruct (dfs_main g Hg start Hs) as (N & HN). exists N. intros fuel Hf.
  destruct (HN fuel Hf) as (s & H1 & H2 & _). eexists. split; [exact H1|]. simpl.
  unfold DFSVisit. destruct (Nat.leb_spec (numVertices g) start); [lia|].
  destruct (dfsv_sim g f _ _ _ H2) as (rest & E1 & E2). simpl in *. rewrite E1. apply E2.
Qed.
Print Assumptions C04_dfs_visit.

(** The parent pointers of DFS are not those of the recursive depth-first tree: in 0->1, 0->2, 1->2
    vertex 2 is first entered from 1, but parent[2] = 0. *)
Definition tri : graph nat nat :=
  match exec_ops (graph_sized (fun i => i) 3 true true) [OpAddEdge 0 1 1; OpAddEdge 0 2 1; OpAddEdge 1 2 1] with
  | Ok g => g | _ => graph_empty true true end.

Theorem C04_dfs_parent_not_tree_refuted :
  api_graph tri /\ exists r, DFS 10 tri 0 = Ok r /\ t_order r = [0; 1; 2] /\
    nth_error (t_parent r) 2 = Some (Some 0).
Proof.
  split.
  - exists (fun i => i), 3, true, true, [OpAddEdge 0 1 1; OpAddEdge 0 2 1; OpAddEdge 1 2 1]. reflexivity.
  - eexists. split; [vm_compute; reflexivity|]. auto.
Qed.
Print Assumptions C04_dfs_parent_not_tree_refuted.

(** Non-vacuity: a graph with an unreachable part, two routes and a cycle. *)
Definition demo : graph nat nat :=
  match exec_ops (graph_sized (fun i => i) 6 true true)
    [OpAddEdge 0 1 4; OpAddEdge 0 2 1; OpAddEdge 2 1 2; OpAddEdge 1 3 1; OpAddEdge 3 0 1; OpAddEdge 4 3 1] with
  | Ok g => g | _ => graph_empty true true end.

Lemma demo_api : api_graph demo.
Proof.
  exists (fun i => i), 6, true, true,
    [OpAddEdge 0 1 4; OpAddEdge 0 2 1; OpAddEdge 2 1 2; OpAddEdge 1 3 1; OpAddEdge 3 0 1; OpAddEdge 4 3 1].
  reflexivity.
Qed.

Example C03_example : 0 < numVertices demo /\ exists r, BFS 10 demo 0 = Ok r /\ t_order r = [0; 1; 2; 3] /\
  t_dist r = [Some 0; Some 1; Some 1; Some 2; None; None] /\
  t_parent r = [None; Some 0; Some 0; Some 1; None; None] /\
  BFSVisit 10 demo 0 (fun v => negb (Nat.eqb v 2)) = Ok [0; 1; 2].
Proof. split; [vm_compute; lia|]. eexists. split; [vm_compute; reflexivity|]. auto. Qed.

Example C04_example : exists r, DFS 20 demo 0 = Ok r /\ t_order r = [0; 1; 3; 2] /\
  t_parent r = [None; Some 0; Some 0; Some 1; None; None] /\
  DFSVisit 20 demo 0 (fun v => negb (Nat.eqb v 3)) = Ok [0; 1; 3].
Proof. eexists. split; [vm_compute; reflexivity|]. auto. Qed.

(** ** C13  ReconstructPath and ShortestPathUnweighted *)

(** [parent_path par start p t]: [p] ends in [t], begins in [start], and each step goes from a vertex's
    parent to the vertex. *)
Inductive parent_path (par : list (option nat)) (start : nat) : list nat -> nat -> Prop :=
| pp_start : parent_path par start [start] start
| pp_step : forall p u v, parent_path par start p u -> nth_error par v = Some (Some u) -> v <> start ->
    parent_path par start (p ++ [v]) v.

(** For ANY parent array: if the call returns a path that begins with [start], then it is the chain of
    parents from [start] to [target]. *)
Theorem C13_reconstruct_sound : forall fuel par start target path,
  ReconstructPath fuel par start target = Ok path -> hd_error path = Some start ->
  parent_path par start path target.
Proof.
  intros fuel par start target path H Hhd.
  assert (G : forall fuel acc c path, iter fuel (recon_step par start) (acc, c) = Ok path ->
     exists q, path = acc ++ q /\ match c with None => q = [] | Some v =>
       (exists q', q = v :: q') /\ (last q 0 = start -> parent_path par start (rev q) v) end).
  { clear. induction fuel as [|fuel IH]; intros acc c path H; simpl in H; [discriminate|].
    destruct c as [c|].
    - destruct (Nat.eqb_spec c start) as [->|Hne].
      + simpl in H. inversion H; subst. exists [start]. split; auto. split; eauto. intros _. simpl. constructor.
      + apply bind_Ok in H. destruct H as (r & Hr & Hk). apply bind_Ok in Hr. destruct Hr as (p & Hp & Hr).
        inversion Hr; subst r. apply IH in Hk. destruct Hk as (q & -> & Hq).
        exists (c :: q). rewrite <- app_assoc. split; auto. split; eauto.
        intros Hl. apply vget_Ok in Hp. destruct p as [p|].
        * destruct Hq as ((q' & ->) & Hq). simpl. eapply pp_step; eauto.
        * subst q. simpl in Hl. congruence.
    - simpl in H. inversion H; subst. exists []. rewrite app_nil_r. auto. }
  unfold ReconstructPath in H. destruct (length par <=? target); [inversion H; subst; discriminate|].
  apply bind_Ok in H. destruct H as (p & Hp & H).
  assert (K : forall path, (exists path0, iter fuel (recon_step par start) ([], Some target) = Ok path0 /\ path = rev path0) ->
     hd_error path = Some start -> parent_path par start path target).
  { intros pa (p0 & Hp0 & ->) Hh. apply G in Hp0. destruct Hp0 as (q & -> & (q' & Eq) & Hq). simpl in *.
    apply Hq. rewrite <- (rev_involutive q). destruct (rev q); simpl in *; [discriminate|].
    inversion Hh; subst. apply last_last. }
  destruct p as [p|].
  - apply K; auto. apply bind_Ok in H. destruct H as (p0 & Hp0 & H). inversion H; eauto.
  - destruct (Nat.eqb target start); simpl in H; [|inversion H; subst; discriminate].
    apply K; auto. apply bind_Ok in H. destruct H as (p0 & Hp0 & H). inversion H; eauto.
Qed.
Print Assumptions C13_reconstruct_sound.

(** With a start vertex other than the one the parents were computed from, the returned path need not
    begin at [start]; and on a cyclic array the function does not return. *)
Theorem C13_reconstruct_wrong_start_refuted :
  (forall fuel, 3 < fuel -> ReconstructPath fuel [None; Some 0; Some 1] 5 2 = Ok [0; 1; 2]) /\
  (forall fuel, ReconstructPath fuel [None; Some 2; Some 1] 0 2 = NoFuel).
Proof.
  split.
  - intros [|[|[|[|fuel]]]] H; try lia; reflexivity.
  - intros fuel. unfold ReconstructPath. simpl.
    assert (G : forall fuel acc, iter fuel (recon_step [None; Some 2; Some 1] 0) (acc, Some 2) = NoFuel /\
                                 iter fuel (recon_step [None; Some 2; Some 1] 0) (acc, Some 1) = NoFuel).
    { induction fuel0 as [|f IH]; intros acc; auto. split; simpl; apply IH. }
    destruct (G fuel []) as [-> _]. reflexivity.
Qed.
Print Assumptions C13_reconstruct_wrong_start_refuted.

(** From a tree of parents, reconstruction gives a walk whose labels accumulate. *)
Lemma reconstruct_tree : forall W D (edge : nat -> W -> nat -> Prop) par start (add : D -> W -> D)
    (lab : nat -> D) L v,
  tree_ok edge par start L -> (forall x, In x L -> x < length par) ->
  (forall x p w, In x L -> x <> start -> nth_error par x = Some (Some p) -> edge p w x ->
     lab x = add (lab p) w) ->
  In v L ->
  exists path ws, vwalk edge path ws /\ hd_error path = Some start /\ last path v = v /\
    fold_left add ws (lab start) = lab v /\ walk edge start ws v /\ length path = S (length ws) /\
    (forall fuel, length L < fuel -> ReconstructPath fuel par start v = Ok path).
Proof.
  intros W D edge par start add lab L v Hok Hlt Hlab Hin.
  destruct (tree_path W D edge par start add lab L v Hok Hlab Hin)
    as (path & ws & W1 & W2 & W3 & W4 & W5 & W6 & W7 & W8).
  exists (rev (v :: path)), ws. split; auto. split.
  { rewrite <- W2.
    assert (G : forall (l : list nat) d, l <> [] -> hd_error (rev l) = Some (last l d)).
    { intros l d Hl. destruct (exists_last Hl) as (l' & a & ->). rewrite rev_app_distr, last_last. reflexivity. }
    apply G. discriminate. }
  split.
  { simpl. apply last_last. }
  split; auto. split; auto. split.
  { rewrite rev_length. simpl. lia. }
  intros fuel Hf. unfold ReconstructPath.
  pose proof (Hlt v Hin) as Hv. destruct (Nat.leb_spec (length par) v); [lia|].
  destruct (nth_error_lt _ par v Hv) as [p Hp]. unfold vget. rewrite Hp. cbv beta iota delta [bind].
  specialize (W8 []). apply (iter_more _ _ _ _ fuel) in W8; [|lia]. simpl in W8. rewrite W8.
  destruct p as [p|]; auto.
  destruct (Nat.eqb_spec v start) as [->|Hne]; auto.
  destruct (in_split _ _ Hin) as (A & B & EL). destruct (Hok A v B EL) as [?|(p & w & Hp' & _)]; congruence.
Qed.

(** Parents computed by BFS: a walk with the fewest edges, empty iff unreachable. *)
Theorem C13_reconstruct_bfs : forall V E (g : graph V E) start target, api_graph g ->
  start < numVertices g -> target < numVertices g ->
  exists N, forall fuel, N <= fuel -> exists r path, BFS fuel g start = Ok r /\
    ReconstructPath fuel (t_parent r) start target = Ok path /\
    ((~ reachable (gedge g) start target /\ path = []) \/
     (exists ws, vwalk (gedge g) path ws /\ hd_error path = Some start /\ last path target = target /\
        hop_dist (gedge g) start target (length ws) /\ length path = S (length ws))).
Proof.
  intros V E g start target Ha Hs Ht. pose proof (api_gwf g Ha) as Hg.
  exists (S (S (numVertices g))). intros fuel Hf.
  destruct (bfs_main g Hg start Hs fuel ltac:(lia)) as (r & L & Hr & HL & Hc).
  pose proof (binv_correct _ _ g start L _ _ _ Hg Hs HL) as BC.
  pose proof (bi_seq _ _ _ _ _ _ _ _ _ HL) as Eo. rewrite app_nil_r in Eo.
  destruct (in_dec Nat.eq_dec target (t_order r)) as [Hin|Hn].
  - destruct (reconstruct_tree E nat (gedge g) (t_parent r) start (fun d _ => S d)
       (fun v => match nth_error (t_dist r) v with Some (Some k) => k | _ => 0 end)
       (rev (map fst L)) target) as (path & ws & P1 & P2 & P3 & P4 & P5 & P6 & P7).
    + intros A v B EL.
      assert (EL' : map fst L = rev B ++ v :: rev A).
      { rewrite <- (rev_involutive (map fst L)), EL, rev_app_distr. simpl. rewrite <- app_assoc. auto. }
      destruct (Nat.eq_dec v start) as [?|Hne]; auto. right.
      apply map_eq_app in EL'. destruct EL' as (L1 & L2 & EL2 & E1 & E2).
      destruct L2 as [|[v' k] L2]; [discriminate|]. simpl in E2. inversion E2; subst v'.
      destruct (bi_par _ _ _ _ _ _ _ _ _ HL _ _ _ _ EL2 Hne) as (p & w & kp & Hp & He & Hin' & _).
      exists p, w. split; auto. split; auto. rewrite in_rev. rewrite <- E1.
      apply in_map_iff. exists (p, kp). auto.
    + intros x Hx. rewrite (bc_plen _ _ _ _ _ _ BC). rewrite <- in_rev in Hx.
      apply (bi_lt _ _ _ _ _ _ _ _ _ HL); auto.
    + intros x p w Hx Hxs Hp He.
      destruct (bc_parent _ _ _ _ _ _ BC x p Hp) as (w' & k & _ & K1 & K2).
      apply (bc_dist _ _ _ _ _ _ BC) in K1, K2. rewrite K1, K2. reflexivity.
    + rewrite <- in_rev, Eo. auto.
    + exists r, path. split; auto. split.
      { apply P7. rewrite rev_length.
        pose proof (NoDup_bounded_length _ _ (bi_nd _ _ _ _ _ _ _ _ _ HL) (bi_lt _ _ _ _ _ _ _ _ _ HL)). lia. }
      right. exists ws. split; [auto|]. split; [auto|]. split; [auto|]. split; [|auto].
      assert (Hst : nth_error (t_dist r) start = Some (Some 0)).
      { apply (bc_dist _ _ _ _ _ _ BC). split; [exists []; split; auto; constructor|]. intros; lia. }
      rewrite Hst in P4.
      apply (bc_reach _ _ _ _ _ _ BC) in Hin.
      destruct (nth_error_lt _ (t_dist r) target) as [d Hd].
      { rewrite (bc_dlen _ _ _ _ _ _ BC). auto. }
      destruct d as [k|].
      * rewrite Hd in P4. apply (bc_dist _ _ _ _ _ _ BC) in Hd.
        assert (EE : forall (l : list E) a, fold_left (fun d _ => S d) l a = a + length l).
        { clear. induction l; intros; simpl; auto. rewrite IHl. lia. }
        rewrite EE in P4. simpl in P4. rewrite P4. auto.
      * apply (bc_inf _ _ _ _ _ _ BC) in Hd. tauto.
  - rewrite (bc_reach _ _ _ _ _ _ BC) in Hn. exists r, []. split; auto.
    split; [|left; auto].
    unfold ReconstructPath. rewrite (bc_plen _ _ _ _ _ _ BC).
    destruct (Nat.leb_spec (numVertices g) target); [lia|].
    pose proof (proj2 (bc_noparent _ _ _ _ _ _ BC target) (conj Ht (or_intror Hn))) as Hp.
    unfold vget. rewrite Hp. simpl.
    destruct (Nat.eqb_spec target start) as [->|]; auto.
    exfalso. apply Hn. exists []. constructor.
Qed.
Print Assumptions C13_reconstruct_bfs.

(** Parents computed by DFS: some walk from start to target, empty iff unreachable. *)
Theorem C13_reconstruct_dfs : forall V E (g : graph V E) start target, api_graph g ->
  start < numVertices g -> target < numVertices g ->
  exists N, forall fuel, N <= fuel -> exists r path, DFS fuel g start = Ok r /\
    ReconstructPath fuel (t_parent r) start target = Ok path /\
    ((~ reachable (gedge g) start target /\ path = []) \/
     (exists ws, vwalk (gedge g) path ws /\ hd_error path = Some start /\ last path target = target /\
        nth_error (t_dist r) target = Some (Some (length ws)) /\ length path = S (length ws))).
Proof.
  intros V E g start target Ha Hs Ht.
  destruct (C04_dfs V E g start Ha Hs) as (N & HN). exists (N + S (S (numVertices g))). intros fuel Hf.
  destruct (HN fuel ltac:(lia)) as (r & H1 & Hnd & Hc & Hr & _ & Hpl & Hdl & Hp0 & Hd0 & Hpar & Hun).
  pose proof (api_gwf g Ha) as Hg.
  assert (Hlt : forall x, In x (t_order r) -> x < numVertices g).
  { intros x Hx. apply Hr in Hx. destruct Hx as (ws & Hw). destruct ws as [|w ws] using rev_ind.
    - inversion Hw; subst; auto.
    - clear IHws. revert Hw. generalize (ws ++ [w]). intros l Hw. clear -Hw Hg Hs.
      induction Hw; auto. apply IHHw. apply (w_dom g Hg _ _ _ H). }
  destruct (in_dec Nat.eq_dec target (t_order r)) as [Hin|Hn].
  - destruct (reconstruct_tree E nat (gedge g) (t_parent r) start (fun d _ => S d)
       (fun v => match nth_error (t_dist r) v with Some (Some k) => k | _ => 0 end)
       (rev (t_order r)) target) as (path & ws & P1 & P2 & P3 & P4 & P5 & P6 & P7).
    + intros A v B EL.
      assert (EL' : t_order r = rev B ++ v :: rev A).
      { rewrite <- (rev_involutive (t_order r)), EL, rev_app_distr. simpl. rewrite <- app_assoc. auto. }
      destruct (Nat.eq_dec v start) as [?|Hne]; auto. right.
      destruct (Hpar _ _ _ EL' Hne) as (p & w & k & Q1 & Q2 & Q3 & _).
      exists p, w. split; auto. split; auto. apply in_rev; auto.
    + intros x Hx. rewrite Hpl. apply Hlt. apply in_rev; auto.
    + intros x p w Hx Hxs Hp He. rewrite <- in_rev in Hx.
      destruct (in_split _ _ Hx) as (A & B & EL). destruct (Hpar _ _ _ EL Hxs) as (p' & w' & k & Q1 & _ & _ & Q2 & Q3).
      assert (p = p') by congruence. subst. rewrite Q2, Q3. auto.
    + apply in_rev. rewrite rev_involutive. auto.
    + exists r, path. split; auto. split.
      { apply P7. rewrite rev_length. pose proof (NoDup_bounded_length _ _ Hnd Hlt). lia. }
      right. exists ws. split; [auto|]. split; [auto|]. split; [auto|]. split; [|auto].
      rewrite Hd0 in P4.
      assert (EE : forall (l : list E) a, fold_left (fun d _ => S d) l a = a + length l).
      { clear. induction l; intros; simpl; auto. rewrite IHl. lia. }
      rewrite EE in P4. simpl in P4. rewrite P4.
      destruct (Nat.eq_dec target start) as [->|Hne]; [rewrite Hd0; auto|].
      destruct (in_split _ _ Hin) as (A & B & EL). destruct (Hpar _ _ _ EL Hne) as (p' & w' & k & _ & _ & _ & _ & Q3).
      rewrite Q3. auto.
  - exists r, []. split; auto. rewrite Hr in Hn. split; [|left; auto].
    destruct (Hun target Ht Hn) as (U1 & _).
    unfold ReconstructPath. rewrite Hpl. destruct (Nat.leb_spec (numVertices g) target); [lia|].
    unfold vget. rewrite U1. simpl.
    destruct (Nat.eqb_spec target start) as [->|]; auto.
    exfalso. apply Hn. exists []. constructor.
Qed.
Print Assumptions C13_reconstruct_dfs.

(** ShortestPathUnweighted: found iff reachable, and then a walk of g with the fewest edges. *)
Theorem C13_shortest_path_unweighted : forall V E (g : graph V E) start target, api_graph g ->
  start < numVertices g -> target < numVertices g ->
  exists N, forall fuel, N <= fuel -> exists r, ShortestPathUnweighted fuel g start target = Ok r /\
    (p_found r = true <-> reachable (gedge g) start target) /\
    (p_found r = false -> p_path r = []) /\
    (p_found r = true -> exists ws, vwalk (gedge g) (p_path r) ws /\
        hd_error (p_path r) = Some start /\ last (p_path r) target = target /\
        hop_dist (gedge g) start target (length ws) /\ p_weight r = Some (length ws)).
Proof.
  intros V E g start target Ha Hs Ht.
  destruct (C13_reconstruct_bfs V E g start target Ha Hs Ht) as (N1 & H1).
  destruct (C03_bfs V E g start Ha Hs) as (N2 & H2).
  exists (N1 + N2). intros fuel Hf. unfold ShortestPathUnweighted.
  destruct (Nat.leb_spec (numVertices g) start); [lia|].
  destruct (Nat.leb_spec (numVertices g) target); [lia|]. simpl orb. cbv iota.
  destruct (Nat.eqb_spec start target) as [->|Hne].
  { eexists. split; [reflexivity|]. simpl. split.
    - split; auto. intros _. exists []. constructor.
    - split; [discriminate|]. intros _. exists []. split; [constructor|]. split; auto. split; auto.
      split; auto. split; [exists []; split; auto; constructor|]. intros; simpl; lia. }
  destruct (H1 fuel ltac:(lia)) as (r & path & R1 & R2 & R3).
  destruct (H2 fuel ltac:(lia)) as (r' & R1' & BC & _). rewrite R1 in R1'. inversion R1'; subst r'.
  rewrite R1. cbv beta iota delta [bind].
  destruct (nth_error_lt _ (t_dist r) target) as [d Hd].
  { rewrite (bc_dlen _ _ _ _ _ _ BC). auto. }
  unfold vget. rewrite Hd. destruct d as [k|].
  - rewrite R2. eexists. split; [reflexivity|]. simpl.
    apply (bc_dist _ _ _ _ _ _ BC) in Hd.
    assert (Hreach : reachable (gedge g) start target).
    { destruct Hd as [(ws & Hw & _) _]. exists ws; auto. }
    split; [tauto|]. split; [discriminate|]. intros _.
    destruct R3 as [[? _]|(ws & P1 & P2 & P3 & P4 & P5)]; [contradiction|].
    exists ws. split; [auto|]. split; [auto|]. split; [auto|]. split; [auto|]. f_equal.
    destruct Hd as [(w1 & W1 & L1) M1], P4 as [(w2 & W2 & L2) M2].
    specialize (M1 _ W2). specialize (M2 _ W1). lia.
  - eexists. split; [reflexivity|]. simpl. apply (bc_inf _ _ _ _ _ _ BC) in Hd.
    split; [split; [discriminate|tauto]|]. split; [auto|discriminate].
Qed.
Print Assumptions C13_shortest_path_unweighted.

Example C13_example :
  ReconstructPath 10 [None; Some 0; Some 0; Some 1; None; None] 0 3 = Ok [0; 1; 3] /\
  ShortestPathUnweighted 10 demo 0 3 = Ok (mkPath true [0; 1; 3] (Some 2) 4) /\
  ShortestPathUnweighted 10 demo 0 5 = Ok (mkPath false [] (Some 0) 4).
Proof. vm_compute. auto. Qed.
