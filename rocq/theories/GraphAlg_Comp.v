(** * C09: connected components *)

From Coq Require Import List Arith Bool Lia.
From Verif Require Import Base Graph_Spec Graph_Model Graph_Proofs GraphAlg_Model GraphAlg_Tree
  GraphAlg_Bfs GraphAlg_Dfs GraphAlg_Visit GraphAlg_TravProps.
Import ListNotations.

Section Comp.
Context {V E : Type} (g : graph V E) (Hg : gwf g) (Hu : g_directed g = false).
Notation n := (numVertices g).
Notation reach := (reachable (gedge g)).

Lemma reach_refl : forall u, reach u u.
Proof. intros u. exists []. constructor. Qed.
Lemma reach_trans : forall u v w, reach u v -> reach v w -> reach u w.
Proof. intros u v w [a Ha] [b Hb]. exists (a ++ b). eapply walk_app; eauto. Qed.
Lemma reach_step : forall u v w x, reach u v -> gedge g v w x -> reach u x.
Proof. intros u v w x [a Ha] He. exists (a ++ [w]). eapply walk_snoc; eauto. Qed.
Lemma reach_sym : forall u v, reach u v -> reach v u.
Proof.
  intros u v [ws H]. revert ws v H. apply (walk_rind _ (gedge g) u (fun _ v => reach v u)).
  - apply reach_refl.
  - intros ws v w t _ IH He. eapply reach_trans; [|exact IH]. exists [w].
    econstructor; [apply (w_sym g Hg Hu); eauto|constructor].
Qed.

(** inner breadth-first search; [ids0]: labels before it, [part]: edges already looked at *)
Record cinv (ids0 : list (option nat)) (num v : nat) (P q : list nat) (part : nat -> nat -> Prop)
  (ids : list (option nat)) : Prop := {
  ci_len : length ids = n;
  ci_nd : NoDup (P ++ q);
  ci_new : forall x, In x (P ++ q) -> nth_error ids x = Some (Some num) /\ nth_error ids0 x = Some None;
  ci_old : forall x, ~ In x (P ++ q) -> nth_error ids x = nth_error ids0 x;
  ci_reach : forall x, In x (P ++ q) -> reach v x;
  ci_hd : hd_error (P ++ q) = Some v;
  ci_closed : forall u w x, gedge g u w x -> In u P \/ part u x -> In u (P ++ q) -> In x (P ++ q)
}.

Definition old_closed (ids0 : list (option nat)) : Prop :=
  forall u w x, gedge g u w x -> nth_error ids0 u = Some None -> nth_error ids0 x = Some None.

Lemma cc_step_ok : forall ids0 num v P q ids, length ids0 = n -> old_closed ids0 ->
  cinv ids0 num v P q (fun _ _ => False) ids ->
  wp (cc_bfs_step g num (ids, q, P)) (fun r => match r with
    | inl (ids', q', P') => cinv ids0 num v P' q' (fun _ _ => False) ids' /\ n - length P' < n - length P
    | inr (ids', P') => cinv ids0 num v P' [] (fun _ _ => False) ids' end).
Proof.
  intros ids0 num v P q ids Hl0 Hoc HI. destruct q as [|u q]; [apply wp_Ok; auto|].
  unfold cc_bfs_step.
  assert (Hlt : forall x, In x (P ++ u :: q) -> x < n).
  { intros x Hx. rewrite <- Hl0. apply (ci_new _ _ _ _ _ _ _ HI) in Hx. destruct Hx as [_ Hx].
    eapply nth_error_Some_lt; eauto. }
  assert (Hun : In u (P ++ u :: q)) by (apply in_or_app; right; left; auto).
  apply wp_bind. apply neighbors_wp; auto. intros l El Hmem Hnd.
  apply wp_bind.
  assert (HP : P ++ u :: q = (P ++ [u]) ++ q) by (rewrite <- app_assoc; auto).
  assert (HlenP : length P < n).
  { pose proof (NoDup_bounded_length _ _ (ci_nd _ _ _ _ _ _ _ HI) Hlt) as HH.
    rewrite app_length in HH. simpl in HH. lia. }
  eapply wp_conseq; [|apply (for_each_inv _ _ _ (fun (pre : list (edge E)) s => let '(ids', q') := s in
     cinv ids0 num v P (u :: q') (fun a b => a = u /\ In b (targets pre)) ids'))].
  - intros [ids' q'] HI'. simpl. apply wp_Ok. split; [|rewrite app_length; simpl; lia].
    assert (HP' : P ++ u :: q' = (P ++ [u]) ++ q') by (rewrite <- app_assoc; auto).
    destruct HI' as [A1 A2 A3 A4 A5 A6 A7]. rewrite HP' in *.
    constructor; auto. intros a w b He Ha Hin. destruct Ha as [Ha|[]]. apply in_app_or in Ha.
    eapply A7; eauto. destruct Ha as [Ha|[<-|[]]]; auto. right. split; auto.
    unfold targets. apply in_map_iff. exists (mkEdge b w). split; auto. apply Hmem. auto.
  - destruct HI as [A1 A2 A3 A4 A5 A6 A7].
    constructor; auto.
    intros a w b He Ha Hin. eapply A7; eauto. destruct Ha as [Ha|[_ []]]. auto.
  - intros pre e post [ids' q'] Ell HI'. unfold cc_visit.
    assert (He : gedge g u (e_w e) (e_to e)).
    { apply Hmem. rewrite Ell. apply in_or_app. right. left. destruct e; auto. }
    assert (Hto : e_to e < n) by apply (w_dom g Hg _ _ _ He).
    apply wp_bind. apply vget_wp; [rewrite (ci_len _ _ _ _ _ _ _ HI'); auto|]. intros c Hc.
    assert (Htg : forall b, In b (targets (pre ++ [e])) -> In b (targets pre) \/ b = e_to e).
    { intros b Hb. unfold targets in Hb. rewrite map_app in Hb. apply in_app_or in Hb.
      destruct Hb as [Hb|[<-|[]]]; auto. }
    assert (Hu' : In u (P ++ u :: q')) by (apply in_or_app; right; left; auto).
    assert (Hto0 : nth_error ids0 (e_to e) = Some None).
    { eapply Hoc; eauto. apply (ci_new _ _ _ _ _ _ _ HI' u Hu'). }
    destruct c as [c|].
    + apply wp_Ok. assert (Hin : In (e_to e) (P ++ u :: q')).
      { destruct (in_dec Nat.eq_dec (e_to e) (P ++ u :: q')); auto.
        rewrite (ci_old _ _ _ _ _ _ _ HI') in Hc by auto. congruence. }
      destruct HI' as [A1 A2 A3 A4 A5 A6 A7]. constructor; auto.
      intros a w b Hab Ha Hin'. destruct Ha as [Ha|[Hau Hb]]; [|subst a]; [eapply A7; eauto|].
      destruct (Htg b Hb) as [Hb'| -> ]; auto. eapply A7; eauto.
    + assert (Hni : ~ In (e_to e) (P ++ u :: q')).
      { intros Hin. apply (ci_new _ _ _ _ _ _ _ HI') in Hin. destruct Hin as [Hin _]. congruence. }
      apply wp_bind. apply vset_wp; [rewrite (ci_len _ _ _ _ _ _ _ HI'); auto|]. apply wp_Ok.
      assert (HA : P ++ u :: q' ++ [e_to e] = (P ++ u :: q') ++ [e_to e]) by (rewrite <- app_assoc; auto).
      destruct HI' as [A1 A2 A3 A4 A5 A6 A7]. constructor; rewrite ?HA.
      * rewrite upd_length. auto.
      * apply NoDup_app_intro; auto; [constructor; [simpl; auto|constructor]|].
        intros x Hx [<-|[]]. contradiction.
      * intros x Hx. apply in_app_or in Hx. destruct Hx as [Hx|[<-|[]]].
        -- rewrite nth_error_upd_neq by congruence. auto.
        -- rewrite nth_error_upd_eq by (rewrite A1; auto). auto.
      * intros x Hx. rewrite nth_error_upd_neq.
        -- apply A4. intros Hx'. apply Hx. apply in_or_app. auto.
        -- intros Heq. apply Hx. apply in_or_app. right. left. auto.
      * intros x Hx. apply in_app_or in Hx. destruct Hx as [Hx|[<-|[]]]; auto.
        eapply reach_step; [apply A5; exact Hu'|exact He].
      * destruct (P ++ u :: q'); [discriminate|]. simpl in *. auto.
      * intros a w b Hab Ha Hin'. apply in_or_app.
        destruct Ha as [Ha|[Hau Hb]]; [|subst a].
        -- left. eapply A7; eauto. apply in_or_app. auto.
        -- destruct (Htg b Hb) as [Hb'| -> ]; [|right; left; auto]. left. eapply A7; eauto.
Qed.

Lemma cc_bfs_ok : forall ids0 num v fuel, length ids0 = n -> old_closed ids0 ->
  nth_error ids0 v = Some None -> n < fuel ->
  wp (iter fuel (cc_bfs_step g num) (upd ids0 v (Some num), [v], [])) (fun r => let '(ids, comp) := r in
     length ids = n /\ NoDup comp /\ (exists t, comp = v :: t) /\
     (forall x, In x comp <-> reach v x) /\
     (forall x, In x comp -> nth_error ids x = Some (Some num) /\ nth_error ids0 x = Some None) /\
     (forall x, ~ In x comp -> nth_error ids x = nth_error ids0 x)).
Proof.
  intros ids0 num v fuel Hl0 Hoc Hv Hf.
  assert (Hvn : v < n) by (rewrite <- Hl0; eapply nth_error_Some_lt; eauto).
  eapply wp_conseq; [|apply (iter_inv _ _ (cc_bfs_step g num)
     (fun s => let '(ids, q, P) := s in cinv ids0 num v P q (fun _ _ => False) ids)
     (fun s => let '(ids, q, P) := s in n - length P)
     (fun r => let '(ids, P) := r in cinv ids0 num v P [] (fun _ _ => False) ids))].
  - intros [ids comp] [A1 A2 A3 A4 A5 A6 A7]. rewrite app_nil_r in *. split; auto. split; auto. split.
    { destruct comp as [|c t]; [discriminate|]. injection A6 as ->. eauto. }
    split; [|split; auto]. intros x. split; auto. intros [ws Hw].
    revert ws x Hw. apply (walk_rind _ (gedge g) v (fun _ x => In x comp)).
    + destruct comp as [|c t]; [discriminate|]. injection A6 as ->. left. auto.
    + intros ws x w t _ IH He. eapply A7; eauto.
  - intros [[ids q] P] HI. eapply wp_conseq; [|apply (cc_step_ok ids0 num v P q ids); auto].
    intros [[[ids' q'] P']|[ids' P']]; auto.
  - constructor; simpl; auto.
    + rewrite upd_length. auto.
    + constructor; [simpl; auto|constructor].
    + intros x [<-|[]]. rewrite nth_error_upd_eq by lia. auto.
    + intros x Hx. rewrite nth_error_upd_neq; auto.
    + intros x [<-|[]]. apply reach_refl.
    + intros u w x _ [[]|[]].
  - simpl. lia.
Qed.

Record oinv (i : nat) (s : components) : Prop := {
  oi_len : length (c_ids s) = n;
  oi_num : length (c_lists s) = c_num s;
  oi_lab : forall x j, nth_error (c_ids s) x = Some (Some j) <-> exists l, nth_error (c_lists s) j = Some l /\ In x l;
  oi_list : forall j l, nth_error (c_lists s) j = Some l ->
     exists m t, l = m :: t /\ m < i /\ m < n /\ NoDup l /\ (forall x, In x l <-> reach m x) /\ (forall x, In x l -> m <= x);
  oi_inc : forall j k l l' m m' t t', j < k -> nth_error (c_lists s) j = Some l -> nth_error (c_lists s) k = Some l' ->
     l = m :: t -> l' = m' :: t' -> m < m';
  oi_done : forall x, x < i -> exists j, nth_error (c_ids s) x = Some (Some j)
}.

Lemma oinv_closed : forall i s, oinv i s -> old_closed (c_ids s).
Proof.
  intros i s HI u w x He Hu0.
  assert (Hx : x < length (c_ids s)) by (rewrite (oi_len i s HI); apply (w_dom g Hg _ _ _ He)).
  destruct (nth_error_lt _ _ _ Hx) as [[j|] Hj]; auto. exfalso.
  apply (oi_lab i s HI) in Hj as (l & Hl & Hin).
  destruct (oi_list i s HI j l Hl) as (m & t & -> & _ & _ & _ & Hr & _).
  assert (In u (m :: t)).
  { apply Hr. apply Hr in Hin. eapply reach_step; [exact Hin|]. apply (w_sym g Hg Hu). exact He. }
  assert (nth_error (c_ids s) u = Some (Some j)) by (apply (oi_lab i s HI); eauto). congruence.
Qed.

Lemma cc_outer_ok : forall fuel i s, n < fuel -> i < n -> oinv i s -> wp (cc_outer fuel g s i) (oinv (i + 1)).
Proof.
  intros fuel i s Hf Hi HI. unfold cc_outer. apply wp_bind.
  apply vget_wp; [rewrite (oi_len _ _ HI); auto|]. intros c Hc. destruct c as [j|].
  - apply wp_Ok. destruct HI as [A1 A2 A3 A4 A5 A6]. constructor; auto.
    + intros k l Hl. destruct (A4 k l Hl) as (m & t & B1 & B2 & B3). exists m, t. split; auto. split; [lia|auto].
    + intros x Hx. destruct (Nat.eq_dec x i) as [->|]; [eauto|]. apply A6. lia.
  - apply wp_bind. apply vset_wp; [rewrite (oi_len _ _ HI); auto|]. apply wp_bind.
    eapply wp_conseq; [|apply (cc_bfs_ok (c_ids s) (c_num s) i fuel); auto].
    2: apply (oi_len _ _ HI). 2: eapply oinv_closed; eauto.
    intros [ids comp] (B1 & B2 & (t & Ht) & B3 & B4 & B5). apply wp_Ok.
    destruct HI as [A1 A2 A3 A4 A5 A6]. constructor; simpl.
    + auto.
    + rewrite app_length. simpl. lia.
    + intros x j. destruct (in_dec Nat.eq_dec x comp) as [Hx|Hx].
      * destruct (B4 x Hx) as [H1 H2]. rewrite H1. split.
        -- intros [= <-]. exists comp. split; auto. rewrite nth_error_app2, A2, Nat.sub_diag by lia. auto.
        -- intros (l & Hl & Hin). destruct (Nat.lt_ge_cases j (length (c_lists s))) as [Hj|Hj].
           ++ rewrite nth_error_app1 in Hl by auto.
              assert (nth_error (c_ids s) x = Some (Some j)) by (apply A3; eauto). congruence.
           ++ apply nth_error_Some_lt in Hl as Hl'. rewrite app_length in Hl'. simpl in Hl'.
              do 2 f_equal. lia.
      * rewrite (B5 x Hx), A3. split.
        -- intros (l & Hl & Hin). exists l. split; auto. rewrite nth_error_app1; auto.
           eapply nth_error_Some_lt; eauto.
        -- intros (l & Hl & Hin). exists l. split; auto.
           destruct (Nat.lt_ge_cases j (length (c_lists s))) as [Hj|Hj]; [rewrite nth_error_app1 in Hl; auto|].
           rewrite nth_error_app2 in Hl by auto. destruct (j - length (c_lists s)) as [|k]; [|destruct k; discriminate].
           injection Hl as <-. contradiction.
    + intros j l Hl. destruct (Nat.lt_ge_cases j (length (c_lists s))) as [Hj|Hj].
      * rewrite nth_error_app1 in Hl by auto. destruct (A4 j l Hl) as (m & t' & C1 & C2 & C3).
        exists m, t'. split; auto. split; [lia|auto].
      * rewrite nth_error_app2 in Hl by auto. destruct (j - length (c_lists s)) as [|k]; [|destruct k; discriminate].
        injection Hl as <-. exists i, t. split; auto. split; [lia|]. split; auto. split; auto. split; auto.
        intros x Hx. apply B4 in Hx. destruct Hx as [_ Hx]. destruct (Nat.le_gt_cases i x); auto.
        destruct (A6 x ltac:(lia)) as [j' Hj']. congruence.
    + intros j k l l' m m' t1 t1' Hjk Hj Hk -> ->.
      assert (Hj' : j < length (c_lists s)).
      { apply nth_error_Some_lt in Hk. rewrite app_length in Hk. simpl in Hk. lia. }
      rewrite nth_error_app1 in Hj by auto.
      destruct (Nat.lt_ge_cases k (length (c_lists s))) as [Hk'|Hk'].
      * rewrite nth_error_app1 in Hk by auto. eapply (A5 j k); eauto.
      * rewrite nth_error_app2 in Hk by auto. destruct (k - length (c_lists s)) as [|k0]; [|destruct k0; discriminate].
        injection Hk as Hk. rewrite Ht in Hk. injection Hk as -> ->.
        destruct (A4 j _ Hj) as (m0 & t0 & C1 & C2 & _). injection C1 as -> ->. auto.
    + intros x Hx. destruct (in_dec Nat.eq_dec x comp) as [Hin|Hin].
      * exists (c_num s). apply B4. auto.
      * rewrite (B5 x Hin). apply A6. assert (x <> i); [|lia]. intros ->. apply Hin. rewrite Ht. left. auto.
Qed.

End Comp.

(** ** C09 *)

Theorem C09_connected_components : forall V E (g : graph V E), api_graph g -> g_directed g = false ->
  exists N, forall fuel, N <= fuel -> exists c, ConnectedComponents fuel g = Ok c /\
    length (c_ids c) = numVertices g /\ length (c_lists c) = c_num c /\
    (* every vertex gets an id below the number of components *)
    (forall v, v < numVertices g -> exists k, nth_error (c_ids c) v = Some (Some k) /\ k < c_num c) /\
    (* same id iff connected *)
    (forall u v i j, nth_error (c_ids c) u = Some (Some i) -> nth_error (c_ids c) v = Some (Some j) ->
       (i = j <-> reachable (gedge g) u v)) /\
    (* the k-th list is the k-th class, without repetition; classes are numbered by least vertex *)
    (forall k l, nth_error (c_lists c) k = Some l -> NoDup l /\
       (forall v, In v l <-> nth_error (c_ids c) v = Some (Some k)) /\
       exists m t, l = m :: t /\ (forall v, In v l -> m <= v)) /\
    (forall j k m m' t t', j < k -> nth_error (c_lists c) j = Some (m :: t) ->
       nth_error (c_lists c) k = Some (m' :: t') -> m < m').
Proof.
  intros V E g Ha Hu. pose proof (api_gwf g Ha) as Hg. exists (S (numVertices g)). intros fuel Hf.
  cut (exists c, ConnectedComponents fuel g = Ok c /\ oinv g (numVertices g) c).
  - intros (c & Hc & HI). exists c. split; auto. destruct HI as [A1 A2 A3 A4 A5 A6].
    split; auto. split; auto. split.
    { intros v Hv. destruct (A6 v Hv) as [k Hk]. exists k. split; auto.
      apply A3 in Hk as (l & Hl & _). rewrite <- A2. eapply nth_error_Some_lt; eauto. }
    split.
    { intros u v i j Hi Hj. apply A3 in Hi as (l & Hl & Hinl). apply A3 in Hj as (l' & Hl' & Hinl').
      destruct (A4 _ _ Hl) as (m & t & _ & _ & _ & _ & Hr & _).
      destruct (A4 _ _ Hl') as (m' & t' & _ & _ & _ & _ & Hr' & _). split.
      - intros ->. assert (l' = l) by congruence. subst l'.
        apply Hr in Hinl. apply Hr in Hinl'. eapply reach_trans; [|exact Hinl'].
        eapply reach_sym; eauto.
      - intros Huv. assert (Hv : In v l).
        { apply Hr. apply Hr in Hinl. eapply reach_trans; eauto. }
        assert (H1 : nth_error (c_ids c) v = Some (Some i)) by (apply A3; eauto).
        assert (H2 : nth_error (c_ids c) v = Some (Some j)) by (apply A3; eauto). congruence. }
    split.
    { intros k l Hl. destruct (A4 _ _ Hl) as (m & t & El & _ & _ & Hnd & Hr & Hm). split; auto. split.
      - intros v. rewrite A3. split; [eauto|]. intros (l' & Hl' & Hin). congruence.
      - exists m, t. auto. }
    intros j k m m' t t' Hjk Hj Hk. eapply (A5 j k); eauto.
  - unfold ConnectedComponents. destruct (Nat.eqb_spec (numVertices g) 0) as [H0|H0].
    + eexists. split; [reflexivity|]. constructor; simpl; auto; try lia.
      * intros x j. split; [destruct x; discriminate|]. intros (l & Hl & _). destruct j; discriminate.
      * intros j l Hl. destruct j; discriminate.
      * intros j k l l' m m' t t' _ Hl. destruct j; discriminate.
    + apply wp_elim. apply for_range_inv; [lia| |].
      * constructor; simpl; auto; try lia.
        -- apply repeat_length.
        -- intros x j. rewrite repeat_nth_error. split; [destruct (x <? numVertices g); discriminate|].
           intros (l & Hl & _). destruct j; discriminate.
        -- intros j l Hl. destruct j; discriminate.
        -- intros j k l l' m m' t t' _ Hl. destruct j; discriminate.
      * intros i s _ Hi HI. apply cc_outer_ok; auto.
Qed.
Print Assumptions C09_connected_components.

Theorem C09_is_connected : forall V E (g : graph V E), api_graph g -> g_directed g = false ->
  exists N, forall fuel, N <= fuel -> exists b, IsConnected fuel g = Ok b /\
    (b = true <-> forall u v, u < numVertices g -> v < numVertices g -> reachable (gedge g) u v).
Proof.
  intros V E g Ha Hu. pose proof (api_gwf g Ha) as Hg.
  destruct (Nat.eq_dec (numVertices g) 0) as [H0|H0].
  { exists 0. intros fuel _. exists true. unfold IsConnected. rewrite H0. simpl. split; auto.
    split; auto. intros _ u v Hlt. lia. }
  destruct (C03_bfs V E g 0 Ha ltac:(lia)) as (N & HN). exists N. intros fuel Hf.
  destruct (HN fuel Hf) as (r & Hr & HB & Hc & _). eexists. split.
  { unfold IsConnected. destruct (Nat.eqb_spec (numVertices g) 0); [lia|]. rewrite Hr. reflexivity. }
  rewrite Nat.eqb_eq, Hc. destruct HB as [_ _ Hnd Hreach _ _ _ _ _].
  assert (Hlt : forall v, In v (t_order r) -> v < numVertices g).
  { intros v Hv. apply Hreach in Hv as [ws Hw]. revert ws v Hw.
    apply (walk_rind _ (gedge g) 0 (fun _ x => x < numVertices g)); [lia|].
    intros ws v w t _ _ He. apply (w_dom g Hg _ _ _ He). }
  split.
  - intros Hl u v Hu' Hv.
    assert (Hall : forall x, x < numVertices g -> reachable (gedge g) 0 x).
    { intros x Hx. apply Hreach.
      assert (Hincl : incl (seq 0 (numVertices g)) (t_order r)).
      { apply NoDup_length_incl; auto; [rewrite seq_length; lia|].
        intros y Hy. apply in_seq. apply Hlt in Hy. lia. }
      apply Hincl. apply in_seq. lia. }
    eapply reach_trans; [|apply Hall; exact Hv]. eapply reach_sym; eauto.
  - intros Hall. apply Nat.le_antisymm.
    + apply NoDup_bounded_length; auto.
    + rewrite <- (seq_length (numVertices g) 0). apply NoDup_incl_length; [apply seq_NoDup|].
      intros x Hx. apply in_seq in Hx. apply Hreach. apply Hall; lia.
Qed.
Print Assumptions C09_is_connected.

(** On a directed graph the classes are not the (weakly or strongly) connected components: the edge
    1 -> 0 alone gives two classes. *)
Theorem C09_directed_refuted : exists (g : graph nat nat) c, api_graph g /\ g_directed g = true /\
  ConnectedComponents 10 g = Ok c /\ reachable (gedge g) 1 0 /\
  nth_error (c_ids c) 0 = Some (Some 0) /\ nth_error (c_ids c) 1 = Some (Some 1).
Proof.
  destruct (exec_ops (graph_sized (fun i => i) 2 true false) [OpAddEdge 1 0 7]) as [g| | |] eqn:Eg; try discriminate.
  exists g. eexists. split; [exists (fun i => i), 2, true, false, [OpAddEdge 1 0 7]; auto|].
  vm_compute in Eg. inversion Eg; subst g; clear Eg. split; auto. split; [vm_compute; reflexivity|].
  split; [exists [7]; apply walk_cons with (v := 0); [vm_compute; reflexivity|constructor]|]. split; reflexivity.
Qed.
Print Assumptions C09_directed_refuted.

Example C09_example : exists g c,
  exec_ops (graph_sized (fun i => i) 6 false false) [OpAddEdge 0 3 1; OpAddEdge 3 5 1; OpAddEdge 4 1 1] = Ok g /\
  ConnectedComponents 10 g = Ok c /\ c_num c = 3 /\ c_lists c = [[0; 3; 5]; [1; 4]; [2]] /\
  c_ids c = map Some [0; 1; 2; 0; 1; 0] /\ IsConnected 10 g = Ok false.
Proof. do 2 eexists. split; [vm_compute; reflexivity|]. split; [vm_compute; reflexivity|]. auto. Qed.
