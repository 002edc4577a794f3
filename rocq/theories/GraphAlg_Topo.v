(** * C08: topological sort (Kahn) *)

From Coq Require Import List Arith Bool Lia Permutation.
From Verif Require Import Base Graph_Spec Graph_Model Graph_Proofs GraphAlg_Model GraphAlg_Tree
  GraphAlg_Bfs GraphAlg_Dfs GraphAlg_Visit GraphAlg_TravProps GraphAlg_Cycle.
Import ListNotations.

(** ** Specification *)

(** no closed walk with at least one edge *)
Definition acyclic {W} (edge : nat -> W -> nat -> Prop) : Prop :=
  forall v ws, walk edge v ws v -> ws = [].

(** [order] lists every vertex below [n] once, and every edge goes forward in it *)
Definition topological_order {W} (edge : nat -> W -> nat -> Prop) (n : nat) (order : list nat) : Prop :=
  NoDup order /\ (forall v, In v order <-> v < n) /\
  (forall u w v i j, edge u w v -> nth_error order i = Some u -> nth_error order j = Some v -> i < j).

(** ** Proof *)

Section Topo.
Context {V E : Type} (g : graph V E) (Hg : gwf g).
Notation n := (numVertices g).

Definition edgeb (u v : nat) : bool :=
  match nth_error (g_adj g) u with Some l => existsb (Nat.eqb v) (targets l) | None => false end.

Lemma targets_edge : forall u l v, nth_error (g_adj g) u = Some l ->
  (In v (targets l) <-> exists w, gedge g u w v).
Proof.
  intros u l v Hl. unfold targets. rewrite in_map_iff. split.
  - intros ([t w] & <- & Hin). exists w. apply (w_edge g Hg u l Hl). auto.
  - intros (w & Hw). exists (mkEdge v w). split; auto. apply (w_edge g Hg u l Hl). auto.
Qed.

Lemma edgeb_spec : forall u v, edgeb u v = true <-> exists w, gedge g u w v.
Proof.
  intros u v. unfold edgeb. destruct (nth_error (g_adj g) u) as [l|] eqn:El.
  - rewrite <- (targets_edge u l v El). rewrite existsb_exists. split.
    + intros (x & Hx & Hv). apply Nat.eqb_eq in Hv. subst. auto.
    + intros Hin. exists v. split; auto. apply Nat.eqb_refl.
  - split; [discriminate|]. intros (w & Hw). apply (w_dom g Hg) in Hw.
    apply nth_error_None in El. rewrite (w_adj g Hg) in El. lia.
Qed.

Definition indeg_of (R : list nat) (v : nat) : nat := length (filter (fun u => edgeb u v) R).

Lemma indeg_of_remove : forall R1 u R2 v,
  indeg_of (R1 ++ u :: R2) v = indeg_of (R1 ++ R2) v + (if edgeb u v then 1 else 0).
Proof.
  intros. unfold indeg_of. rewrite !filter_app, !app_length. simpl. destruct (edgeb u v); simpl; lia.
Qed.

Definition mem (v : nat) (l : list nat) : bool := existsb (Nat.eqb v) l.
Lemma mem_In : forall v l, mem v l = true <-> In v l.
Proof.
  intros v l. unfold mem. rewrite existsb_exists. split.
  - intros (x & Hx & Hv). apply Nat.eqb_eq in Hv. subst. auto.
  - intros H. exists v. split; auto. apply Nat.eqb_refl.
Qed.
Lemma mem_app : forall v l l', mem v (l ++ l') = mem v l || mem v l'.
Proof. intros. unfold mem. apply existsb_app. Qed.

(** counting pass *)
Lemma topo_count_ok : forall (l : list (edge E)) c d,
  (forall v, In v (targets l) -> v < length d) -> NoDup (targets l) ->
  (forall v k, nth_error d v = Some k -> k = c v) ->
  wp (for_each topo_count l d) (fun d' => length d' = length d /\
     forall v k, nth_error d' v = Some k -> k = c v + (if mem v (targets l) then 1 else 0)).
Proof.
  intros l c d Hb Hnd Hc.
  apply (for_each_inv _ _ _ (fun (pre : list (edge E)) d' => length d' = length d /\
     forall v k, nth_error d' v = Some k -> k = c v + (if mem v (targets pre) then 1 else 0))).
  - split; auto. simpl. intros v k Hk. rewrite (Hc v k Hk). lia.
  - intros pre e post d' El [Hl' H']. unfold topo_count.
    assert (Hin : In (e_to e) (targets l)).
    { unfold targets. rewrite El. apply in_map. apply in_or_app. right. left. auto. }
    assert (Hni : mem (e_to e) (targets pre) = false).
    { destruct (mem (e_to e) (targets pre)) eqn:Em; auto. apply mem_In in Em.
      rewrite El in Hnd. unfold targets in Hnd, Em. rewrite map_app in Hnd. simpl in Hnd.
      apply NoDup_remove_2 in Hnd. exfalso. apply Hnd. apply in_or_app. auto. }
    apply wp_bind. apply vget_wp; [rewrite Hl'; auto|]. intros k Hk.
    apply vset_wp; [rewrite Hl'; auto|].
    rewrite upd_length. split; auto. intros v k' Hv. unfold targets. rewrite map_app, mem_app.
    fold (targets pre). simpl map. unfold mem at 2. simpl.
    destruct (Nat.eqb_spec v (e_to e)) as [->|Hne].
    + rewrite nth_error_upd_eq in Hv by (rewrite Hl'; auto). injection Hv as <-.
      rewrite (H' _ _ Hk), Hni. simpl. lia.
    + rewrite nth_error_upd_neq in Hv by auto. rewrite (H' _ _ Hv).
      rewrite orb_false_r. auto.
Qed.

Lemma topo_indeg_ok :
  wp (for_range 0 n (fun d u => l <- neighbors g u ;; for_each topo_count l d) (repeat 0 n))
     (fun d => length d = n /\ forall v k, nth_error d v = Some k -> k = indeg_of (seq 0 n) v).
Proof.
  apply (for_range_inv _ _ (fun i d => length d = n /\
      forall v k, nth_error d v = Some k -> k = indeg_of (seq 0 i) v)); [lia| |].
  - rewrite repeat_length. split; auto. intros v k Hv. rewrite repeat_nth_error in Hv.
    destruct (v <? n); [|discriminate]. injection Hv as <-. reflexivity.
  - intros i d _ Hi [Hl Hd]. apply wp_bind.
    apply neighbors_wp; auto. intros l El Hmem Hnd.
    eapply wp_conseq; [|apply (topo_count_ok l (indeg_of (seq 0 i)) d)]; auto.
    + intros d' [H1 H2]. split; [congruence|]. intros v k Hk. rewrite (H2 v k Hk).
      rewrite Nat.add_1_r, seq_S. simpl. rewrite indeg_of_remove, app_nil_r.
      unfold edgeb. rewrite El. reflexivity.
    + intros v Hv. apply (targets_edge i l v El) in Hv. destruct Hv as [w Hw].
      rewrite Hl. apply (w_dom g Hg _ _ _ Hw).
Qed.

(** collecting the zero entries *)
Lemma topo_zero_ok : forall indeg, length indeg = n ->
  wp (for_range 0 n (fun q v => k <- vget indeg v ;; Ok (if Nat.eqb k 0 then q ++ [v] else q)) [])
     (fun q => NoDup q /\ forall v, In v q <-> v < n /\ nth_error indeg v = Some 0).
Proof.
  intros indeg Hl.
  apply (for_range_inv _ _ (fun i q => NoDup q /\ forall v, In v q <-> v < i /\ nth_error indeg v = Some 0)); [lia| |].
  - split; [constructor|]. intros v. simpl. split; [tauto|lia].
  - intros i q _ Hi [Hnd Hq]. apply wp_bind.
    apply vget_wp; [lia|]. intros k Hk. apply wp_Ok.
    destruct (Nat.eqb_spec k 0) as [->|Hk0].
    + split.
      * apply NoDup_app_intro; auto; [constructor; [simpl; auto|constructor]|].
        intros x Hx [<-|[]]. apply Hq in Hx. lia.
      * intros v. rewrite in_app_iff, Hq. simpl. split.
        -- intros [[H1 H2]|[<-|[]]]; split; auto; lia.
        -- intros [H1 H2]. destruct (Nat.eq_dec i v); auto. left. split; auto. lia.
    + split; auto. intros v. rewrite Hq. split; intros [H1 H2]; split; auto; try lia.
      destruct (Nat.eq_dec v i); [subst; congruence|lia].
Qed.

(** the decrement loop *)
Lemma topo_dec_ok : forall (l : list (edge E)) c d q,
  (forall v, In v (targets l) -> v < length d /\ 1 <= c v) -> NoDup (targets l) ->
  (forall v k, nth_error d v = Some k -> k = c v) ->
  wp (for_each topo_dec l (d, q)) (fun r => let '(d', q') := r in
     length d' = length d /\
     (forall v k, nth_error d' v = Some k -> k + (if mem v (targets l) then 1 else 0) = c v) /\
     q' = q ++ filter (fun v => Nat.eqb (c v) 1) (targets l)).
Proof.
  intros l c d q Hb Hnd Hc.
  apply (for_each_inv _ _ _ (fun (pre : list (edge E)) r => let '(d', q') := r in
     length d' = length d /\
     (forall v k, nth_error d' v = Some k -> k + (if mem v (targets pre) then 1 else 0) = c v) /\
     q' = q ++ filter (fun v => Nat.eqb (c v) 1) (targets pre))).
  - split; auto. split; [|simpl; rewrite app_nil_r; auto]. simpl. intros v k Hk. rewrite (Hc v k Hk). lia.
  - intros pre e post [d' q'] El (Hl' & H' & Hq'). unfold topo_dec.
    assert (Hin : In (e_to e) (targets l)).
    { unfold targets. rewrite El. apply in_map. apply in_or_app. right. left. auto. }
    destruct (Hb _ Hin) as [Hlt Hge].
    assert (Hni : mem (e_to e) (targets pre) = false).
    { destruct (mem (e_to e) (targets pre)) eqn:Em; auto. apply mem_In in Em.
      rewrite El in Hnd. unfold targets in Hnd, Em. rewrite map_app in Hnd. simpl in Hnd.
      apply NoDup_remove_2 in Hnd. exfalso. apply Hnd. apply in_or_app. auto. }
    apply wp_bind. apply vget_wp; [rewrite Hl'; auto|]. intros k Hk.
    pose proof (H' _ _ Hk) as Hck. rewrite Hni in Hck. destruct k as [|k']; [lia|].
    apply wp_bind. apply vset_wp; [rewrite Hl'; auto|]. apply wp_Ok.
    rewrite upd_length. split; auto. split.
    + intros v k Hv. unfold targets. rewrite map_app, mem_app.
      fold (targets pre). simpl map. unfold mem at 2. simpl.
      destruct (Nat.eqb_spec v (e_to e)) as [->|Hne].
      * rewrite nth_error_upd_eq in Hv by (rewrite Hl'; auto). injection Hv as <-. rewrite Hni. simpl. lia.
      * rewrite nth_error_upd_neq in Hv by auto. rewrite orb_false_r. apply H'. auto.
    + unfold targets. rewrite map_app, filter_app. simpl. fold (targets pre).
      replace (Nat.eqb (c (e_to e)) 1) with (Nat.eqb k' 0).
      * rewrite Hq'. destruct (Nat.eqb k' 0); [rewrite app_assoc|rewrite app_nil_r]; auto.
      * destruct (Nat.eqb_spec k' 0), (Nat.eqb_spec (c (e_to e)) 1); auto; lia.
Qed.

Record tinv (R : list nat) (indeg q order : list nat) : Prop := {
  ti_perm : Permutation (order ++ R) (seq 0 n);
  ti_len : length indeg = n;
  ti_deg : forall v k, nth_error indeg v = Some k -> k = indeg_of R v;
  ti_nd : NoDup (order ++ q);
  ti_in : forall v, In v (order ++ q) <-> v < n /\ nth_error indeg v = Some 0;
  ti_ord : forall i v u w, nth_error order i = Some v -> gedge g u w v -> exists j, j < i /\ nth_error order j = Some u
}.

Lemma indeg_zero : forall R v u w, indeg_of R v = 0 -> gedge g u w v -> ~ In u R.
Proof.
  intros R v u w H0 He Hin. unfold indeg_of in H0.
  assert (Hf : In u (filter (fun u => edgeb u v) R)).
  { apply filter_In. split; auto. apply edgeb_spec. eauto. }
  destruct (filter (fun u => edgeb u v) R); [destruct Hf|discriminate].
Qed.

Lemma tinv_step : forall R indeg q order, tinv R indeg q order ->
  wp (topo_step g (indeg, q, order)) (fun r => match r with
    | inl (indeg', q', order') => exists R', tinv R' indeg' q' order' /\ length R' < length R
    | inr order' => order' = order /\ q = [] end).
Proof.
  intros R indeg q order HI. destruct q as [|u q]; [split; auto|].
  unfold topo_step.
  assert (Hu : u < n /\ nth_error indeg u = Some 0).
  { apply (ti_in _ _ _ _ HI). apply in_or_app. right. left. auto. }
  destruct Hu as [Hu Hu0].
  assert (HuO : ~ In u order).
  { intros Hin. pose proof (ti_nd _ _ _ _ HI) as Hnd. apply NoDup_remove_2 in Hnd. apply Hnd.
    apply in_or_app. auto. }
  assert (HuR : In u R).
  { assert (Hs : In u (order ++ R)).
    { eapply Permutation_in; [apply Permutation_sym, (ti_perm _ _ _ _ HI)|]. apply in_seq. lia. }
    apply in_app_or in Hs. tauto. }
  apply in_split in HuR. destruct HuR as (R1 & R2 & ER).
  apply wp_bind. apply neighbors_wp; auto. intros l El Hmem Hnd.
  assert (Heb : forall v, edgeb u v = mem v (targets l)).
  { intros v. unfold edgeb. rewrite El. reflexivity. }
  apply wp_bind.
  eapply wp_conseq; [|apply (topo_dec_ok l (indeg_of R) indeg q)]; auto.
  2:{ intros v Hv. pose proof Hv as Hv'. apply (targets_edge u l v El) in Hv. destruct Hv as [w Hw]. split.
      - rewrite (ti_len _ _ _ _ HI). apply (w_dom g Hg _ _ _ Hw).
      - rewrite ER, indeg_of_remove, Heb. apply mem_In in Hv'. rewrite Hv'. lia. }
  2:{ apply (ti_deg _ _ _ _ HI). }
  intros [d' q'] (Hl' & Hd' & Hq'). cbv beta iota.
  assert (Hdeg' : forall v k, nth_error d' v = Some k -> k = indeg_of (R1 ++ R2) v).
  { intros v k Hk. apply Hd' in Hk. rewrite ER, indeg_of_remove, Heb in Hk. lia. }
  apply wp_Ok. exists (R1 ++ R2). split.
  2:{ rewrite ER, !app_length. simpl. lia. }
  assert (HltR : forall v, In v (targets l) -> v < n).
  { intros v Hv. apply (targets_edge u l v El) in Hv. destruct Hv as [w Hw]. apply (w_dom g Hg _ _ _ Hw). }
  constructor.
  - rewrite <- (ti_perm _ _ _ _ HI), ER. rewrite <- app_assoc. simpl.
    apply Permutation_app_head. apply Permutation_middle.
  - rewrite Hl'. apply (ti_len _ _ _ _ HI).
  - auto.
  - rewrite Hq'. rewrite <- app_assoc. simpl. rewrite app_comm_cons, app_assoc.
    apply NoDup_app_intro.
    + apply (ti_nd _ _ _ _ HI).
    + apply NoDup_filter. auto.
    + intros x Hx Hx'. apply filter_In in Hx'. destruct Hx' as [_ H1]. apply Nat.eqb_eq in H1.
      apply (ti_in _ _ _ _ HI) in Hx. destruct Hx as [_ Hx]. apply (ti_deg _ _ _ _ HI) in Hx. lia.
  - intros v. rewrite Hq'. rewrite <- app_assoc. simpl. rewrite app_comm_cons, app_assoc, in_app_iff.
    rewrite (ti_in _ _ _ _ HI), filter_In. rewrite Nat.eqb_eq. split.
    + intros [[H1 H2]|[H1 H2]].
      * split; auto. destruct (nth_error_lt _ d' v) as [k Hk]; [rewrite Hl', (ti_len _ _ _ _ HI); auto|].
        apply Hd' in Hk as Hk'. rewrite <- (ti_deg _ _ _ _ HI _ _ H2) in Hk'.
        replace k with 0 in Hk by lia. auto.
      * split; [auto|]. destruct (nth_error_lt _ d' v) as [k Hk]; [rewrite Hl', (ti_len _ _ _ _ HI); auto|].
        apply Hd' in Hk as Hk'. apply mem_In in H1. rewrite H1 in Hk'. replace k with 0 in Hk by lia. auto.
    + intros [H1 H2]. apply Hd' in H2. destruct (mem v (targets l)) eqn:Em.
      * right. split; [apply mem_In; auto|lia].
      * left. split; auto. destruct (nth_error_lt _ indeg v) as [k Hk]; [rewrite (ti_len _ _ _ _ HI); auto|].
        pose proof (ti_deg _ _ _ _ HI _ _ Hk). replace k with 0 in Hk by lia. auto.
  - intros i v x w Hi He. destruct (Nat.lt_ge_cases i (length order)) as [Hlt|Hge].
    + rewrite nth_error_app1 in Hi by auto. destruct (ti_ord _ _ _ _ HI i v x w Hi He) as (j & Hj & Hx).
      exists j. split; auto. rewrite nth_error_app1; auto. lia.
    + rewrite nth_error_app2 in Hi by auto. destruct (i - length order) as [|i0] eqn:Ei; [|destruct i0; discriminate].
      simpl in Hi. injection Hi as <-.
      assert (Hx : ~ In x R).
      { eapply indeg_zero; [|exact He]. symmetry. apply (ti_deg _ _ _ _ HI). auto. }
      assert (Hxo : In x (order ++ R)).
      { eapply Permutation_in; [apply Permutation_sym, (ti_perm _ _ _ _ HI)|]. apply in_seq.
        apply (w_dom g Hg) in He. lia. }
      apply in_app_or in Hxo. destruct Hxo as [Hxo|]; [|contradiction].
      apply In_nth_error in Hxo. destruct Hxo as [j Hj]. exists j.
      pose proof (nth_error_Some_lt _ _ _ _ Hj). split; [lia|]. rewrite nth_error_app1; auto.
Qed.

(** when the queue runs dry with vertices left, those vertices contain a cycle *)
Lemma stuck_cycle : forall R, R <> [] -> (forall v, In v R -> v < n) ->
  (forall v, In v R -> indeg_of R v <> 0) -> exists v ws, walk (gedge g) v ws v /\ ws <> [].
Proof.
  intros R Hne Hb Hdeg. destruct R as [|r R'] eqn:ER; [congruence|]. rewrite <- ER in *.
  assert (Hr : In r R) by (rewrite ER; left; auto).
  assert (G : forall k, exists v ws, In v R /\ walk (gedge g) v ws r /\ length ws = k).
  { induction k as [|k IH].
    - exists r, []. split; auto. split; auto. constructor.
    - destruct IH as (v & ws & Hv & Hw & Hl). pose proof (Hdeg v Hv) as Hd. unfold indeg_of in Hd.
      destruct (filter (fun u => edgeb u v) R) as [|u f] eqn:Ef; [simpl in Hd; congruence|].
      assert (Hu : In u (filter (fun u => edgeb u v) R)) by (rewrite Ef; left; auto).
      apply filter_In in Hu. destruct Hu as [Hu He]. apply edgeb_spec in He. destruct He as [w He].
      exists u, (w :: ws). split; auto. split; [econstructor; eauto|simpl; auto]. }
  destruct (G n) as (v & ws & Hv & Hw & Hl).
  destruct (long_walk_cut (gedge g) n v ws r) as (x & w1 & wc & w2 & _ & _ & Hc & Hcn & _); auto.
  - intros u w t He. apply (w_dom g Hg _ _ _ He).
  - lia.
  - eauto.
Qed.

Lemma topo_main : 0 < n -> g_directed g = true ->
  exists N, forall fuel, N <= fuel -> exists b order, TopologicalSort fuel g = Ok (b, order) /\
    ((b = true /\ topological_order (gedge g) n order) \/
     (b = false /\ order = [] /\ exists v ws, walk (gedge g) v ws v /\ ws <> [])).
Proof.
  intros Hn Hdir. exists (S n). intros fuel Hf.
  cut (wp (TopologicalSort fuel g) (fun r => let '(b, order) := r in
    ((b = true /\ topological_order (gedge g) n order) \/
     (b = false /\ order = [] /\ exists v ws, walk (gedge g) v ws v /\ ws <> [])))).
  { intros H. apply wp_elim in H. destruct H as ([b order] & Hr & HP). eauto. }
  unfold TopologicalSort. destruct (Nat.eqb_spec n 0) as [|_]; [lia|]. rewrite Hdir. simpl negb. cbv iota.
  apply wp_bind. eapply wp_conseq; [|apply topo_indeg_ok]. intros indeg [Hil Hid].
  apply wp_bind. eapply wp_conseq; [|apply (topo_zero_ok indeg Hil)]. intros q [Hqn Hq].
  apply wp_bind.
  eapply wp_conseq; [|apply (iter_inv_idx _ _ (topo_step g) (fun k s => let '(d, q, o) := s in
     exists R, tinv R d q o /\ length R = k)
     (fun o => exists R d, tinv R d [] o)) with (k := n)]; [| | |lia].
  - intros order (R & d & HI).
    assert (HoR : NoDup (order ++ R)).
    { eapply Permutation_NoDup; [apply Permutation_sym, (ti_perm _ _ _ _ HI)|apply seq_NoDup]. }
    pose proof (Permutation_length (ti_perm _ _ _ _ HI)) as Hlen. rewrite app_length, seq_length in Hlen.
    destruct (Nat.eqb_spec (length order) n) as [Hl|Hl]; simpl negb; cbv iota; apply wp_Ok.
    + left. split; auto. assert (R = []) by (destruct R; auto; simpl in Hlen; lia). subst R.
      rewrite app_nil_r in HoR. split; auto. split.
      * intros v. pose proof (ti_perm _ _ _ _ HI) as HP. rewrite app_nil_r in HP. split.
        -- intros Hv. eapply Permutation_in in Hv; [|exact HP]. apply in_seq in Hv. lia.
        -- intros Hv. eapply Permutation_in; [apply Permutation_sym; exact HP|]. apply in_seq. lia.
      * intros u w v i j He Hi Hj. destruct (ti_ord _ _ _ _ HI j v u w Hj He) as (i' & Hlt & Hi').
        replace i with i'; auto.
        eapply (proj1 (NoDup_nth_error order)); eauto; [eapply nth_error_Some_lt; eauto|congruence].
    + right. split; auto. split; auto. apply (stuck_cycle R).
      * intros ->. simpl in Hlen. lia.
      * intros v Hv. assert (Hs : In v (seq 0 n)).
        { eapply Permutation_in; [apply (ti_perm _ _ _ _ HI)|]. apply in_or_app. auto. }
        apply in_seq in Hs. lia.
      * intros v Hv H0. assert (Hs : In v (seq 0 n)).
        { eapply Permutation_in; [apply (ti_perm _ _ _ _ HI)|]. apply in_or_app. auto. }
        apply in_seq in Hs. destruct (nth_error_lt _ d v) as [k Hk]; [rewrite (ti_len _ _ _ _ HI); lia|].
        pose proof (ti_deg _ _ _ _ HI _ _ Hk) as Hk0. rewrite H0 in Hk0. subst k.
        assert (Hin : In v (order ++ [])) by (apply (ti_in _ _ _ _ HI); split; auto; lia).
        rewrite app_nil_r in Hin. apply in_split in Hv. destruct Hv as (R1 & R2 & ->).
        rewrite app_assoc in HoR. apply NoDup_remove_2 in HoR. apply HoR.
        apply in_or_app. left. apply in_or_app. auto.
  - intros k [[d q0] o] (R & HI & Hk). eapply wp_conseq; [|apply (tinv_step R d q0 o HI)].
    intros [[[d' q'] o']|o'].
    + intros (R' & HI' & Hlt). exists (length R'). split; [lia|eauto].
    + intros [-> ->]. eauto.
  - exists (seq 0 n). split; [|apply seq_length]. constructor; simpl; auto.
    + intros i v u w Hi. destruct i; discriminate.
Qed.

End Topo.

(** ** C08 *)

Theorem C08_topological_sort : forall V E (g : graph V E),
  api_graph g -> g_directed g = true ->
  exists N, forall fuel, N <= fuel -> exists b order, TopologicalSort fuel g = Ok (b, order) /\
    (b = true <-> acyclic (gedge g)) /\
    (b = true -> topological_order (gedge g) (numVertices g) order) /\
    (b = false -> order = []).
Proof.
  intros V E g Ha Hdir. pose proof (api_gwf g Ha) as Hg.
  destruct (Nat.eq_dec (numVertices g) 0) as [H0|H0].
  { exists 0. intros fuel _. exists true, []. split.
    - unfold TopologicalSort. rewrite H0. reflexivity.
    - split; [|split; [|discriminate]].
      + split; auto. intros _ v ws Hw. inversion Hw as [|? w x ? ? He]; auto.
        apply (w_dom g Hg) in He. lia.
      + intros _. split; [constructor|]. split.
        * intros v. rewrite H0. simpl. split; [tauto|lia].
        * intros u w v i j _ Hi. destruct i; discriminate. }
  destruct (topo_main g Hg ltac:(lia) Hdir) as (N & HN). exists N. intros fuel Hf.
  destruct (HN fuel Hf) as (b & order & Hr & HP). exists b, order. split; auto.
  destruct HP as [(-> & HT)|(-> & -> & v & ws & Hw & Hne)].
  - split; [|split; [auto|discriminate]]. split; auto. intros _ v ws Hw.
    destruct HT as (Hnd & Hin & Hfw).
    assert (Hpos : forall v, v < numVertices g -> exists i, nth_error order i = Some v).
    { intros x Hx. apply In_nth_error. apply Hin. auto. }
    assert (G : forall a ws b, walk (gedge g) a ws b -> ws <> [] ->
      forall i j, nth_error order i = Some a -> nth_error order j = Some b -> i < j).
    { intros a ws' b' H. induction H as [u|u w x ws' t He Hw' IH]; intros Hne i j Hi Hj; [congruence|].
      destruct (w_dom g Hg _ _ _ He) as [_ Hx]. destruct (Hpos x Hx) as [k Hk].
      pose proof (Hfw _ _ _ _ _ He Hi Hk) as H1. destruct ws' as [|w' ws'].
      - inversion Hw'; subst. apply (Hfw _ _ _ _ _ He Hi Hj).
      - assert (k < j) by (apply IH; auto; discriminate). lia. }
    destruct ws as [|w ws]; auto. exfalso.
    inversion Hw as [|? ? x ? ? He]; subst. destruct (w_dom g Hg _ _ _ He) as [Hv _].
    destruct (Hpos v Hv) as [i Hi]. pose proof (G v (w :: ws) v Hw ltac:(discriminate) i i Hi Hi). lia.
  - split; [|split; [discriminate|auto]]. split; [discriminate|]. intros Hac. apply Hac in Hw. contradiction.
Qed.
Print Assumptions C08_topological_sort.

(** IsDAG is the same decision. *)
Theorem C08_is_dag : forall V E (g : graph V E), api_graph g -> g_directed g = true ->
  exists N, forall fuel, N <= fuel -> exists b, IsDAG fuel g = Ok b /\ (b = true <-> acyclic (gedge g)).
Proof.
  intros V E g Ha Hdir. destruct (C08_topological_sort V E g Ha Hdir) as (N & HN). exists N. intros fuel Hf.
  destruct (HN fuel Hf) as (b & order & Hr & Hb & _). exists b. unfold IsDAG. rewrite Hr. auto.
Qed.
Print Assumptions C08_is_dag.

(** Undirected graphs with at least one vertex are reported as not acyclic, without an order. *)
Theorem C08_undirected : forall V E (g : graph V E) fuel, g_directed g = false -> 0 < numVertices g ->
  TopologicalSort fuel g = Ok (false, []).
Proof.
  intros V E g fuel Hd Hn. unfold TopologicalSort. destruct (Nat.eqb_spec (numVertices g) 0); [lia|].
  rewrite Hd. reflexivity.
Qed.
Print Assumptions C08_undirected.

Definition dag_ops : list (op nat nat) :=
  [OpAddEdge 3 1 1; OpAddEdge 1 0 1; OpAddEdge 3 0 2; OpAddEdge 4 2 1; OpAddEdge 2 0 1].
Example C08_example : exists g, exec_ops (graph_sized (fun i => i) 5 true false) dag_ops = Ok g /\
  TopologicalSort 10 g = Ok (true, [3; 4; 1; 2; 0]).
Proof. eexists. split; vm_compute; reflexivity. Qed.
Example C08_example_cycle : exists g,
  exec_ops (graph_sized (fun i => i) 5 true false) (dag_ops ++ [OpAddEdge 0 4 1]) = Ok g /\
  TopologicalSort 10 g = Ok (false, []).
Proof. eexists. split; vm_compute; reflexivity. Qed.
