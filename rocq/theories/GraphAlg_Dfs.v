(** * Depth-first search: invariant and correctness *)

From Coq Require Import List Arith Bool Lia.
From Verif Require Import Base Graph_Spec Graph_Model Graph_Proofs GraphAlg_Model GraphAlg_Tree GraphAlg_Bfs.
Import ListNotations.

(** number of adjacency entries of the unvisited vertices *)
Fixpoint unv {E} (vis : list bool) (adj : list (list (edge E))) : nat :=
  match vis, adj with
  | b :: vis', l :: adj' => (if b then 0 else length l) + unv vis' adj'
  | _, _ => 0
  end.

Lemma unv_upd : forall E (adj : list (list (edge E))) vis u l,
  nth_error vis u = Some false -> nth_error adj u = Some l ->
  unv (upd vis u true) adj + length l = unv vis adj.
Proof.
  intros E adj. induction adj as [|a adj IH]; intros [|b vis] [|u] l Hv Hl; simpl in *; try discriminate.
  - inversion Hv; inversion Hl; subst. simpl. lia.
  - specialize (IH vis u l Hv Hl). lia.
Qed.

Section DFS.
Context {V E : Type}.
Variable g : graph V E.
Hypothesis Hg : gwf g.
Variable start : nat.
Let n := numVertices g.
Hypothesis Hs : start < n.

Record dinv (st o : list nat) (part : nat -> nat -> Prop)
  (vis : list bool) (par dist : list (option nat)) : Prop := {
  di_vl : length vis = n; di_pl : length par = n; di_dl : length dist = n;
  di_nd : NoDup o;
  di_vis : forall v, nth_error vis v = Some true <-> In v o;
  di_olt : forall v, In v o -> v < n;
  di_slt : forall v, In v st -> v < n;
  di_par0 : nth_error par start = Some None;
  di_dist0 : nth_error dist start = Some (Some 0);
  di_par : forall v p, nth_error par v = Some (Some p) ->
     In p o /\ v <> start /\ (exists w, gedge g p w v) /\
     exists k, nth_error dist p = Some (Some k) /\ nth_error dist v = Some (Some (S k));
  di_parn : forall v, v <> start -> nth_error par v = Some None -> nth_error dist v = Some None;
  di_seen : forall v, In v o \/ In v st -> v = start \/ exists p, nth_error par v = Some (Some p);
  di_closed : forall u w v, gedge g u w v -> In u o -> part u v -> In v o \/ In v st;
  di_tree : forall A v B, o = A ++ v :: B -> v = start \/ exists p, nth_error par v = Some (Some p) /\ In p A;
  di_disc : forall v p, nth_error par v = Some (Some p) -> In v o \/ In v st
}.

Definition all_part (u v : nat) : Prop := True.

Lemma dfs_push_ok : forall u l pre e post st o vis par dist c ku,
  l = pre ++ e :: post ->
  (forall v w, In (mkEdge v w) l <-> gedge g u w v) ->
  In u o -> nth_error dist u = Some (Some ku) -> In start o ->
  dinv st o (fun x y => x = u -> In y (targets pre)) vis par dist ->
  wp (dfs_push u (mkDfs vis par dist st o c) e) (fun s =>
    dinv (d_stack s) o (fun x y => x = u -> In y (targets (pre ++ [e]))) (d_vis s) (d_par s) (d_dist s) /\
    d_order s = o /\ d_cnt s = c /\ length (d_stack s) <= S (length st) /\
    nth_error (d_dist s) u = Some (Some ku) /\ d_vis s = vis).
Proof.
  intros u l pre e post st o vis par dist c ku El Hl Hu Hdu Hso H. destruct e as [v w].
  assert (He : gedge g u w v). { apply Hl. rewrite El. apply in_or_app; right; left; auto. }
  destruct (w_dom g Hg _ _ _ He) as [Hun Hvn]. fold n in Hun, Hvn.
  assert (Hpart : forall st', (forall x, In x st -> In x st') -> In v o \/ In v st' ->
     forall u0 w0 v0, gedge g u0 w0 v0 -> In u0 o -> (u0 = u -> In v0 (targets (pre ++ [mkEdge v w]))) ->
     In v0 o \/ In v0 st').
  { intros st' Hst Hv u0 w0 v0 He0 Hu0 Hp.
    destruct (Nat.eq_dec u0 u) as [->|Hne].
    - specialize (Hp eq_refl). unfold targets in Hp. rewrite map_app in Hp. apply in_app_or in Hp.
      destruct Hp as [Hp|[<-|[]]]; auto.
      destruct (di_closed _ _ _ _ _ _ H u w0 v0 He0 Hu0); auto.
    - destruct (di_closed _ _ _ _ _ _ H u0 w0 v0 He0 Hu0); auto. congruence. }
  unfold dfs_push. simpl.
  apply wp_bind. apply vget_wp; [rewrite (di_vl _ _ _ _ _ _ H); auto|]. intros b Hb.
  destruct b.
  - simpl. apply (di_vis _ _ _ _ _ _ H) in Hb. split; [|repeat apply conj; auto].
    destruct H. constructor; auto. apply Hpart; auto.
  - assert (Hvo : ~ In v o) by (intros Hin; apply (di_vis _ _ _ _ _ _ H) in Hin; congruence).
    assert (Hvs : v <> start) by congruence.
    apply wp_bind. apply vget_wp; [rewrite (di_pl _ _ _ _ _ _ H); auto|]. intros p Hp.
    destruct p as [p|].
    + simpl. split; [|repeat apply conj; auto].
      destruct H. constructor; auto.
      * intros x [<-|Hx]; auto.
      * intros x [Hx|[<-|Hx]]; eauto.
      * apply Hpart; simpl; auto.
      * simpl. intros x q Hq. destruct (di_disc0 x q Hq); auto.
    + apply wp_bind. apply vset_wp; [rewrite (di_pl _ _ _ _ _ _ H); auto|].
      apply wp_bind. apply vget_wp; [rewrite (di_dl _ _ _ _ _ _ H); auto|]. intros du Hdu'.
      assert (du = Some ku) by congruence. subst du.
      apply wp_bind. apply vset_wp; [rewrite (di_dl _ _ _ _ _ _ H); auto|]. simpl.
      assert (Huv : u <> v) by congruence.
      split; [|repeat apply conj; auto; rewrite nth_error_upd_neq; auto].
      pose proof (di_dl _ _ _ _ _ _ H) as Edl. pose proof (di_pl _ _ _ _ _ _ H) as Epl.
      constructor; try rewrite upd_length.
      * apply (di_vl _ _ _ _ _ _ H).
      * auto.
      * auto.
      * apply (di_nd _ _ _ _ _ _ H).
      * apply (di_vis _ _ _ _ _ _ H).
      * apply (di_olt _ _ _ _ _ _ H).
      * intros x [<-|Hx]; auto. apply (di_slt _ _ _ _ _ _ H); auto.
      * rewrite nth_error_upd_neq by auto. apply (di_par0 _ _ _ _ _ _ H).
      * rewrite nth_error_upd_neq by auto. apply (di_dist0 _ _ _ _ _ _ H).
      * intros x q Hx. rewrite nth_error_upd in Hx. destruct (Nat.eqb_spec v x) as [->|Hne].
        -- destruct (x <? length par); inversion Hx; subst. split; auto. split; auto. split; eauto.
           exists ku. rewrite nth_error_upd_neq by auto. rewrite nth_error_upd_eq by lia. auto.
        -- destruct (di_par _ _ _ _ _ _ H x q Hx) as (Hq & Hxs & Hw & k & Hk1 & Hk2).
           split; auto. split; auto. split; auto. exists k.
           rewrite !nth_error_upd_neq; auto. congruence.
      * intros x Hxs Hx. rewrite nth_error_upd in *. destruct (Nat.eqb_spec v x) as [->|Hne].
        -- destruct (x <? length par); discriminate.
        -- apply (di_parn _ _ _ _ _ _ H); auto.
      * intros x Hx. destruct (Nat.eq_dec v x) as [->|Hne].
        -- right. exists u. rewrite nth_error_upd_eq by lia. auto.
        -- rewrite nth_error_upd_neq by auto. apply (di_seen _ _ _ _ _ _ H).
           simpl in Hx. tauto.
      * apply Hpart; simpl; auto.
      * intros A x B EL. destruct (di_tree _ _ _ _ _ _ H A x B EL) as [?|(q & Hq & HA)]; auto.
        right. exists q. rewrite nth_error_upd_neq; auto.
        intros ->. apply Hvo. rewrite EL. apply in_or_app; right; left; auto.
      * intros x q Hx. simpl. rewrite nth_error_upd in Hx. destruct (Nat.eqb_spec v x) as [->|Hne]; auto.
        destruct (di_disc _ _ _ _ _ _ H x q Hx); auto.
Qed.

Definition dfs_inv (s : dfs_st) : Prop :=
  dinv (d_stack s) (d_order s) all_part (d_vis s) (d_par s) (d_dist s) /\
  d_cnt s = length (d_order s) /\
  ((d_order s = [] /\ d_stack s = [start]) \/ hd_error (d_order s) = Some start).

Definition dfs_measure (s : dfs_st) : nat := unv (d_vis s) (g_adj g) + length (d_stack s).

Lemma dfs_step_ok : forall s, dfs_inv s ->
  wp (dfs_step g s) (fun r => match r with
    | inl s' => dfs_inv s' /\ dfs_measure s' < dfs_measure s
    | inr s' => s' = s /\ d_stack s = [] end).
Proof.
  intros [vis par dist st o c] (H & Hc & Hh). simpl in *. unfold dfs_step. simpl.
  destruct st as [|u st]; [simpl; auto|].
  assert (Hun : u < n) by (apply (di_slt _ _ _ _ _ _ H); left; auto).
  apply wp_bind. apply vget_wp; [rewrite (di_vl _ _ _ _ _ _ H); auto|]. intros b Hb.
  destruct b.
  - apply (di_vis _ _ _ _ _ _ H) in Hb. simpl. split; [|unfold dfs_measure; simpl; lia].
    split; [|split; auto].
    + simpl. destruct H. constructor; auto.
      * intros v Hv. apply di_slt0. right; auto.
      * intros v [Hv|Hv]; apply di_seen0; auto. right; right; auto.
      * intros x w v He Hx Hp. destruct (di_closed0 x w v He Hx Hp) as [?|[<-|?]]; auto.
      * intros v p Hv. destruct (di_disc0 v p Hv) as [?|[<-|?]]; auto.
    + simpl. destruct Hh as [[-> _]|]; auto. destruct Hb.
  - assert (Huo : ~ In u o) by (intros Hin; apply (di_vis _ _ _ _ _ _ H) in Hin; congruence).
    apply wp_bind. apply vset_wp; [rewrite (di_vl _ _ _ _ _ _ H); auto|].
    apply wp_bind. apply neighbors_wp; auto. intros l Hadj Hl _.
    apply wp_bind.
    assert (Hdu : exists ku, nth_error dist u = Some (Some ku)).
    { destruct (di_seen _ _ _ _ _ _ H u) as [->|(p & Hp)]; [right; left; auto| |].
      - exists 0. apply (di_dist0 _ _ _ _ _ _ H).
      - destruct (di_par _ _ _ _ _ _ H u p Hp) as (_ & _ & _ & k & _ & Hk). eauto. }
    destruct Hdu as [ku Hdu].
    assert (Hhd : hd_error (o ++ [u]) = Some start).
    { destruct Hh as [[-> Hst]|Hh]; [inversion Hst; auto|]. destruct o; [discriminate|auto]. }
    assert (Hso : In start (o ++ [u])). { destruct (o ++ [u]); simpl in *; [discriminate|]. inversion Hhd; auto. }
    set (I := fun (pre : list (edge E)) (s : dfs_st) =>
       dinv (d_stack s) (o ++ [u]) (fun x y => x = u -> In y (targets pre)) (d_vis s) (d_par s) (d_dist s) /\
       d_order s = o ++ [u] /\ d_cnt s = S c /\ length (d_stack s) <= length st + length pre /\
       nth_error (d_dist s) u = Some (Some ku) /\ d_vis s = upd vis u true).
    eapply wp_mono.
    { apply (for_each_inv _ _ (dfs_push u) I).
      - unfold I. simpl. split; [|repeat apply conj; auto; lia].
        pose proof (di_vl _ _ _ _ _ _ H) as Evl.
        constructor; try rewrite upd_length.
        + auto.
        + apply (di_pl _ _ _ _ _ _ H).
        + apply (di_dl _ _ _ _ _ _ H).
        + apply NoDup_app_intro; [apply (di_nd _ _ _ _ _ _ H)|constructor; auto; constructor|].
          intros x Hx [<-|[]]. auto.
        + intros v. rewrite nth_error_upd, in_app_iff, <- (di_vis _ _ _ _ _ _ H). simpl.
          destruct (Nat.eqb_spec u v) as [->|Hne].
          * destruct (Nat.ltb_spec v (length vis)); [|lia]. split; auto.
          * split; auto. intros [?|[?|[]]]; [auto|congruence].
        + intros v Hv. apply in_app_or in Hv. destruct Hv as [Hv|[<-|[]]]; auto.
          apply (di_olt _ _ _ _ _ _ H); auto.
        + intros v Hv. apply (di_slt _ _ _ _ _ _ H). right; auto.
        + apply (di_par0 _ _ _ _ _ _ H).
        + apply (di_dist0 _ _ _ _ _ _ H).
        + intros v p Hv. destruct (di_par _ _ _ _ _ _ H v p Hv) as (? & ?).
          split; auto. apply in_or_app; auto.
        + apply (di_parn _ _ _ _ _ _ H).
        + intros v Hv. apply (di_seen _ _ _ _ _ _ H). rewrite in_app_iff in Hv. simpl in *. tauto.
        + intros x w v He Hx Hp. rewrite in_app_iff in *. destruct (Nat.eq_dec x u) as [->|Hne].
          * destruct (Hp eq_refl).
          * assert (Hxo : In x o) by (simpl in Hx; intuition congruence).
            pose proof (di_closed _ _ _ _ _ _ H x w v He Hxo Logic.I) as Hc'. simpl in Hc'. simpl. tauto.
        + intros A v B EL.
          destruct (rev B) as [|z B'] eqn:ER.
          * assert (B = []) by (rewrite <- (rev_involutive B), ER; auto). subst B.
            apply app_inj_tail in EL. destruct EL as [-> ->].
            destruct (di_seen _ _ _ _ _ _ H v) as [?|(p & Hp)]; auto; [right; left; auto|].
            right. exists p. split; auto. apply (di_par _ _ _ _ _ _ H v p Hp).
          * assert (B = rev B' ++ [z]) by (rewrite <- (rev_involutive B), ER; auto). subst B.
            rewrite app_comm_cons, app_assoc in EL. apply app_inj_tail in EL. destruct EL as [EL _].
            apply (di_tree _ _ _ _ _ _ H _ _ _ EL).
        + intros v p Hv. rewrite in_app_iff. simpl.
          destruct (di_disc _ _ _ _ _ _ H v p Hv) as [?|[?|?]]; auto.
      - intros pre e post [vis1 par1 dist1 st1 o1 c1] El (I1 & I2 & I3 & I4 & I5 & I6). simpl in *.
        eapply wp_mono.
        + subst o1. apply (dfs_push_ok u (rev l) pre e post st1 (o ++ [u]) vis1 par1 dist1 c1 ku); auto.
          * intros v w. rewrite <- in_rev. apply Hl.
          * apply in_or_app; right; left; auto.
        + intros s (J1 & J2 & J3 & J4 & J5 & J6). unfold I. split; auto. split; auto. split; [congruence|].
          split; [rewrite app_length; simpl; lia|]. split; auto. congruence. }
    intros [vis2 par2 dist2 st2 o2 c2] (I1 & I2 & I3 & I4 & I5 & I6). simpl in *. subst.
    split.
    + split; [|split]; simpl.
      * destruct I1. constructor; auto. intros x w v He Hx _. apply (di_closed0 x w v He Hx).
        intros ->. unfold targets. apply in_map_iff. exists (mkEdge v w). split; auto.
        rewrite <- in_rev. apply Hl; auto.
      * rewrite app_length. simpl. lia.
      * auto.
    + unfold dfs_measure. simpl. rewrite rev_length in I4.
      pose proof (unv_upd _ (g_adj g) vis u l Hb Hadj). lia.
Qed.

Lemma dfs_inv_init :
  dfs_inv (mkDfs (repeat false n) (repeat None n) (upd (repeat None n) start (Some 0)) [start] [] 0).
Proof.
  split; [|split; simpl; auto]. simpl.
    constructor; try rewrite upd_length; try rewrite repeat_length; auto.
    - constructor.
    - intros v. rewrite repeat_nth_error. destruct (v <? n); split; try discriminate; intros [].
    - intros v [].
    - intros v [<-|[]]; auto.
    - rewrite repeat_nth_error. destruct (Nat.ltb_spec start n); auto; lia.
    - rewrite nth_error_upd_eq; auto. rewrite repeat_length; auto.
    - intros v p Hv. rewrite repeat_nth_error in Hv. destruct (v <? n); discriminate.
    - intros v Hne Hv. rewrite repeat_nth_error in Hv. rewrite nth_error_upd_neq by auto.
      rewrite repeat_nth_error. destruct (v <? n); auto; discriminate.
    - intros v [[]|[<-|[]]]; auto.
    - intros A v B EL. destruct A; discriminate.
    - intros v p Hv. rewrite repeat_nth_error in Hv. destruct (v <? n); discriminate. 
Qed.

Lemma dfs_main : exists N, forall fuel, N <= fuel -> exists s,
  DFS fuel g start = Ok (mkTrav (d_order s) (d_par s) (d_dist s) (d_cnt s)) /\
  iter fuel (dfs_step g) (mkDfs (repeat false n) (repeat None n) (upd (repeat None n) start (Some 0)) [start] [] 0) = Ok s /\
  dfs_inv s /\ d_stack s = [].
Proof.
  set (s0 := mkDfs (repeat false n) (repeat None n) (upd (repeat None n) start (Some 0)) [start] [] 0).
  exists (S (dfs_measure s0)). intros fuel Hf.
  assert (H0 : dfs_inv s0) by apply dfs_inv_init.
  assert (W : wp (iter fuel (dfs_step g) s0) (fun s => dfs_inv s /\ d_stack s = [])).
  { eapply (iter_inv _ _ (dfs_step g) dfs_inv dfs_measure); auto.
    intros s HI. eapply wp_mono; [apply dfs_step_ok; auto|].
    intros [s'|s']; auto. intros [-> Hq]. auto. }
  destruct (wp_elim _ _ _ W) as (s & E1 & E2 & E3). exists s.
  split; auto. unfold DFS. fold n. destruct (Nat.leb_spec n start) as [Hx|Hx]; [lia|].
  unfold vset. rewrite repeat_length. apply Nat.ltb_lt in Hs. rewrite Hs.
  cbv beta iota delta [bind]. fold s0. rewrite E1. reflexivity.
Qed.

End DFS.

(** ** DFS order = preorder of the recursive search *)

(** [dfs_pre adj seen todo out]: recursive depth-first search.  Starting with the vertices [seen]
    already visited (in this order) and asked to visit each vertex of [todo] in turn, it ends having
    visited [out]. [adj u l] says that the neighbours of [u], in adjacency order, are [l]. *)
Inductive dfs_pre (adj : nat -> list nat -> Prop) : list nat -> list nat -> list nat -> Prop :=
| dp_nil : forall seen, dfs_pre adj seen [] seen
| dp_skip : forall seen v todo out, In v seen -> dfs_pre adj seen todo out ->
    dfs_pre adj seen (v :: todo) out
| dp_visit : forall seen v l todo mid out, ~ In v seen -> adj v l ->
    dfs_pre adj (seen ++ [v]) l mid -> dfs_pre adj mid todo out ->
    dfs_pre adj seen (v :: todo) out.

Lemma dfs_pre_app : forall adj seen a b out,
  dfs_pre adj seen (a ++ b) out <-> exists mid, dfs_pre adj seen a mid /\ dfs_pre adj mid b out.
Proof.
  intros adj seen a. revert seen. induction a as [|v a IH]; intros seen b out; simpl.
  - split; [intros H; exists seen; split; auto; constructor|].
    intros (mid & H1 & H2). inversion H1; subst; auto.
  - split.
    + intros H. inversion H as [|? ? ? ? Hin Hr|? ? l ? m1 ? Hin Ha Hv Hr]; subst.
      * apply IH in Hr. destruct Hr as (mid & H1 & H2). exists mid. split; auto. apply dp_skip; auto.
      * apply IH in Hr. destruct Hr as (mid & H1 & H2). exists mid. split; auto. eapply dp_visit; eauto.
    + intros (mid & H1 & H2). inversion H1 as [|? ? ? ? Hin Hr|? ? l ? m1 ? Hin Ha Hv Hr]; subst.
      * apply dp_skip; auto. apply IH. eauto.
      * eapply dp_visit; eauto. apply IH. eauto.
Qed.

Lemma dfs_pre_incl : forall adj seen todo out, dfs_pre adj seen todo out -> incl seen out.
Proof.
  intros adj seen todo out H. induction H; auto.
  - apply incl_refl.
  - intros x Hx. apply IHdfs_pre2. apply IHdfs_pre1. apply in_or_app; auto.
Qed.

(** dropping entries already seen does not matter *)
Lemma dfs_pre_filter : forall adj (f : nat -> bool) todo seen out,
  (forall v, In v todo -> f v = false -> In v seen) ->
  dfs_pre adj seen (filter f todo) out -> dfs_pre adj seen todo out.
Proof.
  intros adj f todo. induction todo as [|v todo IH]; intros seen out Hf H; simpl in *; auto.
  destruct (f v) eqn:Ev.
  - inversion H as [|? ? ? ? Hin Hr|? ? l ? m1 ? Hin Ha Hv Hr]; subst.
    + apply dp_skip; auto.
    + eapply dp_visit; eauto. apply IH; auto. intros x Hx Hfx.
      pose proof (dfs_pre_incl _ _ _ _ Hv) as Hi. apply Hi. apply in_or_app. left. auto.
  - apply dp_skip; auto.
Qed.

Section DfsOrder.
Context {V E : Type}.
Variable g : graph V E.
Hypothesis Hg : gwf g.
Variable start : nat.
Let n := numVertices g.
Hypothesis Hs : start < n.

Definition adj_list (u : nat) (l : list nat) : Prop :=
  exists es, neighbors g u = Ok es /\ l = targets es.

Lemma dfs_push_stack : forall u (l : list (edge E)) s s',
  for_each (dfs_push u) l s = Ok s' ->
  d_stack s' = rev (filter (fun v => match nth_error (d_vis s) v with Some true => false | _ => true end)
                      (targets l)) ++ d_stack s /\
  d_vis s' = d_vis s /\ d_order s' = d_order s.
Proof.
  intros u l. induction l as [|e l IH]; intros s s' H; simpl in H.
  - inversion H; subst. simpl. auto.
  - apply bind_Ok in H. destruct H as (s1 & H1 & H2). destruct (IH _ _ H2) as (J1 & J2 & J3).
    unfold dfs_push in H1. apply bind_Ok in H1. destruct H1 as (b & Hb & H1). apply vget_Ok in Hb.
    simpl. rewrite Hb. destruct b.
    + inversion H1; subst. auto.
    + apply bind_Ok in H1. destruct H1 as (p & _ & H1).
      assert (K : d_stack s1 = e_to e :: d_stack s /\ d_vis s1 = d_vis s /\ d_order s1 = d_order s).
      { destruct p.
        - inversion H1; subst. auto.
        - apply bind_Ok in H1. destruct H1 as (? & _ & H1).
          apply bind_Ok in H1. destruct H1 as (? & _ & H1).
          apply bind_Ok in H1. destruct H1 as (? & _ & H1). inversion H1; subst; auto. }
      destruct K as (K1 & K2 & K3). rewrite J1, J2, J3, K1, K2, K3. simpl. rewrite <- app_assoc. auto.
Qed.

Lemma filter_rev : forall A (f : A -> bool) l, filter f (rev l) = rev (filter f l).
Proof.
  intros A f l. induction l as [|a l IH]; simpl; auto.
  rewrite filter_app, IH. simpl. destruct (f a); simpl; auto. rewrite app_nil_r. auto.
Qed.

Lemma dfs_iter_pre : forall fuel s s', dfs_inv g start s ->
  iter fuel (dfs_step g) s = Ok s' -> dfs_pre adj_list (d_order s) (d_stack s) (d_order s').
Proof.
  induction fuel as [|fuel IH]; intros s s' HI H; simpl in H; [discriminate|].
  apply bind_Ok in H. destruct H as (r & Hr & Hk).
  pose proof (dfs_step_ok g Hg start Hs s HI) as Hok. rewrite Hr in Hok. simpl in Hok.
  destruct r as [s1|s1].
  - destruct Hok as [HI1 _]. specialize (IH s1 s' HI1 Hk).
    unfold dfs_step in Hr. destruct (d_stack s) as [|u st] eqn:Est; [discriminate|].
    apply bind_Ok in Hr. destruct Hr as (b & Hb & Hr). apply vget_Ok in Hb.
    destruct HI as (HD & Hc & Hh).
    destruct b.
    + inversion Hr; subst. simpl in *. apply dp_skip; auto. apply (di_vis _ _ _ _ _ _ _ _ HD). auto.
    + apply bind_Ok in Hr. destruct Hr as (vis' & Hv & Hr).
      apply bind_Ok in Hr. destruct Hr as (l & Hl & Hr).
      apply bind_Ok in Hr. destruct Hr as (s2 & Hs2 & Hr). inversion Hr; subst s2.
      apply dfs_push_stack in Hs2. simpl in Hs2. destruct Hs2 as (E1 & E2 & E3).
      rewrite E1, E3 in IH. apply dfs_pre_app in IH. destruct IH as (mid & M1 & M2).
      apply (dp_visit adj_list _ u (targets l) st mid); auto.
      * intros Hin. apply (di_vis _ _ _ _ _ _ _ _ HD) in Hin. congruence.
      * exists l. auto.
      * eapply dfs_pre_filter; [|unfold targets in M1; rewrite map_rev, filter_rev, rev_involutive in M1; exact M1].
        intros v Hv' Hf. simpl in Hf.
        assert (nth_error vis' v = Some true) by (destruct (nth_error vis' v) as [[]|]; auto; discriminate).
        rewrite <- E2 in H. destruct HI1 as (HD1 & _). apply (di_vis _ _ _ _ _ _ _ _ HD1) in H.
        rewrite E3 in H. auto.
  - inversion Hk; subst. destruct Hok as [-> Est]. rewrite Est. constructor.
Qed.

End DfsOrder.
