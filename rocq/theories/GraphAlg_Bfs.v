(** * Breadth-first search: invariant and correctness *)

From Coq Require Import List Arith Bool Lia Sorted.
From Verif Require Import Base Graph_Spec Graph_Model Graph_Proofs GraphAlg_Model GraphAlg_Tree.
Import ListNotations.

(** neighbours of an existing vertex *)
Lemma neighbors_wp : forall V E (g : graph V E) u (Q : list (edge E) -> Prop),
  gwf g -> u < numVertices g ->
  (forall l, nth_error (g_adj g) u = Some l ->
     (forall v w, In (mkEdge v w) l <-> gedge g u w v) -> NoDup (targets l) -> Q l) ->
  wp (neighbors g u) Q.
Proof.
  intros V E g u Q Hg Hu HQ. unfold neighbors. rewrite (w_adj g Hg).
  destruct (Nat.leb_spec (numVertices g) u); [lia|].
  apply vget_wp; [rewrite (w_adj g Hg); auto|]. intros l Hl. apply HQ; auto.
  - apply (w_edge g Hg _ _ Hl).
  - apply (w_dup g Hg _ _ Hl).
Qed.

Lemma NoDup_bounded_length : forall l n, NoDup l -> (forall x, In x l -> x < n) -> length l <= n.
Proof.
  intros l n Hd Hb. rewrite <- (seq_length n 0). apply NoDup_incl_length; auto.
  intros x Hx. apply in_seq. specialize (Hb x Hx). lia.
Qed.

Lemma repeat_nth_error : forall A (a : A) n i, nth_error (repeat a n) i = if i <? n then Some a else None.
Proof.
  induction n as [|n IH]; intros [|i]; simpl; auto. rewrite IH. reflexivity.
Qed.

Section BFS.
Context {V E : Type}.
Variable g : graph V E.
Hypothesis Hg : gwf g.
Variable start : nat.
Let n := numVertices g.
Hypothesis Hs : start < n.

(** [L] is the discovery sequence with distances; [P] the processed vertices, [q] those waiting.
    [part]: the edges already handled although their source is not in [P]. *)
Record binv (L : list (nat * nat)) (P q : list nat) (part : nat -> nat -> Prop)
  (vis : list bool) (par dist : list (option nat)) : Prop := {
  bi_vl : length vis = n; bi_pl : length par = n; bi_dl : length dist = n;
  bi_seq : map fst L = P ++ q;
  bi_nd : NoDup (map fst L);
  bi_lt : forall v, In v (map fst L) -> v < n;
  bi_vis : forall v, nth_error vis v = Some true <-> In v (map fst L);
  bi_dist : forall v k, nth_error dist v = Some (Some k) <-> In (v, k) L;
  bi_sort : StronglySorted le (map snd L);
  bi_walk : forall v k, In (v, k) L -> exists ws, walk (gedge g) start ws v /\ length ws = k;
  bi_par0 : nth_error par start = Some None;
  bi_parn : forall v, v < n -> ~ In v (map fst L) -> nth_error par v = Some None;
  bi_par : forall A v k B, L = A ++ (v, k) :: B -> v <> start ->
     exists p w kp, nth_error par v = Some (Some p) /\ gedge g p w v /\ In (p, kp) A /\ k = S kp;
  bi_start : hd_error L = Some (start, 0);
  bi_closed : forall u ku, In (u, ku) L -> forall w v, gedge g u w v -> In u P \/ part u v ->
     exists kv, In (v, kv) L /\ kv <= S ku
}.

Lemma binv_fun : forall L P q part vis par dist, binv L P q part vis par dist ->
  forall v k k', In (v, k) L -> In (v, k') L -> k = k'.
Proof.
  intros L P q part vis par dist H v k k' H1 H2.
  apply (bi_dist _ _ _ _ _ _ _ H) in H1. apply (bi_dist _ _ _ _ _ _ _ H) in H2. congruence.
Qed.

Lemma binv_in : forall L P q part vis par dist, binv L P q part vis par dist ->
  forall v, In v (map fst L) -> exists k, In (v, k) L.
Proof.
  intros. apply in_map_iff in H0. destruct H0 as ((x & k) & Hx & Hin). simpl in Hx. subst. eauto.
Qed.

Definition no_part (u v : nat) : Prop := False.

Lemma StronglySorted_snoc : forall l x, StronglySorted le l -> (forall y, In y l -> y <= x) ->
  StronglySorted le (l ++ [x]).
Proof.
  induction l as [|a l IH]; intros x H Hle; simpl.
  - constructor; constructor.
  - inversion H; subst. constructor.
    + apply IH; auto. intros; apply Hle; right; auto.
    + apply Forall_app. split; auto. constructor; auto. apply Hle. left; auto.
Qed.

Lemma StronglySorted_mid : forall l a b x y, l = a ++ x :: b -> In y b -> StronglySorted le l -> x <= y.
Proof.
  intros l a. revert l. induction a as [|z a IH]; intros l b x y E0 Hy H; subst; simpl in H; inversion H; subst.
  - rewrite Forall_forall in H3. auto.
  - eapply IH; eauto.
Qed.

(** one edge *)
Lemma bfs_visit_ok : forall u ku l pre e post L P q vis par dist o c,
  l = pre ++ e :: post ->
  (forall v w, In (mkEdge v w) l <-> gedge g u w v) ->
  In (u, ku) L ->
  (forall v k, In (v, k) L -> k <= S ku) ->
  binv L P (u :: q) (fun x y => x = u /\ In y (targets pre)) vis par dist ->
  wp (bfs_visit u (mkBfs vis par dist q o c) e) (fun s =>
    exists L', incl L L' /\ (forall v k, In (v, k) L' -> k <= S ku) /\
      binv L' P (u :: b_queue s) (fun x y => x = u /\ In y (targets (pre ++ [e])))
        (b_vis s) (b_par s) (b_dist s) /\ b_order s = o /\ b_cnt s = c).
Proof.
  intros u ku l pre e post L P q vis par dist o c El Hl Hu Hb H. destruct e as [v w].
  assert (He : gedge g u w v). { apply Hl. rewrite El. apply in_or_app; right; left; auto. }
  destruct (w_dom g Hg _ _ _ He) as [Hun Hvn]. fold n in Hun, Hvn.
  unfold bfs_visit. simpl.
  apply wp_bind. apply vget_wp; [rewrite (bi_vl _ _ _ _ _ _ _ H); auto|]. intros b Hbv.
  assert (Hpart : forall kv L', incl L L' -> In (v, kv) L' -> kv <= S ku ->
     (forall x kx, In (x, kx) L' -> In (x,kx) L \/ (~ In x P /\ x <> u)) ->
     (forall k', In (u, k') L' -> k' = ku) ->
     forall u0 ku0, In (u0, ku0) L' -> forall w0 v0, gedge g u0 w0 v0 ->
     In u0 P \/ u0 = u /\ In v0 (targets (pre ++ [{| e_to := v; e_w := w |}])) ->
     exists kv, In (v0, kv) L' /\ kv <= S ku0).
  { intros kv L' Hincl Hkv Hle Hold Huniq u0 ku0 Hu0 w0 v0 He0 [Hp|[-> Hp]].
    - destruct (Hold _ _ Hu0) as [Hu0L|[? ?]]; [|contradiction].
      destruct (bi_closed _ _ _ _ _ _ _ H u0 ku0 Hu0L w0 v0 He0) as (k & Hk & Hk2); auto.
      exists k. auto.
    - unfold targets in Hp. rewrite map_app in Hp. apply in_app_or in Hp. destruct Hp as [Hp|Hp].
      + destruct (Hold _ _ Hu0) as [Hu0L|[? ?]]; [|congruence].
        destruct (bi_closed _ _ _ _ _ _ _ H u ku0 Hu0L w0 v0 He0) as (k & Hk & Hk2); eauto.
      + simpl in Hp. destruct Hp as [<-|[]]. exists kv. rewrite (Huniq _ Hu0). auto. }
  destruct b.
  - (* already visited *)
    simpl. exists L. split; [apply incl_refl|]. split; auto. split; auto.
    apply (bi_vis _ _ _ _ _ _ _ H) in Hbv.
    destruct (binv_in _ _ _ _ _ _ _ H _ Hbv) as [kv Hkv].
    destruct H. constructor; auto.
    eapply (Hpart kv L); eauto using incl_refl.
    intros k' Hk'. apply bi_dist0 in Hk'. apply bi_dist0 in Hu. congruence.
  - apply wp_bind. apply vset_wp; [rewrite (bi_vl _ _ _ _ _ _ _ H); auto|].
    apply wp_bind. apply vset_wp; [rewrite (bi_pl _ _ _ _ _ _ _ H); auto|].
    apply wp_bind. apply vget_wp; [rewrite (bi_dl _ _ _ _ _ _ _ H); auto|]. intros du Hdu.
    assert (du = Some ku) by (apply (bi_dist _ _ _ _ _ _ _ H) in Hu; congruence). subst du.
    apply wp_bind. apply vset_wp; [rewrite (bi_dl _ _ _ _ _ _ _ H); auto|]. simpl.
    assert (Hnew : ~ In v (map fst L)).
    { intros Hin. apply (bi_vis _ _ _ _ _ _ _ H) in Hin. congruence. }
    assert (Huv : u <> v).
    { intros ->. apply Hnew. apply in_map_iff. exists (v, ku). auto. }
    assert (Hvs : v <> start).
    { intros ->. apply Hnew. destruct L as [|p L0]; [destruct Hu|].
      pose proof (bi_start _ _ _ _ _ _ _ H) as Hh. simpl in Hh. inversion Hh; subst. left; auto. }
    exists (L ++ [(v, S ku)]).
    split; [apply incl_appl, incl_refl|].
    split.
    { intros v0 k Hin. apply in_app_or in Hin. destruct Hin as [Hin|[Hin|[]]]; [eauto|].
      inversion Hin; subst; auto. }
    split; [|split; auto].
    constructor; try rewrite upd_length; try rewrite map_app.
    + apply (bi_vl _ _ _ _ _ _ _ H).
    + apply (bi_pl _ _ _ _ _ _ _ H).
    + apply (bi_dl _ _ _ _ _ _ _ H).
    + rewrite (bi_seq _ _ _ _ _ _ _ H). simpl. rewrite <- app_assoc. auto.
    + simpl. apply NoDup_app_intro; [apply (bi_nd _ _ _ _ _ _ _ H)|constructor; auto; constructor|].
      intros x Hx [<-|[]]. auto.
    + intros x Hx. apply in_app_or in Hx. destruct Hx as [Hx|[<-|[]]]; auto.
      apply (bi_lt _ _ _ _ _ _ _ H); auto.
    + intros x. rewrite nth_error_upd, (bi_vl _ _ _ _ _ _ _ H).
      rewrite in_app_iff, <- (bi_vis _ _ _ _ _ _ _ H). simpl.
      destruct (Nat.eqb_spec v x) as [->|Hne].
      * destruct (Nat.ltb_spec x n); [|lia]. split; auto.
      * split; auto. intros [?|[?|[]]]; [auto|congruence].
    + intros x k. rewrite nth_error_upd, (bi_dl _ _ _ _ _ _ _ H). rewrite in_app_iff.
      rewrite <- (bi_dist _ _ _ _ _ _ _ H). simpl.
      destruct (Nat.eqb_spec v x) as [->|Hne].
      * destruct (Nat.ltb_spec x n); [|lia]. split.
        -- intros Hk. inversion Hk. auto.
        -- intros [Hk|[Hk|[]]]; [|inversion Hk; auto].
           exfalso. apply Hnew. apply (bi_dist _ _ _ _ _ _ _ H) in Hk.
           apply in_map_iff. exists (x, k). auto.
      * split; auto. intros [?|[Hk|[]]]; [auto|inversion Hk; congruence].
    + apply StronglySorted_snoc; [apply (bi_sort _ _ _ _ _ _ _ H)|].
      intros y Hy. apply in_map_iff in Hy. destruct Hy as ((a & b) & <- & Hin). simpl. eauto.
    + intros x k Hin. apply in_app_or in Hin. destruct Hin as [Hin|[Hin|[]]].
      * apply (bi_walk _ _ _ _ _ _ _ H); auto.
      * inversion Hin; subst. destruct (bi_walk _ _ _ _ _ _ _ H _ _ Hu) as (ws & Hw & Hlen).
        exists (ws ++ [w]). split; [eapply walk_snoc; eauto|]. rewrite app_length. simpl. lia.
    + rewrite nth_error_upd_neq by auto. apply (bi_par0 _ _ _ _ _ _ _ H).
    + intros x Hx Hnin. rewrite nth_error_upd_neq.
      * apply (bi_parn _ _ _ _ _ _ _ H); auto. intros Hin. apply Hnin. apply in_or_app; auto.
      * intros ->. apply Hnin. apply in_or_app; right; left; auto.
    + intros A x k B EL Hxs.
      assert (Hcase : (B = [] /\ A = L /\ x = v /\ k = S ku) \/ (exists B', L = A ++ (x, k) :: B')).
      { clear -EL. destruct (rev B) as [|z B'] eqn:ER.
        - assert (B = []) by (rewrite <- (rev_involutive B), ER; auto). subst.
          apply app_inj_tail in EL. destruct EL as [-> EE]. inversion EE; auto.
        - assert (B = rev B' ++ [z]) by (rewrite <- (rev_involutive B), ER; auto). subst.
          rewrite app_comm_cons, app_assoc in EL. apply app_inj_tail in EL. destruct EL as [-> _].
          right. eauto. }
      destruct Hcase as [(-> & -> & -> & ->)|(B' & EL')].
      * exists u, w, ku. rewrite nth_error_upd_eq by (rewrite (bi_pl _ _ _ _ _ _ _ H); auto). auto.
      * destruct (bi_par _ _ _ _ _ _ _ H _ _ _ _ EL' Hxs) as (p & w' & kp & Hp & Hrest).
        exists p, w', kp. split; auto. rewrite nth_error_upd_neq; auto.
        intros ->. apply Hnew. rewrite EL'. rewrite map_app. apply in_or_app. right; left; auto.
    + destruct L; [destruct Hu|]. apply (bi_start _ _ _ _ _ _ _ H).
    + eapply (Hpart (S ku)); eauto.
      * apply incl_appl, incl_refl.
      * apply in_or_app; right; left; auto.
      * intros x kx Hin. apply in_app_or in Hin. destruct Hin as [Hin|[Hin|[]]]; auto.
        inversion Hin; subst. right. split; auto. intros Hp. apply Hnew.
        rewrite (bi_seq _ _ _ _ _ _ _ H). apply in_or_app; auto.
      * intros k' Hin. apply in_app_or in Hin. destruct Hin as [Hin|[Hin|[]]].
        -- eapply (binv_fun _ _ _ _ _ _ _ H); eauto.
        -- inversion Hin; congruence.
Qed.

Definition bfs_inv (s : bfs_st) : Prop :=
  exists L, binv L (b_order s) (b_queue s) no_part (b_vis s) (b_par s) (b_dist s) /\
    b_cnt s = length (b_order s) /\
    match b_queue s with [] => True | u :: _ => forall ku, In (u, ku) L ->
      forall v k, In (v, k) L -> k <= S ku end.

Lemma bfs_step_ok : forall s, bfs_inv s ->
  wp (bfs_step g s) (fun r => match r with
    | inl s' => bfs_inv s' /\ n - length (b_order s') < n - length (b_order s)
    | inr s' => s' = s /\ b_queue s = [] end).
Proof.
  intros [vis par dist q o c] (L & H & Hc & Hq). simpl in *. unfold bfs_step. simpl.
  destruct q as [|u q]; [simpl; auto|].
  assert (Hin : In u (map fst L)). { rewrite (bi_seq _ _ _ _ _ _ _ H). apply in_or_app; right; left; auto. }
  assert (Hun : u < n) by (apply (bi_lt _ _ _ _ _ _ _ H); auto).
  destruct (binv_in _ _ _ _ _ _ _ H _ Hin) as [ku Hku].
  apply wp_bind. apply neighbors_wp; auto. intros l Hadj Hl _.
  apply wp_bind.
  set (P' := fun (pre : list (edge E)) (s : bfs_st) => exists L', incl L L' /\ (forall v k, In (v, k) L' -> k <= S ku) /\
      binv L' o (u :: b_queue s) (fun x y => x = u /\ In y (targets pre)) (b_vis s) (b_par s) (b_dist s)
      /\ b_order s = o ++ [u] /\ b_cnt s = S c).
  eapply wp_mono.
  { apply (for_each_inv _ _ (bfs_visit u) P').
    - exists L. split; [apply incl_refl|]. split; [eauto|]. split; [|simpl; auto].
      destruct H. constructor; auto. intros u0 ku0 Hu0 w v He [Hp|[_ []]]. eapply bi_closed0; eauto.
    - intros pre e post [vis1 par1 dist1 q1 o1 c1] El (L1 & Hincl & Hb & H1 & Ho & Hc1). simpl in *.
      eapply wp_mono; [apply (bfs_visit_ok u ku l pre e post L1 o q1); auto|].
      intros s (L' & I1 & I2 & I3 & I4 & I5). exists L'. split; [eapply incl_tran; eauto|].
      subst. auto. }
  intros [vis2 par2 dist2 q2 o2 c2] (L2 & Hincl & Hb2 & H2 & Ho & Hc2). simpl in *. subst o2 c2.
  assert (H3 : binv L2 (o ++ [u]) q2 no_part vis2 par2 dist2).
  { destruct H2. constructor; auto.
    - rewrite bi_seq0. rewrite <- app_assoc. auto.
    - intros u0 ku0 Hu0 w v He [Hp|[]]. apply in_app_or in Hp. destruct Hp as [Hp|[<-|[]]].
      + eapply bi_closed0; eauto.
      + eapply bi_closed0; eauto. right. split; auto.
        unfold targets. apply in_map_iff. exists (mkEdge v w). split; auto. apply Hl; auto. }
  split.
  - exists L2. simpl. split; auto. split; [rewrite app_length; simpl; lia|].
    destruct q2 as [|u2 q2]; auto. intros ku2 Hku2 v k Hvk.
    specialize (Hb2 v k Hvk).
    assert (ku <= ku2).
    { pose proof (bi_seq _ _ _ _ _ _ _ H2) as Hseq.
      pose proof (bi_sort _ _ _ _ _ _ _ H2) as Hsort.
      (* split L2 at the positions of u and u2 *)
      pose proof (bi_nd _ _ _ _ _ _ _ H2) as Hnd.
      destruct (in_split _ _ (Hincl _ Hku)) as (A & B & EL).
      rewrite EL, map_app in Hseq. simpl in Hseq.
      assert (EA : map fst A = o /\ map fst B = u2 :: q2).
      { rewrite EL, map_app in Hnd. simpl in Hnd.
        revert Hseq Hnd. generalize (map fst A) (map fst B). clear. intros a b Hseq Hnd.
        revert o Hseq. induction a as [|x a IH]; intros [|y o] Hseq; simpl in *; inversion Hseq; subst; auto.
        - exfalso. inversion Hnd as [|? ? N1 N2]; subst. apply N1. apply in_or_app; right; left; auto.
        - exfalso. inversion Hnd as [|? ? N1 N2]; subst. apply N1. apply in_or_app; right; left; auto.
        - inversion Hnd as [|? ? N1 N2]; subst. destruct (IH N2 o) as [-> ->]; auto. }
      destruct EA as [EA EB].
      assert (HB : In (u2, ku2) B).
      { destruct B as [|[x k2] B]; [discriminate|]. simpl in EB. inversion EB; subst.
        left. f_equal. eapply (binv_fun _ _ _ _ _ _ _ H2); eauto. apply in_or_app; right; right; left; auto. }
      eapply (StronglySorted_mid (map snd L2) (map snd A) (map snd B)); eauto.
      - rewrite EL, map_app. reflexivity.
      - apply in_map_iff. exists (u2, ku2). auto. }
    lia.
  - simpl. rewrite app_length. simpl.
    assert (length o < n); [|lia].
    pose proof (NoDup_bounded_length _ n (bi_nd _ _ _ _ _ _ _ H) (bi_lt _ _ _ _ _ _ _ H)) as Hlen.
    rewrite (bi_seq _ _ _ _ _ _ _ H), app_length in Hlen. simpl in Hlen. lia.
Qed.

Lemma bfs_init_inv : forall vis dist,
  vis = upd (repeat false n) start true -> dist = upd (repeat None n) start (Some 0) ->
  bfs_inv (mkBfs vis (repeat None n) dist [start] [] 0).
Proof.
  intros vis dist -> ->. exists [(start, 0)]. simpl. split.
  2:{ split; auto. intros ku [Hk|[]] v k [Hv|[]]. inversion Hv; subst. lia. }
  constructor; simpl; try rewrite upd_length; try rewrite repeat_length; auto.
  - repeat constructor. auto.
  - intros v [<-|[]]; auto.
  - intros v. rewrite nth_error_upd, repeat_length, repeat_nth_error.
    destruct (Nat.eqb_spec start v) as [->|Hne].
    + destruct (Nat.ltb_spec v n); [split; auto|lia].
    + destruct (v <? n); (split; [discriminate|intros [?|[]]; congruence]).
  - intros v k. rewrite nth_error_upd, repeat_length, repeat_nth_error.
    destruct (Nat.eqb_spec start v) as [->|].
    + destruct (Nat.ltb_spec v n); try lia. split; [intros Hk; inversion Hk; auto|].
      intros [Hk|[]]; inversion Hk; auto.
    + destruct (v <? n); (split; [discriminate|intros [Hk|[]]; inversion Hk; congruence]).
  - repeat constructor.
  - intros v k [Hk|[]]. inversion Hk; subst. exists []. split; auto. constructor.
  - rewrite repeat_nth_error. destruct (Nat.ltb_spec start n); [auto|lia].
  - intros v Hv Hn. rewrite repeat_nth_error. destruct (Nat.ltb_spec v n); [auto|lia].
  - intros A v k B EL Hne. destruct A as [|a A]; simpl in EL; inversion EL; subst; [congruence|].
    destruct A; discriminate.
  - intros u ku Hin w v He [[]|[]].
Qed.

(** The result of BFS, in terms of a discovery sequence [L]. *)
Lemma bfs_main : forall fuel, n < fuel -> exists r L,
  BFS fuel g start = Ok r /\
  binv L (t_order r) [] no_part (map (fun d => isSome d) (t_dist r)) (t_parent r) (t_dist r) /\
  t_count r = length (t_order r).
Proof.
  intros fuel Hf.
  assert (W : wp (BFS fuel g start) (fun r => exists L,
     binv L (t_order r) [] no_part (map (fun d => isSome d) (t_dist r)) (t_parent r) (t_dist r) /\
     t_count r = length (t_order r))).
  { unfold BFS. fold n. destruct (Nat.leb_spec n start) as [Hx|Hx]; [lia|].
    apply wp_bind. apply vset_wp; [rewrite repeat_length; auto|].
    apply wp_bind. apply vset_wp; [rewrite repeat_length; auto|].
    apply wp_bind.
    eapply wp_mono.
    - eapply (iter_inv _ _ (bfs_step g) bfs_inv (fun s => n - length (b_order s))
               (fun s => bfs_inv s /\ b_queue s = [])).
      + intros s HI. eapply wp_mono; [apply bfs_step_ok; auto|].
        intros [s'|s']; auto. intros [-> Hq]. auto.
      + apply bfs_init_inv; auto.
      + simpl. lia.
    - intros [vis par dist q o c] [(L & H & Hc & _) Hq]. simpl in *. subst q.
      exists L. split; auto.
      assert (vis = map (fun d => isSome d) dist); [|subst; auto].
      apply nth_ext_error. intros i.
      rewrite nth_error_map.
      destruct (Nat.lt_ge_cases i n) as [Hi|Hi].
      + destruct (nth_error_lt _ vis i ltac:(rewrite (bi_vl _ _ _ _ _ _ _ H); auto)) as [b Hb].
        destruct (nth_error_lt _ dist i ltac:(rewrite (bi_dl _ _ _ _ _ _ _ H); auto)) as [d Hd].
        rewrite Hb, Hd. simpl. f_equal. destruct b.
        * apply (bi_vis _ _ _ _ _ _ _ H) in Hb. destruct (binv_in _ _ _ _ _ _ _ H _ Hb) as [k Hk].
          apply (bi_dist _ _ _ _ _ _ _ H) in Hk. rewrite Hd in Hk. inversion Hk. reflexivity.
        * destruct d as [k|]; auto. apply (bi_dist _ _ _ _ _ _ _ H) in Hd.
          assert (Hin : In i (map fst L)) by (apply in_map_iff; exists (i,k); auto).
          apply (bi_vis _ _ _ _ _ _ _ H) in Hin. congruence.
      + rewrite (proj2 (nth_error_None vis i)), (proj2 (nth_error_None dist i)); auto.
        * rewrite (bi_dl _ _ _ _ _ _ _ H); auto.
        * rewrite (bi_vl _ _ _ _ _ _ _ H); auto. }
  destruct (wp_elim _ _ _ W) as (r & E1 & L & E2 & E3). exists r, L. auto.
Qed.

Lemma binv_hop : forall L P vis par dist, binv L P [] no_part vis par dist ->
  forall ws v, walk (gedge g) start ws v -> exists k, In (v, k) L /\ k <= length ws.
Proof.
  intros L P vis par dist H. apply walk_rind.
  - exists 0. split; auto. destruct L; pose proof (bi_start _ _ _ _ _ _ _ H) as Hh; simpl in Hh; inversion Hh.
    left; auto.
  - intros ws v w t Hw (k & Hk & Hle) He.
    destruct (bi_closed _ _ _ _ _ _ _ H v k Hk w t He) as (kt & Hkt & Hle2).
    + left. pose proof (bi_seq _ _ _ _ _ _ _ H) as Hseq. rewrite app_nil_r in Hseq. rewrite <- Hseq.
      apply in_map_iff. exists (v, k). auto.
    + exists kt. split; auto. rewrite app_length. simpl. lia.
Qed.

End BFS.
