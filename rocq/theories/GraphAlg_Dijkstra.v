(** * Dijkstra: invariant and correctness, for any monotone inflationary addition *)

From Coq Require Import List Arith Bool Lia Permutation.
From Verif Require Import Base Graph_Spec Graph_Model Graph_Proofs GraphAlg_Model GraphAlg_Tree
  GraphAlg_Bfs GraphAlg_Dfs.
Import ListNotations.

(** What is assumed of the arithmetic on distances.  [a <= b] is "not b < a".  These hold for the
    reals with infinity and also for IEEE doubles (no NaN, non-negative weights, any rounding mode):
    addition need not be associative or exact. *)
Record DistLaws {E} (O : DistOps E) (nonneg : E -> Prop) : Prop := {
  dl_irr : forall a, d_ltb O a a = false;
  dl_trans : forall a b c, d_ltb O a b = true -> d_ltb O b c = true -> d_ltb O a c = true;
  dl_negtrans : forall a b c, d_ltb O b a = false -> d_ltb O c b = false -> d_ltb O c a = false;
  dl_mono : forall a b w, nonneg w -> d_ltb O b a = false -> d_ltb O (d_add O b w) (d_add O a w) = false;
  dl_infl : forall a w, nonneg w -> d_ltb O (d_add O a w) a = false;
  dl_inf : forall a, d_ltb O (d_inf O) a = false;
  dl_zero : d_ltb O (d_zero O) (d_inf O) = true
}.

Section Laws.
Context {E : Type} (O : DistOps E) (nonneg : E -> Prop) (HL : DistLaws O nonneg).

Definition dle (a b : D O) : Prop := d_ltb O b a = false.
Definition dlt (a b : D O) : Prop := d_ltb O a b = true.

Lemma dle_refl : forall a, dle a a.
Proof. intros. apply (dl_irr O nonneg HL). Qed.
Lemma dle_trans : forall a b c, dle a b -> dle b c -> dle a c.
Proof. unfold dle. intros a b c H1 H2. exact (dl_negtrans O nonneg HL a b c H1 H2). Qed.
Lemma dlt_dle : forall a b, dlt a b -> dle a b.
Proof.
  unfold dlt, dle. intros a b H. destruct (d_ltb O b a) eqn:F; auto.
  pose proof (dl_trans O nonneg HL _ _ _ H F). rewrite (dl_irr O nonneg HL) in H0. discriminate.
Qed.
Lemma dle_dlt_trans : forall a b c, dle a b -> dlt b c -> dlt a c.
Proof.
  unfold dlt, dle. intros a b c H1 H2. destruct (d_ltb O a c) eqn:F; auto.
  rewrite (dl_negtrans O nonneg HL c a b F H1) in H2. discriminate.
Qed.
Lemma dlt_dle_trans : forall a b c, dlt a b -> dle b c -> dlt a c.
Proof.
  unfold dlt, dle. intros a b c H1 H2. destruct (d_ltb O a c) eqn:F; auto.
  rewrite (dl_negtrans O nonneg HL b c a H2 F) in H1. discriminate.
Qed.
Lemma dlt_irr : forall a, ~ dlt a a.
Proof. unfold dlt. intros a H. rewrite (dl_irr O nonneg HL) in H. discriminate. Qed.
Lemma dlt_not_dle : forall a b, dlt a b -> dle b a -> False.
Proof. unfold dlt, dle. congruence. Qed.

Lemma pq_pop_spec : forall l best m r, pq_pop O best l = (m, r) ->
  Permutation (best :: l) (m :: r) /\ forall x, In x (best :: l) -> dle (fst m) (fst x).
Proof.
  induction l as [|x l IH]; intros best m r H; simpl in H.
  - inversion H; subst. split; auto. intros y [<-|[]]. apply dle_refl.
  - destruct (pq_lt O x best) eqn:F.
    + destruct (pq_pop O x l) as [m' r'] eqn:Ep. inversion H; subst.
      destruct (IH _ _ _ Ep) as [P1 P2]. split.
      * rewrite P1. apply perm_swap.
      * intros y [<-|Hy]; auto. apply dle_trans with (fst x); [apply P2; left; auto|].
        unfold pq_lt in F. apply orb_true_iff in F. destruct F as [F|F]; [apply dlt_dle; auto|].
        apply andb_true_iff in F. destruct F as [F _]. apply negb_true_iff in F. auto.
    + destruct (pq_pop O best l) as [m' r'] eqn:Ep. inversion H; subst.
      destruct (IH _ _ _ Ep) as [P1 P2]. split.
      * rewrite perm_swap. rewrite P1. apply perm_swap.
      * intros y [<-|[<-|Hy]]; [apply P2; left; auto| |apply P2; right; auto].
        apply dle_trans with (fst best); [apply P2; left; auto|].
        unfold pq_lt in F. apply orb_false_iff in F. apply F.
Qed.

End Laws.

(** weight of a walk accumulated from the start, as the code does *)
Definition wsum {E} (O : DistOps E) (ws : list E) : D O := fold_left (d_add O) ws (d_zero O).

Section Dijkstra.
Context {V E : Type} (O : DistOps E) (nonneg : E -> Prop) (HL : DistLaws O nonneg).
Variable g : graph V E.
Hypothesis Hg : gwf g.
Hypothesis Hw : forall u w v, gedge g u w v -> nonneg w.
Variable start : nat.
Let n := numVertices g.
Hypothesis Hs : start < n.
Notation "a <=d b" := (dle O a b) (at level 70).
Notation "a <d b" := (dlt O a b) (at level 70).
Notation inf := (d_inf O).
Notation zero := (d_zero O).

Record jinv (Sd : list nat) (part : nat -> nat -> Prop)
  (dist : list (D O)) (par : list (option nat)) (pq : list (D O * nat)) : Prop := {
  ji_dl : length dist = n; ji_pl : length par = n;
  ji_nd : NoDup Sd; ji_lt : forall v, In v Sd -> v < n;
  ji_d0 : nth_error dist start = Some zero; ji_p0 : nth_error par start = Some None;
  ji_zero : forall v d, nth_error dist v = Some d -> zero <=d d;
  ji_pq : forall d v, In (d, v) pq -> v < n /\ d <d inf /\ forall dv, nth_error dist v = Some dv -> d = dv \/ dv <d d;
  ji_pqnd : NoDup pq;
  ji_sd : forall v dv, In v Sd -> nth_error dist v = Some dv ->
     ~ In (dv, v) pq /\ dv <d inf /\ forall d x, In (d, x) pq -> dv <=d d;
  ji_un : forall v dv, ~ In v Sd -> nth_error dist v = Some dv ->
     (dv = inf /\ v <> start /\ nth_error par v = Some None) \/ (In (dv, v) pq /\ dv <d inf);
  ji_par : forall v p, nth_error par v = Some (Some p) -> v <> start /\ In p Sd /\
     exists w dp, gedge g p w v /\ nth_error dist p = Some dp /\ nth_error dist v = Some (d_add O dp w);
  ji_has : forall v dv, nth_error dist v = Some dv -> dv <d inf -> v = start \/ exists p, nth_error par v = Some (Some p);
  ji_tree : forall A v B, Sd = A ++ v :: B -> v = start \/ exists p, nth_error par v = Some (Some p) /\ In p B;
  ji_closed : forall u w v du dv, In u Sd -> gedge g u w v -> part u v ->
     nth_error dist u = Some du -> nth_error dist v = Some dv -> dv <=d d_add O du w
}.

Definition all (u v : nat) : Prop := True.

Lemma relax_ok : forall u l pre e post Sd dist par pq c du,
  l = pre ++ e :: post ->
  (forall v w, In (mkEdge v w) l <-> gedge g u w v) ->
  In u Sd -> nth_error dist u = Some du ->
  (forall x dx, In x Sd -> nth_error dist x = Some dx -> dx <=d du) ->
  jinv Sd (fun x y => x = u -> In y (targets pre)) dist par pq ->
  wp (dij_relax O u (mkDij O dist par pq c) e) (fun s =>
    jinv Sd (fun x y => x = u -> In y (targets (pre ++ [e]))) (j_dist O s) (j_par O s) (j_pq O s) /\
    j_cnt O s = c /\ length (j_pq O s) <= S (length pq) /\
    nth_error (j_dist O s) u = Some du /\
    (forall x dx, In x Sd -> nth_error (j_dist O s) x = Some dx -> dx <=d du)).
Proof.
  intros u l pre e post Sd dist par pq c du El Hl Hu Hdu Hmax H. destruct e as [v w].
  assert (He : gedge g u w v). { apply Hl. rewrite El. apply in_or_app; right; left; auto. }
  destruct (w_dom g Hg _ _ _ He) as [Hun Hvn]. fold n in Hun, Hvn.
  pose proof (Hw _ _ _ He) as Hpos.
  pose proof (ji_dl _ _ _ _ _ H) as Edl. pose proof (ji_pl _ _ _ _ _ H) as Epl.
  unfold dij_relax. simpl.
  apply wp_bind. apply vget_wp; [lia|]. intros du' Hdu'.
  assert (du' = du) by congruence. subst du'.
  apply wp_bind. apply vget_wp; [lia|]. intros dv Hdv.
  pose proof (dl_infl O nonneg HL du w Hpos) as Hinf. fold (dle O du (d_add O du w)) in Hinf.
  assert (Hpart : forall (dist' : list (D O)),
     (forall x, In x Sd -> nth_error dist' x = nth_error dist x) ->
     (forall x dx dx', nth_error dist x = Some dx -> nth_error dist' x = Some dx' -> dx' <=d dx) ->
     length dist' = n ->
     (forall dv', nth_error dist' v = Some dv' -> dv' <=d d_add O du w) ->
     forall u0 w0 v0 du0 dv0, In u0 Sd -> gedge g u0 w0 v0 ->
     (u0 = u -> In v0 (targets (pre ++ [mkEdge v w]))) ->
     nth_error dist' u0 = Some du0 -> nth_error dist' v0 = Some dv0 -> dv0 <=d d_add O du0 w0).
  { intros dist' Hsame Hdec Hlen Hv u0 w0 v0 du0 dv0 Hu0 He0 Hp Hdu0 Hdv0.
    rewrite Hsame in Hdu0 by auto.
    destruct (w_dom g Hg _ _ _ He0) as [_ Hv0n]. fold n in Hv0n.
    destruct (nth_error_lt _ dist v0 ltac:(lia)) as [dold Hold].
    assert (Hc : (u0 = u -> In v0 (targets pre)) -> dv0 <=d d_add O du0 w0).
    { intros Hp'. eapply dle_trans; [eauto|eapply Hdec; eauto|]. eapply (ji_closed _ _ _ _ _ H); eauto. }
    destruct (Nat.eq_dec u0 u) as [->|Hne]; [|apply Hc; congruence].
    specialize (Hp eq_refl). unfold targets in Hp. rewrite map_app in Hp. apply in_app_or in Hp.
    destruct Hp as [Hp|[<-|[]]]; [apply Hc; auto|].
    simpl in *. rewrite (w_fun g Hg _ _ _ _ He0 He). assert (du0 = du) by congruence. subst. auto. }
  destruct (d_ltb O (d_add O du w) dv) eqn:Elt.
  - fold (dlt O (d_add O du w) dv) in Elt.
    assert (HvS : ~ In v Sd).
    { intros Hin. specialize (Hmax v dv Hin Hdv).
      apply (dlt_not_dle O _ _ Elt). eapply dle_trans; eauto. }
    assert (Hvs : v <> start).
    { intros ->. assert (dv = zero) by (rewrite (ji_d0 _ _ _ _ _ H) in Hdv; congruence). subst dv.
      apply (dlt_not_dle O _ _ Elt). eapply dle_trans; [eauto|apply (ji_zero _ _ _ _ _ H u du Hdu)|auto]. }
    assert (Huv : u <> v) by congruence.
    apply wp_bind. apply vset_wp; [lia|].
    apply wp_bind. apply vset_wp; [lia|]. simpl.
    assert (Hsame : forall x, In x Sd -> nth_error (upd dist v (d_add O du w)) x = nth_error dist x).
    { intros x Hx. apply nth_error_upd_neq. congruence. }
    assert (Hndi : d_add O du w <d inf).
    { eapply dlt_dle_trans; [eauto|exact Elt|]. apply (dl_inf O nonneg HL). }
    split; [|split; auto; split; auto; split;
      [rewrite nth_error_upd_neq; auto|intros x dx Hx Hdx; rewrite Hsame in Hdx by auto; eauto]].
    constructor; try rewrite upd_length; auto.
    + apply (ji_nd _ _ _ _ _ H).
    + apply (ji_lt _ _ _ _ _ H).
    + rewrite nth_error_upd_neq by auto. apply (ji_d0 _ _ _ _ _ H).
    + rewrite nth_error_upd_neq by auto. apply (ji_p0 _ _ _ _ _ H).
    + intros x d Hx. rewrite nth_error_upd in Hx. destruct (Nat.eqb_spec v x) as [->|Hne].
      * destruct (x <? length dist); inversion Hx; subst.
        eapply dle_trans; [eauto|apply (ji_zero _ _ _ _ _ H u du Hdu)|auto].
      * eapply (ji_zero _ _ _ _ _ H); eauto.
    + intros d x [Hin|Hin].
      * inversion Hin; subst. split; auto. split; auto. intros dv' Hdv'.
        rewrite nth_error_upd_eq in Hdv' by lia. inversion Hdv'. auto.
      * destruct (ji_pq _ _ _ _ _ H d x Hin) as (Hx & Hxf & Hx'). split; auto. split; auto.
        intros dv' Hdv'. rewrite nth_error_upd in Hdv'. destruct (Nat.eqb_spec v x) as [->|Hne]; auto.
        destruct (x <? length dist); inversion Hdv'; subst. right.
        destruct (Hx' dv Hdv) as [->|Hlt]; auto.
        eapply dlt_dle_trans; [eauto|exact Elt|]. eapply dlt_dle; eauto.
    + constructor; [|apply (ji_pqnd _ _ _ _ _ H)].
      intros Hin. destruct (ji_pq _ _ _ _ _ H _ _ Hin) as (_ & _ & Hx).
      destruct (Hx dv Hdv) as [Heq|Hlt].
      * rewrite Heq in Elt. eapply dlt_irr; eauto.
      * apply (dlt_not_dle O _ _ Elt). eapply dlt_dle; eauto.
    + intros x dx Hx Hdx. rewrite Hsame in Hdx by auto.
      destruct (ji_sd _ _ _ _ _ H x dx Hx Hdx) as (A1 & A2 & A3). split; [|split; auto].
      * intros [Hin|Hin]; auto. inversion Hin; subst. congruence.
      * intros d y [Hin|Hin]; [|eauto]. inversion Hin; subst.
        eapply dle_trans; [eauto| |exact Hinf]. eauto.
    + intros x dx Hx Hdx. rewrite nth_error_upd in Hdx. destruct (Nat.eqb_spec v x) as [->|Hne].
      * destruct (x <? length dist); inversion Hdx; subst. right. split; [left; auto|auto].
      * rewrite nth_error_upd_neq by auto.
        destruct (ji_un _ _ _ _ _ H x dx Hx Hdx) as [?|[? ?]]; auto. right. split; auto. right; auto.
    + intros x p Hp. rewrite nth_error_upd in Hp. destruct (Nat.eqb_spec v x) as [->|Hne].
      * destruct (x <? length par); inversion Hp; subst. split; auto. split; auto.
        exists w, du. split; auto. rewrite nth_error_upd_neq by auto. rewrite nth_error_upd_eq by lia. auto.
      * destruct (ji_par _ _ _ _ _ H x p Hp) as (A1 & A2 & w' & dp & A3 & A4 & A5).
        split; auto. split; auto. exists w', dp. split; auto.
        rewrite !nth_error_upd_neq; auto. congruence.
    + intros x dx Hdx Hlt. rewrite nth_error_upd in *. destruct (Nat.eqb_spec v x) as [->|Hne].
      * right. exists u. destruct (Nat.ltb_spec x (length par)); [auto|lia].
      * eapply (ji_has _ _ _ _ _ H); eauto.
    + intros A x B EL. destruct (ji_tree _ _ _ _ _ H A x B EL) as [?|(p & Hp & HB)]; auto.
      right. exists p. rewrite nth_error_upd_neq; auto.
      intros ->. apply HvS. rewrite EL. apply in_or_app; right; left; auto.
    + apply Hpart; auto.
      * intros x dx dx' Hx Hx'. rewrite nth_error_upd in Hx'. destruct (Nat.eqb_spec v x) as [->|Hne].
        -- destruct (x <? length dist); inversion Hx'; subst. assert (dx = dv) by congruence. subst.
           eapply dlt_dle; eauto.
        -- assert (dx = dx') by congruence. subst. eapply dle_refl; eauto.
      * rewrite upd_length. auto.
      * intros dv' Hdv'. rewrite nth_error_upd_eq in Hdv' by lia. inversion Hdv'. eapply dle_refl; eauto.
  - fold (dle O dv (d_add O du w)) in Elt. simpl.
    split; [|split; auto; split; auto].
    destruct H. constructor; auto. apply Hpart; auto.
    + intros x dx dx' Hx Hx'. assert (dx = dx') by congruence. subst. eapply dle_refl; eauto.
    + intros dv' Hdv'. assert (dv' = dv) by congruence. subst. auto.
Qed.

(** adjacency entries of the vertices not yet settled *)
Definition rest (Sd : list nat) : nat :=
  unv (map (fun v => existsb (Nat.eqb v) Sd) (seq 0 n)) (g_adj g).

Lemma rest_cons : forall Sd u l, ~ In u Sd -> nth_error (g_adj g) u = Some l ->
  rest (u :: Sd) + length l = rest Sd.
Proof.
  intros Sd u l Hu Hl. unfold rest.
  assert (Hun : u < n). { unfold n. rewrite <- (w_adj g Hg). eapply nth_error_Some_lt; eauto. }
  rewrite <- (unv_upd _ (g_adj g) (map (fun v => existsb (Nat.eqb v) Sd) (seq 0 n)) u l); auto.
  - f_equal. f_equal. apply nth_ext_error. intros i.
    rewrite nth_error_upd, !nth_error_map, map_length, seq_length.
    destruct (Nat.ltb_spec i n) as [Hi|Hi].
    + rewrite nth_error_nth' with (d := 0) by (rewrite seq_length; auto).
      rewrite seq_nth by auto. simpl.
      destruct (Nat.eqb_spec u i) as [->|Hne].
      * apply Nat.ltb_lt in Hi. rewrite Hi, Nat.eqb_refl. reflexivity.
      * destruct (Nat.eqb_spec i u); [congruence|]. reflexivity.
    + rewrite (proj2 (nth_error_None (seq 0 n) i)) by (rewrite seq_length; auto). simpl.
      destruct (Nat.eqb_spec u i); auto. lia.
  - rewrite nth_error_map. rewrite nth_error_nth' with (d := 0) by (rewrite seq_length; auto).
    rewrite seq_nth by auto. simpl. f_equal.
    destruct (existsb (Nat.eqb u) Sd) eqn:F; auto.
    apply existsb_exists in F. destruct F as (x & Hx & Ex). apply Nat.eqb_eq in Ex. subst. contradiction.
Qed.

(** What is known once an entry (d,u) has been popped and is not stale. *)
Lemma pop_fresh : forall Sd dist par pq d u pq' du,
  jinv Sd all dist par pq -> Permutation pq ((d, u) :: pq') ->
  (forall x, In x pq -> d <=d fst x) ->
  nth_error dist u = Some du -> d_ltb O du d = false ->
  d = du /\ ~ In u Sd /\ du <d inf /\
  (forall x dx, In x (u :: Sd) -> nth_error dist x = Some dx -> dx <=d du) /\
  jinv (u :: Sd) (fun x y => x = u -> In y []) dist par pq'.
Proof.
  intros Sd dist par pq d u pq' du H HP Hmin Hdu Hfresh.
  assert (Hin : In (d, u) pq) by (rewrite HP; left; auto).
  destruct (ji_pq _ _ _ _ _ H d u Hin) as (Hun & Hfin & Hd).
  assert (d = du).
  { destruct (Hd du Hdu) as [?|Hlt]; auto. unfold dlt in Hlt. congruence. }
  subst d. split; auto.
  assert (HuS : ~ In u Sd).
  { intros HuS. destruct (ji_sd _ _ _ _ _ H u du HuS Hdu) as [A1 _]. contradiction. }
  split; auto. split; auto.
  assert (Hsub : forall x, In x pq' -> In x pq) by (intros x Hx; rewrite HP; right; auto).
  assert (Hnd : NoDup ((du, u) :: pq')) by (apply (Permutation_NoDup HP), (ji_pqnd _ _ _ _ _ H)).
  split.
  { intros x dx [<-|Hx] Hdx.
    - assert (dx = du) by congruence. subst. eapply dle_refl; eauto.
    - apply (ji_sd _ _ _ _ _ H x dx Hx Hdx) with (x := u); auto. }
  constructor.
  - apply (ji_dl _ _ _ _ _ H).
  - apply (ji_pl _ _ _ _ _ H).
  - constructor; auto. apply (ji_nd _ _ _ _ _ H).
  - intros x [<-|Hx]; auto. apply (ji_lt _ _ _ _ _ H); auto.
  - apply (ji_d0 _ _ _ _ _ H).
  - apply (ji_p0 _ _ _ _ _ H).
  - apply (ji_zero _ _ _ _ _ H).
  - intros d x Hx. apply (ji_pq _ _ _ _ _ H); auto.
  - inversion Hnd; auto.
  - intros x dx [<-|Hx] Hdx.
    + assert (dx = du) by congruence. subst dx. inversion Hnd; subst. split; auto. split; auto.
      intros d y Hy. apply (Hmin (d, y)). auto.
    + destruct (ji_sd _ _ _ _ _ H x dx Hx Hdx) as (A1 & A2 & A3). split; auto. split; auto.
      intros d y Hy. eapply A3; eauto.
  - intros x dx Hx Hdx. destruct (ji_un _ _ _ _ _ H x dx) as [?|[A1 A2]]; auto.
    { intros Hin'. apply Hx. right; auto. }
    right. split; auto. rewrite HP in A1. destruct A1 as [A1|A1]; auto.
    inversion A1; subst. exfalso. apply Hx. left; auto.
  - intros x p Hp. destruct (ji_par _ _ _ _ _ H x p Hp) as (A1 & A2 & A3). split; auto. split; auto. right; auto.
  - apply (ji_has _ _ _ _ _ H).
  - intros A x B EL. destruct A as [|a A]; simpl in EL; inversion EL; subst.
    + destruct (ji_has _ _ _ _ _ H x du Hdu Hfin) as [?|(p & Hp)]; auto.
      right. exists p. split; auto. apply (ji_par _ _ _ _ _ H x p Hp).
    + apply (ji_tree _ _ _ _ _ H A x B eq_refl).
  - intros x w v dx dv [<-|Hx] He Hp Hdx Hdv; [destruct (Hp eq_refl)|].
    eapply (ji_closed _ _ _ _ _ H); eauto. exact I.
Qed.

Lemma pop_stale : forall Sd dist par pq d u pq' du,
  jinv Sd all dist par pq -> Permutation pq ((d, u) :: pq') ->
  nth_error dist u = Some du -> d_ltb O du d = true ->
  jinv Sd all dist par pq'.
Proof.
  intros Sd dist par pq d u pq' du H HP Hdu Hst.
  assert (Hsub : forall x, In x pq' -> In x pq) by (intros x Hx; rewrite HP; right; auto).
  destruct H. constructor; auto.
  - apply (Permutation_NoDup HP) in ji_pqnd0. inversion ji_pqnd0; auto.
  - intros v dv Hv Hdv. destruct (ji_sd0 v dv Hv Hdv) as (A1 & A2 & A3). split; auto. split; auto.
    intros d' x Hx. eapply A3; eauto.
  - intros v dv Hv Hdv. destruct (ji_un0 v dv Hv Hdv) as [?|[A1 A2]]; auto.
    right. split; auto. rewrite HP in A1. destruct A1 as [A1|A1]; auto.
    inversion A1; subst. assert (dv = du) by congruence. subst.
    rewrite (dl_irr O nonneg HL) in Hst. discriminate.
Qed.

(** the relaxation loop of one settled vertex *)
Lemma relax_all : forall u Sd dist par pq c du l,
  nth_error (g_adj g) u = Some l ->
  (forall v w, In (mkEdge v w) l <-> gedge g u w v) ->
  nth_error dist u = Some du ->
  (forall x dx, In x (u :: Sd) -> nth_error dist x = Some dx -> dx <=d du) ->
  jinv (u :: Sd) (fun x y => x = u -> In y []) dist par pq ->
  wp (for_each (dij_relax O u) l (mkDij O dist par pq c)) (fun s =>
    jinv (u :: Sd) all (j_dist O s) (j_par O s) (j_pq O s) /\ j_cnt O s = c /\
    length (j_pq O s) <= length pq + length l).
Proof.
  intros u Sd dist par pq c du l Hadj Hl Hdu Hmax H.
  set (I := fun (pre : list (edge E)) (s : dij_st O) =>
    jinv (u :: Sd) (fun x y => x = u -> In y (targets pre)) (j_dist O s) (j_par O s) (j_pq O s) /\
    j_cnt O s = c /\ length (j_pq O s) <= length pq + length pre /\
    nth_error (j_dist O s) u = Some du /\
    (forall x dx, In x (u :: Sd) -> nth_error (j_dist O s) x = Some dx -> dx <=d du)).
  eapply wp_mono.
  { apply (for_each_inv _ _ (dij_relax O u) I).
    - unfold I. simpl. split; auto. split; auto. split; [lia|]. auto.
    - intros pre e post [d1 p1 q1 c1] El (I1 & I2 & I3 & I4 & I5). simpl in *.
      eapply wp_mono.
      + apply (relax_ok u l pre e post (u :: Sd) d1 p1 q1 c1 du); auto. left; auto.
      + intros s (J1 & J2 & J3 & J4 & J5). unfold I. split; auto. split; [congruence|].
        split; [rewrite app_length; simpl; lia|]. auto. }
  intros [d1 p1 q1 c1] (I1 & I2 & I3 & I4 & I5). simpl in *. split; auto.
  destruct I1. constructor; auto.
  intros x w v dx dv Hx He _ Hdx Hdv. eapply ji_closed0; eauto.
  intros ->. unfold targets. apply in_map_iff. exists (mkEdge v w). split; auto. apply Hl; auto.
Qed.

Lemma jinv_init : jinv [] all (upd (repeat inf n) start zero) (repeat None n) [(zero, start)].
Proof.
  constructor; try rewrite upd_length; try rewrite repeat_length; auto.
  - constructor.
  - intros v [].
  - apply nth_error_upd_eq. rewrite repeat_length; auto.
  - rewrite repeat_nth_error. apply Nat.ltb_lt in Hs. rewrite Hs. auto.
  - intros v d Hv. rewrite nth_error_upd, repeat_nth_error in Hv.
    destruct (Nat.eqb start v).
    + destruct (start <? length (repeat inf n)); inversion Hv. eapply dle_refl; eauto.
    + destruct (v <? n); inversion Hv. apply (dl_inf O nonneg HL).
  - intros d v [Hin|[]]. inversion Hin; subst. split; auto. split; [apply (dl_zero O nonneg HL)|].
    intros dv Hdv. rewrite nth_error_upd_eq in Hdv by (rewrite repeat_length; auto). inversion Hdv; auto.
  - constructor; [intros []|constructor].
  - intros v dv [].
  - intros v dv _ Hdv. rewrite nth_error_upd, !repeat_nth_error, repeat_length in *.
    destruct (Nat.eqb_spec start v) as [->|Hne].
    + destruct (v <? n); inversion Hdv; subst. right. split; [left; auto|apply (dl_zero O nonneg HL)].
    + destruct (v <? n); inversion Hdv. left. auto.
  - intros v p Hp. rewrite repeat_nth_error in Hp. destruct (v <? n); discriminate.
  - intros v dv Hdv Hlt. rewrite nth_error_upd, repeat_nth_error in Hdv.
    destruct (Nat.eqb_spec start v) as [->|Hne]; auto.
    destruct (v <? n); inversion Hdv; subst. exfalso. eapply dlt_irr; eauto.
  - intros A v B EL. destruct A; discriminate.
  - intros u w v du dv [].
Qed.

Definition dij_inv (k : nat) (s : dij_st O) : Prop :=
  exists Sd, jinv Sd all (j_dist O s) (j_par O s) (j_pq O s) /\ j_cnt O s = length Sd /\
    k = rest Sd + length (j_pq O s).

Lemma dij_step_ok : forall k s, dij_inv k s ->
  wp (dij_step O g s) (fun r => match r with
    | inl s' => exists k', k' < k /\ dij_inv k' s'
    | inr s' => s' = s /\ j_pq O s = [] end).
Proof.
  intros k [dist par pq c] (Sd & H & Hc & ->). simpl in *. unfold dij_step. simpl.
  destruct pq as [|x pq]; [simpl; auto|].
  destruct (pq_pop O x pq) as [[d u] pq'] eqn:Ep.
  destruct (pq_pop_spec O nonneg HL pq x _ _ Ep) as [HP Hmin]. simpl in Hmin.
  assert (Hun : u < n). { apply (ji_pq _ _ _ _ _ H d u). rewrite HP. left; auto. }
  pose proof (Permutation_length HP) as Hlen. simpl in Hlen.
  apply wp_bind. apply vget_wp; [rewrite (ji_dl _ _ _ _ _ H); auto|]. intros du Hdu.
  destruct (d_ltb O du d) eqn:Elt.
  - simpl. exists (rest Sd + length pq'). split; [lia|]. exists Sd. simpl. split; auto.
    eapply pop_stale; eauto.
  - destruct (pop_fresh Sd dist par (x :: pq) d u pq' du H HP Hmin Hdu Elt) as (-> & HuS & Hfin & Hmax & H1).
    apply wp_bind. apply neighbors_wp; auto. intros l Hadj Hl _.
    apply wp_bind. eapply wp_mono; [eapply (relax_all u Sd dist par pq' (S c) du l); eauto|].
    intros s (J1 & J2 & J3). simpl. exists (rest (u :: Sd) + length (j_pq O s)). split.
    + pose proof (rest_cons Sd u l HuS Hadj). lia.
    + exists (u :: Sd). split; auto. split; auto. simpl. congruence.
Qed.

(** Lower bound: any walk is at least as heavy as the label of a settled end point, or as some queue
    entry, or infinite. *)
Lemma lower_bound : forall Sd dist par pq, jinv Sd all dist par pq ->
  forall ws v, walk (gedge g) start ws v ->
    (exists dv, In v Sd /\ nth_error dist v = Some dv /\ dv <=d wsum O ws) \/
    (exists d x, In (d, x) pq /\ d <=d wsum O ws) \/ inf <=d wsum O ws.
Proof.
  intros Sd dist par pq H. apply walk_rind.
  - unfold wsum. simpl. destruct (in_dec Nat.eq_dec start Sd) as [Hin|Hn].
    + left. exists zero. split; auto. split; [apply (ji_d0 _ _ _ _ _ H)|]. eapply dle_refl; eauto.
    + destruct (ji_un _ _ _ _ _ H start zero Hn (ji_d0 _ _ _ _ _ H)) as [(_ & ? & _)|[? _]]; [congruence|].
      right; left. exists zero, start. split; auto. eapply dle_refl; eauto.
  - intros ws v w t Hwk IH He. unfold wsum. rewrite fold_left_app. simpl. fold (wsum O ws).
    pose proof (Hw _ _ _ He) as Hpos.
    assert (Hgrow : forall a, a <=d wsum O ws -> a <=d d_add O (wsum O ws) w).
    { intros a Ha. eapply dle_trans; [eauto|exact Ha|]. apply (dl_infl O nonneg HL); auto. }
    destruct IH as [(dv & Hin & Hdv & Hle)|[(d & x & Hin & Hle)|Hle]].
    + destruct (w_dom g Hg _ _ _ He) as [_ Htn].
      destruct (nth_error_lt _ dist t) as [dt Hdt]; [rewrite (ji_dl _ _ _ _ _ H); auto|].
      pose proof (ji_closed _ _ _ _ _ H v w t dv dt Hin He I Hdv Hdt) as Hc.
      assert (Hc2 : dt <=d d_add O (wsum O ws) w).
      { eapply dle_trans; [eauto|exact Hc|]. apply (dl_mono O nonneg HL); auto. }
      destruct (in_dec Nat.eq_dec t Sd) as [HtS|HtS].
      * left. exists dt. auto.
      * right. destruct (ji_un _ _ _ _ _ H t dt HtS Hdt) as [(-> & _)|[Hq _]]; [right; auto|].
        left. exists dt, t. auto.
    + right; left. exists d, x. auto.
    + right; right. auto.
Qed.

(** parents form a tree and labels accumulate along it *)
Definition lab (dist : list (D O)) (v : nat) : D O :=
  match nth_error dist v with Some d => d | None => inf end.

Lemma jinv_tree : forall Sd dist par pq, jinv Sd all dist par pq ->
  tree_ok (gedge g) par start Sd /\
    (forall x p w, x <> start -> nth_error par x = Some (Some p) -> gedge g p w x ->
     lab dist x = d_add O (lab dist p) w).
Proof.
  intros Sd dist par pq H. split.
  - intros A v B EL. destruct (ji_tree _ _ _ _ _ H A v B EL) as [?|(p & Hp & HB)]; auto.
    right. destruct (ji_par _ _ _ _ _ H v p Hp) as (_ & _ & w & dp & He & _). exists p, w. auto.
  - intros x p w Hne Hp He. destruct (ji_par _ _ _ _ _ H x p Hp) as (_ & _ & w' & dp & He' & Hdp & Hdx).
    unfold lab. rewrite Hdp, Hdx. rewrite (w_fun g Hg _ _ _ _ He He'). reflexivity.
Qed.

Lemma dij_main : exists N, forall fuel, N <= fuel -> exists r Sd,
  Dijkstra O fuel g start = Ok r /\ jinv Sd all (t_dist r) (t_parent r) [] /\ t_count r = length Sd /\
    t_order r = [].
Proof.
  set (s0 := mkDij O (upd (repeat inf n) start zero) (repeat None n) [(zero, start)] 0).
  exists (S (rest [] + 1)). intros fuel Hf.
  assert (W : wp (iter fuel (dij_step O g) s0) (fun s => exists k, dij_inv k s /\ j_pq O s = [])).
  { eapply (iter_inv_idx _ _ (dij_step O g) dij_inv) with (k := rest [] + 1); [| |lia].
    - intros k s HI. eapply wp_mono; [apply dij_step_ok; eauto|].
      intros [s'|s']; auto. intros [-> Hq]. eauto.
    - exists []. split; [apply jinv_init|]. auto. }
  destruct (wp_elim _ _ _ W) as (s & E1 & k & (Sd & H & Hc & _) & E3).
  unfold Dijkstra. fold n. destruct (Nat.leb_spec n start) as [Hx|Hx]; [lia|].
  unfold vset. rewrite repeat_length. pose proof (proj2 (Nat.ltb_lt start n) Hs) as Hlt. rewrite Hlt.
  cbv beta iota delta [bind]. fold s0. rewrite E1. eexists. exists Sd. split; [reflexivity|]. simpl.
  rewrite E3 in H. auto.
Qed.

(** ** DijkstraPath *)

Lemma back_of_recon : forall par s, nth_error par s = Some None -> forall fuel c acc path,
  iter fuel (recon_step par s) (acc, Some c) = Ok path -> last path c = s ->
  iter (S fuel) (back_step par) (acc, Some c) = Ok path.
Proof.
  intros par s H0. induction fuel as [|fuel IH]; intros c acc path H Hlast; [discriminate|].
  change (iter (S fuel) (recon_step par s) (acc, Some c)) with
    (bind (recon_step par s (acc, Some c)) (fun r => match r with
       inl s' => iter fuel (recon_step par s) s' | inr b => Ok b end)) in H.
  change (iter (S (S fuel)) (back_step par) (acc, Some c)) with
    (bind (back_step par (acc, Some c)) (fun r => match r with
       inl s' => iter (S fuel) (back_step par) s' | inr b => Ok b end)).
  unfold recon_step at 1 in H. unfold back_step at 1.
  destruct (Nat.eqb_spec c s) as [->|Hne].
  - simpl in H. inversion H; subst. unfold vget. rewrite H0. reflexivity.
  - destruct (vget par c) as [p| | |] eqn:Ep; try discriminate. simpl in H.
    cbv beta iota delta [bind].
    destruct p as [p|].
    + apply IH; auto.
      assert (G : exists q, path = acc ++ [c] ++ q /\ q <> []).
      { clear -H. revert acc c p path H. induction fuel as [|fuel IH]; intros acc c p path H; simpl in H; [discriminate|].
        destruct (Nat.eqb p s).
        - simpl in H. inversion H; subst. exists [p]. rewrite <- app_assoc. split; auto; discriminate.
        - apply bind_Ok in H. destruct H as (r & Hr & Hk). apply bind_Ok in Hr. destruct Hr as (p' & Hp' & Hr).
          inversion Hr; subst r. destruct p' as [p'|].
          + apply IH in Hk. destruct Hk as (q & -> & Hq). exists (p :: q). rewrite <- !app_assoc. split; auto; discriminate.
          + destruct fuel; [discriminate|]. simpl in Hk. inversion Hk; subst. exists [p]. rewrite <- app_assoc. split; auto; discriminate. }
      destruct G as (q & -> & Hq). rewrite <- Hlast.
      destruct (exists_last Hq) as (q' & z & ->). rewrite !app_assoc, !last_last. auto.
    + destruct fuel; [discriminate|]. simpl in H. injection H as Hpath.
      rewrite <- Hpath, last_last in Hlast. congruence.
Qed.

(** At most [n] vertices can be settled. *)
Lemma settled_bound : forall Sd part dist par pq, jinv Sd part dist par pq -> length Sd <= n.
Proof. intros. apply NoDup_bounded_length; [apply (ji_nd _ _ _ _ _ H)|apply (ji_lt _ _ _ _ _ H)]. Qed.

Definition dijp_inv (target : nat) (k : nat) (s : dij_st O) : Prop :=
  exists Sd, jinv Sd all (j_dist O s) (j_par O s) (j_pq O s) /\ ~ In target Sd /\
    k = rest Sd + length (j_pq O s).

Definition dijp_post (target : nat) (r : path_result (D O)) : Prop :=
  (p_found r = true /\ exists ws, vwalk (gedge g) (p_path r) ws /\ hd_error (p_path r) = Some start /\
    last (p_path r) target = target /\ p_weight r = wsum O ws /\ p_weight r <d inf /\
    walk (gedge g) start ws target /\
    forall ws', walk (gedge g) start ws' target -> p_weight r <=d wsum O ws') \/
  (p_found r = false /\ p_path r = [] /\ forall ws', walk (gedge g) start ws' target -> inf <=d wsum O ws').

Lemma dijp_step_ok : forall target fuel2, target <> start -> S (S (S n)) <= fuel2 -> forall k s, dijp_inv target k s ->
  wp (dijp_step O fuel2 g target s) (fun r => match r with
    | inl s' => exists k', k' < k /\ dijp_inv target k' s'
    | inr r => dijp_post target r end).
Proof.
  intros target fuel2 Hts Hf k [dist par pq c] (Sd & H & HtS & ->). simpl in *. unfold dijp_step. simpl.
  destruct pq as [|x pq].
  { simpl. right. split; auto. split; auto. intros ws Hwk.
    destruct (lower_bound _ _ _ _ H ws target Hwk) as [(dv & ? & _)|[(d & y & [] & _)|?]]; auto. contradiction. }
  destruct (pq_pop O x pq) as [[d u] pq'] eqn:Ep.
  destruct (pq_pop_spec O nonneg HL pq x _ _ Ep) as [HP Hmin]. simpl in Hmin.
  assert (Hqu : In (d, u) (x :: pq)) by (rewrite HP; left; auto).
  assert (Hun : u < n) by apply (ji_pq _ _ _ _ _ H d u Hqu).
  pose proof (Permutation_length HP) as Hlen. simpl in Hlen.
  destruct (Nat.eqb_spec u target) as [->|Hne].
  - apply wp_bind. apply vget_wp; [rewrite (ji_dl _ _ _ _ _ H); auto|]. intros dt Hdt.
    destruct (ji_pq _ _ _ _ _ H d target Hqu) as (_ & Hfin & Hd).
    assert (Hcur : In (dt, target) (x :: pq) /\ dt <d inf).
    { destruct (ji_un _ _ _ _ _ H target dt HtS Hdt) as [(-> & _)|?]; auto.
      destruct (Hd inf Hdt) as [->|Hlt]; exfalso; [eapply dlt_irr; eauto|].
      apply (dlt_not_dle O _ _ Hlt). apply (dl_inf O nonneg HL). }
    destruct Hcur as [Hcur Hdfin].
    assert (d = dt).
    { destruct (Hd dt Hdt) as [?|Hlt]; auto. exfalso. apply (dlt_not_dle O _ _ Hlt). apply (Hmin (dt, target)); auto. }
    subst d.
    destruct (jinv_tree _ _ _ _ H) as [HT HLab].
    destruct (ji_has _ _ _ _ _ H target dt Hdt Hdfin) as [?|(p & Hp)]; [congruence|].
    destruct (ji_par _ _ _ _ _ H target p Hp) as (_ & HpS & w & dp & He & Hdp & Hdt').
    destruct (tree_path E (D O) (gedge g) par start (d_add O) (lab dist) (target :: Sd) target)
      as (path & ws & W1 & W2 & W3 & W4 & W5 & W6 & W7 & W8).
    { intros A v B EL. destruct A as [|a A]; simpl in EL; injection EL as E1 E2.
      - right. exists p, w. rewrite <- E1, <- E2. auto.
      - apply (HT A v B). auto. }
    { intros y q w' _. apply HLab. }
    { left; auto. }
    specialize (W8 []).
    pose proof (back_of_recon par start (ji_p0 _ _ _ _ _ H) _ _ _ _ W8) as HB.
    assert (Hlast : last (target :: path) target = start) by exact W2.
    specialize (HB Hlast).
    assert (HSd : length Sd <= n) by (eapply settled_bound; eauto). simpl in W3.
    apply (iter_more _ _ _ _ fuel2) in HB; [|lia].
    apply wp_bind. rewrite HB. simpl. left. simpl. split; auto. exists ws. split; auto.
    split.
    { rewrite <- Hlast.
      assert (G : forall (l : list nat) d, l <> [] -> hd_error (rev l) = Some (last l d)).
      { intros l d Hl. destruct (exists_last Hl) as (l' & a & ->). rewrite rev_app_distr, last_last. reflexivity. }
      apply (G (target :: path) target). discriminate. }
    split; [apply last_last|].
    assert (EW : dt = wsum O ws).
    { unfold wsum. unfold lab in W5. rewrite (ji_d0 _ _ _ _ _ H), Hdt in W5. auto. }
    split; auto. split; auto. split; auto.
    intros ws' Hwk. destruct (lower_bound _ _ _ _ H ws' target Hwk) as [(dv & ? & _)|[(d & y & Hin & Hle)|Hle]].
    + contradiction.
    + eapply dle_trans; [eauto| |exact Hle]. apply (Hmin (d, y)). auto.
    + eapply dle_trans; [eauto| |exact Hle]. apply (dl_inf O nonneg HL).
  - apply wp_bind. apply vget_wp; [rewrite (ji_dl _ _ _ _ _ H); auto|]. intros du Hdu.
    destruct (d_ltb O du d) eqn:Elt.
    + simpl. exists (rest Sd + length pq'). split; [lia|]. exists Sd. simpl. split; auto.
      eapply pop_stale; eauto.
    + destruct (pop_fresh Sd dist par (x :: pq) d u pq' du H HP Hmin Hdu Elt) as (-> & HuS & Hfin & Hmax & H1).
      apply wp_bind. apply neighbors_wp; auto. intros l Hadj Hl _.
      apply wp_bind. eapply wp_mono; [eapply (relax_all u Sd dist par pq' (S c) du l); eauto|].
      intros s (J1 & J2 & J3). simpl. exists (rest (u :: Sd) + length (j_pq O s)). split.
      * pose proof (rest_cons Sd u l HuS Hadj). lia.
      * exists (u :: Sd). split; auto. split; auto. intros [?|?]; auto.
Qed.

Lemma dijp_main : forall target, target < n -> target <> start ->
  exists N, forall fuel, N <= fuel -> exists r, DijkstraPath O fuel g start target = Ok r /\ dijp_post target r.
Proof.
  intros target Ht Hts.
  set (s0 := mkDij O (upd (repeat inf n) start zero) (repeat None n) [(zero, start)] 0).
  exists (S (rest [] + 1) + (n + 3)). intros fuel Hf.
  assert (W : wp (iter fuel (dijp_step O fuel g target) s0) (dijp_post target)).
  { eapply (iter_inv_idx _ _ (dijp_step O fuel g target) (dijp_inv target)) with (k := rest [] + 1); [| |lia].
    - apply dijp_step_ok; auto. lia.
    - exists []. split; [apply jinv_init|]. split; auto. }
  destruct (wp_elim _ _ _ W) as (r & E1 & E2). exists r. split; auto.
  unfold DijkstraPath. fold n. destruct (Nat.leb_spec n start) as [Hx|Hx]; [lia|].
  destruct (Nat.leb_spec n target) as [Hy|Hy]; [lia|]. simpl orb. cbv iota.
  destruct (Nat.eqb_spec start target); [congruence|].
  unfold vset. rewrite repeat_length. pose proof (proj2 (Nat.ltb_lt start n) Hs) as Hlt. rewrite Hlt.
  exact E1.
Qed.

End Dijkstra.
