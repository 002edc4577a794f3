(** * C07: Bellman-Ford over an ordered abelian group *)

From Coq Require Import List Arith Bool Lia ZArith.
From Verif Require Import Base Graph_Spec Graph_Model Graph_Proofs GraphAlg_Model GraphAlg_Tree
  GraphAlg_Bfs GraphAlg_Dfs GraphAlg_Visit GraphAlg_TravProps GraphAlg_Cycle.
Import ListNotations.

(** exact arithmetic: a totally ordered abelian group of weights *)
Record ogroup (G : Type) := mkOG {
  og0 : G; ogadd : G -> G -> G; ogopp : G -> G; ogltb : G -> G -> bool;
  og_assoc : forall a b c, ogadd a (ogadd b c) = ogadd (ogadd a b) c;
  og_comm : forall a b, ogadd a b = ogadd b a;
  og_id : forall a, ogadd a og0 = a;
  og_inv : forall a, ogadd a (ogopp a) = og0;
  og_irr : forall a, ogltb a a = false;
  og_trans : forall a b c, ogltb a b = true -> ogltb b c = true -> ogltb a c = true;
  og_total : forall a b, ogltb a b = false -> ogltb b a = false -> a = b;
  og_mono : forall a b c, ogltb a b = true -> ogltb (ogadd a c) (ogadd b c) = true
}.
Arguments og0 {G} _. Arguments ogadd {G} _ _ _. Arguments ogopp {G} _ _. Arguments ogltb {G} _ _ _.

(** distances: the group with an infinity ([None]) *)
Definition ogOps {G} (K : ogroup G) : DistOps G :=
  mkDist G (option G) (Some (og0 K)) None
    (fun d w => match d with Some x => Some (ogadd K x w) | None => None end)
    (fun a b => match a, b with Some x, Some y => ogltb K x y | Some _, None => true | None, _ => false end)
    (fun d => match d with None => true | _ => false end).

(** total weight of a walk *)
Definition gsum {G} (K : ogroup G) (ws : list G) : G := fold_right (ogadd K) (og0 K) ws.

(** a closed walk of negative weight that can be reached from [start] *)
Definition negative_cycle {G} (K : ogroup G) (edge : nat -> G -> nat -> Prop) (start : nat) : Prop :=
  exists x ws, reachable edge start x /\ walk edge x ws x /\ ogltb K (gsum K ws) (og0 K) = true.

Section Group.
Context {G : Type} (K : ogroup G).
Notation "a + b" := (ogadd K a b).
Notation lt a b := (ogltb K a b = true).
Notation le a b := (ogltb K b a = false).

Lemma le_refl : forall a, le a a. Proof. apply (og_irr _ K). Qed.
Lemma lt_le : forall a b, lt a b -> le a b.
Proof. intros a b H. destruct (ogltb K b a) eqn:E; auto. pose proof (og_trans _ K _ _ _ H E). rewrite (og_irr _ K) in H0. discriminate. Qed.
Lemma le_cases : forall a b, le a b -> lt a b \/ a = b.
Proof. intros a b H. destruct (ogltb K a b) eqn:E; auto. right. apply (og_total _ K); auto. Qed.
Lemma le_lt_trans : forall a b c, le a b -> lt b c -> lt a c.
Proof. intros a b c H1 H2. destruct (le_cases a b H1) as [H| ->]; auto. eapply (og_trans _ K); eauto. Qed.
Lemma lt_le_trans : forall a b c, lt a b -> le b c -> lt a c.
Proof. intros a b c H1 H2. destruct (le_cases b c H2) as [H| <- ]; auto. eapply (og_trans _ K); eauto. Qed.
Lemma le_trans : forall a b c, le a b -> le b c -> le a c.
Proof. intros a b c H1 H2. destruct (le_cases a b H1) as [H| ->]; auto. apply lt_le. eapply lt_le_trans; eauto. Qed.
Lemma le_mono : forall a b c, le a b -> le (a + c) (b + c).
Proof. intros a b c H. destruct (le_cases a b H) as [H'| ->]; [|apply le_refl]. apply lt_le. apply (og_mono _ K). auto. Qed.
Lemma le_antisym : forall a b, le a b -> le b a -> a = b.
Proof. intros a b H1 H2. apply (og_total _ K); auto. Qed.
Lemma og_id_l : forall a, og0 K + a = a.
Proof. intros. rewrite (og_comm _ K). apply (og_id _ K). Qed.
Lemma og_cancel : forall a b c, le (a + c) (b + c) -> le a b.
Proof.
  intros a b c H. apply (le_mono _ _ (ogopp K c)) in H.
  rewrite <- !(og_assoc _ K), (og_inv _ K), !(og_id _ K) in H. auto.
Qed.
Lemma gsum_app : forall a b, gsum K (a ++ b) = gsum K a + gsum K b.
Proof.
  induction a as [|x a IH]; intros b; simpl; [rewrite og_id_l; auto|]. rewrite IH, (og_assoc _ K). auto.
Qed.
Lemma gsum_snoc : forall a w, gsum K (a ++ [w]) = gsum K a + w.
Proof. intros. rewrite gsum_app. simpl. rewrite (og_id _ K). auto. Qed.
Lemma gsum_fold : forall ws a, fold_left (d_add (ogOps K)) ws (Some a) = Some (a + gsum K ws).
Proof.
  induction ws as [|w ws IH]; intros a; simpl; [rewrite (og_id _ K); auto|]. rewrite IH, (og_assoc _ K). auto.
Qed.

End Group.

Section BF.
Context {V G : Type} (K : ogroup G) (g : graph V G) (Hg : gwf g) (start : nat) (Hs : start < numVertices g).
Notation n := (numVertices g).
Notation O := (ogOps K).
Notation "a + b" := (ogadd K a b).
Notation lt a b := (ogltb K a b = true).
Notation le a b := (ogltb K b a = false).
Notation edge := (gedge g).

Ltac dl := first [lia | match goal with |- ?i < length ?d => change (i < @length (option G) d); lia end].

Lemma bf_collect_ok : wp (bf_collect g) (fun es => forall u v w, In (u, v, w) es <-> edge u w v).
Proof.
  unfold bf_collect.
  eapply wp_conseq; [|apply (for_range_inv _ _ (fun i (es : list (nat * nat * G)) =>
     forall u v w, In (u, v, w) es <-> u < i /\ edge u w v)); [lia| |]].
  - intros es H u v w. cbv beta in H. rewrite H. split; [tauto|]. intros He. split; auto. apply (w_dom g Hg _ _ _ He).
  - intros u v w. simpl. split; [tauto|lia].
  - intros i es _ Hi HI. apply wp_bind. apply neighbors_wp; auto. intros l El Hmem _. apply wp_Ok.
    intros u v w. rewrite in_app_iff, HI, in_map_iff. split.
    + intros [[H1 H2]|([t w'] & [= <- <- <-] & Hin)]; [split; auto; lia|].
      apply Hmem in Hin. split; auto. lia.
    + intros [H1 H2]. destruct (Nat.eq_dec u i) as [->|Hne]; [|left; split; auto; lia].
      right. exists (mkEdge v w). split; auto. apply Hmem. auto.
Qed.

(** every finite label is the weight of a walk *)
Definition sound (dist : list (option G)) : Prop :=
  length dist = n /\ forall v d, nth_error dist v = Some (Some d) -> exists ws, walk edge start ws v /\ d = gsum K ws.

Definition below (dist : list (option G)) (v : nat) (d : G) : Prop :=
  exists d', nth_error dist v = Some (Some d') /\ le d' d.

Lemma below_le : forall dist v a b, below dist v a -> le a b -> below dist v b.
Proof. intros dist v a b (d & H1 & H2) H. exists d. split; auto. eapply le_trans; eauto. Qed.

(** parents form a tree rooted at [start] along which labels do not decrease less than the weights *)
Inductive pch (par : list (option nat)) : nat -> list nat -> Prop :=
| pch0 : pch par start [start]
| pchS : forall v p l, nth_error par v = Some (Some p) -> pch par p l -> pch par v (v :: l).

Record ptree (dist : list (option G)) (par : list (option nat)) : Prop := {
  pt_len : length par = n;
  pt_d0 : nth_error dist start = Some (Some (og0 K));
  pt_p0 : nth_error par start = Some None;
  pt_link : forall v p, nth_error par v = Some (Some p) -> exists w dp dv,
     edge p w v /\ nth_error dist p = Some (Some dp) /\ nth_error dist v = Some (Some dv) /\ le (dp + w) dv;
  pt_ch : forall v d, nth_error dist v = Some (Some d) -> exists l, pch par v l
}.

Lemma pch_hd : forall par v l, pch par v l -> exists t, l = v :: t.
Proof. intros par v l H. destruct H; eauto. Qed.

(** from any element [v] of the chain of [u] there is a walk [v -> u] no heavier than the label difference *)
Lemma pch_walk : forall dist par u l, ptree dist par -> pch par u l -> forall a, nth_error dist u = Some (Some a) ->
  forall v, In v l -> exists ws b, walk edge v ws u /\ nth_error dist v = Some (Some b) /\ le (b + gsum K ws) a.
Proof.
  intros dist par u l HT Hc. induction Hc as [|u p l Hp Hc IH]; intros a Ha v Hin.
  - destruct Hin as [<-|[]]. exists [], a. split; [constructor|]. split; auto. simpl. rewrite (og_id _ K). apply le_refl.
  - destruct Hin as [<-|Hin].
    + exists [], a. split; [constructor|]. split; auto. simpl. rewrite (og_id _ K). apply le_refl.
    + destruct (pt_link _ _ HT u p Hp) as (w & dp & dv & He & Hdp & Hdv & Hle).
      destruct (IH dp Hdp v Hin) as (ws & b & Hw & Hb & Hle').
      exists (ws ++ [w]), b. split; [eapply walk_snoc; eauto|]. split; auto.
      assert (dv = a) by congruence. subst dv. rewrite gsum_snoc, (og_assoc _ K).
      eapply le_trans; [|exact Hle]. apply le_mono. auto.
Qed.

Lemma pch_keep : forall par v z x l, pch par x l -> ~ In v l -> pch (upd par v z) x l.
Proof.
  intros par v z x l H. induction H as [|x p l Hp Hc IH]; intros Hni; [constructor|].
  econstructor; [|apply IH; intros Hin; apply Hni; right; auto].
  rewrite nth_error_upd_neq; eauto. intros <-. apply Hni. left. auto.
Qed.

Lemma pch_upd : forall par v u lu, v < length par -> v <> start -> pch par u lu -> ~ In v lu ->
  forall x l, pch par x l -> exists l', pch (upd par v (Some u)) x l'.
Proof.
  intros par v u lu Hv Hvs Hu Hni.
  assert (Hu' : pch (upd par v (Some u)) u lu).
  { apply pch_keep; auto. }
  intros x l H. induction H as [|x p l Hp Hc IH]; [eexists; constructor|].
  destruct (Nat.eq_dec v x) as [->|Hne].
  - eexists. econstructor; [rewrite nth_error_upd_eq; auto|exact Hu'].
  - destruct IH as [l' Hl']. eexists. econstructor; [rewrite nth_error_upd_neq; eauto|exact Hl'].
Qed.

(** one relaxation *)
Lemma bf_relax_ok : forall dist par ch u v w, edge u w v ->
  sound dist -> length par = n -> below dist start (og0 K) ->
  wp (bf_relax O (dist, par, ch) (u, v, w)) (fun r => let '(dist', par', ch') := r in
    sound dist' /\ length par' = n /\ below dist' start (og0 K) /\
    (forall x d, nth_error dist x = Some (Some d) -> below dist' x d) /\
    (forall d, nth_error dist u = Some (Some d) -> below dist' v (d + w)) /\
    (ch' = false -> ch = false /\ dist' = dist /\ par' = par) /\
    (ch = true -> ch' = true) /\
    (~ negative_cycle K edge start -> ptree dist par -> ptree dist' par')).
Proof.
  intros dist par ch u v w He [Hl Hsd] Hpl Hst. destruct (w_dom g Hg _ _ _ He) as [Hu Hv].
  unfold bf_relax. change (D O) with (option G). apply wp_bind. apply vget_wp; [dl|]. intros du Hdu.
  destruct du as [a|]; simpl d_isinf; cbv iota.
  2:{ apply wp_Ok. split; [split; auto|]. split; auto. split; auto. split.
      { intros x d Hx. exists d. split; auto. apply le_refl. }
      split; [congruence|]. auto. }
  apply wp_bind. apply vget_wp; [dl|]. intros dv Hdv.
  destruct (d_ltb O (d_add O (Some a) w) dv) eqn:Elt.
  - apply wp_bind. apply vset_wp; [dl|]. apply wp_bind. apply vset_wp; [dl|]. apply wp_Ok.
    change (d_add O (Some a) w) with (Some (a + w)) in *.
    assert (Hwalk : exists ws, walk edge start ws v /\ a + w = gsum K ws).
    { destruct (Hsd u a Hdu) as (ws & Hw & ->). exists (ws ++ [w]). split; [eapply walk_snoc; eauto|].
      rewrite gsum_snoc. auto. }
    assert (Hdec : forall x d, nth_error dist x = Some (Some d) -> below (upd dist v (Some (a + w))) x d).
    { intros x d Hx. unfold below. destruct (Nat.eq_dec v x) as [<-|Hne].
      - rewrite nth_error_upd_eq by dl. exists (a + w). split; auto.
        assert (dv = Some d) by congruence. subst dv. apply lt_le. exact Elt.
      - rewrite nth_error_upd_neq by auto. exists d. split; auto. apply le_refl. }
    split.
    { split; [rewrite upd_length; auto|]. intros x d Hx. destruct (Nat.eq_dec v x) as [<-|Hne].
      - rewrite nth_error_upd_eq in Hx by dl. injection Hx as <-. auto.
      - rewrite nth_error_upd_neq in Hx by auto. auto. }
    split; [rewrite upd_length; auto|]. split.
    { destruct Hst as (d0 & Hd0 & Hle). eapply below_le; [apply Hdec; eauto|auto]. }
    split; auto. split.
    { intros d Hd. assert (d = a) by congruence. subst d. exists (a + w).
      rewrite nth_error_upd_eq by dl. split; auto. apply le_refl. }
    split; [discriminate|]. split; auto.
    intros Hnn HT.
    assert (Hvs : v <> start).
    { intros ->. rewrite (pt_d0 _ _ HT) in Hdv. injection Hdv as <-. apply Hnn.
      destruct Hwalk as (ws & Hw & Hsum). exists start, ws. split; [exists []; constructor|]. split; auto.
      rewrite <- Hsum. exact Elt. }
    destruct (pt_ch _ _ HT u a Hdu) as (lu & Hlu).
    assert (Hni : ~ In v lu).
    { intros Hin. destruct (pch_walk dist par u lu HT Hlu a Hdu v Hin) as (ws & b & Hw & Hb & Hle).
      apply Hnn. exists v, (ws ++ [w]). split; [destruct (Hsd v b Hb) as (ws' & ? & _); exists ws'; auto|].
      split; [eapply walk_snoc; eauto|]. rewrite gsum_snoc.
      assert (dv = Some b) by congruence. subst dv. simpl in Elt.
      assert (Hlt : lt (b + (gsum K ws + w)) (b + og0 K)).
      { rewrite (og_id _ K), (og_assoc _ K). eapply le_lt_trans; [apply le_mono; exact Hle|exact Elt]. }
      destruct (ogltb K (gsum K ws + w) (og0 K)) eqn:Ec; auto. exfalso.
      assert (Hge : le (og0 K + b) (gsum K ws + w + b)) by (apply le_mono; auto).
      rewrite (og_comm _ K (og0 K)), (og_comm _ K (gsum K ws + w)) in Hge. congruence. }
    constructor.
    + rewrite upd_length. auto.
    + rewrite nth_error_upd_neq by auto. apply (pt_d0 _ _ HT).
    + rewrite nth_error_upd_neq by auto. apply (pt_p0 _ _ HT).
    + intros x p Hx. destruct (Nat.eq_dec v x) as [<-|Hne].
      * rewrite nth_error_upd_eq in Hx by dl. injection Hx as <-. exists w, a, (a + w). split; auto. split.
        { rewrite nth_error_upd_neq; auto. intros ->. apply Hni. destruct (pch_hd _ _ _ Hlu) as [t ->]. left. auto. }
        split; [rewrite nth_error_upd_eq by dl; auto|apply le_refl].
      * rewrite nth_error_upd_neq in Hx by auto. destruct (pt_link _ _ HT x p Hx) as (w' & dp & dx & A1 & A2 & A3 & A4).
        destruct (Hdec p dp A2) as (dp' & B1 & B2). exists w', dp', dx. split; auto. split; auto. split.
        { rewrite nth_error_upd_neq; auto. }
        eapply le_trans; [apply le_mono; exact B2|exact A4].
    + intros x d Hx. destruct (Nat.eq_dec v x) as [<-|Hne].
      * exists (v :: lu). econstructor; [rewrite nth_error_upd_eq by dl; reflexivity|].
        apply pch_keep; auto.
      * rewrite nth_error_upd_neq in Hx by auto. destruct (pt_ch _ _ HT x d Hx) as (l & Hl').
        eapply pch_upd; eauto. lia.
  - apply wp_Ok. split; [split; auto|]. split; auto. split; auto. split.
    { intros x d Hx. exists d. split; auto. apply le_refl. }
    split; [|auto]. intros d Hd. assert (d = a) by congruence. subst d.
    change (d_add O (Some a) w) with (Some (a + w)) in Elt. destruct dv as [b|]; [|discriminate].
    exists b. split; auto.
Qed.

Definition bounded (k : nat) (dist : list (option G)) : Prop :=
  forall ws v, walk edge start ws v -> length ws <= k -> below dist v (gsum K ws).

Definition stable (dist : list (option G)) : Prop :=
  forall u w v a, edge u w v -> nth_error dist u = Some (Some a) -> below dist v (a + w).

Definition bfinv (dist : list (option G)) (par : list (option nat)) : Prop :=
  sound dist /\ length par = n /\ below dist start (og0 K) /\ (~ negative_cycle K edge start -> ptree dist par).

Lemma bf_round_ok : forall es dist par, (forall u v w, In (u, v, w) es <-> edge u w v) -> bfinv dist par ->
  wp (for_each (bf_relax O) es (dist, par, false)) (fun r => let '(dist', par', ch) := r in
    bfinv dist' par' /\ (forall k, bounded k dist -> bounded (S k) dist') /\
    (ch = false -> dist' = dist /\ par' = par /\ stable dist)).
Proof.
  intros es dist par Hes (Hsd & Hpl & Hst & Htr).
  eapply wp_conseq; [|apply (for_each_inv _ _ _ (fun pre r => let '(dist', par', ch) := r in
    bfinv dist' par' /\
    (forall x d, nth_error dist x = Some (Some d) -> below dist' x d) /\
    (forall u v w d, In (u, v, w) pre -> nth_error dist u = Some (Some d) -> below dist' v (d + w)) /\
    (ch = false -> dist' = dist /\ par' = par)))].
  - intros [[dist' par'] ch] (HI & Hdec & Hrel & Hch). split; auto. split.
    + intros k Hb ws v Hw Hlen. revert Hlen. destruct ws as [|w0 ws0] eqn:Ews.
      * intros _. inversion Hw; subst. destruct HI as (_ & _ & Hst' & _). exact Hst'.
      * rewrite <- Ews in *. intros Hlen.
        assert (Hne : ws <> []) by (rewrite Ews; discriminate).
        destruct (exists_last Hne) as (ws' & w & ->).
        assert (Hsp : exists u, walk edge start ws' u /\ edge u w v).
        { clear -Hw. revert Hw. generalize start as s. induction ws' as [|x ws' IH]; intros s Hw; simpl in Hw.
          - inversion Hw as [|? ? y ? ? He Hw']; subst. inversion Hw'; subst. exists s. split; auto. constructor.
          - inversion Hw as [|? ? y ? ? He Hw']; subst. destruct (IH _ Hw') as (z & Hz & Hz').
            exists z. split; auto. econstructor; eauto. }
        destruct Hsp as (u & Hw' & He). rewrite app_length in Hlen. simpl in Hlen.
        destruct (Hb ws' u Hw' ltac:(lia)) as (d & Hd & Hle).
        eapply below_le; [eapply (Hrel u v w d); eauto; apply Hes; auto|].
        rewrite gsum_snoc. apply le_mono. auto.
    + intros Hf. destruct (Hch Hf) as [-> ->]. split; auto. split; auto.
      intros u w v a He Ha. eapply Hrel; eauto. apply Hes. auto.
  - split; [split; auto|]. split.
    { intros x d Hx. exists d. split; auto. apply le_refl. }
    split; [intros u v w d []|auto].
  - intros pre [[u v] w] post [[dist' par'] ch] El ((Hsd' & Hpl' & Hst' & Htr') & Hdec & Hrel & Hch).
    assert (He : edge u w v). { apply Hes. rewrite El. apply in_or_app. right. left. auto. }
    eapply wp_conseq; [|apply (bf_relax_ok dist' par' ch u v w He Hsd' Hpl' Hst')].
    intros [[dist2 par2] ch2] (A1 & A2 & A3 & A4 & A5 & A6 & A7 & A8).
    split; [split; auto|]. split.
    { intros x d Hx. destruct (Hdec x d Hx) as (d' & Hd' & Hle). eapply below_le; [apply A4; eauto|auto]. }
    split.
    + intros u' v' w' d Hin Hd. apply in_app_or in Hin. destruct Hin as [Hin|[[= <- <- <-]|[]]].
      * destruct (Hrel u' v' w' d Hin Hd) as (d' & Hd' & Hle). eapply below_le; [apply A4; eauto|auto].
      * destruct (Hdec u d Hd) as (d' & Hd' & Hle). eapply below_le; [apply A5; eauto|]. apply le_mono. auto.
    + intros Hf. destruct (A6 Hf) as (Hf' & -> & ->). auto.
Qed.

Lemma stable_bounded : forall dist, stable dist -> below dist start (og0 K) -> forall k, bounded k dist.
Proof.
  intros dist Hstab Hst k ws v Hw _. revert ws v Hw. apply walk_rind; auto.
  intros ws v w t _ (d & Hd & Hle) He. eapply below_le; [eapply Hstab; eauto|]. rewrite gsum_snoc. apply le_mono. auto.
Qed.

Lemma bf_rounds_ok : forall k j es dist par, (forall u v w, In (u, v, w) es <-> edge u w v) -> bfinv dist par ->
  bounded j dist ->
  wp (bf_rounds O k es (dist, par)) (fun r => let '(dist', par') := r in bfinv dist' par' /\ bounded (j + k)%nat dist').
Proof.
  induction k as [|k IH]; intros j es dist par Hes HI Hb.
  - apply wp_Ok. split; auto. rewrite Nat.add_0_r. auto.
  - cbn [bf_rounds fst snd]. apply wp_bind. eapply wp_conseq; [|apply (bf_round_ok es dist par Hes HI)].
    intros [[dist' par'] ch] (HI' & Hb' & Hch). destruct ch; simpl negb; cbv iota.
    + eapply wp_conseq; [|apply (IH (S j) es dist' par' Hes HI')]; auto.
      intros [dist2 par2]. rewrite Nat.add_succ_r. auto.
    + apply wp_Ok. destruct (Hch eq_refl) as (-> & -> & Hstab). split; auto.
      apply stable_bounded; auto. apply HI.
Qed.

(** cutting closed walks: a walk is no lighter than some walk with fewer than [n] edges, or there is a
    negative closed walk *)
Lemma cut_cycles : forall m ws v, length ws <= m -> walk edge start ws v ->
  negative_cycle K edge start \/
  exists ws', walk edge start ws' v /\ length ws' <= n - 1 /\ le (gsum K ws') (gsum K ws).
Proof.
  induction m as [|m IH]; intros ws v Hm Hw.
  - right. exists ws. split; auto. split; [lia|apply le_refl].
  - destruct (Nat.le_gt_cases (length ws) (n - 1)) as [Hle|Hgt].
    + right. exists ws. split; auto. split; [lia|apply le_refl].
    + destruct (long_walk_cut edge n start ws v) as (x & w1 & wc & w2 & -> & H1 & Hc & Hne & H2); auto; [| lia |].
      { intros u w t He. apply (w_dom g Hg _ _ _ He). }
      destruct (ogltb K (gsum K wc) (og0 K)) eqn:Ec.
      { left. exists x, wc. split; [exists w1; auto|]. auto. }
      assert (Hl : length wc <> 0) by (destruct wc; simpl; [congruence|lia]).
      rewrite !app_length in Hm.
      destruct (IH (w1 ++ w2) v) as [Hn|(ws' & A1 & A2 & A3)]; auto.
      * rewrite app_length. lia.
      * eapply walk_app; eauto.
      * right. exists ws'. split; auto. split; auto. eapply le_trans; [exact A3|].
        rewrite !gsum_app.
        replace (gsum K w1 + (gsum K wc + gsum K w2)) with (gsum K wc + (gsum K w1 + gsum K w2)).
        2:{ rewrite !(og_assoc _ K), (og_comm _ K (gsum K wc)). auto. }
        rewrite <- (og_id_l K (gsum K w1 + gsum K w2)) at 2. apply le_mono. auto.
Qed.

Lemma stable_no_cycle : forall dist, length dist = n -> stable dist -> below dist start (og0 K) ->
  ~ negative_cycle K edge start.
Proof.
  intros dist Hl Hstab Hst (x & ws & (wr & Hr) & Hw & Hlt).
  destruct (stable_bounded dist Hstab Hst (length wr) wr x Hr (Nat.le_refl _)) as (d & Hd & _).
  assert (G1 : forall y ws z, walk edge y ws z -> forall a, nth_error dist y = Some (Some a) -> below dist z (a + gsum K ws)).
  { intros y ws0 z H. induction H as [y|y w z ws0 t He Hw0 IH]; intros a Ha.
    - exists a. split; auto. simpl. rewrite (og_id _ K). apply le_refl.
    - destruct (Hstab _ _ _ _ He Ha) as (b & Hb & Hle). eapply below_le; [apply IH; exact Hb|].
      simpl. rewrite (og_assoc _ K). apply le_mono. auto. }
  destruct (G1 x ws x Hw d Hd) as (d' & Hd' & Hle). assert (d' = d) by congruence. subst d'.
  apply (og_mono _ K _ _ d) in Hlt. rewrite og_id_l, (og_comm _ K) in Hlt. congruence.
Qed.

Lemma bf_check_ok : forall es (dist : list (option G)), (forall u v w, In (u, v, w) es <-> edge u w v) -> length dist = n ->
  wp (for_each_brk (bf_check O dist) es tt) (fun r => match r with
    | inl _ => stable dist
    | inr _ => exists u w v a, edge u w v /\ nth_error dist u = Some (Some a) /\ ~ below dist v (a + w) /\ v < n end).
Proof.
  intros es dist Hes Hl.
  eapply wp_conseq; [|apply (for_each_brk_inv _ _ _ _ (fun pre _ =>
     forall u v w a, In (u, v, w) pre -> nth_error dist u = Some (Some a) -> below dist v (a + w))
     (fun _ => exists u w v a, edge u w v /\ nth_error dist u = Some (Some a) /\ ~ below dist v (a + w) /\ v < n))].
  - intros [[]|[]]; auto. intros H u w v a He Ha. eapply H; eauto. apply Hes. auto.
  - intros u v w a [].
  - intros pre [[u v] w] post [] El HI.
    assert (He : edge u w v). { apply Hes. rewrite El. apply in_or_app. right. left. auto. }
    destruct (w_dom g Hg _ _ _ He) as [Hu Hv]. unfold bf_check. change (D O) with (option G). apply wp_bind. apply vget_wp; [dl|]. intros du Hdu.
    destruct du as [a|]; simpl d_isinf; cbv iota.
    + apply wp_bind. apply vget_wp; [dl|]. intros dv Hdv.
      change (d_add O (Some a) w) with (Some (a + w)).
      destruct (d_ltb O (Some (a + w)) dv) eqn:Elt; apply wp_Ok.
      * exists u, w, v, a. split; auto. split; auto. split; auto. intros (d & Hd & Hle).
        assert (dv = Some d) by congruence. subst dv. simpl in Elt. congruence.
      * intros u' v' w' a' Hin Ha'. apply in_app_or in Hin. destruct Hin as [Hin|[[= <- <- <-]|[]]]; [eauto|].
        assert (a' = a) by congruence. subst a'. destruct dv as [b|]; [|discriminate]. exists b. split; auto.
    + apply wp_Ok. intros u' v' w' a' Hin Ha'. apply in_app_or in Hin. destruct Hin as [Hin|[[= <- <- <-]|[]]]; [eauto|].
      congruence.
Qed.

(** counting the finite labels *)
Lemma bf_count_ok : forall dist : list (option G), length dist = n ->
  wp (for_range 0 n (fun c i => d <- vget dist i ;; Ok (if d_isinf O d then c else S c)) 0)
     (fun c => exists S, NoDup S /\ length S = c /\
        forall v, In v S <-> exists d, nth_error dist v = Some (Some d)).
Proof.
  intros dist Hl.
  eapply wp_conseq; [|apply (for_range_inv _ _ (fun i c => exists S, NoDup S /\ length S = c /\
        forall v, In v S <-> v < i /\ exists d, nth_error dist v = Some (Some d))); [lia| |]].
  - intros c (S & H1 & H2 & H3). exists S. split; auto. split; auto. intros v. rewrite H3. split; [tauto|].
    intros [d Hd]. split; eauto. apply nth_error_Some_lt in Hd. lia.
  - exists []. split; [constructor|]. split; auto. intros v. simpl. split; [tauto|lia].
  - intros i c _ Hi (S & H1 & H2 & H3). apply wp_bind. apply vget_wp; [dl|]. intros d Hd. apply wp_Ok.
    destruct d as [d|]; simpl d_isinf; cbv iota.
    + exists (i :: S). split; [constructor; auto; intros Hin; apply H3 in Hin; lia|].
      split; [simpl; lia|]. intros v. simpl. rewrite H3. split.
      * intros [<-|[A B]]; [split; [lia|eauto]|split; [lia|auto]].
      * intros [A B]. destruct (Nat.eq_dec i v); auto. right. split; auto. lia.
    + exists S. split; auto. split; auto. intros v. rewrite H3. split; intros [A [d B]].
      * split; [lia|eauto].
      * split; [|eauto]. destruct (Nat.eq_dec v i); [subst; congruence|lia].
Qed.

Lemma bf_main : wp (BellmanFord O g start) (fun r =>
  (r = empty_trav /\ negative_cycle K edge start) \/
  (~ negative_cycle K edge start /\ bfinv (t_dist r) (t_parent r) /\ stable (t_dist r) /\ t_order r = [] /\
   exists S, NoDup S /\ length S = t_count r /\ forall v, In v S <-> exists d, nth_error (t_dist r) v = Some (Some d))).
Proof.
  unfold BellmanFord. change (D O) with (option G). destruct (Nat.leb_spec n start) as [|_]; [lia|].
  apply wp_bind. apply vset_wp; [rewrite repeat_length; auto|].
  apply wp_bind. eapply wp_conseq; [|apply bf_collect_ok]. intros es Hes.
  set (dist0 := upd (repeat (d_inf O) n) start (d_zero O) : list (option G)).
  assert (H00 : nth_error dist0 start = Some (Some (og0 K))).
  { unfold dist0. rewrite nth_error_upd_eq by (rewrite repeat_length; auto). reflexivity. }
  assert (H0n : forall x, x <> start -> x < n -> nth_error dist0 x = Some None).
  { intros x Hx Hn. unfold dist0. rewrite nth_error_upd_neq, repeat_nth_error by auto.
    destruct (Nat.ltb_spec x n); [reflexivity|lia]. }
  assert (H0l : length dist0 = n) by (unfold dist0; rewrite upd_length, repeat_length; auto).
  assert (H0only : forall v d, nth_error dist0 v = Some (Some d) -> v = start /\ d = og0 K).
  { intros v d Hd. destruct (Nat.eq_dec v start) as [->|Hne]; [split; congruence|].
    rewrite H0n in Hd; auto; [discriminate|]. apply nth_error_Some_lt in Hd. lia. }
  assert (HI0 : bfinv dist0 (repeat None n)).
  { split; [split; auto|].
    - intros v d Hd. apply H0only in Hd as [-> ->]. exists []. split; [constructor|auto].
    - split; [apply repeat_length|]. split; [exists (og0 K); split; auto; apply le_refl|].
      intros _. constructor; auto.
      + apply repeat_length.
      + rewrite repeat_nth_error. destruct (Nat.ltb_spec start n); [auto|lia].
      + intros v p Hp. rewrite repeat_nth_error in Hp. destruct (v <? n); discriminate.
      + intros v d Hd. apply H0only in Hd as [-> _]. eexists. constructor. }
  assert (Hb0 : bounded 0 dist0).
  { intros ws v Hw Hl. destruct ws; [|simpl in Hl; lia]. inversion Hw; subst. exists (og0 K). split; auto. apply le_refl. }
  apply wp_bind. eapply wp_conseq; [|apply (bf_rounds_ok (n - 1) 0 es dist0 (repeat None n) Hes HI0 Hb0)].
  intros [dist par] [HI Hb]. simpl in Hb.
  apply wp_bind. eapply wp_conseq; [|apply (bf_check_ok es dist Hes (proj1 (proj1 HI)))].
  intros [[]|[]].
  - intros Hstab. apply wp_bind. eapply wp_conseq; [|apply (bf_count_ok dist (proj1 (proj1 HI)))].
    intros c HS. apply wp_Ok. right. simpl. split; [|auto].
    apply (stable_no_cycle dist); auto; [apply (proj1 (proj1 HI))|apply HI].
  - intros (u & w & v & a & He & Ha & Hnb & Hv). apply wp_Ok. left. split; auto.
    destruct HI as ((_ & Hsd) & _). destruct (Hsd u a Ha) as (ws & Hw & ->).
    destruct (cut_cycles (length (ws ++ [w])) (ws ++ [w]) v (Nat.le_refl _)) as [Hn|(ws' & A1 & A2 & A3)]; auto.
    { eapply walk_snoc; eauto. }
    exfalso. apply Hnb. eapply below_le; [apply (Hb ws' v A1 A2)|]. rewrite <- gsum_snoc. auto.
Qed.

Lemma pch_tree : forall dist par v l, ptree dist par -> pch par v l -> tree_ok edge par start l.
Proof.
  intros dist par v l HT Hc. induction Hc as [|v p l Hp Hc IH].
  - intros A x B E. destruct A as [|? A]; [injection E as -> _; auto|destruct A; discriminate].
  - intros A x B E. destruct A as [|y A].
    + injection E as <- <-. right. destruct (pt_link _ _ HT v p Hp) as (w & dp & dv & He & _).
      exists p, w. split; auto. split; auto. destruct (pch_hd _ _ _ Hc) as [t ->]. left. auto.
    + injection E as <- E. apply (IH A x B E).
Qed.

End BF.

(** ** C07 *)

Theorem C07_bellman_ford : forall V G (K : ogroup G) (g : graph V G) start,
  api_graph g -> start < numVertices g ->
  exists r, BellmanFord (ogOps K) g start = Ok r /\
    (* failure is signalled exactly when a negative cycle is reachable *)
    (t_dist r = [] <-> negative_cycle K (gedge g) start) /\ (t_parent r = [] <-> negative_cycle K (gedge g) start) /\
    (~ negative_cycle K (gedge g) start ->
      length (t_dist r) = numVertices g /\ length (t_parent r) = numVertices g /\
      (forall v, v < numVertices g ->
        (nth_error (t_dist r) v = Some None /\ ~ reachable (gedge g) start v) \/
        (exists d, nth_error (t_dist r) v = Some (Some d) /\
          (* the minimum over all walks, attained by the walk the parent pointers give *)
          (forall ws, walk (gedge g) start ws v -> ogltb K (gsum K ws) d = false) /\
          exists path ws N, (forall fuel, N <= fuel -> ReconstructPath fuel (t_parent r) start v = Ok path) /\
            vwalk (gedge g) path ws /\ hd_error path = Some start /\ last path v = v /\ d = gsum K ws)) /\
      (exists S, NoDup S /\ length S = t_count r /\ forall v, In v S <-> reachable (gedge g) start v)).
Proof.
  intros V G K g start Ha Hs. pose proof (api_gwf g Ha) as Hg.
  destruct (wp_elim _ _ _ (bf_main K g Hg start Hs)) as (r & Hr & HP). exists r. split; auto. clear Hr.
  change (D (ogOps K)) with (option G) in *.
  destruct HP as [(-> & Hnc)|(Hnn & (Hsd & Hpl & Hst & Htr) & Hstab & _ & HS)].
  { split; [|split]; [split; auto|split; auto|]. intros Hn. contradiction. }
  specialize (Htr Hnn). destruct Hsd as [Hl Hsd].
  split; [split; [intros E; rewrite E in Hl; simpl in Hl; lia|contradiction]|].
  split; [split; [intros E; rewrite E in Hpl; simpl in Hpl; lia|contradiction]|].
  intros _. split; auto. split; auto. split.
  - intros v Hv. destruct (nth_error_lt _ (t_dist r) v) as [[d|] Hd]; [lia| |].
    + right. exists d. split; auto. split.
      * intros ws Hw. destruct (stable_bounded K g start _ Hstab Hst _ ws v Hw (Nat.le_refl _)) as (d' & Hd' & Hle).
        congruence.
      * destruct (pt_ch _ _ _ _ _ Htr v d Hd) as [l Hc].
        assert (Hlt : forall x, In x l -> x < length (t_parent r)).
        { intros x Hx. destruct (pch_walk K g start _ _ v l Htr Hc d Hd x Hx) as (_ & b & _ & Hb & _).
          apply nth_error_Some_lt in Hb. lia. }
        destruct (reconstruct_tree G (option G) (gedge g) (t_parent r) start (d_add (ogOps K))
           (fun x => match nth_error (t_dist r) x with Some d => d | None => None end) l v)
          as (path & ws & P1 & P2 & P3 & P4 & P5 & P6 & P7).
        -- eapply pch_tree; eauto.
        -- auto.
        -- intros x p w Hx Hxs Hp He. destruct (pt_link _ _ _ _ _ Htr x p Hp) as (w' & dp & dx & E1 & E2 & E3 & E4).
           rewrite E2, E3. simpl. f_equal. assert (w' = w) by (eapply (w_fun g Hg); eauto). subst w'.
           apply le_antisym with (K := K); auto.
           destruct (Hstab p w x dp He E2) as (d' & Hd' & Hle). congruence.
        -- destruct (pch_hd _ _ _ _ Hc) as [t ->]. left. auto.
        -- exists path, ws, (S (length l)). split; [intros fuel Hf; apply P7; lia|].
           split; auto. split; auto. split; auto.
           rewrite (pt_d0 _ _ _ _ _ Htr), Hd in P4. pose proof (gsum_fold K ws (og0 K)) as P8.
           rewrite og_id_l in P8. assert (P9 : Some d = Some (gsum K ws)) by (rewrite <- P4; exact P8). congruence.
    + left. split; auto. intros [ws Hw].
      destruct (stable_bounded K g start _ Hstab Hst _ ws v Hw (Nat.le_refl _)) as (d' & Hd' & _). congruence.
  - destruct HS as (S & S1 & S2 & S3). exists S. split; auto. split; auto. intros v. rewrite S3. split.
    + intros [d Hd]. destruct (Hsd v d Hd) as (ws & Hw & _). exists ws. auto.
    + intros [ws Hw]. destruct (stable_bounded K g start _ Hstab Hst _ ws v Hw (Nat.le_refl _)) as (d' & Hd' & _). eauto.
Qed.
Print Assumptions C07_bellman_ford.

(** HasNegativeCycle is the same decision for a valid start vertex ... *)
Theorem C07_has_negative_cycle : forall V G (K : ogroup G) (g : graph V G) start,
  api_graph g -> start < numVertices g ->
  exists b, HasNegativeCycle (ogOps K) g start = Ok b /\ (b = true <-> negative_cycle K (gedge g) start).
Proof.
  intros V G K g start Ha Hs. destruct (C07_bellman_ford V G K g start Ha Hs) as (r & Hr & _ & Hp & _).
  eexists. unfold HasNegativeCycle. rewrite Hr. split; [reflexivity|]. rewrite <- Hp.
  destruct (t_parent r); split; congruence.
Qed.
Print Assumptions C07_has_negative_cycle.

(** ... but with a start vertex that does not exist it answers "true" on every graph. *)
Theorem C07_has_negative_cycle_bad_start : forall V E (O : DistOps E) (g : graph V E) start,
  numVertices g <= start -> HasNegativeCycle O g start = Ok true.
Proof.
  intros V E O g start H. unfold HasNegativeCycle, BellmanFord. destruct (Nat.leb_spec (numVertices g) start); [|lia].
  reflexivity.
Qed.
Print Assumptions C07_has_negative_cycle_bad_start.

(** integers *)
Definition Zog : ogroup Z.
Proof.
  refine (mkOG Z 0%Z Z.add Z.opp Z.ltb _ _ _ _ _ _ _ _); intros.
  - apply Z.add_assoc. - apply Z.add_comm. - apply Z.add_0_r. - apply Z.add_opp_diag_r. - apply Z.ltb_irrefl.
  - rewrite Z.ltb_lt in *. lia. - rewrite Z.ltb_ge in *. lia. - rewrite Z.ltb_lt in *. lia.
Defined.

Definition bf_ops : list (op nat Z) :=
  [OpAddEdge 0 1 6; OpAddEdge 0 3 7; OpAddEdge 1 2 5; OpAddEdge 1 3 8; OpAddEdge 1 4 (-4);
   OpAddEdge 2 1 (-2); OpAddEdge 3 2 (-3); OpAddEdge 3 4 9; OpAddEdge 4 2 7; OpAddEdge 4 0 2]%Z.
Example C07_example : exists g r, exec_ops (graph_sized (fun i => i) 6 true false) bf_ops = Ok g /\
  BellmanFord (ogOps Zog) g 0 = Ok r /\ t_dist r = [Some 0; Some 2; Some 4; Some 7; Some (-2); None]%Z /\
  t_parent r = [None; Some 2; Some 3; Some 0; Some 1; None] /\ t_count r = 5.
Proof. do 2 eexists. split; [vm_compute; reflexivity|]. split; [vm_compute; reflexivity|]. auto. Qed.
Example C07_example_cycle : exists g, exec_ops (graph_sized (fun i => i) 6 true false) (bf_ops ++ [OpAddEdge 2 3 2%Z]) = Ok g /\
  HasNegativeCycle (ogOps Zog) g 0 = Ok true /\ HasNegativeCycle (ogOps Zog) g 5 = Ok false.
Proof. eexists. split; [vm_compute; reflexivity|]. split; vm_compute; reflexivity. Qed.
