(** * Invariants of the graph container *)

From Coq Require Import List Arith Bool Lia Permutation.
From Verif Require Import Base Graph_Model Graph_Spec.
Import ListNotations.

(** ** Counting lemmas *)
Lemma filter_flip : forall A (p q : A -> bool) (x : A) (l : list A),
  NoDup l -> In x l -> p x = false -> q x = true ->
  (forall y, In y l -> y <> x -> p y = q y) ->
  length (filter q l) = S (length (filter p l)).
Proof.
  intros A p q x l. induction l as [|a l IH]; intros Hnd Hin Hp Hq Hext; [destruct Hin|].
  inversion Hnd; subst. simpl. destruct Hin as [->|Hin].
  - rewrite Hp, Hq. simpl. f_equal.
    assert (G : filter q l = filter p l).
    { apply filter_ext_in. intros y Hy. symmetry. apply Hext. right; auto.
      intros ->. contradiction. }
    rewrite G. reflexivity.
  - assert (a <> x) by (intros ->; contradiction).
    rewrite (Hext a) by (simpl; auto).
    destruct (q a); simpl; rewrite IH; auto; intros; apply Hext; simpl; auto.
Qed.

Lemma filter_same_length : forall A (p q : A -> bool) (l k : list A),
  NoDup l -> NoDup k ->
  (forall x, (In x l /\ p x = true) <-> (In x k /\ q x = true)) ->
  length (filter p l) = length (filter q k).
Proof.
  intros A p q l k Hl Hk H.
  apply Permutation_length. apply NoDup_Permutation.
  - apply NoDup_filter; auto.
  - apply NoDup_filter; auto.
  - intros x. rewrite !filter_In. apply H.
Qed.

Lemma NoDup_app_intro : forall A (l k : list A),
  NoDup l -> NoDup k -> (forall x, In x l -> ~ In x k) -> NoDup (l ++ k).
Proof.
  intros A l. induction l as [|a l IH]; intros k Hl Hk Hd; simpl; auto.
  inversion Hl; subst. constructor.
  - rewrite in_app_iff. intros [H|H]; [contradiction|]. apply (Hd a); simpl; auto.
  - apply IH; auto. intros x Hx. apply Hd. simpl; auto.
Qed.

Lemma NoDup_list_prod : forall A B (l : list A) (k : list B),
  NoDup l -> NoDup k -> NoDup (list_prod l k).
Proof.
  intros A B l k Hl Hk. induction l as [|a l IH]; simpl; [constructor|].
  inversion Hl; subst. apply NoDup_app_intro; auto.
  - apply FinFun.Injective_map_NoDup; auto. intros x y Hxy. congruence.
  - intros [x y] Hx Hy. apply in_map_iff in Hx. destruct Hx as (b & E & _). inversion E; subst.
    apply in_prod_iff in Hy. tauto.
Qed.

(** ** Adjacency-list lemmas *)
Section Adj.
Context {E : Type}.
Implicit Types l : list (edge E).

Definition targets l : list nat := map e_to l.

Lemma scan_to_find : forall l v, scan_to l v = isSome (find_to l v).
Proof.
  intros l v. unfold scan_to, find_to. induction l as [|e l IH]; simpl; auto.
  destruct (Nat.eqb (e_to e) v); simpl; auto.
Qed.

Lemma scan_to_In : forall l v, scan_to l v = true <-> In v (targets l).
Proof.
  intros l v. unfold scan_to, targets. rewrite existsb_exists, in_map_iff. split.
  - intros (e & Hin & He). apply Nat.eqb_eq in He. eauto.
  - intros (e & He & Hin). exists e. split; auto. apply Nat.eqb_eq; auto.
Qed.

Lemma find_to_Some : forall l v e, find_to l v = Some e -> In e l /\ e_to e = v.
Proof.
  intros l v e H. apply find_some in H. destruct H as [H1 H2]. apply Nat.eqb_eq in H2. auto.
Qed.

Lemma find_to_In : forall l e, NoDup (targets l) -> In e l -> find_to l (e_to e) = Some e.
Proof.
  induction l as [|a l IH]; intros e Hnd Hin; [destruct Hin|].
  unfold targets in Hnd. simpl in Hnd. inversion Hnd; subst. unfold find_to in *. simpl.
  destruct (Nat.eqb_spec (e_to a) (e_to e)) as [Heq|Hne].
  - destruct Hin as [->|Hin]; auto. exfalso. apply H1. rewrite Heq. apply in_map; auto.
  - destruct Hin as [->|Hin]; [congruence|]. apply IH; auto.
Qed.

Lemma find_to_app : forall l v x, find_to (l ++ [x]) v =
  match find_to l v with Some e => Some e | None => if Nat.eqb (e_to x) v then Some x else None end.
Proof.
  intros l v x. unfold find_to. induction l as [|a l IH]; simpl.
  - destruct (Nat.eqb (e_to x) v); auto.
  - destruct (Nat.eqb (e_to a) v); auto.
Qed.

Lemma erase_to_incl : forall l v e, In e (erase_to l v) -> In e l.
Proof.
  induction l as [|a l IH]; intros v e H; simpl in *; auto.
  destruct (Nat.eqb (e_to a) v); simpl in *; auto. destruct H; eauto.
Qed.

Lemma erase_to_NoDup : forall l v, NoDup (targets l) -> NoDup (targets (erase_to l v)).
Proof.
  induction l as [|a l IH]; intros v H; simpl in *; auto.
  inversion H; subst. destruct (Nat.eqb (e_to a) v); auto. simpl. constructor; auto.
  intros Hin. apply H2. apply in_map_iff in Hin. destruct Hin as (e & He & Hin).
  apply in_map_iff. exists e. split; auto. eapply erase_to_incl; eauto.
Qed.

Lemma find_to_erase : forall l v u, NoDup (targets l) ->
  find_to (erase_to l v) u = if Nat.eqb v u then None else find_to l u.
Proof.
  induction l as [|a l IH]; intros v u Hnd; simpl.
  - destruct (Nat.eqb v u); auto.
  - unfold targets in Hnd; simpl in Hnd. inversion Hnd; subst.
    destruct (Nat.eqb_spec (e_to a) v) as [Hav|Hav].
    + destruct (Nat.eqb_spec v u) as [Hvu|Hvu].
      * destruct (find_to l u) eqn:F; auto. apply find_to_Some in F. destruct F as [F1 F2].
        exfalso. apply H1. apply in_map_iff. exists e. split; auto. congruence.
      * unfold find_to. simpl. destruct (Nat.eqb_spec (e_to a) u); auto. congruence.
    + unfold find_to in *. simpl. destruct (Nat.eqb_spec (e_to a) u) as [Hau|Hau].
      * destruct (Nat.eqb_spec v u); auto. congruence.
      * apply IH; auto.
Qed.

Lemma targets_app : forall l e, targets (l ++ [e]) = targets l ++ [e_to e].
Proof. intros. unfold targets. rewrite map_app. reflexivity. Qed.

End Adj.

(** ** Representation invariant *)
Section Repr.
Context {V E : Type}.
Implicit Types g : graph V E.
Implicit Types a : agraph E.

Definition opt_w (o : option (edge E)) : option E := option_map e_w o.

Record repr (g : graph V E) (a : agraph E) : Prop := {
  r_n   : numVertices g = a_n a;
  r_adj : length (g_adj g) = a_n a;
  r_dup : forall u l, nth_error (g_adj g) u = Some l -> NoDup (targets l);
  r_edge: forall u l v, nth_error (g_adj g) u = Some l -> opt_w (find_to l v) = a_edge a u v;
  r_dom : forall u v w, a_edge a u v = Some w -> u < a_n a /\ v < a_n a;
  r_sym : g_directed g = false -> forall u v, a_edge a u v = a_edge a v u;
  r_cnt : numEdges g = edge_count (g_directed g) a
}.

Lemma count_ext : forall d a (b : agraph E), a_n a = a_n b ->
  (forall u v, isSome (a_edge a u v) = isSome (a_edge b u v)) ->
  edge_count d a = edge_count d b.
Proof.
  intros d a b Hn H. unfold edge_count. rewrite Hn. f_equal. apply filter_ext.
  intros [u v]. simpl. rewrite H. reflexivity.
Qed.

Lemma edge_count_grow : forall d a,
  (forall u v w, a_edge a u v = Some w -> u < a_n a /\ v < a_n a) ->
  edge_count d (a_addVertex a) = edge_count d a.
Proof.
  intros d a H. unfold edge_count. apply filter_same_length.
  - apply NoDup_list_prod; apply seq_NoDup.
  - apply NoDup_list_prod; apply seq_NoDup.
  - intros [u v]. rewrite !in_prod_iff, !in_seq. simpl.
    assert (G : isSome (a_edge a u v) = true -> u < a_n a /\ v < a_n a).
    { destruct (a_edge a u v) eqn:F; simpl; [eauto|discriminate]. }
    rewrite !andb_true_iff. split; intros (H1 & H2 & H3); specialize (G H3); repeat split; auto; lia.
Qed.

Lemma edge_count_set : forall d a u v w,
  u < a_n a -> v < a_n a ->
  (d = false -> forall x y, a_edge a x y = a_edge a y x) ->
  a_edge a u v = None ->
  edge_count d (mkA (a_n a) (set_edge d (a_edge a) u v (Some w))) = S (edge_count d a).
Proof.
  intros d a u v w Hu Hv Hsym Hnone.
  set (p := if d then (u, v) else if u <=? v then (u, v) else (v, u)).
  unfold edge_count. simpl. apply filter_flip with (x := p).
  - apply NoDup_list_prod; apply seq_NoDup.
  - unfold p. destruct d; [|destruct (u <=? v)]; apply in_prod_iff; rewrite !in_seq; lia.
  - unfold p. destruct d; simpl.
    + rewrite Hnone; reflexivity.
    + destruct (Nat.leb_spec u v); simpl.
      * rewrite Hnone. apply andb_false_r.
      * rewrite <- (Hsym eq_refl u v), Hnone. apply andb_false_r.
  - unfold p. destruct d; simpl; unfold set1.
    + rewrite !Nat.eqb_refl. reflexivity.
    + destruct (Nat.leb_spec u v); simpl.
      * rewrite !Nat.eqb_refl. apply Nat.leb_le in H. rewrite H. simpl.
        destruct (Nat.eqb u v && Nat.eqb v u); reflexivity.
      * rewrite !Nat.eqb_refl. simpl. destruct (Nat.leb_spec v u); [reflexivity|lia].
  - intros [x y] _ Hne. simpl.
    destruct d; simpl.
    + unfold set1. destruct (Nat.eqb_spec x u); simpl; auto.
      destruct (Nat.eqb_spec y v); auto. subst. exfalso; apply Hne; reflexivity.
    + destruct (Nat.leb_spec x y); simpl; auto. unfold set1. unfold p in Hne.
      assert (N1 : ~ (x = u /\ y = v)).
      { intros [-> ->]. apply Hne. apply Nat.leb_le in H. rewrite H. reflexivity. }
      assert (N2 : ~ (x = v /\ y = u)).
      { intros [-> ->]. apply Hne. destruct (Nat.leb_spec u v); auto.
        assert (u = v) by lia. subst; auto. }
      repeat match goal with |- context [Nat.eqb ?a ?b] => destruct (Nat.eqb_spec a b) end;
        simpl; auto; exfalso; auto.
Qed.

Lemma set_edge_unset : forall d (m : nat -> nat -> option E) u v w x y,
  m u v = Some w -> (d = false -> forall x y, m x y = m y x) ->
  set_edge d (set_edge d m u v None) u v (Some w) x y = m x y.
Proof.
  intros d m u v w x y Hm Hsym. unfold set_edge, set1. destruct d.
  - destruct (Nat.eqb_spec x u); destruct (Nat.eqb_spec y v); simpl; subst; auto.
  - repeat match goal with |- context [Nat.eqb ?a ?b] => destruct (Nat.eqb_spec a b) end;
      simpl; subst; auto; try congruence; rewrite (Hsym eq_refl); auto.
Qed.

Lemma edge_count_unset : forall d a u v w,
  u < a_n a -> v < a_n a ->
  (d = false -> forall x y, a_edge a x y = a_edge a y x) ->
  a_edge a u v = Some w ->
  edge_count d a = S (edge_count d (mkA (a_n a) (set_edge d (a_edge a) u v None))).
Proof.
  intros d a u v w Hu Hv Hsym Hw.
  rewrite <- (edge_count_set d (mkA (a_n a) (set_edge d (a_edge a) u v None)) u v w); auto.
  - simpl. apply count_ext; simpl; auto. intros x y. rewrite set_edge_unset; auto.
  - simpl. intros -> x y. unfold set_edge, set1. rewrite (Hsym eq_refl x y).
    rewrite (andb_comm (Nat.eqb y v)), (andb_comm (Nat.eqb y u)).
    destruct (Nat.eqb x v && Nat.eqb y u); destruct (Nat.eqb x u && Nat.eqb y v); auto.
  - simpl. unfold set_edge, set1. destruct d; rewrite !Nat.eqb_refl; simpl; auto.
    destruct (Nat.eqb u v && Nat.eqb v u); auto.
Qed.

(** *** Constructors *)
Lemma repr_empty : forall d lp, repr (graph_empty d lp) (mkA 0 (fun _ _ => None)).
Proof.
  intros. constructor; simpl; auto; try discriminate.
  - intros u l H; destruct u; discriminate.
  - intros u l v H; destruct u; discriminate.
Qed.

Lemma nth_error_repeat_Some : forall A (x : A) n i y, nth_error (repeat x n) i = Some y -> y = x.
Proof. intros. apply nth_error_In in H. apply repeat_spec in H. auto. Qed.

Lemma edge_count_none : forall d n, edge_count d (mkA n (fun _ _ => @None E)) = 0.
Proof.
  intros. unfold edge_count. simpl.
  rewrite (filter_ext _ (fun _ => false)).
  - induction (list_prod (seq 0 n) (seq 0 n)); simpl; auto.
  - intros p. apply andb_false_r.
Qed.

Lemma repr_sized : forall conv n d lp,
  repr (graph_sized conv n d lp) (mkA n (fun _ _ => None)).
Proof.
  intros. constructor; simpl; auto; try discriminate.
  - unfold numVertices; simpl. rewrite map_length, seq_length; auto.
  - apply repeat_length.
  - intros u l H. apply nth_error_repeat_Some in H. subst. constructor.
  - intros u l v H. apply nth_error_repeat_Some in H. subst. reflexivity.
  - rewrite edge_count_none. reflexivity.
Qed.

(** *** Queries *)
Lemma repr_adj : forall g a u, repr g a -> u < a_n a ->
  exists l, nth_error (g_adj g) u = Some l.
Proof. intros g a u H Hu. apply nth_error_lt. rewrite (r_adj _ _ H). auto. Qed.

Lemma guard_false : forall n u v, (n <=? u) || (n <=? v) = false <-> u < n /\ v < n.
Proof.
  intros. rewrite orb_false_iff, !Nat.leb_gt. tauto.
Qed.
Lemma guard_true : forall n u v, (n <=? u) || (n <=? v) = true <-> ~ (u < n /\ v < n).
Proof.
  intros. rewrite orb_true_iff, !Nat.leb_le. lia.
Qed.

Lemma hasEdge_repr : forall g a u v, repr g a -> hasEdge g u v = Ok (isSome (a_edge a u v)).
Proof.
  intros g a u v H. unfold hasEdge. fold (numVertices g). rewrite (r_n _ _ H).
  destruct ((a_n a <=? u) || (a_n a <=? v)) eqn:G.
  - apply guard_true in G. destruct (a_edge a u v) eqn:F; auto. apply (r_dom _ _ H) in F. tauto.
  - apply guard_false in G. destruct (repr_adj _ _ u H) as [l Hl]; [tauto|].
    unfold vget. rewrite Hl. simpl. f_equal. rewrite scan_to_find.
    rewrite <- (r_edge _ _ H u l v Hl). unfold opt_w. destruct (find_to l v); reflexivity.
Qed.

Lemma edgeWeight_repr : forall g a u v, repr g a ->
  edgeWeight g u v =
  match a_edge a u v with
  | Some w => Ok w
  | None => if (a_n a <=? u) || (a_n a <=? v) then Throw OutOfRange else Throw InvalidArgument
  end.
Proof.
  intros g a u v H. unfold edgeWeight. fold (numVertices g). rewrite (r_n _ _ H).
  destruct ((a_n a <=? u) || (a_n a <=? v)) eqn:G.
  - apply guard_true in G. destruct (a_edge a u v) eqn:F; auto. apply (r_dom _ _ H) in F. tauto.
  - apply guard_false in G. destruct (repr_adj _ _ u H) as [l Hl]; [tauto|].
    unfold vget. rewrite Hl. simpl.
    rewrite <- (r_edge _ _ H u l v Hl). unfold opt_w. destruct (find_to l v); reflexivity.
Qed.

(** *** addVertex, clear *)
Lemma addVertex_repr : forall g a d, repr g a -> repr (fst (addVertex g d)) (a_addVertex a).
Proof.
  intros g a d H. unfold addVertex; simpl. constructor; simpl.
  - unfold numVertices; simpl. rewrite app_length. simpl. pose proof (r_n _ _ H) as G.
    unfold numVertices in G. lia.
  - rewrite app_length. simpl. rewrite (r_adj _ _ H). lia.
  - intros u l Hl. destruct (Nat.lt_ge_cases u (length (g_adj g))) as [Hlt|Hge].
    + rewrite nth_error_app1 in Hl by auto. eapply (r_dup _ _ H); eauto.
    + rewrite nth_error_app2 in Hl by auto.
      destruct (u - length (g_adj g)) as [|k]; simpl in Hl; [inversion Hl; constructor|].
      destruct k; discriminate.
  - intros u l v Hl. destruct (Nat.lt_ge_cases u (length (g_adj g))) as [Hlt|Hge].
    + rewrite nth_error_app1 in Hl by auto. eapply (r_edge _ _ H); eauto.
    + rewrite nth_error_app2 in Hl by auto. rewrite (r_adj _ _ H) in Hge.
      destruct (a_edge a u v) eqn:F. { apply (r_dom _ _ H) in F. lia. }
      destruct (u - length (g_adj g)) as [|k]; simpl in Hl; [inversion Hl; auto|].
      destruct k; discriminate.
  - intros u v w F. apply (r_dom _ _ H) in F. lia.
  - intros D. apply (r_sym _ _ H D).
  - unfold numEdges; simpl. fold (numEdges g). rewrite (r_cnt _ _ H).
    symmetry. apply edge_count_grow. apply (r_dom _ _ H).
Qed.

Lemma clear_repr : forall g, repr (clear g) a_clear.
Proof.
  intros. constructor; simpl; auto; try discriminate.
  - intros u l H; destruct u; discriminate.
  - intros u l v H; destruct u; discriminate.
Qed.

(** *** addEdge *)
Lemma addEdge_ok : forall g a u v w, repr g a -> can_add (g_loops g) a u v ->
  exists g', addEdge u v w g = (Ok tt, g') /\
    repr g' (mkA (a_n a) (set_edge (g_directed g) (a_edge a) u v (Some w))) /\
    g_directed g' = g_directed g /\ g_loops g' = g_loops g /\ g_vdata g' = g_vdata g.
Proof.
  intros g a u v w H (Hu & Hv & Hloop & Hnone).
  pose proof (r_n _ _ H) as Hn.
  unfold addEdge. fold (numVertices g). rewrite Hn.
  assert (G1 : (a_n a <=? u) || (a_n a <=? v) = false) by (apply guard_false; auto).
  rewrite G1.
  assert (G2 : negb (g_loops g) && Nat.eqb u v = false).
  { destruct (Nat.eqb_spec u v); [rewrite Hloop by auto; auto|apply andb_false_r]. }
  rewrite G2.
  destruct (repr_adj _ _ u H Hu) as [lu Hlu]. destruct (repr_adj _ _ v H Hv) as [lv Hlv].
  unfold sbind at 1, slift at 1. unfold vget at 1. rewrite Hlu.
  assert (Fu : find_to lu v = None).
  { pose proof (r_edge _ _ H u lu v Hlu) as F. rewrite Hnone in F.
    destruct (find_to lu v); [discriminate|auto]. }
  rewrite scan_to_find, Fu. simpl isSome. cbv iota.
  unfold push_edge, sbind, slift, swrite, sret, vget, vset. simpl.
  rewrite Hlu. rewrite (proj2 (Nat.ltb_lt u (length (g_adj g)))) by (rewrite (r_adj _ _ H); auto).
  simpl.
  assert (NDu : NoDup (targets (lu ++ [mkEdge v w]))).
  { rewrite targets_app. apply NoDup_app_intro.
    - eapply (r_dup _ _ H); eauto.
    - repeat constructor; simpl; tauto.
    - simpl. intros x Hx [->|[]]. apply scan_to_In in Hx. rewrite scan_to_find, Fu in Hx. discriminate. }
  destruct (g_directed g) eqn:D; simpl.
  - (* directed *)
    eexists; split; [reflexivity|]. split; [|auto].
    constructor; simpl; auto.
    + rewrite upd_length. apply (r_adj _ _ H).
    + intros x l Hl. rewrite nth_error_upd in Hl. destruct (Nat.eqb_spec u x).
      * destruct (u <? length (g_adj g)); inversion Hl; subst; auto.
      * eapply (r_dup _ _ H); eauto.
    + intros x l y Hl. rewrite nth_error_upd in Hl. unfold set1.
      destruct (Nat.eqb_spec u x).
      * destruct (u <? length (g_adj g)); inversion Hl; subst. rewrite Nat.eqb_refl. simpl.
        rewrite find_to_app. simpl. rewrite (Nat.eqb_sym y v).
        destruct (Nat.eqb_spec v y).
        -- subst. rewrite Fu. reflexivity.
        -- rewrite <- (r_edge _ _ H x lu y Hlu). destruct (find_to lu y); reflexivity.
      * destruct (Nat.eqb_spec x u); [congruence|]. simpl. eapply (r_edge _ _ H); eauto.
    + unfold set1. intros x y w'. destruct (Nat.eqb_spec x u); destruct (Nat.eqb_spec y v); simpl;
        subst; auto; apply (r_dom _ _ H).
    + rewrite D. discriminate.
    + unfold numEdges; simpl. fold (numEdges g). rewrite (r_cnt _ _ H).
      rewrite D. symmetry. apply (edge_count_set true a u v w); auto. discriminate.
  - destruct (Nat.eqb_spec u v) as [Huv|Huv]; simpl.
    + (* undirected self loop *)
      eexists; split; [reflexivity|]. split; [|auto]. subst v.
      constructor; simpl; auto.
      * rewrite upd_length. apply (r_adj _ _ H).
      * intros x l Hl. rewrite nth_error_upd in Hl. destruct (Nat.eqb_spec u x).
        -- destruct (u <? length (g_adj g)); inversion Hl; subst; auto.
        -- eapply (r_dup _ _ H); eauto.
      * intros x l y Hl. rewrite nth_error_upd in Hl. unfold set1.
        destruct (Nat.eqb_spec u x).
        -- destruct (u <? length (g_adj g)); inversion Hl; subst. rewrite Nat.eqb_refl. simpl.
           rewrite find_to_app. simpl. rewrite (Nat.eqb_sym y x).
           destruct (Nat.eqb_spec x y).
           ++ subst. rewrite Fu. reflexivity.
           ++ rewrite <- (r_edge _ _ H x lu y Hlu). destruct (find_to lu y); reflexivity.
        -- destruct (Nat.eqb_spec x u); [congruence|]. simpl. eapply (r_edge _ _ H); eauto.
      * unfold set1. intros x y w'. destruct (Nat.eqb_spec x u); destruct (Nat.eqb_spec y u); simpl;
        subst; auto; apply (r_dom _ _ H).
      * intros _ x y. unfold set1. rewrite (andb_comm (Nat.eqb y u)).
        destruct (Nat.eqb x u && Nat.eqb y u); auto. apply (r_sym _ _ H D).
      * unfold numEdges; simpl. fold (numEdges g). rewrite (r_cnt _ _ H).
        rewrite D. symmetry. apply (edge_count_set false a u u w); auto.
        intros _. apply (r_sym _ _ H D).
    + (* undirected, both directions *)
      rewrite nth_error_upd_neq by auto. rewrite Hlv.
      rewrite upd_length.
      rewrite (proj2 (Nat.ltb_lt v (length (g_adj g)))) by (rewrite (r_adj _ _ H); auto).
      eexists; split; [reflexivity|]. split; [|auto].
      assert (Fv : find_to lv u = None).
      { pose proof (r_edge _ _ H v lv u Hlv) as F. rewrite (r_sym _ _ H D v u), Hnone in F.
        destruct (find_to lv u); [discriminate|auto]. }
      constructor; simpl; auto.
      * rewrite !upd_length. apply (r_adj _ _ H).
      * intros x l Hl. rewrite nth_error_upd in Hl. destruct (Nat.eqb_spec v x).
        -- destruct (v <? _); inversion Hl; subst.
           rewrite targets_app. apply NoDup_app_intro.
           ++ eapply (r_dup _ _ H); eauto.
           ++ repeat constructor; simpl; tauto.
           ++ simpl. intros z Hz [->|[]]. apply scan_to_In in Hz.
              rewrite scan_to_find, Fv in Hz. discriminate.
        -- rewrite nth_error_upd in Hl. destruct (Nat.eqb_spec u x).
           ++ destruct (u <? _); inversion Hl; subst; auto.
           ++ eapply (r_dup _ _ H); eauto.
      * intros x l y Hl. unfold set1. rewrite nth_error_upd in Hl.
        destruct (Nat.eqb_spec v x).
        -- destruct (v <? _); inversion Hl; subst x. subst l. rewrite Nat.eqb_refl. simpl.
           rewrite find_to_app. simpl. rewrite (Nat.eqb_sym y u).
           destruct (Nat.eqb_spec u y).
           ++ subst y. rewrite Fv. reflexivity.
           ++ destruct (Nat.eqb_spec v u); [congruence|]. simpl.
              rewrite <- (r_edge _ _ H v lv y Hlv). destruct (find_to lv y); reflexivity.
        -- rewrite nth_error_upd in Hl. destruct (Nat.eqb_spec x v); [congruence|]. simpl.
           destruct (Nat.eqb_spec u x).
           ++ destruct (u <? _); inversion Hl; subst x. subst l. rewrite Nat.eqb_refl. simpl.
              rewrite find_to_app. simpl. rewrite (Nat.eqb_sym y v).
              destruct (Nat.eqb_spec v y).
              ** subst y. rewrite Fu. reflexivity.
              ** rewrite <- (r_edge _ _ H u lu y Hlu). destruct (find_to lu y); reflexivity.
           ++ destruct (Nat.eqb_spec x u); [congruence|]. simpl. eapply (r_edge _ _ H); eauto.
      * unfold set1. intros x y w'.
        destruct (Nat.eqb_spec x v); destruct (Nat.eqb_spec y u); simpl; subst; auto;
        repeat match goal with |- context [Nat.eqb ?a ?b] => destruct (Nat.eqb_spec a b) end;
        simpl; subst; auto; apply (r_dom _ _ H).
      * intros _ x y. unfold set1.
        rewrite (andb_comm (Nat.eqb y v)), (andb_comm (Nat.eqb y u)).
        rewrite (r_sym _ _ H D x y).
        destruct (Nat.eqb x v && Nat.eqb y u); destruct (Nat.eqb x u && Nat.eqb y v); auto.
      * unfold numEdges; simpl. fold (numEdges g). rewrite (r_cnt _ _ H).
        rewrite D. symmetry. apply (edge_count_set false a u v w); auto.
        intros _. apply (r_sym _ _ H D).
Qed.

Lemma addEdge_fail : forall g a u v w, repr g a -> ~ can_add (g_loops g) a u v ->
  exists e, addEdge u v w g = (Throw e, g).
Proof.
  intros g a u v w H Hno. unfold addEdge. fold (numVertices g). rewrite (r_n _ _ H).
  destruct ((a_n a <=? u) || (a_n a <=? v)) eqn:G1; [eexists; reflexivity|].
  apply guard_false in G1. destruct G1 as [Hu Hv].
  destruct (negb (g_loops g) && Nat.eqb u v) eqn:G2; [eexists; reflexivity|].
  destruct (repr_adj _ _ u H Hu) as [lu Hlu].
  unfold sbind at 1, slift at 1. unfold vget at 1. rewrite Hlu.
  rewrite scan_to_find. pose proof (r_edge _ _ H u lu v Hlu) as F.
  destruct (find_to lu v) eqn:Fu; simpl.
  - eexists; reflexivity.
  - exfalso. apply Hno. repeat split; auto.
    intros ->. rewrite Nat.eqb_refl in G2. destruct (g_loops g); auto; discriminate.
Qed.

(** *** removeEdge *)
Lemma removeEdge_false : forall g a u v, repr g a -> a_edge a u v = None ->
  removeEdge u v g = (Ok false, g).
Proof.
  intros g a u v H Hnone. unfold removeEdge. fold (numVertices g). rewrite (r_n _ _ H).
  destruct ((a_n a <=? u) || (a_n a <=? v)) eqn:G1; [reflexivity|].
  apply guard_false in G1. destruct G1 as [Hu Hv].
  destruct (repr_adj _ _ u H Hu) as [lu Hlu].
  unfold sbind at 1, slift at 1. unfold vget at 1. rewrite Hlu.
  rewrite scan_to_find. pose proof (r_edge _ _ H u lu v Hlu) as F. rewrite Hnone in F.
  destruct (find_to lu v) eqn:Fu; [discriminate|]. reflexivity.
Qed.

Lemma removeEdge_true : forall g a u v w, repr g a -> a_edge a u v = Some w ->
  exists g', removeEdge u v g = (Ok true, g') /\
    repr g' (mkA (a_n a) (set_edge (g_directed g) (a_edge a) u v None)) /\
    g_directed g' = g_directed g /\ g_loops g' = g_loops g /\ g_vdata g' = g_vdata g.
Proof.
  intros g a u v w H Hw.
  destruct (r_dom _ _ H _ _ _ Hw) as [Hu Hv].
  unfold removeEdge. fold (numVertices g). rewrite (r_n _ _ H).
  rewrite (proj2 (guard_false (a_n a) u v)) by auto.
  destruct (repr_adj _ _ u H Hu) as [lu Hlu]. destruct (repr_adj _ _ v H Hv) as [lv Hlv].
  unfold sbind at 1, slift at 1. unfold vget at 1. rewrite Hlu.
  rewrite scan_to_find. pose proof (r_edge _ _ H u lu v Hlu) as F. rewrite Hw in F.
  destruct (find_to lu v) eqn:Fu; [|discriminate]. simpl.
  assert (Hcnt : edge_count (g_directed g) a =
      S (edge_count (g_directed g) (mkA (a_n a) (set_edge (g_directed g) (a_edge a) u v None)))).
  { eapply edge_count_unset; eauto. apply (r_sym _ _ H). }
  pose proof (r_cnt _ _ H) as Hne. rewrite Hcnt in Hne. unfold numEdges in Hne.
  unfold erase_edge, sbind, slift, swrite, sret, vget, vset. simpl. rewrite Hlu.
  rewrite (proj2 (Nat.ltb_lt u (length (g_adj g)))) by (rewrite (r_adj _ _ H); auto).
  simpl. rewrite Hne. simpl.
  destruct (g_directed g) eqn:D; simpl.
  - eexists; split; [reflexivity|]. split; [|auto].
    constructor; simpl; auto.
    + apply (r_n _ _ H).
    + rewrite upd_length. apply (r_adj _ _ H).
    + intros x l Hl. rewrite nth_error_upd in Hl. destruct (Nat.eqb_spec u x).
      * destruct (u <? length (g_adj g)); inversion Hl; subst.
        apply erase_to_NoDup. eapply (r_dup _ _ H); eauto.
      * eapply (r_dup _ _ H); eauto.
    + intros x l y Hl. rewrite nth_error_upd in Hl. unfold set1.
      destruct (Nat.eqb_spec u x).
      * destruct (u <? length (g_adj g)); inversion Hl; subst. rewrite Nat.eqb_refl. simpl.
        rewrite find_to_erase by (eapply (r_dup _ _ H); eauto). rewrite (Nat.eqb_sym y v).
        destruct (Nat.eqb_spec v y); auto. apply (r_edge _ _ H x lu y Hlu).
      * destruct (Nat.eqb_spec x u); [congruence|]. simpl. eapply (r_edge _ _ H); eauto.
    + unfold set1. intros x y w'. destruct (Nat.eqb_spec x u); destruct (Nat.eqb_spec y v); simpl;
        subst; try discriminate; apply (r_dom _ _ H).
    + rewrite D; discriminate.
    + unfold numEdges. simpl. rewrite D. reflexivity.
  - destruct (Nat.eqb_spec u v) as [Huv|Huv]; simpl.
    + eexists; split; [reflexivity|]. split; [|auto]. subst v.
      constructor; simpl; auto.
      * apply (r_n _ _ H).
      * rewrite upd_length. apply (r_adj _ _ H).
      * intros x l Hl. rewrite nth_error_upd in Hl. destruct (Nat.eqb_spec u x).
        -- destruct (u <? length (g_adj g)); inversion Hl; subst.
           apply erase_to_NoDup. eapply (r_dup _ _ H); eauto.
        -- eapply (r_dup _ _ H); eauto.
      * intros x l y Hl. rewrite nth_error_upd in Hl. unfold set1.
        destruct (Nat.eqb_spec u x).
        -- destruct (u <? length (g_adj g)); inversion Hl; subst. rewrite Nat.eqb_refl. simpl.
           rewrite find_to_erase by (eapply (r_dup _ _ H); eauto). rewrite (Nat.eqb_sym y x).
           destruct (Nat.eqb_spec x y); auto. apply (r_edge _ _ H x lu y Hlu).
        -- destruct (Nat.eqb_spec x u); [congruence|]. simpl. eapply (r_edge _ _ H); eauto.
      * unfold set1. intros x y w'. destruct (Nat.eqb_spec x u); destruct (Nat.eqb_spec y u); simpl;
        subst; try discriminate; apply (r_dom _ _ H).
      * intros _ x y. unfold set1. rewrite (andb_comm (Nat.eqb y u)).
        destruct (Nat.eqb x u && Nat.eqb y u); auto. apply (r_sym _ _ H D).
      * unfold numEdges. simpl. rewrite D. reflexivity.
    + rewrite nth_error_upd_neq by auto. rewrite Hlv. rewrite upd_length.
      rewrite (proj2 (Nat.ltb_lt v (length (g_adj g)))) by (rewrite (r_adj _ _ H); auto).
      eexists; split; [reflexivity|]. split; [|auto].
      constructor; simpl; auto.
      * apply (r_n _ _ H).
      * rewrite !upd_length. apply (r_adj _ _ H).
      * intros x l Hl. rewrite nth_error_upd in Hl. destruct (Nat.eqb_spec v x).
        -- destruct (v <? _); inversion Hl; subst.
           apply erase_to_NoDup. eapply (r_dup _ _ H); eauto.
        -- rewrite nth_error_upd in Hl. destruct (Nat.eqb_spec u x).
           ++ destruct (u <? _); inversion Hl; subst.
              apply erase_to_NoDup. eapply (r_dup _ _ H); eauto.
           ++ eapply (r_dup _ _ H); eauto.
      * intros x l y Hl. unfold set1. rewrite nth_error_upd in Hl.
        destruct (Nat.eqb_spec v x).
        -- destruct (v <? _); inversion Hl; subst x. subst l. rewrite Nat.eqb_refl. simpl.
           rewrite find_to_erase by (eapply (r_dup _ _ H); eauto). rewrite (Nat.eqb_sym y u).
           destruct (Nat.eqb_spec u y); auto.
           destruct (Nat.eqb_spec v u); [congruence|]. simpl. apply (r_edge _ _ H v lv y Hlv).
        -- rewrite nth_error_upd in Hl. destruct (Nat.eqb_spec x v); [congruence|]. simpl.
           destruct (Nat.eqb_spec u x).
           ++ destruct (u <? _); inversion Hl; subst x. subst l. rewrite Nat.eqb_refl. simpl.
              rewrite find_to_erase by (eapply (r_dup _ _ H); eauto). rewrite (Nat.eqb_sym y v).
              destruct (Nat.eqb_spec v y); auto. apply (r_edge _ _ H u lu y Hlu).
           ++ destruct (Nat.eqb_spec x u); [congruence|]. simpl. eapply (r_edge _ _ H); eauto.
      * unfold set1. intros x y w'.
        destruct (Nat.eqb x v && Nat.eqb y u); [discriminate|].
        destruct (Nat.eqb x u && Nat.eqb y v); [discriminate|]. apply (r_dom _ _ H).
      * intros _ x y. unfold set1.
        rewrite (andb_comm (Nat.eqb y v)), (andb_comm (Nat.eqb y u)).
        rewrite (r_sym _ _ H D x y).
        destruct (Nat.eqb x v && Nat.eqb y u); destruct (Nat.eqb x u && Nat.eqb y v); auto.
      * unfold numEdges. simpl. rewrite D. reflexivity.
Qed.


Lemma repr_ext : forall g a (b : agraph E), repr g a -> a_n a = a_n b ->
  (forall u v, a_edge a u v = a_edge b u v) -> repr g b.
Proof.
  intros g a b H Hn He. constructor.
  - rewrite <- Hn. apply (r_n _ _ H).
  - rewrite <- Hn. apply (r_adj _ _ H).
  - apply (r_dup _ _ H).
  - intros u l v Hl. rewrite <- He. eapply (r_edge _ _ H); eauto.
  - intros u v w. rewrite <- He, <- Hn. apply (r_dom _ _ H).
  - intros D u v. rewrite <- !He. apply (r_sym _ _ H D).
  - rewrite (r_cnt _ _ H). apply count_ext; auto. intros. rewrite He; auto.
Qed.

Lemma repr_same_numEdges : forall g g' a u v w, repr g a -> can_add (g_loops g) a u v ->
  addEdge u v w g = (Ok tt, g') -> numEdges g' = S (numEdges g).
Proof.
  intros g g' a u v w H Hc He.
  destruct (addEdge_ok g a u v w H Hc) as (g2 & E2 & H2 & D2 & _).
  rewrite He in E2. inversion E2; subst g2.
  rewrite (r_cnt _ _ H2), (r_cnt _ _ H), D2. destruct Hc as (Hu & Hv & _ & Hnone).
  apply edge_count_set; auto. intros D. apply (r_sym _ _ H D).
Qed.

Lemma unset_none : forall d (m : nat -> nat -> option E) u v,
  m u v = None -> (d = false -> forall x y, m x y = m y x) ->
  forall x y, m x y = set_edge d m u v None x y.
Proof.
  intros d m u v Hm Hs x y. unfold set_edge, set1. destruct d.
  - destruct (Nat.eqb_spec x u); destruct (Nat.eqb_spec y v); simpl; subst; auto.
  - repeat match goal with |- context [Nat.eqb ?a ?b] => destruct (Nat.eqb_spec a b) end;
      simpl; subst; auto; rewrite (Hs eq_refl); auto.
Qed.

(** *** One call, then histories *)
Lemma can_add_dec : forall lp a u v, can_add lp a u v \/ ~ can_add lp a u v.
Proof.
  intros. unfold can_add.
  destruct (Nat.lt_ge_cases u (a_n a)); [|right; lia].
  destruct (Nat.lt_ge_cases v (a_n a)); [|right; lia].
  destruct (a_edge a u v); [right; intuition discriminate|].
  destruct (Nat.eq_dec u v); destruct lp; intuition congruence.
Qed.

Lemma exec_op_repr : forall g a o, repr g a ->
  exists g' a', exec_op g o = Ok g' /\ spec_op (g_directed g) (g_loops g) a o a' /\ repr g' a' /\
    g_directed g' = g_directed g /\ g_loops g' = g_loops g.
Proof.
  intros g a o H. destruct o as [d|u v w|u v|]; simpl.
  - exists (fst (addVertex g d)), (a_addVertex a). split; [reflexivity|]. split; [apply s_addV|]. split; [apply addVertex_repr; auto|auto].
  - destruct (can_add_dec (g_loops g) a u v) as [Hc|Hc].
    + destruct (addEdge_ok g a u v w H Hc) as (g' & E' & H' & D' & L' & _).
      unfold run_catch. rewrite E'. do 2 eexists. split; [reflexivity|].
      split; [apply s_addE; auto|]. auto.
    + destruct (addEdge_fail g a u v w H Hc) as (e & E').
      unfold run_catch. rewrite E'. exists g, a. split; [reflexivity|].
      split; [apply s_addE_rejected; auto|]. auto.
  - destruct (a_edge a u v) as [w|] eqn:Hw.
    + destruct (removeEdge_true g a u v w H Hw) as (g' & E' & H' & D' & L' & _).
      unfold run_catch. rewrite E'. do 2 eexists. split; [reflexivity|].
      split; [apply s_rem|]. auto.
    + unfold run_catch. rewrite (removeEdge_false g a u v H Hw). do 2 eexists. split; [reflexivity|].
      split; [apply s_rem|]. split; [|auto]. eapply repr_ext; eauto.
      simpl. apply unset_none; auto. apply (r_sym _ _ H).
  - exists (clear g), a_clear. split; [reflexivity|]. split; [apply s_clear|]. split; [apply clear_repr|auto].
Qed.

Lemma exec_ops_repr : forall ops g a, repr g a ->
  exists g' a', exec_ops g ops = Ok g' /\ spec_ops (g_directed g) (g_loops g) a ops a' /\ repr g' a' /\
    g_directed g' = g_directed g /\ g_loops g' = g_loops g.
Proof.
  induction ops as [|o ops IH]; intros g a H.
  - exists g, a. simpl. repeat apply conj; auto. constructor.
  - destruct (exec_op_repr g a o H) as (g1 & a1 & E1 & S1 & H1 & D1 & L1).
    destruct (IH g1 a1 H1) as (g2 & a2 & E2 & S2 & H2 & D2 & L2).
    exists g2, a2. unfold exec_ops in *. simpl. rewrite E1. simpl.
    rewrite D1, L1 in S2. repeat apply conj; auto; try congruence. econstructor; eauto.
Qed.

(** *** Graphs a client can build *)
Definition api_graph (g : graph V E) : Prop :=
  exists conv n directed loops ops, exec_ops (graph_sized conv n directed loops) ops = Ok g.

Lemma api_repr : forall g, api_graph g -> exists a, repr g a.
Proof.
  intros g (conv & n & d & lp & ops & H).
  destruct (exec_ops_repr ops _ _ (repr_sized conv n d lp)) as (g' & a' & E' & _ & H' & _).
  rewrite H in E'. inversion E'; subst. eauto.
Qed.

(** the edge relation as observed through the API *)
Definition gedge (g : graph V E) (u : nat) (w : E) (v : nat) : Prop := edgeWeight g u v = Ok w.

(** What the algorithms need to know about a graph. *)
Record gwf (g : graph V E) : Prop := {
  w_adj : length (g_adj g) = numVertices g;
  w_dup : forall u l, nth_error (g_adj g) u = Some l -> NoDup (targets l);
  w_edge : forall u l, nth_error (g_adj g) u = Some l ->
           forall v w, In (mkEdge v w) l <-> gedge g u w v;
  w_dom : forall u v w, gedge g u w v -> u < numVertices g /\ v < numVertices g;
  w_fun : forall u v w w', gedge g u w v -> gedge g u w' v -> w = w';
  w_sym : g_directed g = false -> forall u v w, gedge g u w v -> gedge g v w u
}.

Lemma gedge_repr : forall g a, repr g a -> forall u w v, gedge g u w v <-> a_edge a u v = Some w.
Proof.
  intros g a H u w v. unfold gedge. rewrite (edgeWeight_repr g a u v H).
  destruct (a_edge a u v); [split; congruence|].
  destruct ((a_n a <=? u) || (a_n a <=? v)); split; discriminate.
Qed.

Lemma repr_gwf : forall g a, repr g a -> gwf g.
Proof.
  intros g a H. constructor.
  - rewrite (r_adj _ _ H), (r_n _ _ H). auto.
  - apply (r_dup _ _ H).
  - intros u l Hl v w. rewrite (gedge_repr g a H). rewrite <- (r_edge _ _ H u l v Hl). unfold opt_w.
    split.
    + intros Hin. apply find_to_In in Hin; [|eapply (r_dup _ _ H); eauto]. simpl in Hin.
      rewrite Hin. reflexivity.
    + destruct (find_to l v) eqn:F; simpl; [|discriminate]. apply find_to_Some in F.
      destruct F as [F1 F2]. intros G. inversion G; subst. destruct e; auto.
  - intros u v w G. apply (gedge_repr g a H) in G. rewrite (r_n _ _ H).
    apply (r_dom _ _ H) in G. auto.
  - unfold gedge. congruence.
  - intros D u v w. rewrite !(gedge_repr g a H). rewrite (r_sym _ _ H D). auto.
Qed.

Lemma api_gwf : forall g, api_graph g -> gwf g.
Proof. intros g H. destruct (api_repr g H) as [a Ha]. eapply repr_gwf; eauto. Qed.

End Repr.
