(** * C11: Kruskal *)

From Coq Require Import List Arith Bool Lia Permutation Sorting ZArith.
From Verif Require Import Base Graph_Spec Graph_Model Graph_Proofs GraphAlg_Model GraphAlg_Tree GraphAlg_Bfs
  GraphAlg_Bellman GraphAlg_Forest GraphAlg_UnionFind.
Import ListNotations.

(** ** Specification *)

Section Spec.
Context {G : Type} (K : ogroup G) (edge : nat -> G -> nat -> Prop).

(** a list of edges of the graph without redundant edges that connects whatever the graph connects *)
Definition spanning_forest (F : list (nat * nat * G)) : Prop :=
  (forall u v w, In (u, v, w) F -> edge u w v) /\
  forest (map fst F) /\
  (forall u v, reachable edge u v -> conn (map fst F) u v).

Definition minimum_spanning_forest (T : list (nat * nat * G)) : Prop :=
  spanning_forest T /\
  forall F, spanning_forest F -> ogltb K (gsum K (map snd F)) (gsum K (map snd T)) = false.
End Spec.

Definition wOps {G} (K : ogroup G) : WeightOps G := mkWOps G (og0 K) (ogadd K) (ogltb K).

(** ** Sorting *)

Section Sort.
Context {G : Type} (K : ogroup G).
Notation le a b := (ogltb K b a = false).
Definition tw (x : G * nat * nat) : G := fst (fst x).
Definition twle (x y : G * nat * nat) : Prop := le (tw x) (tw y).

Lemma tup_lt_le : forall x y, tup_lt (wOps K) x y = true -> twle x y.
Proof.
  intros [[wx ux] vx] [[wy uy] vy]. unfold tup_lt, twle, tw. simpl.
  destruct (ogltb K wx wy) eqn:E; simpl; [intros _; apply lt_le; auto|].
  destruct (ogltb K wy wx); simpl; [discriminate|auto].
Qed.
Lemma tup_nlt_le : forall x y, tup_lt (wOps K) x y = false -> twle y x.
Proof.
  intros [[wx ux] vx] [[wy uy] vy]. unfold tup_lt, twle, tw. simpl.
  destruct (ogltb K wx wy) eqn:E; simpl; [discriminate|auto].
Qed.

Lemma tup_insert_perm : forall x l, Permutation (tup_insert (wOps K) x l) (x :: l).
Proof.
  intros x l. induction l as [|y l IH]; simpl; auto. destruct (tup_lt (wOps K) y x); auto.
  eapply perm_trans; [apply perm_skip; exact IH|apply perm_swap].
Qed.
Lemma tup_sort_perm : forall l, Permutation (tup_sort (wOps K) l) l.
Proof.
  unfold tup_sort. induction l as [|x l IH]; simpl; auto. eapply perm_trans; [apply tup_insert_perm|]. auto.
Qed.

Lemma tup_insert_sorted : forall x l, StronglySorted twle l -> StronglySorted twle (tup_insert (wOps K) x l).
Proof.
  intros x l H. induction H as [|y l H IH Hall]; simpl; [constructor; [constructor|constructor]|].
  destruct (tup_lt (wOps K) y x) eqn:E.
  - constructor; auto. apply Forall_forall. intros z Hz.
    eapply Permutation_in in Hz; [|apply tup_insert_perm]. destruct Hz as [<-|Hz].
    + apply tup_lt_le. auto.
    + eapply Forall_forall in Hall; eauto.
  - apply tup_nlt_le in E. constructor; [constructor; auto|]. constructor; auto.
    eapply Forall_impl; [|exact Hall]. intros z Hz. unfold twle in *. eapply le_trans; eauto.
Qed.
Lemma tup_sort_sorted : forall l, StronglySorted twle (tup_sort (wOps K) l).
Proof. unfold tup_sort. induction l as [|x l IH]; simpl; [constructor|]. apply tup_insert_sorted. auto. Qed.

Lemma sorted_split : forall (l : list (G * nat * nat)) pre x post y, StronglySorted twle l -> l = pre ++ x :: post -> In y pre -> twle y x.
Proof.
  intros l pre x post y H. revert pre. induction H as [|z l H IH Hall]; intros pre E Hy; [destruct pre; discriminate|].
  destruct pre as [|z' pre]; [destruct Hy|]. injection E as <- E. destruct Hy as [<-|Hy].
  - eapply Forall_forall in Hall; [exact Hall|]. rewrite E. apply in_or_app. right. left. auto.
  - eapply IH; eauto.
Qed.
End Sort.

Section Kruskal.
Context {V G : Type} (K : ogroup G) (g : graph V G) (Hg : gwf g) (Hu : g_directed g = false).
Notation n := (numVertices g).
Notation edge := (gedge g).
Notation le a b := (ogltb K b a = false).

Lemma kr_collect_ok : wp (kr_collect g) (fun es => forall u v w, In (w, u, v) es <-> edge u w v /\ u < v).
Proof.
  unfold kr_collect.
  eapply wp_conseq; [|apply (for_range_inv _ _ (fun i (es : list (G * nat * nat)) =>
     forall u v w, In (w, u, v) es <-> u < i /\ edge u w v /\ u < v)); [lia| |]].
  - intros es H u v w. cbv beta in H. rewrite H. split; [tauto|]. intros [He Hl]. split; auto. apply (w_dom g Hg _ _ _ He).
  - intros u v w. simpl. split; [tauto|lia].
  - intros i es _ Hi HI. apply wp_bind. apply neighbors_wp; auto. intros l El Hmem _.
    eapply wp_conseq; [|apply (for_each_inv _ _ _ (fun (pre : list (Graph_Model.edge G)) es' =>
      forall u v w, In (w, u, v) es' <-> In (w, u, v) es \/ (u = i /\ i < v /\ In (mkEdge v w) pre)))].
    + intros es' H u v w. cbv beta in H. rewrite H, HI, Hmem. split.
      * intros [(A & B & C)|(-> & A & B)]; [split; [lia|auto]|split; [lia|auto]].
      * intros (A & B & C). destruct (Nat.eq_dec u i) as [->|]; [right; auto|left; split; [lia|auto]].
    + intros u v w. simpl. tauto.
    + intros pre [t x] post es' E HI'. apply wp_Ok. intros u v w. rewrite Hu. simpl. rewrite in_app_iff.
      destruct (Nat.ltb_spec i t) as [Hlt|Hge].
      * rewrite in_app_iff, HI'. simpl. split.
        -- intros [[A|(A & B & C)]|[[= <- <- <-]|[]]]; auto 8.
        -- intros [A|(-> & A & [B|[[= <- <-]|[]]])]; auto.
      * rewrite HI'. split; [intros [A|(A & B & C)]; auto|].
        intros [A|(-> & A & [B|[[= <- <-]|[]]])]; auto. lia.
Qed.

(** properties of the tree built from the processed prefix [pre] *)
Record kinv (pre : list (G * nat * nat)) (T : list (nat * nat * G)) (tot : G) : Prop := {
  k_in : forall u v w, In (u, v, w) T -> In (w, u, v) pre;
  k_forest : forest (map ends T);
  k_conn : forall w u v, In (w, u, v) pre -> conn (map ends (light K w T)) u v;
  k_tot : tot = gsum K (map wt T)
}.

Lemma light_all : forall t T, (forall e, In e T -> le (wt e) t) -> light K t T = T.
Proof.
  intros t T H. unfold light. induction T as [|e T IH]; simpl; auto.
  rewrite (H e (or_introl eq_refl)). simpl. f_equal. apply IH. intros x Hx. apply H. right. auto.
Qed.

Lemma kruskal_main : 0 < n -> exists N, forall fuel, N <= fuel ->
  wp (Kruskal (wOps K) fuel g) (fun r => exists es,
    (forall u v w, In (w, u, v) es <-> edge u w v /\ u < v) /\
    kinv es (m_edges r) (m_total r) /\ m_complete r = Nat.eqb (length (m_edges r)) (n - 1)).
Proof.
  intros Hn. exists (S n). intros fuel Hf. unfold Kruskal. destruct (Nat.eqb_spec n 0) as [|_]; [lia|].
  apply wp_bind. eapply wp_conseq; [|apply kr_collect_ok]. intros es0 Hes0. cbv beta in Hes0.
  set (es := tup_sort (wOps K) es0).
  assert (Hes : forall u v w, In (w, u, v) es <-> edge u w v /\ u < v).
  { intros u v w. rewrite <- Hes0. split; apply Permutation_in; [|apply Permutation_sym]; apply tup_sort_perm. }
  assert (Hso : StronglySorted (twle K) es) by apply tup_sort_sorted.
  clearbody es. apply wp_bind.
  eapply wp_conseq; [|apply (for_each_brk_inv _ _ _ (kr_step (wOps K) fuel n)
     (fun pre s => let '(u, T, tot) := s in uinv n (map ends T) u /\ kinv pre T tot)
     (fun r => kinv es (fst r) (snd r)))].
  - intros [[[u T] tot]|[T tot]].
    + intros [_ HI]. apply wp_Ok. exists es. auto.
    + intros HI. apply wp_Ok. exists es. auto.
  - split; [apply uinv_init|]. constructor; simpl; auto; try (intros; contradiction). apply forest_nil.
  - intros pre [[w a] b] post [[u T] tot] E [HU HI]. unfold kr_step.
    assert (Hin : In (w, a, b) es) by (rewrite E; apply in_or_app; right; left; auto).
    destruct (proj1 (Hes a b w) Hin) as [He Hab]. destruct (w_dom g Hg _ _ _ He) as [Ha Hb].
    apply wp_bind. eapply wp_conseq; [|apply (uinv_unite n (map ends T) u fuel a b HU Ha Hb ltac:(lia))].
    intros [u' joined] [HJ HU']. cbv beta iota.
    assert (HTle : forall e, In e T -> le (wt e) w).
    { intros [[x y] z] Hx. apply (k_in _ _ _ HI) in Hx. apply (sorted_split K es pre (w, a, b) post (z, x, y) Hso E Hx). }
    destruct joined.
    + assert (Hnc : ~ conn (map ends T) a b) by tauto.
      assert (HI' : kinv (pre ++ [(w, a, b)]) (T ++ [(a, b, w)]) (ogadd K tot w)).
      { constructor.
        - intros x y z Hx. apply in_app_or in Hx. apply in_or_app. destruct Hx as [Hx|[[= <- <- <-]|[]]].
          + left. apply (k_in _ _ _ HI). auto.
          + right. left. auto.
        - rewrite map_app. simpl. apply forest_snoc; auto. apply (k_forest _ _ _ HI).
        - intros z x y Hx. apply in_app_or in Hx. destruct Hx as [Hx|[[= <- <- <-]|[]]].
          + eapply conn_incl; [|apply (k_conn _ _ _ HI); eauto].
            intros e Hein. apply in_map_iff in Hein as (e' & <- & He'). apply in_map. apply light_In in He' as [H1 H2].
            apply light_In. split; auto. apply in_or_app. auto.
          + apply conn_edge. apply in_map_iff. exists (a, b, w). split; auto. apply light_In. split.
            * apply in_or_app. right. left. auto.
            * apply le_refl.
        - rewrite map_app. simpl. rewrite gsum_snoc. rewrite <- (k_tot _ _ _ HI). auto. }
      simpl w_plus. destruct (Nat.eqb_spec (length (T ++ [(a, b, w)])) (n - 1)) as [El|El]; apply wp_Ok.
      * (* early exit: the tree already spans all vertices *)
        simpl. set (T' := T ++ [(a, b, w)]) in *.
        assert (HinT' : inside n (map ends T')).
        { intros x y Hxy. apply in_map_iff in Hxy as ([[x' y'] z] & [= <- <-] & Hx). apply (k_in _ _ _ HI') in Hx.
          assert (Hx' : In (z, x', y') es).
          { rewrite E. apply in_app_or in Hx. apply in_or_app. destruct Hx as [Hx|[<-|[]]]; auto. right. left. auto. }
          apply Hes in Hx' as [Hx' _]. apply (w_dom g Hg _ _ _ Hx'). }
        assert (Hspan : forall x y, x < n -> y < n -> conn (map ends T') x y).
        { apply (forest_span n (map ends T') HinT' (k_forest _ _ _ HI') Hn). rewrite map_length. auto. }
        constructor.
        -- intros x y z Hx. apply (k_in _ _ _ HI') in Hx. rewrite E. apply in_app_or in Hx. apply in_or_app.
           destruct Hx as [Hx|[<-|[]]]; auto. right. left. auto.
        -- apply (k_forest _ _ _ HI').
        -- intros z x y Hx. destruct (proj1 (Hes x y z) Hx) as [Hex _]. destruct (w_dom g Hg _ _ _ Hex) as [Hxn Hyn].
           rewrite E in Hx. apply in_app_or in Hx. destruct Hx as [Hx|[Hx|Hx]].
           ++ apply (k_conn _ _ _ HI'). apply in_or_app. auto.
           ++ apply (k_conn _ _ _ HI'). apply in_or_app. right. left. auto.
           ++ rewrite light_all; [auto|]. intros [[p q] zz] Hp. apply (k_in _ _ _ HI') in Hp.
              apply in_split in Hx as (p1 & p2 & Hp12). subst post.
              assert (E' : es = (pre ++ (w, a, b) :: p1) ++ (z, x, y) :: p2) by (rewrite <- app_assoc; auto).
              apply (sorted_split K es _ (z, x, y) p2 (zz, p, q) Hso E').
              apply in_app_or in Hp. apply in_or_app. destruct Hp as [Hp|[<-|[]]]; auto. right. left. auto.
        -- apply (k_tot _ _ _ HI').
      * split; [|auto]. rewrite map_app. auto.
    + assert (Hc : conn (map ends T) a b).
      { destruct (conn_dec (map ends T) a b) as [|Hn']; auto. apply HJ in Hn'. discriminate. }
      apply wp_Ok. split; auto. constructor.
      * intros x y z Hx. apply in_or_app. left. apply (k_in _ _ _ HI). auto.
      * apply (k_forest _ _ _ HI).
      * intros z x y Hx. apply in_app_or in Hx. destruct Hx as [Hx|[[= <- <- <-]|[]]].
        -- apply (k_conn _ _ _ HI). auto.
        -- rewrite light_all; auto.
      * apply (k_tot _ _ _ HI).
Qed.

Lemma reach_conn : forall P, (forall u w v, edge u w v -> conn P u v) -> forall u v, reachable edge u v -> conn P u v.
Proof.
  intros P H u v [ws Hw]. induction Hw as [|u w v ws t He Hw IH]; [constructor|].
  eapply conn_trans; [eapply H; eauto|auto].
Qed.

Lemma conn_reach : forall T, (forall u v w, In (u, v, w) T -> edge u w v) -> forall u v, conn (map ends T) u v -> reachable edge u v.
Proof.
  intros T H u v Hc. induction Hc as [x|x y Hin|x y Hc IH|x y z H1 IH1 H2 IH2].
  - exists []. constructor.
  - apply in_map_iff in Hin as ([[a b] w] & [= <- <-] & Hin). exists [w]. econstructor; [eauto|constructor].
  - destruct IH as [ws Hw]. clear -Hw Hg Hu. revert ws y Hw. apply (walk_rind _ edge x (fun _ y => reachable edge y x)).
    + exists []. constructor.
    + intros ws y w t _ [ws' IH] He. exists (w :: ws'). econstructor; [apply (w_sym g Hg Hu); eauto|auto].
  - destruct IH1 as [a Ha], IH2 as [b Hb]. exists (a ++ b). eapply walk_app; eauto.
Qed.

Lemma kinv_msf : forall es T tot, (forall u v w, In (w, u, v) es <-> edge u w v /\ u < v) -> kinv es T tot ->
  minimum_spanning_forest K edge T.
Proof.
  intros es T tot Hes HI.
  assert (HTe : forall u v w, In (u, v, w) T -> edge u w v).
  { intros u v w Hin. apply (k_in _ _ _ HI) in Hin. apply Hes in Hin. tauto. }
  assert (Hlight : forall u w v, edge u w v -> conn (map ends (light K w T)) u v).
  { intros u w v He. destruct (Nat.lt_trichotomy u v) as [Hlt|[->|Hgt]].
    - apply (k_conn _ _ _ HI). apply Hes. auto.
    - constructor.
    - apply conn_sym. apply (k_conn _ _ _ HI). apply Hes. split; auto. apply (w_sym g Hg Hu). auto. }
  assert (Hsp : forall u v, reachable edge u v -> conn (map ends T) u v).
  { apply reach_conn. intros u w v He. eapply conn_incl; [|apply (Hlight u w v He)].
    intros e Hin. apply in_map_iff in Hin as (e' & <- & He'). apply in_map. apply light_In in He'. tauto. }
  split; [split; [auto|split; [apply (k_forest _ _ _ HI)|auto]]|].
  intros F (F1 & F2 & F3).
  apply (forest_optimal K n T F); auto.
  - intros u v Hin. apply in_map_iff in Hin as ([[a b] w] & [= <- <-] & Hin). apply (w_dom g Hg _ _ _ (HTe _ _ _ Hin)).
  - intros u v Hin. apply in_map_iff in Hin as ([[a b] w] & [= <- <-] & Hin). apply (w_dom g Hg _ _ _ (F1 _ _ _ Hin)).
  - apply (k_forest _ _ _ HI).
  - intros u v w Hin. apply F3. exists [w]. econstructor; [eauto|constructor].
Qed.

End Kruskal.

(** ** C11 *)

Theorem C11_kruskal : forall V G (K : ogroup G) (g : graph V G), api_graph g -> g_directed g = false ->
  exists N, forall fuel, N <= fuel -> exists r, Kruskal (wOps K) fuel g = Ok r /\
    minimum_spanning_forest K (gedge g) (m_edges r) /\
    m_total r = gsum K (map snd (m_edges r)) /\
    (m_complete r = true <-> forall u v, u < numVertices g -> v < numVertices g -> reachable (gedge g) u v) /\
    (m_complete r = true -> length (m_edges r) = numVertices g - 1).
Proof.
  intros V G K g Ha Hu. pose proof (api_gwf g Ha) as Hg.
  destruct (Nat.eq_dec (numVertices g) 0) as [H0|H0].
  { exists 0. intros fuel _. unfold Kruskal. rewrite H0. eexists. split; [reflexivity|]. simpl.
    assert (Hno : forall u w v, ~ gedge g u w v) by (intros u w v He; apply (w_dom g Hg) in He; lia).
    assert (Hr : forall u v, reachable (gedge g) u v -> u = v).
    { intros u v [ws Hw]. inversion Hw; subst; auto. exfalso. eapply Hno; eauto. }
    split; [split|].
    - split; [intros u v w []|]. split; [apply forest_nil|]. intros u v Huv. apply Hr in Huv as ->. constructor.
    - intros F (F1 & _). destruct F as [|[[u v] w] F]; [apply le_refl|]. exfalso. eapply Hno. apply F1. left. reflexivity.
    - split; auto. split; [split; auto; intros _ u v Hlt; lia|auto]. }
  destruct (kruskal_main K g Hg Hu ltac:(lia)) as (N & HN). exists N. intros fuel Hf.
  destruct (wp_elim _ _ _ (HN fuel Hf)) as (r & Hr & es & Hes & HI & Hc). exists r. split; auto.
  pose proof (kinv_msf K g Hg Hu es _ _ Hes HI) as HM. split; auto. split; [apply (k_tot _ _ _ _ HI)|].
  destruct HM as [(HT1 & HT2 & HT3) _].
  assert (Hin : inside (numVertices g) (map ends (m_edges r))).
  { intros u v Hin. apply in_map_iff in Hin as ([[a b] w] & [= <- <-] & Hin). apply (w_dom g Hg _ _ _ (HT1 _ _ _ Hin)). }
  rewrite Hc, Nat.eqb_eq. split; [|auto].
  rewrite <- (map_length ends (m_edges r)). rewrite (forest_span _ _ Hin HT2) by lia. split.
  - intros H u v Hu' Hv. eapply (conn_reach g Hg Hu); eauto.
  - intros H u v Hu' Hv. apply HT3. auto.
Qed.
Print Assumptions C11_kruskal.

Definition mst_ops : list (op nat Z) :=
  [OpAddEdge 0 1 4; OpAddEdge 1 2 8; OpAddEdge 2 3 7; OpAddEdge 3 4 9; OpAddEdge 4 5 10; OpAddEdge 5 2 4;
   OpAddEdge 5 3 14; OpAddEdge 0 6 8; OpAddEdge 1 6 (-2); OpAddEdge 6 5 1]%Z.
Example C11_example : exists g r, exec_ops (graph_sized (fun i => i) 7 false false) mst_ops = Ok g /\
  Kruskal (wOps Zog) 10 g = Ok r /\ m_complete r = true /\ m_total r = 23%Z /\
  m_edges r = [(1, 6, (-2)%Z); (5, 6, 1%Z); (0, 1, 4%Z); (2, 5, 4%Z); (2, 3, 7%Z); (3, 4, 9%Z)].
Proof. do 2 eexists. split; [vm_compute; reflexivity|]. split; [vm_compute; reflexivity|]. auto. Qed.
