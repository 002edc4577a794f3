(** * C12: Prim *)

From Coq Require Import List Arith Bool Lia Permutation ZArith.
From Verif Require Import Base Graph_Spec Graph_Model Graph_Proofs GraphAlg_Model GraphAlg_Tree GraphAlg_Bfs
  GraphAlg_Bellman GraphAlg_Forest GraphAlg_UnionFind GraphAlg_Kruskal.
Import ListNotations.

(** ** Specification *)

(** a tree of graph edges that connects exactly the vertices reachable from [s] *)
Definition spanning_tree_of {G} (edge : nat -> G -> nat -> Prop) (s : nat) (F : list (nat * nat * G)) : Prop :=
  (forall u v w, In (u, v, w) F -> edge u w v /\ reachable edge s u) /\
  forest (map fst F) /\
  (forall v, reachable edge s v -> conn (map fst F) s v).

Definition minimum_tree_of {G} (K : ogroup G) (edge : nat -> G -> nat -> Prop) (s : nat) (T : list (nat * nat * G)) : Prop :=
  spanning_tree_of edge s T /\
  forall F, spanning_tree_of edge s F -> ogltb K (gsum K (map snd F)) (gsum K (map snd T)) = false.

Section Prim.
Context {V G : Type} (K : ogroup G) (g : graph V G) (Hg : gwf g) (Hu : g_directed g = false).
Variable start : nat.
Hypothesis Hstart : start < numVertices g.
Notation n := (numVertices g).
Notation edge := (gedge g).
Notation le a b := (ogltb K b a = false).
Notation O := (wOps K).

Lemma tq_pop_spec : forall l b m r, tq_pop O b l = (m, r) ->
  Permutation (b :: l) (m :: r) /\ forall x, In x (b :: l) -> twle K m x.
Proof.
  induction l as [|y l IH]; intros b m r E; simpl in E.
  - injection E as <- <-. split; auto. intros x [<-|[]]. unfold twle. apply le_refl.
  - destruct (tup_lt O y b) eqn:El.
    + destruct (tq_pop O y l) as [m' r'] eqn:Ep. injection E as <- <-. destruct (IH y m' r' Ep) as [H1 H2]. split.
      * eapply perm_trans; [apply perm_skip; exact H1|apply perm_swap].
      * intros x [<-|Hx]; auto. apply tup_lt_le in El. pose proof (H2 y (or_introl eq_refl)).
        unfold twle in *. eapply le_trans; eauto.
    + destruct (tq_pop O b l) as [m' r'] eqn:Ep. injection E as <- <-. destruct (IH b m' r' Ep) as [H1 H2]. split.
      * eapply perm_trans; [apply perm_swap|]. eapply perm_trans; [apply perm_skip; exact H1|apply perm_swap].
      * intros x [<-|[<-|Hx]]; auto.
        -- apply H2. left. auto.
        -- apply tup_nlt_le in El. pose proof (H2 b (or_introl eq_refl)). unfold twle in *. eapply le_trans; eauto.
        -- apply H2. right. auto.
Qed.

Lemma reach_sym' : forall (t : G -> Prop) u v, reachable (fun a w b => edge a w b /\ t w) u v -> reachable (fun a w b => edge a w b /\ t w) v u.
Proof.
  intros t u v [ws Hw]. revert ws v Hw. apply (walk_rind _ _ u (fun _ v => reachable (fun a w b => edge a w b /\ t w) v u)).
  - exists []. constructor.
  - intros ws y w z _ [ws' IH] [He Ht]. exists (w :: ws'). econstructor; [|exact IH].
    split; auto. apply (w_sym g Hg Hu). auto.
Qed.

(** reachability along edges of weight at most [t] *)
Definition low (t : G) (a : nat) (w : G) (b : nat) : Prop := edge a w b /\ le w t.

Record pinv (S : list nat) (s : prim_st (E := G)) : Prop := {
  p_len : length (q_in s) = n;
  p_nd : NoDup S;
  p_in : forall v, nth_error (q_in s) v = Some true <-> In v S;
  p_start : In start S;
  p_edge : forall u v w, In (u, v, w) (q_edges s) -> edge u w v /\ In u S /\ In v S;
  p_forest : forest (map ends (q_edges s));
  p_conn : forall v, In v S -> conn (map ends (q_edges s)) start v;
  p_pq : forall w u v, In (w, u, v) (q_pq s) -> edge u w v /\ In u S;
  p_cross : forall u w v, edge u w v -> In u S -> ~ In v S -> In (w, u, v) (q_pq s);
  p_low : forall t x y, In x S -> In y S -> reachable (low t) x y -> conn (map ends (light K t (q_edges s))) x y;
  p_tot : q_tot s = gsum K (map wt (q_edges s));
  p_added : q_added s = length (q_edges s);
  p_size : length S = Datatypes.S (q_added s)
}.

Lemma conn_inside : forall (S : list nat) P, (forall u v, In (u, v) P -> In u S /\ In v S) ->
  forall x y, conn P x y -> x = y \/ (In x S /\ In y S).
Proof.
  intros S P H x y Hc. induction Hc as [x|u v Hin|x y Hc IH|x y z H1 IH1 H2 IH2]; auto.
  - destruct IH as [->|[A B]]; auto.
  - destruct IH1 as [->|[A B]]; auto. destruct IH2 as [<-|[C D]]; auto.
Qed.

(** a walk that leaves [S] has a last step back into it *)
Lemma last_entry : forall (R : nat -> G -> nat -> Prop) (S : list nat) x ws v, walk R x ws v -> In x S -> ~ In v S ->
  exists y w z ws', In y S /\ ~ In z S /\ R y w z /\ walk R z ws' v /\ reachable R x y.
Proof.
  intros R S x ws v H. induction H as [x|x w z ws t He Hw IH]; intros Hx Hv; [contradiction|].
  destruct (in_dec Nat.eq_dec z S) as [Hz|Hz].
  - destruct (IH Hz Hv) as (y & w' & z' & ws' & A1 & A2 & A3 & A4 & [r A5]).
    exists y, w', z', ws'. split; auto. split; auto. split; auto. split; auto. exists (w :: r). econstructor; eauto.
  - exists x, w, z, ws. split; auto. split; auto. split; auto. split; auto. exists []. constructor.
Qed.

Lemma low_sym : forall t x y, reachable (low t) x y -> reachable (low t) y x.
Proof. intros t x y H. apply (reach_sym' (fun w => le w t)). exact H. Qed.
Lemma low_trans : forall t x y z, reachable (low t) x y -> reachable (low t) y z -> reachable (low t) x z.
Proof. intros t x y z [a Ha] [b Hb]. exists (a ++ b). eapply walk_app; eauto. Qed.

Lemma light_incl : forall t (T T' : list (nat * nat * G)), incl T T' -> incl (map ends (light K t T)) (map ends (light K t T')).
Proof.
  intros t T T' H e He. apply in_map_iff in He as (x & <- & Hx). apply in_map. apply light_In in Hx as [H1 H2].
  apply light_In. auto.
Qed.

(** total degree of the vertices not yet in the tree *)
Definition deg (v : nat) : nat := match nth_error (g_adj g) v with Some l => length l | None => 0 end.
Definition rem (inm : list bool) : nat := list_sum (map (fun v => if nth v inm false then 0 else deg v) (seq 0 n)).

Lemma rem_upd : forall inm v, length inm = n -> v < n -> nth_error inm v = Some false ->
  rem inm = rem (upd inm v true) + deg v.
Proof.
  intros inm v Hl Hv Hf. unfold rem.
  assert (Hin : In v (seq 0 n)) by (apply in_seq; lia). assert (Hnd : NoDup (seq 0 n)) by apply seq_NoDup.
  assert (Hother : forall x, x <> v -> nth x (upd inm v true) false = nth x inm false).
  { intros x Hx. destruct (nth_error inm x) as [b|] eqn:E.
    - rewrite (nth_error_nth _ _ _ E). apply nth_error_nth. rewrite nth_error_upd_neq; auto.
    - apply nth_error_None in E. rewrite !nth_overflow; auto. rewrite upd_length. auto. }
  assert (Hv1 : nth v inm false = false) by (apply nth_error_nth; auto).
  assert (Hv2 : nth v (upd inm v true) false = true) by (apply nth_error_nth; apply nth_error_upd_eq; lia).
  assert (Hskip : forall l, ~ In v l -> map (fun x => if nth x (upd inm v true) false then 0 else deg x) l =
     map (fun x => if nth x inm false then 0 else deg x) l).
  { intros l Hn. apply map_ext_in. intros x Hx. rewrite Hother; auto. intros ->. contradiction. }
  induction (seq 0 n) as [|x l IH]; [destruct Hin|]. inversion Hnd; subst. simpl.
  destruct Hin as [->|Hin].
  - rewrite Hskip by auto. rewrite Hv1, Hv2. simpl. lia.
  - rewrite (IH Hin) by auto. rewrite Hother by (intros ->; contradiction). lia.
Qed.

Lemma prim_push_ok : forall (inm : list bool) v (l : list (Graph_Model.edge G)) pq, length inm = n -> (forall t w, In (mkEdge t w) l -> t < n) ->
  wp (for_each (fun (pq : list (G * nat * nat)) (e : Graph_Model.edge G) => b <- vget inm (e_to e) ;; Ok (if b then pq else (e_w e, v, e_to e) :: pq)) l pq)
     (fun pq' => length pq' <= length pq + length l /\
       forall w a b, In (w, a, b) pq' <-> In (w, a, b) pq \/ (a = v /\ In (mkEdge b w) l /\ nth_error inm b <> Some true)).
Proof.
  intros inm v l pq Hl Hlt.
  apply (for_each_inv _ _ _ (fun (pre : list (Graph_Model.edge G)) pq' => length pq' <= length pq + length pre /\
       forall w a b, In (w, a, b) pq' <-> In (w, a, b) pq \/ (a = v /\ In (mkEdge b w) pre /\ nth_error inm b <> Some true))).
  - split; [simpl; lia|]. intros w a b. simpl. tauto.
  - intros pre [t x] post pq' E [Hlen HI]. apply wp_bind. simpl e_to. simpl e_w.
    apply vget_wp; [rewrite Hl; eapply Hlt; rewrite E; apply in_or_app; right; left; reflexivity|].
    intros b Hb. apply wp_Ok. rewrite app_length. simpl. destruct b.
    + split; [lia|]. intros w a c. rewrite HI, in_app_iff. simpl. split.
      * intros [A|(A & B & C)]; auto.
      * intros [A|(A & [B|[[= <- <-]|[]]] & C)]; auto. contradiction.
    + split; [simpl; lia|]. intros w a c. simpl. rewrite HI, in_app_iff. simpl. split.
      * intros [[= <- <- <-]|[A|(A & B & C)]]; auto. right. split; auto. split; auto. congruence.
      * intros [A|(A & [B|[[= <- <-]|[]]] & C)]; auto. subst. auto.
Qed.

Lemma prim_step_ok : forall S s, pinv S s ->
  wp (prim_step O g n s) (fun r => match r with
    | inl s' => exists S', pinv S' s' /\ length (q_pq s') + rem (q_in s') < length (q_pq s) + rem (q_in s)
    | inr s' => s' = s /\ (q_pq s = [] \/ n - 1 <= q_added s) end).
Proof.
  intros S s HI. unfold prim_step. destruct (q_pq s) as [|x rest] eqn:Epq; [apply wp_Ok; auto|].
  destruct (Nat.ltb_spec (q_added s) (n - 1)) as [Hadd|Hadd]; simpl negb; cbv iota; [|apply wp_Ok; auto].
  destruct (tq_pop O x rest) as [[[w u] v] pq'] eqn:Epop.
  destruct (tq_pop_spec rest x (w, u, v) pq' Epop) as [Hperm Hmin].
  assert (Hpop : In (w, u, v) (q_pq s)).
  { rewrite Epq. eapply Permutation_in; [apply Permutation_sym; exact Hperm|left; auto]. }
  destruct (p_pq _ _ HI w u v Hpop) as [He HuS]. destruct (w_dom g Hg _ _ _ He) as [Hun Hvn].
  assert (Hlen' : length (x :: rest) = Datatypes.S (length pq')) by (rewrite (Permutation_length Hperm); auto).
  assert (Hsub : forall e, In e pq' -> In e (q_pq s)).
  { intros e Hein. rewrite Epq. eapply Permutation_in; [apply Permutation_sym; exact Hperm|right; auto]. }
  assert (Hsup : forall e, In e (q_pq s) -> e = (w, u, v) \/ In e pq').
  { intros e Hein. rewrite Epq in Hein. eapply Permutation_in in Hein; [|exact Hperm]. destruct Hein; auto. }
  apply wp_bind. apply vget_wp; [rewrite (p_len _ _ HI); auto|]. intros b Hb. destruct b.
  - apply wp_Ok. exists S. simpl q_pq. simpl q_in. split; [|rewrite Hlen'; lia].
    destruct HI as [A1 A2 A3 A4 A5 A6 A7 A8 A9 A10 A11 A12 A13]. constructor; simpl; auto.
    intros a z c Hac Ha Hc. destruct (Hsup _ (A9 a z c Hac Ha Hc)) as [[= -> -> ->]|]; auto.
    exfalso. apply Hc. apply A3. auto.
  - assert (HvS : ~ In v S) by (intros Hin; apply (p_in _ _ HI) in Hin; congruence).
    apply wp_bind. apply vset_wp; [rewrite (p_len _ _ HI); auto|]. apply wp_bind.
    apply neighbors_wp; auto. intros l El Hmem Hnd. apply wp_bind.
    set (inm := upd (q_in s) v true).
    assert (Hinl : length inm = n) by (unfold inm; rewrite upd_length; apply (p_len _ _ HI)).
    eapply wp_conseq; [|apply (prim_push_ok inm v l pq' Hinl)].
    2:{ intros t z Hin. apply Hmem in Hin. apply (w_dom g Hg _ _ _ Hin). }
    intros pq2 [Hpl Hpq2]. apply wp_Ok. exists (v :: S). simpl q_pq. simpl q_in.
    assert (Hdeg : deg v = length l) by (unfold deg; rewrite El; auto).
    split.
    2:{ pose proof (rem_upd (q_in s) v (p_len _ _ HI) Hvn Hb) as Hr. fold inm in Hr. rewrite Hlen'. lia. }
    assert (Hin' : forall z, nth_error inm z = Some true <-> In z (v :: S)).
    { intros z. unfold inm. destruct (Nat.eq_dec v z) as [<-|Hne].
      - rewrite nth_error_upd_eq by (rewrite (p_len _ _ HI); auto). split; auto. left. auto.
      - rewrite nth_error_upd_neq by auto. rewrite (p_in _ _ HI). simpl. split; auto. intros [E|]; auto. congruence. }
    assert (Hinc : incl (q_edges s) (q_edges s ++ [(u, v, w)])) by (intros e Hein; apply in_or_app; auto).
    assert (Hnew : forall t, le w t -> conn (map ends (light K t (q_edges s ++ [(u, v, w)]))) u v).
    { intros t Ht. apply conn_edge. apply in_map_iff. exists (u, v, w). split; auto. apply light_In.
      split; auto. apply in_or_app. right. left. auto. }
    (* key step: x in S low-connected to the new vertex *)
    assert (Hkey : forall t z, In z S -> reachable (low t) z v -> conn (map ends (light K t (q_edges s ++ [(u, v, w)]))) z v).
    { intros t z Hz [ws Hw]. destruct (last_entry (low t) S z ws v Hw Hz HvS) as (y & w' & z' & ws' & B1 & B2 & [B3 B3'] & B4 & B5).
      assert (Hwt : le w t).
      { assert (Hin : In (w', y, z') (q_pq s)) by (apply (p_cross _ _ HI); auto).
        rewrite Epq in Hin. pose proof (Hmin _ Hin) as Hle. unfold twle, tw in Hle. simpl in Hle. eapply le_trans; eauto. }
      assert (Huy : reachable (low t) u y).
      { eapply low_trans with (y := v).
        - exists [w]. econstructor; [split; eauto|constructor].
        - apply low_sym. exists (w' :: ws'). econstructor; [split; eauto|auto]. }
      pose proof (p_low _ _ HI t z y Hz B1 B5) as C1. pose proof (p_low _ _ HI t u y HuS B1 Huy) as C2.
      eapply conn_trans; [eapply conn_incl; [apply light_incl; exact Hinc|exact C1]|].
      eapply conn_trans; [apply conn_sym; eapply conn_incl; [apply light_incl; exact Hinc|exact C2]|]. apply Hnew. auto. }
    destruct HI as [A1 A2 A3 A4 A5 A6 A7 A8 A9 A10 A11 A12 A13]. constructor; simpl; auto.
    + constructor; auto.
    + intros a c z Hac. apply in_app_or in Hac. destruct Hac as [Hac|[[= <- <- <-]|[]]].
      * destruct (A5 _ _ _ Hac) as (B1 & B2 & B3). auto.
      * auto.
    + rewrite map_app. simpl. apply forest_snoc; auto. intros Hc.
      assert (HinS : forall a c, In (a, c) (map ends (q_edges s)) -> In a S /\ In c S).
      { intros a c Hac. apply in_map_iff in Hac as ([[a' c'] z] & [= <- <-] & Hac). apply A5 in Hac. tauto. }
      destruct (conn_inside S _ HinS u v Hc) as [->|[_ ?]]; contradiction.
    + intros z [<-|Hz].
      * eapply conn_trans; [eapply conn_incl; [|apply A7; exact HuS]|].
        -- intros e Hein. rewrite map_app. apply in_or_app. auto.
        -- apply conn_edge. rewrite map_app. apply in_or_app. right. left. auto.
      * eapply conn_incl; [|apply A7; exact Hz]. intros e Hein. rewrite map_app. apply in_or_app. auto.
    + intros z a c Hac. apply Hpq2 in Hac as [Hac|(-> & Hac & _)].
      * apply Hsub in Hac. destruct (A8 _ _ _ Hac). auto.
      * apply Hmem in Hac. auto.
    + intros a z c Hac Ha Hc. apply Hpq2. destruct Ha as [<-|Ha].
      * right. split; auto. split; [apply Hmem; auto|]. intros Ht. apply Hin' in Ht. contradiction.
      * left. destruct (Hsup _ (A9 a z c Hac Ha ltac:(auto))) as [[= -> -> ->]|]; auto.
        exfalso. apply Hc. left. auto.
    + intros t x1 y1 [<-|Hx1] [<-|Hy1] Hr.
      * constructor.
      * apply conn_sym. apply Hkey; auto. apply low_sym. auto.
      * apply Hkey; auto.
      * eapply conn_incl; [apply light_incl; exact Hinc|]. apply A10; auto.
    + rewrite map_app. simpl. rewrite gsum_snoc, A11. auto.
    + rewrite app_length. simpl. lia.
Qed.

Lemma pinv_init : forall l inm, nth_error (g_adj g) start = Some l ->
  (forall v w, In (mkEdge v w) l <-> edge start w v) -> inm = upd (repeat false n) start true ->
  pinv [start] (mkPrim inm (fold_left (fun pq e => (e_w e, start, e_to e) :: pq) l []) [] (og0 K) 0).
Proof.
  intros l inm El Hmem ->.
  assert (Hpq : forall w u v, In (w, u, v) (fold_left (fun pq (e : Graph_Model.edge G) => (e_w e, start, e_to e) :: pq) l []) <->
     u = start /\ edge start w v).
  { assert (G0 : forall l pq w u v, In (w, u, v) (fold_left (fun pq (e : Graph_Model.edge G) => (e_w e, start, e_to e) :: pq) l pq) <->
      In (w, u, v) pq \/ (u = start /\ In (mkEdge v w) l)).
    { clear. induction l as [|[t x] l IH]; intros pq w u v; simpl; [tauto|]. rewrite IH. simpl. split.
      - intros [[[= <- <- <-]|A]|[-> A]]; auto.
      - intros [A|[-> [[= <- <-]|A]]]; auto. }
    intros w u v. rewrite G0. simpl. rewrite Hmem. tauto. }
  constructor; simpl; auto.
  - rewrite upd_length, repeat_length. auto.
  - constructor; [simpl; auto|constructor].
  - intros v. destruct (Nat.eq_dec start v) as [<-|Hne].
    + rewrite nth_error_upd_eq by (rewrite repeat_length; auto). split; auto.
    + rewrite nth_error_upd_neq, repeat_nth_error by auto. split; [destruct (v <? n); discriminate|]. intros [E|[]]. contradiction.
  - intros u v w [].
  - apply forest_nil.
  - intros v [<-|[]]. constructor.
  - intros w u v Hin. apply Hpq in Hin as [-> He]. auto.
  - intros u w v He [<-|[]] _. apply Hpq. auto.
  - intros t x y [<-|[]] [<-|[]] _. constructor.
Qed.

Lemma prim_final : forall S s, pinv S s -> (q_pq s = [] \/ n - 1 <= q_added s) ->
  (forall v, In v S <-> reachable edge start v) /\ minimum_tree_of K edge start (q_edges s) /\
  (length (q_edges s) = n - 1 <-> forall v, v < n -> reachable edge start v).
Proof.
  intros S s HI Hex.
  assert (HSlt : forall v, In v S -> v < n).
  { intros v Hv. apply (p_in _ _ HI) in Hv. apply nth_error_Some_lt in Hv. rewrite (p_len _ _ HI) in Hv. auto. }
  assert (Hclosed : forall u w v, edge u w v -> In u S -> In v S).
  { intros u w v He HuS. destruct (in_dec Nat.eq_dec v S) as [|Hn]; auto. exfalso.
    pose proof (p_cross _ _ HI u w v He HuS Hn) as Hpq. destruct Hex as [Hex|Hex]; [rewrite Hex in Hpq; destruct Hpq|].
    assert (Hall : NoDup (v :: S)) by (constructor; auto; apply (p_nd _ _ HI)).
    assert (Hb : forall z, In z (v :: S) -> z < n).
    { intros z [<-|Hz]; auto. apply (w_dom g Hg _ _ _ He). }
    pose proof (NoDup_bounded_length _ _ Hall Hb) as Hle. simpl in Hle. pose proof (p_size _ _ HI). lia. }
  assert (HS : forall v, In v S <-> reachable edge start v).
  { intros v. split.
    - intros Hv. apply (p_conn _ _ HI) in Hv. eapply (conn_reach g Hg Hu); [|exact Hv].
      intros a b w Hin. apply (p_edge _ _ HI) in Hin. tauto.
    - intros [ws Hw]. revert ws v Hw. apply (walk_rind _ edge start (fun _ v => In v S)); [apply (p_start _ _ HI)|].
      intros ws v w t _ IH He. eapply Hclosed; eauto. }
  split; auto. split.
  - split.
    + split; [|split; [apply (p_forest _ _ HI)|]].
      * intros u v w Hin. destruct (p_edge _ _ HI _ _ _ Hin) as (A & B & C). split; auto. apply HS. auto.
      * intros v Hv. apply (p_conn _ _ HI). apply HS. auto.
    + intros F (F1 & F2 & F3). apply (forest_optimal K n (q_edges s) F); auto.
      * intros u v Hin. apply in_map_iff in Hin as ([[a b] w] & [= <- <-] & Hin).
        apply (p_edge _ _ HI) in Hin as (A & _). apply (w_dom g Hg _ _ _ A).
      * intros u v Hin. apply in_map_iff in Hin as ([[a b] w] & [= <- <-] & Hin). destruct (F1 _ _ _ Hin) as [A _]. apply (w_dom g Hg _ _ _ A).
      * apply (p_forest _ _ HI).
      * intros u v w Hin. destruct (F1 _ _ _ Hin) as [He Hr]. apply HS in Hr. apply (p_low _ _ HI); auto.
        -- eapply Hclosed; eauto.
        -- exists [w]. econstructor; [|constructor]. split; auto. apply le_refl.
      * intros u v w Hin. destruct (p_edge _ _ HI _ _ _ Hin) as (A & B & C). apply HS in B. apply HS in C.
        eapply conn_trans; [apply conn_sym; apply F3; exact B|apply F3; exact C].
  - pose proof (p_size _ _ HI) as Hsz. rewrite (p_added _ _ HI) in Hsz. split.
    + intros Hl v Hv. apply HS.
      assert (Hincl : incl (seq 0 n) S).
      { apply NoDup_length_incl; [apply (p_nd _ _ HI)|rewrite seq_length; lia|].
        intros z Hz. apply in_seq. apply HSlt in Hz. lia. }
      apply Hincl. apply in_seq. lia.
    + intros Hall. assert (Hle : n <= length S).
      { rewrite <- (seq_length n 0). apply NoDup_incl_length; [apply seq_NoDup|].
        intros z Hz. apply HS. apply Hall. apply in_seq in Hz. lia. }
      pose proof (NoDup_bounded_length _ _ (p_nd _ _ HI) HSlt). lia.
Qed.

End Prim.

(** ** C12 *)

(** An out-of-range start vertex means vertex 0. *)
Theorem C12_prim : forall V G (K : ogroup G) (g : graph V G) start0, api_graph g -> g_directed g = false ->
  0 < numVertices g ->
  let start := if start0 <? numVertices g then start0 else 0 in
  exists N, forall fuel, N <= fuel -> exists r, Prim (wOps K) fuel g start0 = Ok r /\
    minimum_tree_of K (gedge g) start (m_edges r) /\
    m_total r = gsum K (map snd (m_edges r)) /\
    (m_complete r = true <-> forall u v, u < numVertices g -> v < numVertices g -> reachable (gedge g) u v) /\
    (m_complete r = true -> length (m_edges r) = numVertices g - 1).
Proof.
  intros V G K g start0 Ha Hu Hn start. pose proof (api_gwf g Ha) as Hg.
  assert (Hs : start < numVertices g) by (unfold start; destruct (Nat.ltb_spec start0 (numVertices g)); auto).
  assert (HW : exists N, forall fuel, N <= fuel -> wp (Prim (wOps K) fuel g start0) (fun r => exists S s, pinv K g start S s /\
     (q_pq s = [] \/ numVertices g - 1 <= q_added s) /\ r = mkMst (Nat.eqb (length (q_edges s)) (numVertices g - 1)) (q_edges s) (q_tot s))).
  { destruct (nth_error_lt _ (g_adj g) start) as [l0 El0]; [rewrite (w_adj g Hg); auto|].
    exists (Datatypes.S (length l0 + rem g (upd (repeat false (numVertices g)) start true))). intros fuel Hf.
    unfold Prim. destruct (Nat.eqb_spec (numVertices g) 0) as [|_]; [lia|].
    replace (if numVertices g <=? start0 then 0 else start0) with start.
    2:{ unfold start. rewrite Nat.leb_antisym. destruct (start0 <? numVertices g); auto. }
    cbv zeta. apply wp_bind. apply vset_wp; [rewrite repeat_length; auto|].
    apply wp_bind. apply neighbors_wp; auto. intros l El Hmem _.
    assert (l = l0) by congruence. subst l0.
    apply wp_bind. eapply wp_conseq; [|apply (iter_inv_idx _ _ (prim_step (wOps K) g (numVertices g))
       (fun k s => exists S, pinv K g start S s /\ length (q_pq s) + rem g (q_in s) = k)
       (fun s => exists S, pinv K g start S s /\ (q_pq s = [] \/ numVertices g - 1 <= q_added s))) with (k := length l + rem g (upd (repeat false (numVertices g)) start true))].
    - intros s (S & H1 & H2). apply wp_Ok. eauto.
    - intros k s (S & HI & Hk). eapply wp_conseq; [|apply (prim_step_ok K g Hg Hu start Hs S s HI)].
      intros [s'|s'].
      + intros (S' & HI' & Hlt). eexists. split; [|eauto]. lia.
      + intros [-> H]. eauto.
    - eexists. split; [apply (pinv_init K g start Hs l _ El Hmem eq_refl)|].
      simpl q_pq. simpl q_in. assert (Hlen : forall pq, length (fold_left (fun pq (e : edge G) => (e_w e, start, e_to e) :: pq) l pq) = length l + length pq).
      { clear. induction l as [|e l IH]; intros pq; simpl; auto. rewrite IH. simpl. lia. }
      rewrite Hlen. simpl. lia.
    - lia. }
  destruct HW as (N & HN). exists N. intros fuel Hf.
  destruct (wp_elim _ _ _ (HN fuel Hf)) as (r & Hr & S & s & HI & Hex & ->). eexists. split; [exact Hr|]. simpl.
  destruct (prim_final K g Hg Hu start Hs S s HI Hex) as (HS & HM & HC).
  split; auto. split; [apply (p_tot _ _ _ _ _ HI)|]. rewrite Nat.eqb_eq. split; auto. rewrite HC. split.
  - intros H u v Hu' Hv. specialize (H u Hu') as H1. specialize (H v Hv) as H2.
    assert (Hsym : reachable (gedge g) u start).
    { destruct H1 as [ws H1]. clear -H1 Hg Hu. revert ws u H1. apply (walk_rind _ (gedge g) start (fun _ y => reachable (gedge g) y start)).
      - exists []. constructor.
      - intros ws y w t _ [ws' IH] He. exists (w :: ws'). econstructor; [apply (w_sym g Hg Hu); eauto|auto]. }
    destruct Hsym as [a Ha'], H2 as [b Hb]. exists (a ++ b). eapply walk_app; eauto.
  - intros H v Hv. apply H; auto.
Qed.
Print Assumptions C12_prim.

(** On a connected undirected graph Kruskal and Prim return trees of the same total weight. *)
Theorem C12_prim_kruskal_agree : forall V G (K : ogroup G) (g : graph V G) start, api_graph g -> g_directed g = false ->
  0 < numVertices g -> (forall u v, u < numVertices g -> v < numVertices g -> reachable (gedge g) u v) ->
  exists N, forall fuel, N <= fuel -> exists r p, Kruskal (wOps K) fuel g = Ok r /\ Prim (wOps K) fuel g start = Ok p /\
    m_total r = m_total p.
Proof.
  intros V G K g start Ha Hu Hn Hall. pose proof (api_gwf g Ha) as Hg.
  destruct (C11_kruskal V G K g Ha Hu) as (N1 & H1). destruct (C12_prim V G K g start Ha Hu Hn) as (N2 & H2).
  exists (N1 + N2). intros fuel Hf. destruct (H1 fuel ltac:(lia)) as (r & R1 & [(RA & RB & RC) RM] & R3 & _).
  destruct (H2 fuel ltac:(lia)) as (p & P1 & [(PA & PB & PC) PM] & P3 & _).
  exists r, p. split; auto. split; auto. rewrite R3, P3.
  set (s := if start <? numVertices g then start else 0) in *.
  assert (Hs : s < numVertices g) by (unfold s; destruct (Nat.ltb_spec start (numVertices g)); auto).
  apply (le_antisym K).
  - apply RM. split; [intros u v w Hin; apply PA; auto|]. split; auto. intros u v Huv.
    destruct (Nat.eq_dec u v) as [->|Hne]; [constructor|].
    assert (Hbu : u < numVertices g /\ v < numVertices g).
    { destruct Huv as [ws Hw]. destruct Hw as [|u w v' ws t He Hw]; [congruence|].
      destruct (w_dom g Hg _ _ _ He) as [Hu0 Hv0]. split; auto. clear -Hw Hv0 Hg.
      induction Hw as [|a w b ws c He Hw IH]; auto. apply IH. apply (w_dom g Hg _ _ _ He). }
    eapply conn_trans; [apply conn_sym; apply PC; apply Hall; tauto|apply PC; apply Hall; tauto].
  - apply PM. split; [|split; auto].
    intros u v w Hin. split; [apply RA; auto|]. apply Hall; auto. apply RA in Hin. apply (w_dom g Hg _ _ _ Hin).
Qed.
Print Assumptions C12_prim_kruskal_agree.

Example C12_example : exists g r, exec_ops (graph_sized (fun i => i) 7 false false) mst_ops = Ok g /\
  Prim (wOps Zog) 40 g 3 = Ok r /\ m_complete r = true /\ m_total r = 23%Z /\
  m_edges r = [(3, 2, 7%Z); (2, 5, 4%Z); (5, 6, 1%Z); (6, 1, (-2)%Z); (1, 0, 4%Z); (3, 4, 9%Z)].
Proof. do 2 eexists. split; [vm_compute; reflexivity|]. split; [vm_compute; reflexivity|]. auto. Qed.
