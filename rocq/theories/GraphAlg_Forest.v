(** * Connectivity, forests and minimum forests on finite edge lists *)

From Coq Require Import List Arith Bool Lia Permutation.
From Verif Require Import Base Graph_Spec GraphAlg_Bellman.
Import ListNotations.

(** ** Specification *)

(** the equivalence relation generated by a list of pairs *)
Inductive conn (P : list (nat * nat)) : nat -> nat -> Prop :=
| conn_refl : forall x, conn P x x
| conn_edge : forall u v, In (u, v) P -> conn P u v
| conn_sym : forall x y, conn P x y -> conn P y x
| conn_trans : forall x y z, conn P x y -> conn P y z -> conn P x z.

(** no edge of the list is redundant: its endpoints are not connected by the others *)
Definition forest (P : list (nat * nat)) : Prop :=
  forall A u v B, P = A ++ (u, v) :: B -> ~ conn (A ++ B) u v.

(** ** Theory *)

Lemma conn_mono : forall P Q, (forall u v, In (u, v) P -> conn Q u v) -> forall x y, conn P x y -> conn Q x y.
Proof. intros P Q H x y Hc. induction Hc; eauto using conn. Qed.

Lemma conn_incl : forall P Q, incl P Q -> forall x y, conn P x y -> conn Q x y.
Proof. intros P Q H. apply conn_mono. intros u v Hi. apply conn_edge. auto. Qed.

Fixpoint lab (P : list (nat * nat)) (x : nat) : nat :=
  match P with
  | [] => x
  | (u, v) :: P' => if Nat.eqb (lab P' x) (lab P' u) then lab P' v else lab P' x
  end.

Lemma lab_edge : forall P u v, In (u, v) P -> lab P u = lab P v.
Proof.
  induction P as [|[a b] P IH]; intros u v Hin0; [destruct Hin0|]; destruct Hin0 as [E|Hin]; simpl.
  - injection E as -> ->. rewrite Nat.eqb_refl. destruct (lab P v =? lab P u); auto.
  - rewrite (IH u v Hin). auto.
Qed.

Lemma lab_self : forall P x, conn P x (lab P x).
Proof.
  induction P as [|[a b] P IH]; intros x; simpl; [constructor|].
  assert (Hm : forall x y, conn P x y -> conn ((a, b) :: P) x y).
  { apply conn_incl. intros e He. right. auto. }
  destruct (Nat.eqb_spec (lab P x) (lab P a)) as [E|E]; [|apply Hm; apply IH].
  eapply conn_trans; [apply Hm; apply IH|]. rewrite E.
  eapply conn_trans; [apply conn_sym; apply Hm; apply IH|].
  eapply conn_trans; [apply conn_edge; left; reflexivity|]. apply Hm. apply IH.
Qed.

Lemma lab_conn : forall P x y, conn P x y <-> lab P x = lab P y.
Proof.
  intros P x y. split.
  - intros H. induction H; auto; [apply lab_edge; auto|congruence].
  - intros H. eapply conn_trans; [apply lab_self|]. rewrite H. apply conn_sym. apply lab_self.
Qed.

Lemma conn_dec : forall P x y, {conn P x y} + {~ conn P x y}.
Proof.
  intros P x y. destruct (Nat.eq_dec (lab P x) (lab P y)) as [E|E].
  - left. apply lab_conn. auto.
  - right. intros H. apply E. apply lab_conn. auto.
Qed.

Definition inside (n : nat) (P : list (nat * nat)) : Prop := forall u v, In (u, v) P -> u < n /\ v < n.

Lemma lab_lt : forall n P x, inside n P -> x < n -> lab P x < n.
Proof.
  intros n P x H Hx. revert x Hx. induction P as [|[u v] P IH]; intros x Hx; simpl; auto.
  assert (HP : inside n P) by (intros a b Hab; apply H; right; auto).
  destruct (H u v (or_introl eq_refl)). destruct (lab P x =? lab P u); auto.
Qed.

(** number of classes among the vertices below [n] *)
Definition ncomp (n : nat) (P : list (nat * nat)) : nat :=
  length (nodup Nat.eq_dec (map (lab P) (seq 0 n))).

Lemma in_image : forall n P y, In y (nodup Nat.eq_dec (map (lab P) (seq 0 n))) <-> exists x, x < n /\ lab P x = y.
Proof.
  intros n P y. rewrite nodup_In, in_map_iff. split.
  - intros (x & E & Hx). apply in_seq in Hx. exists x. split; [lia|auto].
  - intros (x & Hx & E). exists x. split; auto. apply in_seq. lia.
Qed.

Lemma ncomp_cons : forall n P u v, inside n P -> u < n -> v < n -> ~ conn P u v ->
  S (ncomp n ((u, v) :: P)) = ncomp n P.
Proof.
  intros n P u v HP Hu Hv Hn. rewrite lab_conn in Hn. unfold ncomp.
  set (I' := nodup Nat.eq_dec (map (lab ((u, v) :: P)) (seq 0 n))).
  change (S (length I')) with (length (lab P u :: I')).
  assert (Hi' : forall y, In y I' <-> exists x, x < n /\ lab ((u, v) :: P) x = y) by apply in_image.
  apply Permutation_length. apply NoDup_Permutation.
  - constructor; [|apply NoDup_nodup]. intros Hin. apply Hi' in Hin as (x & Hx & E). simpl in E.
    destruct (Nat.eqb_spec (lab P x) (lab P u)); congruence.
  - apply NoDup_nodup.
  - intros y. rewrite in_image. simpl In. rewrite Hi'. split.
    + intros [<-|(x & Hx & E)]; [eauto|]. simpl in E.
      destruct (Nat.eqb_spec (lab P x) (lab P u)); eauto.
    + intros (x & Hx & E). destruct (Nat.eq_dec (lab P x) (lab P u)) as [Eu|Eu]; [left; congruence|].
      right. exists x. split; auto. simpl. destruct (Nat.eqb_spec (lab P x) (lab P u)); congruence.
Qed.

Lemma ncomp_mono : forall n P Q, inside n P -> (forall x y, conn P x y -> conn Q x y) -> ncomp n Q <= ncomp n P.
Proof.
  intros n P Q HP H. unfold ncomp.
  rewrite <- (map_length (lab Q) (nodup Nat.eq_dec (map (lab P) (seq 0 n)))).
  apply NoDup_incl_length; [apply NoDup_nodup|]. intros y Hy. apply in_image in Hy as (x & Hx & <-).
  apply in_map_iff. exists (lab P x). split.
  - symmetry. apply lab_conn. apply H. apply lab_self.
  - apply in_image. eauto.
Qed.

Lemma ncomp_nil : forall n, ncomp n [] = n.
Proof.
  intros n. unfold ncomp. change (lab []) with (fun x : nat => x). rewrite map_id, nodup_fixed_point by apply seq_NoDup.
  apply seq_length.
Qed.

Lemma ncomp_lower : forall n P, inside n P -> n <= ncomp n P + length P.
Proof.
  induction P as [|[u v] P IH]; intros HP; [rewrite ncomp_nil; simpl; lia|].
  assert (HP' : inside n P) by (intros a b Hab; apply HP; right; auto).
  specialize (IH HP'). destruct (HP u v (or_introl eq_refl)) as [Hu Hv]. simpl length.
  destruct (conn_dec P u v) as [Hc|Hc].
  - assert (ncomp n P <= ncomp n ((u, v) :: P)); [|lia]. apply ncomp_mono; auto.
    apply conn_mono. intros a b [[= <- <-]|Hin]; auto. apply conn_edge. auto.
  - pose proof (ncomp_cons n P u v HP' Hu Hv Hc). lia.
Qed.

(** incremental forests *)
Fixpoint iforest (P : list (nat * nat)) : Prop :=
  match P with [] => True | (u, v) :: P' => iforest P' /\ ~ conn P' u v end.

Lemma forest_iforest : forall P, forest P -> iforest P.
Proof.
  induction P as [|[u v] P IH]; intros H; simpl; auto. split.
  - apply IH. intros A a b B E Hc. apply (H ((u, v) :: A) a b B); [rewrite E; auto|].
    eapply conn_incl; [|exact Hc]. intros e He. right. auto.
  - apply (H [] u v P). auto.
Qed.

Lemma iforest_ncomp : forall n P, inside n P -> iforest P -> ncomp n P + length P = n.
Proof.
  induction P as [|[u v] P IH]; intros HP; [intros _; rewrite ncomp_nil; simpl; lia|].
  intros [Hf Hn]. assert (HP' : inside n P) by (intros a b Hab; apply HP; right; auto).
  destruct (HP u v (or_introl eq_refl)) as [Hu Hv]. specialize (IH HP' Hf). simpl length.
  pose proof (ncomp_cons n P u v HP' Hu Hv Hn). lia.
Qed.

Lemma inside_bound : forall P, exists n, inside n P.
Proof.
  induction P as [|[u v] P [n IH]]; [exists 0; intros u v []|].
  exists (n + u + v + 1). intros a b [[= <- <-]|Hin]; [lia|]. apply IH in Hin. lia.
Qed.

Lemma inside_incl : forall n P Q, incl Q P -> inside n P -> inside n Q.
Proof. intros n P Q Hi H u v Hin. apply H. apply Hi. auto. Qed.

Lemma iforest_forest : forall P, iforest P -> forest P.
Proof.
  intros P Hf A u v B E Hc. destruct (inside_bound P) as [n HP].
  pose proof (iforest_ncomp n P HP Hf) as H1.
  assert (HAB : inside n (A ++ B)).
  { eapply inside_incl; [|exact HP]. rewrite E. intros e He. apply in_app_or in He. apply in_or_app.
    destruct He; auto. right. right. auto. }
  pose proof (ncomp_lower n (A ++ B) HAB) as H2.
  assert (H3 : ncomp n (A ++ B) <= ncomp n P).
  { apply ncomp_mono; auto. apply conn_mono. intros a b Hin. rewrite E in Hin. apply in_app_or in Hin.
    destruct Hin as [Hin|[[= <- <-]|Hin]]; auto; apply conn_edge; apply in_or_app; auto. }
  rewrite E in H1 at 2. rewrite app_length in *. simpl in H1. lia.
Qed.

Lemma forest_perm : forall P Q, Permutation P Q -> forest P -> forest Q.
Proof.
  intros P Q HP Hf A u v B E Hc. subst Q.
  assert (Hin : In (u, v) P) by (eapply Permutation_in; [apply Permutation_sym; exact HP|]; apply in_or_app; right; left; auto).
  apply in_split in Hin as (A' & B' & ->). apply (Hf A' u v B' eq_refl).
  eapply conn_incl; [|exact Hc]. apply Permutation_app_inv in HP. intros e He.
  eapply Permutation_in; [apply Permutation_sym; exact HP|auto].
Qed.

Lemma forest_nil : forest [].
Proof. intros A u v B E. destruct A; discriminate. Qed.

Lemma forest_snoc : forall P u v, forest P -> ~ conn P u v -> forest (P ++ [(u, v)]).
Proof.
  intros P u v Hf Hn. eapply forest_perm; [apply Permutation_cons_append|].
  apply iforest_forest. simpl. split; auto. apply forest_iforest. auto.
Qed.

(** a forest has at most as many edges as any edge set that connects its endpoints *)
Lemma forest_rank : forall n F S, inside n F -> inside n S -> forest F ->
  (forall u v, In (u, v) F -> conn S u v) -> length F <= length S.
Proof.
  intros n F S HF HS Hf H. pose proof (iforest_ncomp n F HF (forest_iforest F Hf)) as H1.
  pose proof (ncomp_lower n S HS) as H2.
  pose proof (ncomp_mono n F S HF (conn_mono F S H)) as H3. lia.
Qed.

(** a forest on [n >= 1] vertices has n-1 edges iff it connects them all *)
Lemma forest_span : forall n F, inside n F -> forest F -> 0 < n ->
  (length F = n - 1 <-> forall x y, x < n -> y < n -> conn F x y).
Proof.
  intros n F HF Hf Hn. pose proof (iforest_ncomp n F HF (forest_iforest F Hf)) as H1.
  assert (Hin0 : In (lab F 0) (nodup Nat.eq_dec (map (lab F) (seq 0 n)))) by (apply in_image; eauto).
  unfold ncomp in H1. set (I := nodup Nat.eq_dec (map (lab F) (seq 0 n))) in *. split.
  - intros Hl x y Hx Hy. assert (HI : length I = 1) by lia.
    destruct I as [|a [|b I']] eqn:EI; try (simpl in HI; lia).
    assert (Hall : forall z, z < n -> lab F z = a).
    { intros z Hz. assert (Hzin : In (lab F z) I) by (apply in_image; eauto). rewrite EI in Hzin.
      destruct Hzin as [<-|[]]; auto. }
    apply lab_conn. rewrite !Hall; auto.
  - intros H. assert (HI : length I <= 1).
    { change 1 with (length [lab F 0]). apply NoDup_incl_length; [apply NoDup_nodup|].
      intros y Hy. apply in_image in Hy as (x & Hx & <-). left. apply lab_conn. auto. }
    destruct I; [destruct Hin0|]. simpl in *. lia.
Qed.

(** ** Weights *)

Definition ends {E} (e : nat * nat * E) : nat * nat := fst e.
Definition wt {E} (e : nat * nat * E) : E := snd e.

Section Weights.
Context {G : Type} (K : ogroup G).
Notation "a + b" := (ogadd K a b).
Notation lt a b := (ogltb K a b = true).
Notation le a b := (ogltb K b a = false).

Definition upto (t : G) (l : list G) : list G := filter (fun a => negb (ogltb K t a)) l.
Lemma upto_In : forall t l a, In a (upto t l) <-> In a l /\ le a t.
Proof. intros t l a. unfold upto. rewrite filter_In. destruct (ogltb K t a); simpl; intuition congruence. Qed.

Lemma max_split : forall l : list G, l <> [] -> exists A m B, l = A ++ m :: B /\ forall x, In x l -> le x m.
Proof.
  induction l as [|a l IH]; intros H; [congruence|]. destruct l as [|b l].
  - exists [], a, []. split; auto. intros x [<-|[]]. apply le_refl.
  - destruct IH as (A & m & B & E & Hm); [discriminate|]. rewrite E in *.
    destruct (ogltb K m a) eqn:Elt.
    + exists [], a, (A ++ m :: B). split; auto. intros x [<-|Hx]; [apply le_refl|].
      apply lt_le. eapply le_lt_trans; eauto.
    + exists (a :: A), m, B. split; auto. intros x [<-|Hx]; auto.
Qed.

Lemma upto_mid : forall t A m B, length (upto t (A ++ m :: B)) =
  (length (upto t (A ++ B)) + if ogltb K t m then 0 else 1)%nat.
Proof.
  intros. unfold upto. rewrite !filter_app, !app_length. simpl. destruct (ogltb K t m); simpl; lia.
Qed.
Lemma upto_le : forall t l, length (upto t l) <= length l.
Proof. intros. unfold upto. induction l as [|a l IH]; simpl; auto. destruct (negb _); simpl; lia. Qed.
Lemma upto_all : forall t l, (forall x, In x l -> le x t) -> length (upto t l) = length l.
Proof.
  intros t l. unfold upto. induction l as [|a l IH]; intros H; simpl; auto.
  rewrite (H a (or_introl eq_refl)). simpl. f_equal. apply IH. intros x Hx. apply H. right. auto.
Qed.
Lemma upto_all_inv : forall t l, length (upto t l) = length l -> forall x, In x l -> le x t.
Proof.
  intros t l. unfold upto. induction l as [|a l IH]; intros H x []; simpl in H.
  - subst. destruct (ogltb K t x); auto. simpl in H. pose proof (upto_le t l). unfold upto in *. lia.
  - apply IH; auto. destruct (ogltb K t a); simpl in H; [|lia]. pose proof (upto_le t l). unfold upto in *. lia.
Qed.

Lemma gsum_mid : forall A m B, gsum K (A ++ m :: B) = gsum K (A ++ B) + m.
Proof.
  intros. rewrite !gsum_app. simpl. rewrite <- (og_assoc _ K). f_equal. apply (og_comm _ K).
Qed.

(** if below every threshold [A] has at least as many elements as [B], its sum is no larger *)
Lemma majorize : forall k A B, length A = k -> length B = k ->
  (forall t, length (upto t B) <= length (upto t A)) -> le (gsum K A) (gsum K B).
Proof.
  induction k as [|k IH]; intros A B HA HB H.
  - destruct A; [|discriminate]. destruct B; [|discriminate]. apply le_refl.
  - destruct (max_split A) as (A1 & a & A2 & EA & Ha); [intros ->; discriminate|].
    destruct (max_split B) as (B1 & b & B2 & EB & Hb); [intros ->; discriminate|].
    assert (Hab : le a b).
    { apply (upto_all_inv b A).
      - pose proof (H b) as H1. rewrite (upto_all b B Hb) in H1. pose proof (upto_le b A). lia.
      - rewrite EA. apply in_or_app. right. left. auto. }
    rewrite EA, EB, !gsum_mid.
    eapply le_trans; [apply le_mono|].
    + apply (IH (A1 ++ A2) (B1 ++ B2)).
      * rewrite EA, app_length in HA. rewrite app_length. simpl in HA. lia.
      * rewrite EB, app_length in HB. rewrite app_length. simpl in HB. lia.
      * intros t. destruct (ogltb K t a) eqn:Et.
        -- specialize (H t). rewrite EA, EB, !upto_mid in H. rewrite Et in H. destruct (ogltb K t b); lia.
        -- rewrite (upto_all t (A1 ++ A2)).
           ++ pose proof (upto_le t (B1 ++ B2)). rewrite EA, app_length in HA. rewrite EB, app_length in HB.
              simpl in HA, HB. rewrite !app_length in *. lia.
           ++ intros x Hx. eapply le_trans; [apply Ha|exact Et]. rewrite EA. apply in_app_or in Hx.
              apply in_or_app. destruct Hx; auto. right. right. auto.
    + rewrite (og_comm _ K _ a), (og_comm _ K _ b). apply le_mono. auto.
Qed.

(** edges of weight at most [t] *)
Definition light (t : G) (T : list (nat * nat * G)) : list (nat * nat * G) :=
  filter (fun e => negb (ogltb K t (wt e))) T.
Lemma light_In : forall t T e, In e (light t T) <-> In e T /\ le (wt e) t.
Proof. intros t l a. unfold light. rewrite filter_In. destruct (ogltb K t (wt a)); simpl; intuition congruence. Qed.
Lemma light_upto : forall t T, map wt (light t T) = upto t (map wt T).
Proof. intros t T. unfold light, upto. induction T as [|e T IH]; simpl; auto. destruct (negb _); simpl; congruence. Qed.

Lemma iforest_light : forall t T, iforest (map ends T) -> iforest (map ends (light t T)).
Proof.
  intros t T. unfold light. induction T as [|[[u v] w] T IH]; simpl; auto. intros [H1 H2].
  destruct (negb _); simpl; auto. split; auto. intros Hc. apply H2. eapply conn_incl; [|exact Hc].
  intros e He. apply in_map_iff in He as (x & <- & Hx). apply in_map. apply filter_In in Hx. tauto.
Qed.

(** optimality criterion: [T] is a forest that, for every threshold, connects with its light edges
    whatever the light edges of [F] connect; [F] connects whatever [T] connects *)
Lemma forest_optimal : forall n T F, inside n (map ends T) -> inside n (map ends F) ->
  forest (map ends T) -> forest (map ends F) ->
  (forall u v w, In (u, v, w) F -> conn (map ends (light w T)) u v) ->
  (forall u v w, In (u, v, w) T -> conn (map ends F) u v) ->
  length T = length F /\ le (gsum K (map wt T)) (gsum K (map wt F)).
Proof.
  intros n T F HTn HFn HT HF H1 H2.
  assert (Hlen : length T = length F).
  { apply Nat.le_antisymm.
    - rewrite <- (map_length ends T), <- (map_length ends F). apply (forest_rank n); auto.
      intros u v Hin. apply in_map_iff in Hin as ([[a b] w] & [= <- <-] & Hin). eauto.
    - rewrite <- (map_length ends T), <- (map_length ends F). apply (forest_rank n); auto.
      intros u v Hin. apply in_map_iff in Hin as ([[a b] w] & [= <- <-] & Hin).
      eapply conn_incl; [|apply (H1 _ _ _ Hin)]. intros e He. apply in_map_iff in He as (x & <- & Hx).
      apply in_map. apply light_In in Hx. tauto. }
  split; auto. apply (majorize (length T)); [apply map_length|rewrite map_length; auto|].
  intros t. rewrite <- !light_upto, !map_length. rewrite <- (map_length ends (light t F)), <- (map_length ends (light t T)).
  apply (forest_rank n).
  - eapply inside_incl; [|exact HFn]. intros e He. apply in_map_iff in He as (x & <- & Hx). apply in_map. apply light_In in Hx. tauto.
  - eapply inside_incl; [|exact HTn]. intros e He. apply in_map_iff in He as (x & <- & Hx). apply in_map. apply light_In in Hx. tauto.
  - apply iforest_forest. apply iforest_light. apply forest_iforest. auto.
  - intros u v Hin. apply in_map_iff in Hin as ([[a b] w] & [= <- <-] & Hin).
    apply light_In in Hin as [Hin Hle]. simpl in Hle. eapply conn_incl; [|apply (H1 _ _ _ Hin)].
    intros e He. apply in_map_iff in He as (x & <- & Hx). apply in_map. apply light_In in Hx as [Hx1 Hx2].
    apply light_In. split; auto. eapply le_trans; eauto.
Qed.

End Weights.
