(** * Proofs about the graph factories (Graph.h:533-595) *)

From Coq Require Import List Arith Bool Lia.
From Verif Require Import Base Graph_Spec Graph_Model Graph_Proofs.
Import ListNotations.

Section F.
Context {V E : Type} (conv : nat -> V) (one : E).

Definition FS (n : nat) (P : nat -> nat -> bool) (c : nat) (g : graph V E) : Prop :=
  repr g (mkA n (fun u v => if P u v then Some one else None)) /\
  numEdges g = c /\ g_directed g = false /\ g_loops g = false.

Lemma FS_init : forall n, FS n (fun _ _ => false) 0 (graph_sized conv n false false).
Proof. intros n. split; [apply repr_sized|]. simpl. auto. Qed.

Lemma FS_ext : forall n P Q c c' g, FS n P c g -> c = c' ->
  (forall x y, P x y = Q x y) -> FS n Q c' g.
Proof.
  intros n P Q c c' g (H & R) <- He. split; auto. eapply repr_ext; eauto. simpl.
  intros. rewrite He. reflexivity.
Qed.

Lemma FS_add : forall n P P' c c' u v g, FS n P c g -> c' = S c -> u <> v -> u < n -> v < n -> P u v = false ->
  (forall x y, P' x y = P x y || (Nat.eqb x u && Nat.eqb y v) || (Nat.eqb x v && Nat.eqb y u)) ->
  wp (run (addEdge u v one) g) (FS n P' c').
Proof.
  intros n P P' c c' u v g (H & Hc & D & L) -> Hne Hu Hv HP HP'.
  assert (Hcan : can_add (g_loops g) (mkA n (fun u v => if P u v then Some one else None)) u v).
  { unfold can_add. simpl. rewrite HP. repeat apply conj; auto. }
  destruct (addEdge_ok g _ u v one H Hcan) as (g' & E' & H' & D' & L' & _).
  unfold run. rewrite E'. simpl. split.
  - eapply repr_ext; eauto. simpl. intros x y. rewrite D. unfold set_edge, set1. rewrite HP'.
    destruct (Nat.eqb x v && Nat.eqb y u); destruct (Nat.eqb x u && Nat.eqb y v);
      destruct (P x y); reflexivity.
  - pose proof (repr_same_numEdges g g' _ u v one H Hcan E') as G. rewrite Hc in G.
    repeat split; auto; congruence.
Qed.

Lemma FS_hasEdge : forall n P c g u v, FS n P c g -> hasEdge g u v = Ok (P u v).
Proof.
  intros n P c g u v (H & _). rewrite (hasEdge_repr g _ u v H). simpl. destruct (P u v); reflexivity.
Qed.

Lemma FS_weight : forall n P c g u v, FS n P c g -> P u v = true -> edgeWeight g u v = Ok one.
Proof.
  intros n P c g u v (H & _) HP. rewrite (edgeWeight_repr g _ u v H). simpl. rewrite HP. reflexivity.
Qed.

Lemma FS_n : forall n P c g, FS n P c g -> numVertices g = n.
Proof. intros n P c g (H & _). apply (r_n _ _ H). Qed.

Ltac brw H :=
  repeat (progress rewrite ?orb_true_iff, ?orb_false_iff, ?andb_true_iff, ?andb_false_iff in H);
  rewrite ?Nat.eqb_eq,
  ?Nat.eqb_neq, ?Nat.ltb_lt, ?Nat.ltb_ge, ?Nat.leb_le, ?Nat.leb_gt in H.
Ltac beq :=
  cbv beta; match goal with |- ?L = ?R =>
    let HL := fresh in let HR := fresh in
    destruct L eqn:HL; destruct R eqn:HR; try reflexivity; exfalso;
    try discriminate; brw HL; brw HR; lia end.

(** ** Path *)
Definition P_path (i x y : nat) : bool :=
  (Nat.eqb y (x + 1) && (y <? i + 1)) || (Nat.eqb x (y + 1) && (x <? i + 1)).

Lemma path_edges_ok : forall n, 1 <= n ->
  wp (create_path_edges one (graph_sized conv n false false) n) (FS n (P_path (n - 1)) (n - 1)).
Proof.
  intros n Hn. destruct n as [|k]; [lia|]. simpl create_path_edges.
  replace (S k - 1) with k by lia.
  apply (for_range_inv _ _ (fun i => FS (S k) (P_path i) i)); [lia| |].
  - eapply FS_ext; [apply FS_init|reflexivity|]. intros x y. unfold P_path. beq.
  - intros i g _ Hi HI.
    eapply FS_add; [eassumption|lia|lia|lia|lia| |].
    + unfold P_path. beq.
    + intros x y. unfold P_path. beq.
Qed.

Lemma create_path_ok : forall n, 1 <= n -> wp (create_path conv one n) (FS n (P_path (n - 1)) (n - 1)).
Proof. intros. apply path_edges_ok; auto. Qed.

(** ** Cycle *)
Definition P_cycle (n x y : nat) : bool :=
  P_path (n - 1) x y ||
  ((2 <? n) && ((Nat.eqb x (n - 1) && Nat.eqb y 0) || (Nat.eqb x 0 && Nat.eqb y (n - 1)))).

Lemma create_cycle_ok : forall n, 1 <= n ->
  wp (create_cycle conv one n) (FS n (P_cycle n) (if 2 <? n then n else n - 1)).
Proof.
  intros n Hn. unfold create_cycle. apply wp_bind. eapply wp_mono; [apply path_edges_ok; auto|].
  intros g H. destruct (Nat.ltb_spec 2 n) as [H2|H2].
  - eapply FS_add; [eassumption|lia|lia|lia|lia| |].
    + unfold P_path. beq.
    + intros x y. unfold P_cycle. rewrite (proj2 (Nat.ltb_lt 2 n)) by auto. simpl.
      destruct (P_path (n - 1) x y); simpl; auto.
  - simpl. eapply FS_ext; [exact H|reflexivity|]. intros x y. unfold P_cycle.
    rewrite (proj2 (Nat.ltb_ge 2 n)) by auto. simpl. rewrite orb_false_r. auto.
Qed.

(** ** Star *)
Definition P_star (i x y : nat) : bool :=
  (Nat.eqb x 0 && (1 <=? y) && (y <? i)) || (Nat.eqb y 0 && (1 <=? x) && (x <? i)).

Lemma create_star_ok : forall n, wp (create_star conv one n) (FS n (P_star n) (n - 1)).
Proof.
  intros n. unfold create_star. destruct n as [|k].
  - rewrite for_range_empty by lia. simpl. eapply FS_ext; [apply FS_init|reflexivity|].
    intros x y. unfold P_star. simpl. rewrite !andb_false_r. reflexivity.
  - apply (for_range_inv _ _ (fun i => FS (S k) (P_star i) (i - 1))); [lia| |].
    + eapply FS_ext; [apply FS_init|reflexivity|]. intros x y. unfold P_star.
      beq.
    + intros i g Hlo Hi HI.
      eapply FS_add; [eassumption|lia|lia|lia|lia| |].
      * unfold P_star. beq.
      * intros x y. unfold P_star.
        beq.
Qed.

(** ** Complete *)
Definition P_compl (n i j x y : nat) : bool :=
  ((x <? y) && (y <? n) && ((x <? i) || (Nat.eqb x i && (y <? j)))) ||
  ((y <? x) && (x <? n) && ((y <? i) || (Nat.eqb y i && (x <? j)))).

Lemma create_complete_ok : forall n,
  wp (create_complete conv one n)
     (fun g => exists c, 2 * c = n * (n - 1) /\ FS n (P_compl n n 0) c g).
Proof.
  intros n. unfold create_complete.
  apply wp_mono with (P := fun g => exists c, 2 * c = n * (2 * n - n - 1) /\ FS n (P_compl n n 0) c g).
  2:{ intros g (c & Hc & H). exists c. split; [|exact H].
      replace (2 * n - n - 1) with (n - 1) in Hc by lia. exact Hc. }
  apply (for_range_inv _ _ (fun i g => exists c, 2 * c = i * (2 * n - i - 1) /\ FS n (P_compl n i 0) c g)); [lia| |].
  - exists 0. split; [reflexivity|]. eapply FS_ext; [apply FS_init|reflexivity|].
    intros x y. unfold P_compl. beq.
  - intros i g _ Hi (c & Hc & HI).
    eapply wp_mono.
    + apply (for_range_inv _ _ (fun j => FS n (P_compl n i j) (c + (j - (i + 1))))); [lia| |].
      * replace (c + (i + 1 - (i + 1))) with c by lia. eapply FS_ext; [exact HI|reflexivity|].
        intros x y. unfold P_compl. beq.
      * intros j g1 Hj1 Hj2 HI1.
        eapply FS_add; [eassumption|lia|lia|lia|lia| |].
        -- unfold P_compl. beq.
        -- intros x y. unfold P_compl. beq.
    + intros g1 H1. exists (c + (n - (i + 1))). split.
      * assert (exists m, n = i + 1 + m) as [m ->] by (exists (n - (i + 1)); lia).
        replace (2 * (i + 1 + m) - i - 1) with (i + 1 + 2 * m) in Hc by lia.
        replace (2 * (i + 1 + m) - (i + 1) - 1) with (i + 2 * m) by lia.
        replace (i + 1 + m - (i + 1)) with m by lia. nia.
      * eapply FS_ext; [exact H1|reflexivity|]. intros x y. unfold P_compl. beq.
Qed.


(** ** Grid *)
Definition P_grid (rows cols k x y : nat) : bool :=
  ((x <? k) && ((Nat.eqb y (x + 1) && (x mod cols + 1 <? cols)) ||
                (Nat.eqb y (x + cols) && (y <? rows * cols)))) ||
  ((y <? k) && ((Nat.eqb x (y + 1) && (y mod cols + 1 <? cols)) ||
                (Nat.eqb x (y + cols) && (x <? rows * cols)))).

Definition P_grid_h (rows cols k x y : nat) : bool :=
  P_grid rows cols k x y ||
  ((k mod cols + 1 <? cols) && ((Nat.eqb x k && Nat.eqb y (k + 1)) || (Nat.eqb x (k + 1) && Nat.eqb y k))).

Lemma grid_mod : forall cols r c, c < cols -> (r * cols + c) mod cols = c.
Proof.
  intros. rewrite Nat.add_comm, Nat.mod_add by lia. apply Nat.mod_small; auto.
Qed.

Lemma create_grid_ok : forall rows cols,
  wp (create_grid conv one rows cols)
     (FS (rows * cols) (P_grid rows cols (rows * cols))
         (rows * (cols - 1) + (rows - 1) * cols)).
Proof.
  intros rows cols. unfold create_grid.
  apply wp_mono with (P := fun g => FS (rows * cols) (P_grid rows cols (rows * cols))
        (rows * (cols - 1) + Nat.min rows (rows - 1) * cols) g).
  2:{ intros g H. replace (Nat.min rows (rows - 1)) with (rows - 1) in H by lia. exact H. }
  apply (for_range_inv _ _ (fun r => FS (rows * cols) (P_grid rows cols (r * cols))
        (r * (cols - 1) + Nat.min r (rows - 1) * cols))); [lia| |].
  - eapply FS_ext; [apply FS_init|reflexivity|]. intros x y. unfold P_grid. simpl. reflexivity.
  - intros r g _ Hr HI.
    apply wp_mono with (P := FS (rows * cols) (P_grid rows cols (r * cols + cols))
        (r * (cols - 1) + Nat.min r (rows - 1) * cols + Nat.min cols (cols - 1) +
         (if r + 1 <? rows then cols else 0))).
    2:{ intros g1 H1. eapply FS_ext; [exact H1| |].
        - destruct (Nat.ltb_spec (r + 1) rows).
          + replace (Nat.min (r + 1) (rows - 1)) with (r + 1) by lia.
            replace (Nat.min r (rows - 1)) with r by lia. nia.
          + replace (Nat.min (r + 1) (rows - 1)) with r by lia.
            replace (Nat.min r (rows - 1)) with r by lia. nia.
        - intros x y. replace (r * cols + cols) with ((r + 1) * cols) by lia. reflexivity. }
    apply (for_range_inv _ _ (fun c => FS (rows * cols) (P_grid rows cols (r * cols + c))
        (r * (cols - 1) + Nat.min r (rows - 1) * cols + Nat.min c (cols - 1) +
         (if r + 1 <? rows then c else 0)))); [lia| |].
    + eapply FS_ext; [exact HI| |].
      * destruct (r + 1 <? rows); lia.
      * intros x y. rewrite Nat.add_0_r. reflexivity.
    + intros c g1 _ Hc H1.
      set (k := r * cols + c) in *.
      assert (Hkm : k mod cols = c) by (apply grid_mod; auto).
      assert (Hk : k < rows * cols) by (unfold k; nia).
      assert (Hk1 : c + 1 < cols -> k + 1 < rows * cols) by (unfold k; nia).
      assert (Hk2 : r + 1 < rows <-> k + cols < rows * cols) by (unfold k; nia).
      assert (Hprev : forall z, z <> k -> z < k + 1 <-> z < k) by (intros; lia).
      apply wp_bind.
      apply wp_mono with (P := FS (rows * cols) (P_grid_h rows cols k)
        (r * (cols - 1) + Nat.min r (rows - 1) * cols + Nat.min (c + 1) (cols - 1) +
         (if r + 1 <? rows then c else 0))).
      * destruct (Nat.ltb_spec (c + 1) cols) as [Hc1|Hc1].
        -- replace (r * cols + (c + 1)) with (k + 1) by (unfold k; lia).
           eapply FS_add; [eassumption| | | | | |].
           ++ lia.
           ++ lia.
           ++ lia.
           ++ auto.
           ++ unfold P_grid. beq.
           ++ intros x y. unfold P_grid_h. rewrite Hkm.
              rewrite (proj2 (Nat.ltb_lt (c + 1) cols)) by auto. simpl.
              rewrite orb_assoc. reflexivity.
        -- simpl. eapply FS_ext; [exact H1|lia|]. intros x y. unfold P_grid_h. rewrite Hkm.
           rewrite (proj2 (Nat.ltb_ge (c + 1) cols)) by auto. simpl. rewrite orb_false_r. reflexivity.
      * intros g2 H2. cbv beta.
        replace ((r + 1) * cols + c) with (k + cols) by (unfold k; lia).
        replace (r * cols + (c + 1)) with (k + 1) by (unfold k; lia).
        destruct (Nat.ltb_spec (r + 1) rows) as [Hr1|Hr1].
        -- eapply FS_add; [eassumption| | | | | |].
           ++ lia.
           ++ lia.
           ++ lia.
           ++ apply Hk2; auto.
           ++ unfold P_grid_h, P_grid. rewrite Hkm. beq.
           ++ intros x y. unfold P_grid_h, P_grid. rewrite Hkm.
              destruct (Nat.eqb_spec x k) as [->|Hx]; destruct (Nat.eqb_spec y k) as [->|Hy].
              ** beq.
              ** rewrite Hkm. beq.
              ** rewrite Hkm. beq.
              ** beq.
        -- simpl. eapply FS_ext; [exact H2|lia|]. intros x y. unfold P_grid_h, P_grid. rewrite Hkm.
           assert (~ k + cols < rows * cols) by (intros G; apply Hk2 in G; lia).
           destruct (Nat.eqb_spec x k) as [->|Hx]; destruct (Nat.eqb_spec y k) as [->|Hy].
           ** beq.
           ** rewrite Hkm. beq.
           ** rewrite Hkm. beq.
           ** beq.
Qed.

End F.
