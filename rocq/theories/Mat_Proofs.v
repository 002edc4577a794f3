(** * Specification of matrices as functions, and what each Matrix operation computes *)

From Coq Require Import List Arith Bool Lia ZArith.
From Verif Require Import Base Num Mat_Model.
Import ListNotations.

(** [A] is an [r] by [c] matrix with entries [f i j] *)
Definition is_matrix {T} (A : matrix T) (r c : nat) (f : nat -> nat -> T) : Prop :=
  m_rows A = r /\ m_cols A = c /\ length (m_data A) = r * c /\
  forall i j, i < r -> j < c -> nth_error (m_data A) (i * c + j) = Some (f i j).

(** [v] is a vector with entries [f i] *)
Definition is_vector {T} (v : list T) (n : nat) (f : nat -> T) : Prop :=
  length v = n /\ forall i, i < n -> nth_error v i = Some (f i).

(** sizes that Matrix accepts for a non-empty allocation *)
Definition dims_fit (r c : nat) : Prop :=
  (Z.of_nat r <= 100000 /\ Z.of_nat c <= 100000 /\ Z.of_nat r * Z.of_nat c <= 100000000)%Z.

Definition fset {T} (f : nat -> nat -> T) (i j : nat) (x : T) (a b : nat) : T :=
  if Nat.eqb a i && Nat.eqb b j then x else f a b.

Lemma idx_lt : forall r c i j, i < r -> j < c -> i * c + j < r * c.
Proof. intros r c i j Hi Hj. nia. Qed.
Lemma idx_inj : forall c i j a b, j < c -> b < c -> i * c + j = a * c + b -> i = a /\ j = b.
Proof. intros c i j a b Hj Hb H. assert (i = a) by nia. subst. split; auto. lia. Qed.
Lemma idx_split : forall r c k, k < r * c -> exists i j, i < r /\ j < c /\ k = i * c + j.
Proof.
  intros r c k H. assert (0 < c) by nia. exists (k / c), (k mod c). split; [|split].
  - apply Nat.div_lt_upper_bound; lia.
  - apply Nat.mod_upper_bound. lia.
  - rewrite Nat.mul_comm. apply Nat.div_mod. lia.
Qed.

Lemma idx_div : forall c i j, j < c -> (i * c + j) / c = i.
Proof. intros c i j H. rewrite Nat.div_add_l, (Nat.div_small j c) by lia. lia. Qed.
Lemma idx_mod : forall c i j, j < c -> (i * c + j) mod c = j.
Proof. intros c i j H. rewrite Nat.add_comm, Nat.mod_add, Nat.mod_small by lia. auto. Qed.

Section Basic.
Context {T : Type}.
Implicit Types (A : matrix T) (f : nat -> nat -> T).

Lemma is_matrix_ext : forall A r c f g, is_matrix A r c f -> (forall i j, i < r -> j < c -> f i j = g i j) -> is_matrix A r c g.
Proof. intros A r c f g (H1 & H2 & H3 & H4) He. repeat split; auto. intros i j Hi Hj. rewrite H4, He; auto. Qed.

Lemma is_matrix_eq : forall A B r c f g, is_matrix A r c f -> is_matrix B r c g -> (forall i j, i < r -> j < c -> f i j = g i j) -> A = B.
Proof.
  intros [ra ca da] [rb cb db] r c f g (H1 & H2 & H3 & H4) (G1 & G2 & G3 & G4) He. simpl in *. subst ra ca rb cb.
  f_equal. apply nth_ext_error. intros k. destruct (lt_dec k (r * c)) as [Hk|Hk].
  - destruct (idx_split _ _ _ Hk) as (i & j & Hi & Hj & ->). rewrite H4, G4, He; auto.
  - rewrite !(proj2 (nth_error_None _ _)); auto; lia.
Qed.

Lemma is_matrix_fun : forall A r c f g, is_matrix A r c f -> is_matrix A r c g -> forall i j, i < r -> j < c -> f i j = g i j.
Proof. intros A r c f g (_ & _ & _ & H) (_ & _ & _ & G) i j Hi Hj. specialize (H i j Hi Hj). rewrite G in H; auto. congruence. Qed.

Lemma mget_wp : forall A r c f i j (Q : T -> Prop), is_matrix A r c f -> i < r -> j < c -> Q (f i j) -> wp (mget A i j) Q.
Proof.
  intros A r c f i j Q (H1 & H2 & H3 & H4) Hi Hj HQ. unfold mget, midx. rewrite H2.
  apply vget_wp; [rewrite H3; apply idx_lt; auto|]. intros a Ha. rewrite H4 in Ha by auto. injection Ha as <-. auto.
Qed.
Lemma mget_Ok : forall A r c f i j, is_matrix A r c f -> i < r -> j < c -> mget A i j = Ok (f i j).
Proof.
  intros A r c f i j H Hi Hj. destruct (wp_elim _ _ _ (mget_wp A r c f i j (fun x => x = f i j) H Hi Hj eq_refl)) as (x & E & ->). auto.
Qed.

Lemma mset_wp : forall A r c f i j x (Q : matrix T -> Prop), is_matrix A r c f -> i < r -> j < c ->
  (forall A', is_matrix A' r c (fset f i j x) -> Q A') -> wp (mset A i j x) Q.
Proof.
  intros A r c f i j x Q (H1 & H2 & H3 & H4) Hi Hj HQ. unfold mset, midx. rewrite H2. apply wp_bind.
  pose proof (idx_lt r c i j Hi Hj). apply vset_wp; [rewrite H3; auto|]. apply wp_Ok. apply HQ.
  repeat split; simpl; auto; [rewrite upd_length; auto|].
  intros a b Ha Hb. unfold fset. destruct (Nat.eqb_spec a i) as [->|Hne]; simpl.
  - destruct (Nat.eqb_spec b j) as [->|Hne].
    + apply nth_error_upd_eq. lia.
    + rewrite nth_error_upd_neq; auto. intros E. apply idx_inj in E; auto. lia.
  - rewrite nth_error_upd_neq; auto. intros E. apply idx_inj in E; auto. lia.
Qed.

Lemma mswap_wp : forall A r c f i j k l (Q : matrix T -> Prop), is_matrix A r c f -> i < r -> j < c -> k < r -> l < c ->
  (forall A', is_matrix A' r c (fset (fset f i j (f k l)) k l (f i j)) -> Q A') -> wp (mswap A i j k l) Q.
Proof.
  intros A r c f i j k l Q H Hi Hj Hk Hl HQ. unfold mswap.
  apply wp_bind. eapply mget_wp; eauto. apply wp_bind. eapply mget_wp; eauto.
  apply wp_bind. eapply mset_wp; eauto. intros A1 HA1. eapply mset_wp; eauto.
Qed.

Lemma alloc_wp : forall r c v (Q : matrix T -> Prop), dims_fit r c ->
  (forall A, is_matrix A (if Nat.eqb c 0 then 0 else r) (if Nat.eqb r 0 then 0 else c) (fun _ _ => v) -> Q A) ->
  wp (mat_alloc r c v) Q.
Proof.
  intros r c v Q (F1 & F2 & F3) HQ. unfold mat_alloc.
  destruct (Nat.eqb_spec r 0) as [->|Hr]; simpl.
  { apply wp_Ok. apply HQ. destruct (Nat.eqb c 0); repeat split; simpl; auto; intros; lia. }
  destruct (Nat.eqb_spec c 0) as [->|Hc]; simpl.
  { apply wp_Ok. apply HQ. repeat split; simpl; auto; intros; lia. }
  unfold validate_dims.
  destruct (Z.ltb_spec 100000 (Z.of_nat r)); [lia|]. destruct (Z.ltb_spec 100000 (Z.of_nat c)); [lia|].
  cbv beta iota delta [orb]. destruct (Z.ltb_spec 100000000 (Z.of_nat r * Z.of_nat c)); [lia|].
  apply wp_bind, wp_Ok, wp_Ok. apply HQ. repeat split; simpl; auto; [apply repeat_length|].
  intros i j Hi Hj. pose proof (idx_lt r c i j Hi Hj). apply nth_error_repeat. auto.
Qed.

(** allocation of the sizes that occur in an existing matrix *)
Definition dims_ok (r c : nat) : Prop := dims_fit r c /\ (r = 0 <-> c = 0).
Lemma alloc_ok_wp : forall r c v (Q : matrix T -> Prop), dims_ok r c ->
  (forall A, is_matrix A r c (fun _ _ => v) -> Q A) -> wp (mat_alloc r c v) Q.
Proof.
  intros r c v Q [HF HZ] HQ. apply alloc_wp; auto. intros A HA. apply HQ.
  destruct (Nat.eqb_spec r 0) as [Hr|Hr]; destruct (Nat.eqb_spec c 0) as [Hc|Hc]; subst; auto; exfalso; lia.
Qed.

(** the two-level loop that writes every entry of the result once *)
Lemma fill_wp : forall (e : nat -> nat -> res T) R r c g f (Q : matrix T -> Prop),
  is_matrix R r c g ->
  (forall i j, i < r -> j < c -> wp (e i j) (fun x => x = f i j)) ->
  (forall R', is_matrix R' r c f -> Q R') ->
  wp (for_range 0 r (fun R i => for_range 0 c (fun R j => x <- e i j ;; mset R i j x) R) R) Q.
Proof.
  intros e R r c g f Q HR He HQ.
  eapply wp_conseq; [|apply (for_range_inv _ _ (fun i R => is_matrix R r c (fun a b => if a <? i then f a b else g a b)))].
  - intros R' H. apply HQ. eapply is_matrix_ext; [exact H|]. intros i j Hi Hj. cbv beta. destruct (Nat.ltb_spec i r); auto. lia.
  - lia.
  - eapply is_matrix_ext; eauto.
  - intros i R1 _ Hi H1. cbv beta in H1.
    eapply wp_conseq; [|apply (for_range_inv _ _ (fun j R => is_matrix R r c
        (fun a b => if (a <? i) || (Nat.eqb a i && (b <? j)) then f a b else g a b)))].
    + intros R' H. eapply is_matrix_ext; [exact H|]. intros a b Ha Hb. cbv beta.
      replace (b <? c) with true by (symmetry; apply Nat.ltb_lt; auto). rewrite andb_true_r.
      destruct (Nat.ltb_spec a i); destruct (Nat.eqb_spec a i); destruct (Nat.ltb_spec a (i + 1)); simpl; auto; lia.
    + lia.
    + eapply is_matrix_ext; [exact H1|]. intros a b Ha Hb. cbv beta. rewrite andb_false_r, orb_false_r. auto.
    + intros j R2 _ Hj H2. cbv beta in H2. apply wp_bind. eapply wp_conseq; [|apply He; auto]. intros x ->.
      eapply mset_wp; eauto. intros A' HA'. eapply is_matrix_ext; [exact HA'|]. intros a b Ha Hb. unfold fset. cbv beta.
      destruct (Nat.eqb_spec a i) as [Hai|Hai]; destruct (Nat.eqb_spec b j) as [Hbj|Hbj]; simpl; auto.
      * subst a b. rewrite Nat.ltb_irrefl. destruct (Nat.ltb_spec j (j + 1)); simpl; auto. lia.
      * destruct (Nat.ltb_spec b (j + 1)); destruct (Nat.ltb_spec b j); simpl; auto; lia.
Qed.
End Basic.

Section Vec.
Context {T : Type}.
Lemma is_vector_eq : forall (u v : list T) n f g, is_vector u n f -> is_vector v n g -> (forall i, i < n -> f i = g i) -> u = v.
Proof.
  intros u v n f g (H1 & H2) (G1 & G2) He. apply nth_ext_error. intros k. destruct (lt_dec k n).
  - rewrite H2, G2, He; auto.
  - rewrite !(proj2 (nth_error_None _ _)); auto; lia.
Qed.
Lemma is_vector_ext : forall (u : list T) n f g, is_vector u n f -> (forall i, i < n -> f i = g i) -> is_vector u n g.
Proof. intros u n f g (H1 & H2) He. split; auto. intros i Hi. rewrite H2, He; auto. Qed.
Lemma is_vector_self : forall (u : list T) d, is_vector u (length u) (fun i => nth i u d).
Proof. intros u d. split; auto. intros i Hi. apply nth_error_nth'. auto. Qed.
Lemma is_vector_repeat : forall n (v : T), is_vector (repeat v n) n (fun _ => v).
Proof. intros n v. split; [apply repeat_length|]. intros i Hi. apply nth_error_repeat. auto. Qed.
Lemma vgetf_wp : forall (u : list T) n f i (Q : T -> Prop), is_vector u n f -> i < n -> Q (f i) -> wp (vget u i) Q.
Proof. intros u n f i Q (H1 & H2) Hi HQ. apply vget_wp; [lia|]. intros a Ha. rewrite H2 in Ha by auto. injection Ha as <-. auto. Qed.
Definition vfset (f : nat -> T) (i : nat) (x : T) (a : nat) : T := if Nat.eqb a i then x else f a.
Lemma vsetf_wp : forall (u : list T) n f i x (Q : list T -> Prop), is_vector u n f -> i < n ->
  (forall u', is_vector u' n (vfset f i x) -> Q u') -> wp (vset u i x) Q.
Proof.
  intros u n f i x Q (H1 & H2) Hi HQ. apply vset_wp; [lia|]. apply HQ. split; [rewrite upd_length; auto|].
  intros a Ha. unfold vfset. cbv beta. destruct (Nat.eqb_spec a i) as [->|Hne]; [apply nth_error_upd_eq; lia|].
  rewrite nth_error_upd_neq; auto.
Qed.
Lemma vfill_wp : forall (e : nat -> res T) v n g f (Q : list T -> Prop), is_vector v n g ->
  (forall i, i < n -> wp (e i) (fun x => x = f i)) -> (forall v', is_vector v' n f -> Q v') ->
  wp (for_range 0 n (fun v i => x <- e i ;; vset v i x) v) Q.
Proof.
  intros e v n g f Q Hv He HQ.
  eapply wp_conseq; [|apply (for_range_inv _ _ (fun i v => is_vector v n (fun a => if a <? i then f a else g a)))].
  - intros v' H. apply HQ. eapply is_vector_ext; [exact H|]. intros i Hi. cbv beta. destruct (Nat.ltb_spec i n); auto. lia.
  - lia.
  - eapply is_vector_ext; eauto.
  - intros i v1 _ Hi H1. apply wp_bind. eapply wp_conseq; [|apply He; auto]. intros x ->.
    eapply vsetf_wp; eauto. intros v' H'. eapply is_vector_ext; [exact H'|]. intros a Ha. unfold vfset.
    destruct (Nat.eqb_spec a i) as [->|Hne].
    + destruct (Nat.ltb_spec i (i + 1)); auto. lia.
    + destruct (Nat.ltb_spec a i); destruct (Nat.ltb_spec a (i + 1)); auto; lia.
Qed.
End Vec.

(** flat data of a matrix as a vector *)
Lemma mat_flat : forall T (A : matrix T) r c f, is_matrix A r c f -> is_vector (m_data A) (r * c) (fun k => f (k / c) (k mod c)).
Proof.
  intros T A r c f (H1 & H2 & H3 & H4). split; auto. intros k Hk.
  destruct (idx_split _ _ _ Hk) as (i & j & Hi & Hj & ->). rewrite H4 by auto. f_equal.
  rewrite idx_div, idx_mod; auto.
Qed.
Lemma flat_mat : forall T (d : list T) r c f, is_vector d (r * c) (fun k => f (k / c) (k mod c)) -> is_matrix (mkMat r c d) r c f.
Proof.
  intros T d r c f (H1 & H2). repeat split; auto. intros i j Hi Hj. simpl. rewrite H2 by (apply idx_lt; auto). f_equal.
  rewrite idx_div, idx_mod; auto.
Qed.

Section Ops.
Context {T : Type} (O : numops T).
Implicit Types (A B : matrix T) (f g : nat -> nat -> T).

Lemma flat1_wp : forall h A R r c f g (Q : matrix T -> Prop), is_matrix A r c f -> is_matrix R r c g ->
  (forall R', is_matrix R' r c (fun i j => h (f i j)) -> Q R') -> wp (flat1 h A R) Q.
Proof.
  intros h A R r c f g Q HA HR HQ. unfold flat1. apply wp_bind.
  pose proof (mat_flat _ _ _ _ _ HA) as FA. pose proof (mat_flat _ _ _ _ _ HR) as FR.
  replace (length (m_data A)) with (r * c) by (symmetry; apply FA).
  eapply wp_conseq; [|apply (for_range_inv _ _ (fun k d => is_vector d (r * c) (fun a => if a <? k then h (f (a / c) (a mod c)) else g (a / c) (a mod c))))].
  - intros d Hd. apply wp_Ok. apply HQ. destruct HR as (-> & -> & _). apply flat_mat.
    eapply is_vector_ext; [exact Hd|]. intros i Hi. cbv beta. destruct (Nat.ltb_spec i (r * c)); auto; lia.
  - lia.
  - eapply is_vector_ext; eauto.
  - intros k d _ Hk Hd. apply wp_bind. eapply vgetf_wp; eauto. eapply vsetf_wp; eauto. intros d' Hd'.
    eapply is_vector_ext; [exact Hd'|]. intros a Ha. unfold vfset. cbv beta. destruct (Nat.eqb_spec a k) as [->|Hne].
    + destruct (Nat.ltb_spec k (k + 1)); auto. lia.
    + destruct (Nat.ltb_spec a k); destruct (Nat.ltb_spec a (k + 1)); auto; lia.
Qed.
Lemma flat2_wp : forall h A B R r c f g e (Q : matrix T -> Prop), is_matrix A r c f -> is_matrix B r c g -> is_matrix R r c e ->
  (forall R', is_matrix R' r c (fun i j => h (f i j) (g i j)) -> Q R') -> wp (flat2 h A B R) Q.
Proof.
  intros h A B R r c f g e Q HA HB HR HQ. unfold flat2. apply wp_bind.
  pose proof (mat_flat _ _ _ _ _ HA) as FA. pose proof (mat_flat _ _ _ _ _ HB) as FB. pose proof (mat_flat _ _ _ _ _ HR) as FR.
  replace (length (m_data A)) with (r * c) by (symmetry; apply FA).
  eapply wp_conseq; [|apply (for_range_inv _ _ (fun k d => is_vector d (r * c)
     (fun a => if a <? k then h (f (a / c) (a mod c)) (g (a / c) (a mod c)) else e (a / c) (a mod c))))].
  - intros d Hd. apply wp_Ok. apply HQ. destruct HR as (-> & -> & _). apply flat_mat.
    eapply is_vector_ext; [exact Hd|]. intros i Hi. cbv beta. destruct (Nat.ltb_spec i (r * c)); auto; lia.
  - lia.
  - eapply is_vector_ext; eauto.
  - intros k d _ Hk Hd. apply wp_bind. eapply vgetf_wp; eauto. apply wp_bind. eapply vgetf_wp; eauto. eapply vsetf_wp; eauto. intros d' Hd'.
    eapply is_vector_ext; [exact Hd'|]. intros a Ha. unfold vfset. cbv beta. destruct (Nat.eqb_spec a k) as [->|Hne].
    + destruct (Nat.ltb_spec k (k + 1)); auto. lia.
    + destruct (Nat.ltb_spec a k); destruct (Nat.ltb_spec a (k + 1)); auto; lia.
Qed.
Lemma flat2_assign_wp : forall h A (B : option (matrix T)) r c f g (Q : matrix T -> Prop), is_matrix A r c f ->
  (match B with Some b => is_matrix b r c g | None => is_matrix A r c g end) ->
  (forall R', is_matrix R' r c (fun i j => h (f i j) (g i j)) -> Q R') -> wp (flat2_assign h A B) Q.
Proof.
  intros h A B r c f g Q HA HB HQ. unfold flat2_assign. apply wp_bind.
  pose proof (mat_flat _ _ _ _ _ HA) as FA.
  replace (length (m_data A)) with (r * c) by (symmetry; apply FA).
  eapply wp_conseq; [|apply (for_range_inv _ _ (fun k d => is_vector d (r * c)
     (fun a => if a <? k then h (f (a / c) (a mod c)) (g (a / c) (a mod c)) else f (a / c) (a mod c))))].
  - intros d Hd. apply wp_Ok. apply HQ. destruct HA as (-> & -> & _). apply flat_mat.
    eapply is_vector_ext; [exact Hd|]. intros i Hi. cbv beta. destruct (Nat.ltb_spec i (r * c)); auto; lia.
  - lia.
  - eapply is_vector_ext; eauto.
  - intros k d _ Hk Hd. cbv beta in Hd. apply wp_bind. eapply vgetf_wp; eauto. cbv beta; rewrite Nat.ltb_irrefl. apply wp_bind.
    assert (Hy : wp (vget (match B with Some b => m_data b | None => d end) k) (fun y => y = g (k / c) (k mod c))).
    { destruct B as [b|].
      - eapply vgetf_wp; [apply (mat_flat _ _ _ _ _ HB)|auto|auto].
      - eapply vgetf_wp; [exact Hd|auto|]. cbv beta. rewrite Nat.ltb_irrefl.
        assert (0 < c) by nia. apply (is_matrix_fun A r c f g); auto.
        + apply Nat.div_lt_upper_bound; lia.
        + apply Nat.mod_upper_bound. lia. }
    eapply wp_conseq; [|exact Hy]. intros y ->. eapply vsetf_wp; eauto. intros d' Hd'.
    eapply is_vector_ext; [exact Hd'|]. intros a Ha. unfold vfset. cbv beta. destruct (Nat.eqb_spec a k) as [->|Hne].
    + destruct (Nat.ltb_spec k (k + 1)); auto. lia.
    + destruct (Nat.ltb_spec a k); destruct (Nat.ltb_spec a (k + 1)); auto; lia.
Qed.

(** dot-product loops *)
Lemma dot_wp : forall n (e : nat -> res (T * T)) (p : nat -> T) (step : T -> nat -> res T),
  (forall s k, k < n -> wp (step s k) (fun s' => s' = nadd O s (p k))) ->
  wp (for_range 0 n step (n0 O)) (fun s => s = sumn O n p).
Proof.
  intros n _ p step Hs. eapply wp_conseq; [|apply (for_range_inv _ _ (fun k s => s = sumn O k p))].
  - auto.
  - lia.
  - auto.
  - intros k s _ Hk ->. eapply wp_conseq; [|apply Hs; auto]. intros s' ->. rewrite Nat.add_1_r. auto.
Qed.
End Ops.
