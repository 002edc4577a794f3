(** * C32: matrix algebra *)

From Coq Require Import List Arith Bool Lia ZArith QArith Qcanon Ring.
From Verif Require Import Base Num Mat_Model Mat_Proofs.
Import ListNotations.
Local Open Scope nat_scope.

Section Entries.
Context {T : Type} (O : numops T).
Implicit Types (A B : matrix T) (f g : nat -> nat -> T).
Notation sum := (sumn O).

Lemma wp_ex : forall X (m : res X) (P : X -> Prop), wp m P -> exists x, m = Ok x /\ P x.
Proof. intros X m P H. apply wp_elim. exact H. Qed.

Lemma add_ok : forall A B r c f g, is_matrix A r c f -> is_matrix B r c g -> dims_ok r c ->
  exists C, mat_add O A B = Ok C /\ is_matrix C r c (fun i j => nadd O (f i j) (g i j)).
Proof.
  intros A B r c f g HA HB HD. apply wp_ex. unfold mat_add.
  destruct HA as (<- & <- & HA3 & HA4) eqn:EA. clear EA. destruct HB as (HB1 & HB2 & HB3 & HB4) eqn:EB. clear EB.
  rewrite HB1, HB2, !Nat.eqb_refl. simpl. apply wp_bind. apply alloc_ok_wp; auto. intros R HR.
  eapply flat2_wp; eauto; repeat split; auto.
Qed.
Lemma sub_ok : forall A B r c f g, is_matrix A r c f -> is_matrix B r c g -> dims_ok r c ->
  exists C, mat_sub_op O A B = Ok C /\ is_matrix C r c (fun i j => nsub O (f i j) (g i j)).
Proof.
  intros A B r c f g HA HB HD. apply wp_ex. unfold mat_sub_op.
  destruct HA as (<- & <- & HA3 & HA4) eqn:EA. clear EA. destruct HB as (HB1 & HB2 & HB3 & HB4) eqn:EB. clear EB.
  rewrite HB1, HB2, !Nat.eqb_refl. simpl. apply wp_bind. apply alloc_ok_wp; auto. intros R HR.
  eapply flat2_wp; eauto; repeat split; auto.
Qed.
Lemma op_assign_ok : forall h A (B : option (matrix T)) r c f g, is_matrix A r c f ->
  (match B with Some b => is_matrix b r c g | None => is_matrix A r c g end) ->
  exists C, mat_op_assign h A B = Ok C /\ is_matrix C r c (fun i j => h (f i j) (g i j)).
Proof.
  intros h A B r c f g HA HB. apply wp_ex. unfold mat_op_assign. cbv zeta.
  assert (Hd : m_rows (match B with Some b => b | None => A end) = m_rows A /\ m_cols (match B with Some b => b | None => A end) = m_cols A).
  { destruct B as [b|]; auto. destruct HA as (-> & -> & _). destruct HB as (-> & -> & _). auto. }
  destruct Hd as [-> ->]. rewrite !Nat.eqb_refl. simpl. eapply flat2_assign_wp; eauto.
Qed.
Lemma neg_ok : forall A r c f, is_matrix A r c f -> dims_ok r c ->
  exists C, mat_neg O A = Ok C /\ is_matrix C r c (fun i j => nopp O (f i j)).
Proof.
  intros A r c f HA HD. apply wp_ex. unfold mat_neg. pose proof HA as (-> & -> & _). apply wp_bind. apply alloc_ok_wp; auto.
  intros R HR. eapply flat1_wp; eauto.
Qed.
Lemma scale_ok : forall A s r c f, is_matrix A r c f -> dims_ok r c ->
  exists C, mat_scale O A s = Ok C /\ is_matrix C r c (fun i j => nmul O (f i j) s).
Proof.
  intros A s r c f HA HD. apply wp_ex. unfold mat_scale. pose proof HA as (-> & -> & _). apply wp_bind. apply alloc_ok_wp; auto.
  intros R HR. eapply flat1_wp; eauto.
Qed.
Lemma divide_ok : forall A s r c f, is_matrix A r c f -> dims_ok r c ->
  exists C, mat_divide O A s = Ok C /\ is_matrix C r c (fun i j => ndiv O (f i j) s).
Proof.
  intros A s r c f HA HD. apply wp_ex. unfold mat_divide. pose proof HA as (-> & -> & _). apply wp_bind. apply alloc_ok_wp; auto.
  intros R HR. eapply flat1_wp; eauto.
Qed.
Lemma scalar_assign_ok : forall h A v r c f, is_matrix A r c f ->
  exists C, mat_scalar_assign h A (inl v) = Ok C /\ is_matrix C r c (fun i j => h (f i j) v).
Proof.
  intros h A v r c f HA. apply wp_ex. unfold mat_scalar_assign. apply wp_bind.
  pose proof (mat_flat _ _ _ _ _ HA) as FA.
  replace (length (m_data A)) with (r * c) by (symmetry; apply FA).
  eapply wp_conseq; [|apply (for_range_inv _ _ (fun k d => is_vector d (r * c)
     (fun a => if a <? k then h (f (a / c) (a mod c)) v else f (a / c) (a mod c))))].
  - intros d Hd. apply wp_Ok. destruct HA as (-> & -> & _). apply flat_mat.
    eapply is_vector_ext; [exact Hd|]. intros i Hi. cbv beta. destruct (Nat.ltb_spec i (r * c)); auto; lia.
  - lia.
  - eapply is_vector_ext; eauto.
  - intros k d _ Hk Hd. apply wp_bind. eapply vgetf_wp; eauto. cbv beta. rewrite Nat.ltb_irrefl. apply wp_bind, wp_Ok.
    eapply vsetf_wp; eauto. intros d' Hd'. eapply is_vector_ext; [exact Hd'|]. intros a Ha. unfold vfset. cbv beta.
    destruct (Nat.eqb_spec a k) as [->|Hne].
    + destruct (Nat.ltb_spec k (k + 1)); auto. lia.
    + destruct (Nat.ltb_spec a k); destruct (Nat.ltb_spec a (k + 1)); auto; lia.
Qed.

Lemma mul_ok : forall A B r c k f g, is_matrix A r c f -> is_matrix B c k g -> dims_ok r c -> dims_ok c k -> dims_fit r k ->
  exists C, mat_mul O A B = Ok C /\ is_matrix C r k (fun i j => sum c (fun l => nmul O (f i l) (g l j))).
Proof.
  intros A B r c k f g HA HB [_ HD1] [_ HD2] HF. apply wp_ex. unfold mat_mul.
  pose proof HA as (-> & -> & _). pose proof HB as (-> & -> & _). rewrite Nat.eqb_refl. simpl. apply wp_bind.
  apply alloc_ok_wp; [split; auto; tauto|]. intros R HR.
  eapply fill_wp with (f := fun i j => sum c (fun l => nmul O (f i l) (g l j))); eauto.
  intros i j Hi Hj. apply dot_wp; [exact (fun _ => UB)|]. intros s l Hl.
  apply wp_bind. eapply mget_wp; eauto. apply wp_bind. eapply mget_wp; eauto. apply wp_Ok. auto.
Qed.
Lemma transpose_ok : forall A r c f, is_matrix A r c f -> dims_ok r c ->
  exists C, mat_transpose O A = Ok C /\ is_matrix C c r (fun i j => f j i).
Proof.
  intros A r c f HA [[HF1 [HF2 HF3]] HD]. apply wp_ex. unfold mat_transpose. pose proof HA as (-> & -> & _). apply wp_bind.
  apply alloc_ok_wp; [split; [unfold dims_fit; lia|tauto]|]. intros R HR.
  eapply wp_conseq; [|apply (for_range_inv _ _ (fun i R => is_matrix R c r (fun a b => if b <? i then f b a else n0 O)))].
  - intros R' H. eapply is_matrix_ext; [exact H|]. intros i j Hi Hj. cbv beta. destruct (Nat.ltb_spec j r); auto. lia.
  - lia.
  - eapply is_matrix_ext; eauto.
  - intros i R1 _ Hi H1. cbv beta in H1.
    eapply wp_conseq; [|apply (for_range_inv _ _ (fun j R => is_matrix R c r
        (fun a b => if (b <? i) || (Nat.eqb b i && (a <? j)) then f b a else n0 O)))].
    + intros R' H. eapply is_matrix_ext; [exact H|]. intros a b Ha Hb. cbv beta.
      replace (a <? c) with true by (symmetry; apply Nat.ltb_lt; auto). rewrite andb_true_r.
      destruct (Nat.ltb_spec b i); destruct (Nat.eqb_spec b i); destruct (Nat.ltb_spec b (i + 1)); simpl; auto; lia.
    + lia.
    + eapply is_matrix_ext; [exact H1|]. intros a b Ha Hb. cbv beta. rewrite andb_false_r, orb_false_r. auto.
    + intros j R2 _ Hj H2. cbv beta in H2. apply wp_bind. eapply mget_wp; eauto.
      eapply mset_wp; eauto. intros A' HA'. eapply is_matrix_ext; [exact HA'|]. intros a b Ha Hb. unfold fset. cbv beta.
      destruct (Nat.eqb_spec b i) as [Hbi|Hbi]; destruct (Nat.eqb_spec a j) as [Haj|Haj]; simpl; auto.
      * subst a b. rewrite Nat.ltb_irrefl. destruct (Nat.ltb_spec j (j + 1)); simpl; auto. lia.
      * destruct (Nat.ltb_spec a (j + 1)); destruct (Nat.ltb_spec a j); simpl; auto; lia.
Qed.

(** in-place transposition of a square matrix *)
Lemma Transpose_ok : forall A n f, is_matrix A n n f ->
  exists C, mat_Transpose A = Ok C /\ is_matrix C n n (fun i j => f j i).
Proof.
  intros A n f HA. apply wp_ex. unfold mat_Transpose. pose proof HA as (-> & -> & _). rewrite Nat.eqb_refl. simpl.
  eapply wp_conseq; [|apply (for_range_inv _ _ (fun i R => is_matrix R n n
      (fun a b => if (a <? i) || (b <? i) then f b a else f a b)))].
  - intros R' H. eapply is_matrix_ext; [exact H|]. intros i j Hi Hj. cbv beta. destruct (Nat.ltb_spec i n); auto. lia.
  - lia.
  - eapply is_matrix_ext; eauto.
  - intros i R1 _ Hi H1. cbv beta in H1. replace (m_cols R1) with n by (symmetry; apply H1).
    eapply wp_conseq; [|apply (for_range_inv _ _ (fun j R => is_matrix R n n
        (fun a b => if (a <? i) || (b <? i) || (Nat.eqb a i && (b <? j)) || (Nat.eqb b i && (a <? j)) then f b a else f a b)))].
    + intros R' H. eapply is_matrix_ext; [exact H|]. intros a b Ha Hb. cbv beta.
      replace (a <? n) with true by (symmetry; apply Nat.ltb_lt; auto). replace (b <? n) with true by (symmetry; apply Nat.ltb_lt; auto).
      rewrite !andb_true_r.
      destruct (Nat.ltb_spec a i); destruct (Nat.ltb_spec b i); destruct (Nat.eqb_spec a i); destruct (Nat.eqb_spec b i);
        destruct (Nat.ltb_spec a (i + 1)); destruct (Nat.ltb_spec b (i + 1)); simpl; auto; lia.
    + lia.
    + eapply is_matrix_ext; [exact H1|]. intros a b Ha Hb. cbv beta.
      destruct (Nat.ltb_spec a i); destruct (Nat.ltb_spec b i); simpl; auto.
      destruct (Nat.eqb_spec a i); destruct (Nat.eqb_spec b i); simpl; subst; auto;
        repeat (match goal with |- context[?x <? ?y] => destruct (Nat.ltb_spec x y) end); simpl; auto; lia.
    + intros j R2 Hij Hj H2. cbv beta in H2. eapply mswap_wp; eauto. intros A' HA'. eapply is_matrix_ext; [exact HA'|].
      intros a b Ha Hb. unfold fset. cbv beta. rewrite Nat.ltb_irrefl, Nat.eqb_refl, !Nat.ltb_irrefl.
      destruct (Nat.ltb_spec i j); [|lia]. destruct (Nat.ltb_spec j i); [lia|]. destruct (Nat.eqb_spec j i); [lia|]. simpl.
      destruct (Nat.eqb_spec a j) as [Haj|Haj]; destruct (Nat.eqb_spec b i) as [Hbi|Hbi]; destruct (Nat.eqb_spec a i) as [Hai|Hai];
        destruct (Nat.eqb_spec b j) as [Hbj|Hbj]; simpl; try lia; subst;
        repeat (match goal with |- context[?x <? ?y] => destruct (Nat.ltb_spec x y) end); simpl; auto; lia.
Qed.

Lemma make_unit_ok : forall A n f, is_matrix A n n f ->
  exists C, mat_make_unit O A = Ok C /\ is_matrix C n n (fun i j => if Nat.eqb i j then n1 O else n0 O).
Proof.
  intros A n f HA. apply wp_ex. unfold mat_make_unit. pose proof HA as (-> & -> & -> & _). rewrite Nat.eqb_refl. simpl.
  eapply wp_conseq; [|apply (for_range_inv _ _ (fun i R => is_matrix R n n
      (fun a b => if Nat.eqb a b && (a <? i) then n1 O else n0 O)))].
  - intros R' H. eapply is_matrix_ext; [exact H|]. intros i j Hi Hj. cbv beta. destruct (Nat.ltb_spec i n); [|lia]. rewrite andb_true_r. auto.
  - lia.
  - repeat split; simpl; auto; [apply repeat_length|]. intros i j Hi Hj. rewrite andb_false_r. apply nth_error_repeat. apply idx_lt; auto.
  - intros i R1 _ Hi H1. eapply mset_wp; eauto. intros A' HA'. eapply is_matrix_ext; [exact HA'|]. intros a b Ha Hb. unfold fset. cbv beta.
    destruct (Nat.eqb_spec a i); destruct (Nat.eqb_spec b i); destruct (Nat.eqb_spec a b); simpl; try lia; auto;
      destruct (Nat.ltb_spec a i); destruct (Nat.ltb_spec a (i + 1)); auto; lia.
Qed.
Lemma identity_ok : forall n, 0 < n -> dims_fit n n ->
  exists C, mat_identity O (Z.of_nat n) = Ok C /\ is_matrix C n n (fun i j => if Nat.eqb i j then n1 O else n0 O).
Proof.
  intros n Hn HF. unfold mat_identity, mat_new. destruct (Z.leb_spec (Z.of_nat n) 0); [lia|].
  destruct (Z.ltb_spec (Z.of_nat n) 0); [lia|]. simpl. rewrite Nat2Z.id.
  destruct (wp_ex _ _ _ (alloc_ok_wp n n (n0 O) (fun A => is_matrix A n n (fun _ _ => n0 O)) ltac:(split; auto; tauto) ltac:(auto))) as (A & E & HA).
  rewrite E. simpl. eapply make_unit_ok; eauto.
Qed.
Lemma mat_vec_ok : forall A v r c f (g : nat -> T), is_matrix A r c f -> is_vector v c g ->
  exists w, mat_vec O A v = Ok w /\ is_vector w r (fun i => sum c (fun j => nmul O (f i j) (g j))).
Proof.
  intros A v r c f g HA HV. apply wp_ex. unfold mat_vec. pose proof HA as (-> & -> & _). pose proof HV as [-> _].
  rewrite Nat.eqb_refl. simpl. eapply vfill_wp with (f := fun i => sum c (fun j => nmul O (f i j) (g j))); eauto; [apply is_vector_repeat|].
  intros i Hi. apply dot_wp; [exact (fun _ => UB)|]. intros s l Hl.
  apply wp_bind. eapply mget_wp; eauto. apply wp_bind. eapply vgetf_wp; eauto. apply wp_Ok. auto.
Qed.
Lemma vec_mat_ok : forall A v r c f (g : nat -> T), is_matrix A r c f -> is_vector v r g ->
  exists w, vec_mat O v A = Ok w /\ is_vector w c (fun j => sum r (fun i => nmul O (g i) (f i j))).
Proof.
  intros A v r c f g HA HV. apply wp_ex. unfold vec_mat. pose proof HA as (-> & -> & _). pose proof HV as [-> _].
  rewrite Nat.eqb_refl. simpl. eapply vfill_wp with (f := fun j => sum r (fun i => nmul O (g i) (f i j))); eauto; [apply is_vector_repeat|].
  intros i Hi. apply dot_wp; [exact (fun _ => UB)|]. intros s l Hl.
  apply wp_bind. eapply vgetf_wp; eauto. apply wp_bind. eapply mget_wp; eauto. apply wp_Ok. auto.
Qed.
Lemma trace_ok : forall A n f, is_matrix A n n f -> mat_trace O A = Ok (sum n (fun i => f i i)).
Proof.
  intros A n f HA. assert (H : exists s, mat_trace O A = Ok s /\ s = sum n (fun i => f i i)).
  { apply wp_ex. unfold mat_trace. pose proof HA as (-> & -> & _). rewrite Nat.eqb_refl. simpl.
    apply dot_wp; [exact (fun _ => UB)|]. intros s l Hl. apply wp_bind. eapply mget_wp; eauto. apply wp_Ok. auto. }
  destruct H as (s & E & ->). auto.
Qed.
End Entries.

(** ** C32 *)

(** What every operation computes, and that it never leaves the storage ([Ok] excludes [UB]). *)
Theorem C32_operations : forall T (O : numops T) (A B : matrix T) r c f g, dims_ok r c ->
  is_matrix A r c f -> is_matrix B r c g ->
  (exists C, mat_add O A B = Ok C /\ is_matrix C r c (fun i j => nadd O (f i j) (g i j))) /\
  (exists C, mat_sub_op O A B = Ok C /\ is_matrix C r c (fun i j => nsub O (f i j) (g i j))) /\
  (exists C, mat_add_assign O A (Some B) = Ok C /\ is_matrix C r c (fun i j => nadd O (f i j) (g i j))) /\
  (exists C, mat_sub_assign O A (Some B) = Ok C /\ is_matrix C r c (fun i j => nsub O (f i j) (g i j))) /\
  (exists C, mat_add_assign O A None = Ok C /\ is_matrix C r c (fun i j => nadd O (f i j) (f i j))) /\
  (exists C, mat_sub_assign O A None = Ok C /\ is_matrix C r c (fun i j => nsub O (f i j) (f i j))) /\
  (exists C, mat_neg O A = Ok C /\ is_matrix C r c (fun i j => nopp O (f i j))) /\
  (exists C, mat_transpose O A = Ok C /\ is_matrix C c r (fun i j => f j i)) /\
  (r = c -> exists C, mat_Transpose A = Ok C /\ is_matrix C r r (fun i j => f j i)) /\
  (r = c -> mat_trace O A = Ok (sumn O r (fun i => f i i))) /\
  (forall s, exists C, mat_scale O A s = Ok C /\ is_matrix C r c (fun i j => nmul O (f i j) s)) /\
  (forall s, exists C, mat_divide O A s = Ok C /\ is_matrix C r c (fun i j => ndiv O (f i j) s)) /\
  (forall s, exists C, mat_scale_assign O A (inl s) = Ok C /\ is_matrix C r c (fun i j => nmul O (f i j) s)) /\
  (forall s, exists C, mat_divide_assign O A (inl s) = Ok C /\ is_matrix C r c (fun i j => ndiv O (f i j) s)) /\
  (forall v x, is_vector v c x ->
     exists w, mat_vec O A v = Ok w /\ is_vector w r (fun i => sumn O c (fun j => nmul O (f i j) (x j)))) /\
  (forall v x, is_vector v r x ->
     exists w, vec_mat O v A = Ok w /\ is_vector w c (fun j => sumn O r (fun i => nmul O (x i) (f i j)))).
Proof.
  intros T O A B r c f g HD HA HB.
  split; [apply add_ok; auto|]. split; [apply sub_ok; auto|].
  split; [apply (op_assign_ok (nadd O) A (Some B)); auto|]. split; [apply (op_assign_ok (nsub O) A (Some B)); auto|].
  split; [apply (op_assign_ok (nadd O) A None); auto|]. split; [apply (op_assign_ok (nsub O) A None); auto|].
  split; [apply neg_ok; auto|]. split; [apply (transpose_ok O) with (r := r); auto|].
  split; [intros <-; apply Transpose_ok; auto|]. split; [intros <-; apply trace_ok; auto|].
  split; [intros s; apply scale_ok; auto|]. split; [intros s; apply divide_ok; auto|].
  split; [intros s; apply scalar_assign_ok; auto|]. split; [intros s; apply scalar_assign_ok; auto|].
  split; [intros v x Hv; eapply mat_vec_ok; eauto|intros v x Hv; eapply vec_mat_ok; eauto].
Qed.
Print Assumptions C32_operations.

Theorem C32_product : forall T (O : numops T) (A B : matrix T) r c k f g, dims_ok r c -> dims_ok c k -> dims_fit r k ->
  is_matrix A r c f -> is_matrix B c k g ->
  exists C, mat_mul O A B = Ok C /\ is_matrix C r k (fun i j => sumn O c (fun l => nmul O (f i l) (g l j))).
Proof. intros. eapply mul_ok; eauto. Qed.
Print Assumptions C32_product.

(** Operations on non-conforming sizes throw, and only those do. *)
Theorem C32_nonconforming : forall T (O : numops T) (A B : matrix T),
  (m_rows A <> m_rows B \/ m_cols A <> m_cols B ->
     mat_add O A B = Throw DimensionError /\ mat_sub_op O A B = Throw DimensionError /\
     mat_add_assign O A (Some B) = Throw DimensionError /\ mat_sub_assign O A (Some B) = Throw DimensionError) /\
  (m_cols A <> m_rows B -> mat_mul O A B = Throw DimensionError) /\
  (m_rows A <> m_cols A -> mat_Transpose A = Throw DimensionError /\ mat_trace O A = Throw DimensionError /\
     mat_make_unit O A = Throw DimensionError) /\
  (forall v, length v <> m_cols A -> mat_vec O A v = Throw DimensionError) /\
  (forall v, length v <> m_rows A -> vec_mat O v A = Throw DimensionError) /\
  (m_cols A = m_rows B -> m_rows A <> 0 -> m_cols B <> 0 -> ~ dims_fit (m_rows A) (m_cols B) ->
     mat_mul O A B = Throw DimensionError \/ mat_mul O A B = Throw BadAlloc).
Proof.
  intros T O A B. split; [|split; [|split; [|split; [|split]]]].
  - intros H. assert (E : negb (m_rows A =? m_rows B) || negb (m_cols A =? m_cols B) = true).
    { destruct (Nat.eqb_spec (m_rows A) (m_rows B)); destruct (Nat.eqb_spec (m_cols A) (m_cols B)); simpl; auto. tauto. }
    unfold mat_add, mat_sub_op, mat_add_assign, mat_sub_assign, mat_op_assign. rewrite E. auto.
  - intros H. unfold mat_mul. apply Nat.eqb_neq in H. rewrite H. auto.
  - intros H. apply Nat.eqb_neq in H. unfold mat_Transpose, mat_trace, mat_make_unit. rewrite H. auto.
  - intros v H. unfold mat_vec. apply not_eq_sym, Nat.eqb_neq in H. rewrite H. auto.
  - intros v H. unfold vec_mat. apply Nat.eqb_neq in H. rewrite H. auto.
  - intros E Hr Hc Hf. unfold mat_mul, mat_alloc, validate_dims. rewrite E, Nat.eqb_refl. simpl negb. cbv iota.
    apply Nat.eqb_neq in Hr. apply Nat.eqb_neq in Hc. rewrite Hr, Hc. simpl orb. cbv iota.
    unfold dims_fit in Hf.
    destruct (Z.ltb_spec 100000 (Z.of_nat (m_rows A))); simpl; auto.
    destruct (Z.ltb_spec 100000 (Z.of_nat (m_cols B))); simpl; auto.
    destruct (Z.ltb_spec 100000000 (Z.of_nat (m_rows A) * Z.of_nat (m_cols B))); simpl; auto. exfalso. apply Hf. lia.
Qed.
Print Assumptions C32_nonconforming.

Section Laws.
Context {T : Type} (O : numops T) (HR : ring_laws O).
Add Ring Tring2 : HR.

Ltac step H := let C := fresh "M" in let E := fresh "E" in let HC := fresh "HM" in
  destruct H as (C & E & HC); rewrite ?E; cbn [bind].
Ltac fin := eapply is_matrix_eq; eauto; intros i j Hi Hj; cbv beta.

(** Both sides of each law are computed by the library and are equal as matrices (same shape, same entries). *)
Theorem C32_additive_laws : forall (A B C : matrix T) r c f g h, dims_ok r c ->
  is_matrix A r c f -> is_matrix B r c g -> is_matrix C r c h ->
  exists AB BC ABC Z nB, mat_add O A B = Ok AB /\ mat_add O B A = Ok AB /\
    mat_add O B C = Ok BC /\ mat_add O AB C = Ok ABC /\ mat_add O A BC = Ok ABC /\
    mat_alloc r c (n0 O) = Ok Z /\ mat_add O A Z = Ok A /\ mat_add O Z A = Ok A /\ mat_sub_op O A A = Ok Z /\
    mat_neg O B = Ok nB /\ mat_add O A nB = mat_sub_op O A B /\ mat_add O B nB = Ok Z /\
    mat_sub_op O AB B = Ok A.
Proof.
  intros A B C r c f g h HD HA HB HC.
  destruct (add_ok O A B r c f g HA HB HD) as (AB & E1 & H1). destruct (add_ok O B A r c g f HB HA HD) as (BA & E2 & H2).
  destruct (add_ok O B C r c g h HB HC HD) as (BC & E3 & H3). destruct (add_ok O _ _ _ _ _ _ H1 HC HD) as (L & E4 & H4).
  destruct (add_ok O _ _ _ _ _ _ HA H3 HD) as (R & E5 & H5).
  destruct (wp_ex _ _ _ (alloc_ok_wp r c (n0 O) (fun A => is_matrix A r c (fun _ _ => n0 O)) HD ltac:(auto))) as (Z & E6 & H6).
  destruct (add_ok O _ _ _ _ _ _ HA H6 HD) as (AZ & E7 & H7). destruct (add_ok O _ _ _ _ _ _ H6 HA HD) as (ZA & E8 & H8).
  destruct (sub_ok O _ _ _ _ _ _ HA HA HD) as (AA & E9 & H9). destruct (neg_ok O B r c g HB HD) as (nB & E10 & H10).
  destruct (add_ok O _ _ _ _ _ _ HA H10 HD) as (AnB & E11 & H11). destruct (sub_ok O _ _ _ _ _ _ HA HB HD) as (AmB & E12 & H12).
  destruct (add_ok O _ _ _ _ _ _ HB H10 HD) as (BnB & E13 & H13). destruct (sub_ok O _ _ _ _ _ _ H1 HB HD) as (ABB & E14 & H14).
  exists AB, BC, L, Z, nB. rewrite E1, E2, E3, E4, E5, E6, E7, E8, E9, E10, E11, E12, E13, E14.
  assert (BA = AB) by (fin; ring). assert (R = L) by (fin; ring). assert (AZ = A) by (fin; ring). assert (ZA = A) by (fin; ring).
  assert (AA = Z) by (fin; ring). assert (AnB = AmB) by (fin; ring). assert (BnB = Z) by (fin; ring). assert (ABB = A) by (fin; ring).
  subst. repeat split; auto.
Qed.

Theorem C32_multiplicative_laws : forall (A B B' C : matrix T) r c k l f g g' h,
  dims_ok r c -> dims_ok c k -> dims_ok k l -> dims_fit r k -> dims_fit c l -> dims_fit r l ->
  is_matrix A r c f -> is_matrix B c k g -> is_matrix B' c k g' -> is_matrix C k l h ->
  (* associativity *)
  (exists AB BC R, mat_mul O A B = Ok AB /\ mat_mul O B C = Ok BC /\ mat_mul O AB C = Ok R /\ mat_mul O A BC = Ok R) /\
  (* distributivity on both sides *)
  (exists S AS AB AB', mat_add O B B' = Ok S /\ mat_mul O A S = Ok AS /\ mat_mul O A B = Ok AB /\ mat_mul O A B' = Ok AB' /\
     mat_add O AB AB' = Ok AS) /\
  (exists S SC BC B'C, mat_add O B B' = Ok S /\ mat_mul O S C = Ok SC /\ mat_mul O B C = Ok BC /\ mat_mul O B' C = Ok B'C /\
     mat_add O BC B'C = Ok SC) /\
  (* scalars *)
  (forall s, exists sA AB sAB, mat_scale O A s = Ok sA /\ mat_mul O A B = Ok AB /\ mat_mul O sA B = Ok sAB /\ mat_scale O AB s = Ok sAB) /\
  (* transposition reverses products and is an involution *)
  (exists AB R tA tB, mat_mul O A B = Ok AB /\ mat_transpose O AB = Ok R /\ mat_transpose O A = Ok tA /\
     mat_transpose O B = Ok tB /\ mat_mul O tB tA = Ok R /\ mat_transpose O tA = Ok A) /\
  (* composition with vectors *)
  (forall v x, is_vector v k x -> exists AB Bv w, mat_mul O A B = Ok AB /\ mat_vec O B v = Ok Bv /\
     mat_vec O AB v = Ok w /\ mat_vec O A Bv = Ok w).
Proof.
  intros A B B' C r c k l f g g' h D1 D2 D3 F1 F2 F3 HA HB HB' HC.
  assert (D13 : dims_ok r k) by (split; auto; destruct D1, D2; tauto).
  assert (D24 : dims_ok c l) by (split; auto; destruct D2, D3; tauto).
  assert (D14 : dims_ok r l) by (split; auto; destruct D1, D2, D3; tauto).
  destruct (mul_ok O _ _ _ _ _ _ _ HA HB D1 D2 F1) as (AB & E1 & H1).
  destruct (mul_ok O _ _ _ _ _ _ _ HA HB' D1 D2 F1) as (AB' & E1' & H1').
  destruct (mul_ok O _ _ _ _ _ _ _ HB HC D2 D3 F2) as (BC & E2 & H2).
  destruct (mul_ok O _ _ _ _ _ _ _ HB' HC D2 D3 F2) as (BC' & E2' & H2').
  split; [|split; [|split; [|split; [|split]]]].
  - destruct (mul_ok O _ _ _ _ _ _ _ H1 HC D13 D3 F3) as (L & E3 & H3).
    destruct (mul_ok O _ _ _ _ _ _ _ HA H2 D1 D24 F3) as (R & E4 & H4).
    exists AB, BC, L. rewrite E1, E2, E3, E4. assert (R = L); [|subst; auto].
    fin. rewrite (sum_ext O k _ (fun m => sumn O c (fun q => nmul O (nmul O (f i q) (g q m)) (h m j)))).
    2:{ intros m Hm. apply sum_mul_r; auto. }
    rewrite (sum_swap O HR). apply sum_ext. intros q Hq. rewrite (sum_mul_l O HR). apply sum_ext. intros m Hm. ring.
  - destruct (add_ok O _ _ _ _ _ _ HB HB' D2) as (S & E3 & H3). destruct (mul_ok O _ _ _ _ _ _ _ HA H3 D1 D2 F1) as (AS & E4 & H4).
    destruct (add_ok O _ _ _ _ _ _ H1 H1' D13) as (R & E5 & H5). exists S, AS, AB, AB'. rewrite E3, E4, E1, E1', E5.
    assert (R = AS); [|subst; auto]. fin. rewrite <- (sum_add O HR). apply sum_ext. intros q Hq. ring.
  - destruct (add_ok O _ _ _ _ _ _ HB HB' D2) as (S & E3 & H3). destruct (mul_ok O _ _ _ _ _ _ _ H3 HC D2 D3 F2) as (SC & E4 & H4).
    destruct (add_ok O _ _ _ _ _ _ H2 H2' D24) as (R & E5 & H5). exists S, SC, BC, BC'. rewrite E3, E4, E2, E2', E5.
    assert (R = SC); [|subst; auto]. fin. rewrite <- (sum_add O HR). apply sum_ext. intros q Hq. ring.
  - intros s. destruct (scale_ok O A s _ _ _ HA D1) as (sA & E3 & H3). destruct (mul_ok O _ _ _ _ _ _ _ H3 HB D1 D2 F1) as (R & E4 & H4).
    destruct (scale_ok O AB s _ _ _ H1 D13) as (L & E5 & H5). exists sA, AB, R. rewrite E3, E1, E4, E5.
    assert (L = R); [|subst; auto]. fin. rewrite (sum_mul_r O HR). apply sum_ext. intros q Hq. ring.
  - destruct (transpose_ok O _ _ _ _ HA D1) as (tA & E3 & H3). destruct (transpose_ok O _ _ _ _ HB D2) as (tB & E4 & H4).
    destruct (transpose_ok O _ _ _ _ H1 D13) as (R & E5 & H5).
    assert (D1s : dims_ok c r) by (destruct D1 as [(?&?&?) ?]; split; [unfold dims_fit; lia|tauto]).
    assert (D2s : dims_ok k c) by (destruct D2 as [(?&?&?) ?]; split; [unfold dims_fit; lia|tauto]).
    assert (F1s : dims_fit k r) by (unfold dims_fit in *; lia).
    destruct (mul_ok O _ _ _ _ _ _ _ H4 H3 D2s D1s F1s) as (L & E6 & H6). destruct (transpose_ok O _ _ _ _ H3 D1s) as (A' & E7 & H7).
    exists AB, R, tA, tB. rewrite E1, E5, E3, E4, E6, E7.
    assert (L = R) by (fin; apply sum_ext; intros; ring). assert (A' = A) by (fin; auto). subst. repeat split; auto.
  - intros v x Hv. destruct (mat_vec_ok O B v _ _ _ _ HB Hv) as (Bv & E3 & H3). destruct (mat_vec_ok O AB v _ _ _ _ H1 Hv) as (w & E4 & H4).
    destruct (mat_vec_ok O A Bv _ _ _ _ HA H3) as (w' & E5 & H5). exists AB, Bv, w. rewrite E1, E3, E4, E5.
    assert (w' = w); [|subst; auto]. eapply is_vector_eq; eauto. intros i Hi. cbv beta.
    rewrite (sum_ext O k _ (fun m => sumn O c (fun q => nmul O (nmul O (f i q) (g q m)) (x m)))).
    2:{ intros m Hm. apply sum_mul_r; auto. }
    rewrite (sum_swap O HR). apply sum_ext. intros q Hq. rewrite (sum_mul_l O HR). apply sum_ext. intros m Hm. ring.
Qed.

(** identity, trace of a product *)
Theorem C32_identity_trace : forall (A B : matrix T) r c f g, 0 < r -> 0 < c -> dims_fit r c -> dims_fit r r -> dims_fit c c ->
  is_matrix A r c f -> is_matrix B c r g ->
  (exists Ir, mat_identity O (Z.of_nat r) = Ok Ir /\ mat_mul O Ir A = Ok A) /\
  (exists Ic, mat_identity O (Z.of_nat c) = Ok Ic /\ mat_mul O A Ic = Ok A) /\
  (exists AB BA t, mat_mul O A B = Ok AB /\ mat_mul O B A = Ok BA /\ mat_trace O AB = Ok t /\ mat_trace O BA = Ok t).
Proof.
  intros A B r c f g Hr Hc F1 F2 F3 HA HB.
  assert (D1 : dims_ok r c) by (split; auto; lia). assert (D2 : dims_ok r r) by (split; auto; lia). assert (D3 : dims_ok c c) by (split; auto; lia).
  assert (D1s : dims_ok c r) by (destruct D1 as [(?&?&?) ?]; split; [unfold dims_fit; lia|tauto]).
  destruct (identity_ok O r Hr F2) as (Ir & E1 & H1). destruct (identity_ok O c Hc F3) as (Ic & E2 & H2).
  split; [|split].
  - exists Ir. rewrite E1. destruct (mul_ok O _ _ _ _ _ _ _ H1 HA D2 D1 F1) as (R & E3 & H3). rewrite E3. split; auto.
    assert (R = A); [|subst; auto]. fin. rewrite (sum_one O HR r i); auto; [rewrite Nat.eqb_refl; ring|].
    intros q Hq Hne. apply not_eq_sym, Nat.eqb_neq in Hne. rewrite Hne. ring.
  - exists Ic. rewrite E2. destruct (mul_ok O _ _ _ _ _ _ _ HA H2 D1 D3 F1) as (R & E3 & H3). rewrite E3. split; auto.
    assert (R = A); [|subst; auto]. fin. rewrite (sum_one O HR c j); auto; [rewrite Nat.eqb_refl; ring|].
    intros q Hq Hne. apply Nat.eqb_neq in Hne. rewrite Hne. ring.
  - destruct (mul_ok O _ _ _ _ _ _ _ HA HB D1 D1s F2) as (AB & E3 & H3). destruct (mul_ok O _ _ _ _ _ _ _ HB HA D1s D1 F3) as (BA & E4 & H4).
    exists AB, BA. eexists. split; auto. split; auto. rewrite (trace_ok O AB r _ H3), (trace_ok O BA c _ H4). split; auto. f_equal.
    rewrite (sum_swap O HR). apply sum_ext. intros i Hi. apply sum_ext. intros j Hj. ring.
Qed.
End Laws.
Print Assumptions C32_additive_laws.
Print Assumptions C32_multiplicative_laws.
Print Assumptions C32_identity_trace.

(** The scalar of [*=] and [/=] is a reference: [m /= m(0,0)] uses the already divided entry for the
    rest of the matrix. *)
Theorem C32_divide_assign_alias_refuted : exists (A : matrix Qc) s C D, mget A 0 0 = Ok s /\
  mat_divide_assign Qnum A (inr 0) = Ok C /\ mat_divide Qnum A s = Ok D /\ C <> D.
Proof.
  exists (mkMat 1 2 [Q2Qc 2; Q2Qc 4]), (Q2Qc 2). do 2 eexists.
  split; [reflexivity|]. split; [vm_compute; reflexivity|]. split; [vm_compute; reflexivity|]. discriminate.
Qed.
Print Assumptions C32_divide_assign_alias_refuted.
Theorem C32_scale_assign_alias_refuted : exists (A : matrix Z) s C D, mget A 0 0 = Ok s /\
  mat_scale_assign Znum A (inr 0) = Ok C /\ mat_scale Znum A s = Ok D /\ C <> D.
Proof.
  exists (mkMat 1 2 [2; 4]%Z), 2%Z. do 2 eexists.
  split; [reflexivity|]. split; [vm_compute; reflexivity|]. split; [vm_compute; reflexivity|]. discriminate.
Qed.

(** ** Witness: the hypotheses are met by concrete rectangular matrices *)
Example C32_example :
  let A := mkMat 2 3 [1; 2; 3; 4; 5; 6]%Z in let B := mkMat 3 1 [1; -1; 2]%Z in
  is_matrix A 2 3 (fun i j => Z.of_nat (3 * i + j + 1)) /\ dims_ok 2 3 /\ dims_ok 3 1 /\ dims_fit 2 1 /\
  mat_mul Znum A B = Ok (mkMat 2 1 [5; 11]%Z) /\ mat_transpose Znum A = Ok (mkMat 3 2 [1; 4; 2; 5; 3; 6]%Z).
Proof.
  cbv zeta. split.
  - repeat split; auto. intros i j Hi Hj. destruct i as [|[|i]]; [| |lia]; destruct j as [|[|[|j]]]; try lia; reflexivity.
  - repeat split; try (vm_compute; discriminate); try discriminate; vm_compute; reflexivity.
Qed.
