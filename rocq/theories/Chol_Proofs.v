(** * Cholesky decomposition: proofs over any field *)

From Coq Require Import List Arith Bool Lia ZArith Ring Field.
From Verif Require Import Base Num Det Mat_Model Mat_Proofs Lin_Base Gauss_Proofs LU_Proofs LU_Props Chol_Model.
Import ListNotations.
Local Open Scope nat_scope.

Section F.
Context {T : Type} (O : numops T) (HF : field_laws O) (H : cholops T).
Let HR : ring_laws O := field_ring T O HF.
Add Field Tfield : HF.
Notation sum := (sumn O).
Implicit Types (f a L : nat -> nat -> T).

(** what the code relies on: the square root of a number that is not <= 0 *)
Record chol_laws : Prop := {
  cl_nz : forall x, c_le0 H x = false -> x <> n0 O;
  cl_sq : forall x, c_le0 H x = false -> nmul O (c_sqrt H x) (c_sqrt H x) = x;
  cl_pos : forall x, c_le0 H x = false -> c_le0 H (c_sqrt H x) = false
}.
Context (HL : chol_laws).

(** L is lower triangular with positive diagonal and L L^T is the symmetric matrix whose upper triangle is f's *)
Definition chol_factor (n : nat) f L : Prop :=
  (forall r c, r < n -> c < n -> r < c -> L r c = n0 O) /\
  (forall c, c < n -> c_le0 H (L c c) = false) /\
  (forall r c, r < n -> c < n -> sum n (fun k => nmul O (L r k) (L c k)) = f (Nat.min r c) (Nat.max r c)).

Record dinv (n : nat) f (i j : nat) a : Prop := {
  d_u : forall r c, r < n -> c < n -> (r < c \/ i < c \/ (c = i /\ j <= r)) -> a r c = f r c;
  d_d : forall c, c < n -> (c < i \/ (c = i /\ i < j)) -> c_le0 H (a c c) = false;
  d_e : forall r c, r < n -> c <= r -> (c < i \/ (c = i /\ r < j)) ->
     nadd O (sum c (fun k => nmul O (a c k) (a r k))) (nmul O (a c c) (a r c)) = f c r
}.

Lemma chol_sum_wp : forall (A : matrix T) n f i j a (Q : T -> Prop), is_matrix A n n a -> i < n -> j < n ->
  Q (nsub O (a i j) (sum i (fun k => nmul O (a i k) (a j k)))) -> wp (chol_sum O A i j) Q.
Proof.
  intros A n f i j a Q HA Hi Hj HQ. unfold chol_sum. apply wp_bind. eapply mget_wp; eauto.
  apply (acc_sub_wp O HF 0 i (fun k => nmul O (a i k) (a j k))); [lia| |].
  - intros s k _ Hk. apply wp_bind. eapply mget_wp; eauto; [lia|]. apply wp_bind. eapply mget_wp; eauto; [lia|]. apply wp_Ok. auto.
  - simpl. replace (nsub O (sum i (fun k => nmul O (a i k) (a j k))) (n0 O)) with (sum i (fun k => nmul O (a i k) (a j k))) by ring. auto.
Qed.

Definition throws_at (n : nat) f (e : exn) : Prop :=
  e = SingularError /\ exists i a, i < n /\ dinv n f i i a /\
    c_le0 H (nsub O (f i i) (sum i (fun k => nmul O (a i k) (a i k)))) = true.

Lemma chol_step_wpt : forall (A : matrix T) n f i j a, is_matrix A n n a -> i < n -> i <= j -> j < n -> dinv n f i j a ->
  wpt (chol_step O H i A j) (throws_at n f) (fun A' => exists a', is_matrix A' n n a' /\ dinv n f i (j + 1) a').
Proof.
  intros A n f i j a HA Hi Hij Hj [U D E]. unfold chol_step. apply wpt_bind_wp. eapply chol_sum_wp; eauto.
  assert (Eij : a i j = f i j) by (apply U; auto; lia). rewrite Eij.
  set (s := nsub O (f i j) (sum i (fun k => nmul O (a i k) (a j k)))).
  destruct (Nat.eqb_spec i j) as [->|Hne].
  - destruct (c_le0 H s) eqn:Es.
    + split; auto. exists j, a. split; auto. split; [constructor; auto|]. auto.
    + apply wpt_wp. eapply mset_wp; [exact HA|lia|lia|]. intros A' HA'. eexists. split; [exact HA'|]. constructor.
      * intros r c Hr Hc Hrc. unfold fset. destruct (Nat.eqb_spec r j); destruct (Nat.eqb_spec c j); simpl; try lia; apply U; auto; lia.
      * intros c Hc Hcj. unfold fset. destruct (Nat.eqb_spec c j) as [->|]; simpl; [apply (cl_pos HL); auto|]. apply D; auto. lia.
      * intros r c Hr Hcr Hc. rewrite (sum_ext O c _ (fun k => nmul O (a c k) (a r k))).
        2:{ intros k Hk. unfold fset. rewrite (proj2 (Nat.eqb_neq k j)) by lia. rewrite !andb_false_r. auto. }
        unfold fset. destruct (Nat.eqb_spec c j) as [->|Hcj].
        -- assert (r = j) by lia. subst r. rewrite Nat.eqb_refl. simpl. rewrite (cl_sq HL) by auto. unfold s. ring.
        -- rewrite !andb_false_r. apply E; auto. lia.
  - apply wpt_wp. apply wp_bind. eapply mget_wp; eauto. eapply mset_wp; [exact HA|lia|lia|]. intros A' HA'. eexists. split; [exact HA'|].
    constructor.
    + intros r c Hr Hc Hrc. unfold fset. destruct (Nat.eqb_spec r j); destruct (Nat.eqb_spec c i); simpl; try lia; apply U; auto; lia.
    + intros c Hc Hcj. unfold fset. destruct (Nat.eqb_spec c j) as [->|]; simpl.
      * rewrite (proj2 (Nat.eqb_neq j i)) by lia. apply D; auto. lia.
      * apply D; auto. lia.
    + intros r c Hr Hcr Hc. rewrite (sum_ext O c _ (fun k => nmul O (a c k) (a r k))).
      2:{ intros k Hk. unfold fset. rewrite (proj2 (Nat.eqb_neq k i)) by lia. rewrite !andb_false_r. auto. }
      unfold fset. destruct (Nat.eqb_spec c i) as [->|Hcj].
      * rewrite (proj2 (Nat.eqb_neq i j)) by lia. destruct (Nat.eqb_spec r j) as [->|Hr']; simpl.
        -- assert (Hz : a i i <> n0 O) by (apply (cl_nz HL); apply D; auto; lia). unfold s. field. auto.
        -- apply E; auto. lia.
      * rewrite !andb_false_r. apply E; auto. lia.
Qed.

Lemma chol_decomp_wpt : forall (A : matrix T) n f, is_matrix A n n f ->
  wpt (chol_decomp O H n A) (throws_at n f) (fun A' => exists a, is_matrix A' n n a /\ dinv n f n n a).
Proof.
  intros A n f HA. unfold chol_decomp.
  apply (wpt_for_range _ _ _ (fun i A => exists a, is_matrix A n n a /\ dinv n f i i a)).
  - lia.
  - exists f. split; auto. constructor; intros; auto; lia.
  - intros i A1 _ Hi (a & H1 & H2). cbv beta.
    eapply wpt_conseq; [|apply (wpt_for_range _ _ _ (fun j A => exists a, is_matrix A n n a /\ dinv n f i j a))].
    + intros A2 (a2 & H3 & [H4 H5 H6]). exists a2. split; auto. constructor; intros.
      * apply H4; auto. lia.
      * apply H5; auto. lia.
      * apply H6; auto. lia.
    + lia.
    + exists a. auto.
    + intros j A2 Hij Hj (a2 & H3 & H4). cbv beta. eapply chol_step_wpt; eauto.
Qed.

Lemma chol_clear_wp : forall (A : matrix T) n a, is_matrix A n n a ->
  wp (chol_clear O n A) (fun A' => is_matrix A' n n (fun r c => if r <? c then n0 O else a r c)).
Proof.
  intros A n a HA. unfold chol_clear.
  eapply wp_conseq; [|apply (for_range_inv _ _ (fun i A => is_matrix A n n (fun r c => if (r <? c) && (r <? i) then n0 O else a r c)))].
  - intros A' H1. eapply is_matrix_ext; [exact H1|]. intros r c Hr Hc. cbv beta. rewrite (proj2 (Nat.ltb_lt r n)), andb_true_r by auto. auto.
  - lia.
  - eapply is_matrix_ext; [exact HA|]. intros r c Hr Hc. cbv beta. rewrite andb_false_r. auto.
  - intros i A1 _ Hi H1. cbv beta in *.
    eapply wp_conseq; [|apply (for_range_inv _ _ (fun j A => is_matrix A n n (fun r c =>
        if ((r <? c) && (r <? i)) || (Nat.eqb r i && (r <? c) && (c <? j)) then n0 O else a r c)))].
    + intros A2 H2. eapply is_matrix_ext; [exact H2|]. intros r c Hr Hc. cbv beta.
      replace ((r <? c) && (r <? i) || Nat.eqb r i && (r <? c) && (c <? n)) with ((r <? c) && (r <? i + 1)); auto.
      destruct (Nat.ltb_spec r c); destruct (Nat.ltb_spec r i); destruct (Nat.ltb_spec r (i + 1)); destruct (Nat.eqb_spec r i); destruct (Nat.ltb_spec c n); simpl; auto; lia.
    + lia.
    + eapply is_matrix_ext; [exact H1|]. intros r c Hr Hc. cbv beta.
      replace ((r <? c) && (r <? i) || Nat.eqb r i && (r <? c) && (c <? i + 1)) with ((r <? c) && (r <? i)); auto.
      destruct (Nat.ltb_spec r c); destruct (Nat.ltb_spec r i); destruct (Nat.eqb_spec r i); destruct (Nat.ltb_spec c (i + 1)); simpl; auto; lia.
    + intros j A2 Hj1 Hj2 H2. cbv beta in *. eapply mset_wp; [exact H2|lia|lia|]. intros A3 H3. eapply is_matrix_ext; [exact H3|].
      intros r c Hr Hc. unfold fset. cbv beta.
      destruct (Nat.ltb_spec r c); destruct (Nat.ltb_spec r i); destruct (Nat.eqb_spec r i); destruct (Nat.eqb_spec c j); destruct (Nat.ltb_spec c j); destruct (Nat.ltb_spec c (j + 1)); simpl; auto; try lia.
Qed.

Lemma dinv_factor : forall n f a, dinv n f n n a -> chol_factor n f (fun r c => if r <? c then n0 O else a r c).
Proof.
  intros n f a [U D E]. split; [|split].
  - intros r c _ _ Hrc. rewrite (proj2 (Nat.ltb_lt r c)) by auto. auto.
  - intros c Hc. rewrite Nat.ltb_irrefl. apply D; auto.
  - assert (K : forall r c, r < n -> c <= r -> sum n (fun k => nmul O (if r <? k then n0 O else a r k) (if c <? k then n0 O else a c k)) = f c r).
    { intros r c Hr Hc. rewrite <- (E r c) by (auto; lia).
      replace n with ((S c) + (n - S c)) at 1 by lia. rewrite (sum_app O HR). rewrite (sum_zero O HR (n - S c)).
      - cbn [sumn]. rewrite (proj2 (Nat.ltb_ge r c)), Nat.ltb_irrefl by lia.
        rewrite (sum_ext O c _ (fun k => nmul O (a c k) (a r k))); [ring|].
        intros k Hk. rewrite (proj2 (Nat.ltb_ge r k)), (proj2 (Nat.ltb_ge c k)) by lia. ring.
      - intros k Hk. rewrite (proj2 (Nat.ltb_lt c (S c + k))) by lia. ring. }
    intros r c Hr Hc. destruct (le_lt_dec c r) as [Hle|Hlt].
    + rewrite K by auto. rewrite Nat.min_r, Nat.max_l by lia. auto.
    + rewrite (sum_ext O n _ (fun k => nmul O (if c <? k then n0 O else a c k) (if r <? k then n0 O else a r k))) by (intros; ring).
      rewrite K by lia. rewrite Nat.min_l, Nat.max_r by lia. auto.
Qed.

(** the symmetry test *)
Lemma is_symmetric_wp : forall (A : matrix T) n f (Q : bool -> Prop), is_matrix A n n f ->
  Q (forallb (fun i => forallb (fun j => negb (i <? j) || negb (c_far H (f i j) (f j i))) (seq 0 n)) (seq 0 n)) -> wp (mat_is_symmetric H A) Q.
Proof.
  intros A n f Q HA HQ. unfold mat_is_symmetric. pose proof HA as (-> & -> & _). rewrite Nat.eqb_refl. simpl negb. cbv iota.
  set (row := fun i m => forallb (fun j => negb (i <? j) || negb (c_far H (f i j) (f j i))) (seq 0 m)) in *.
  eapply wp_conseq; [|apply (for_range_inv _ _ (fun i s => s = forallb (fun i => row i n) (seq 0 i)))].
  - intros s ->. auto.
  - lia.
  - auto.
  - intros i s _ Hi ->. cbv beta.
    eapply wp_conseq; [|apply (for_range_inv _ _ (fun j s => s = forallb (fun i => row i n) (seq 0 i) && row i j))].
    + intros s ->. rewrite Nat.add_1_r, seq_S, forallb_app. simpl. rewrite andb_true_r. auto.
    + lia.
    + replace (row i (i + 1)) with true; [rewrite andb_true_r; auto|]. symmetry. apply forallb_forall. intros j Hj. apply in_seq in Hj.
      destruct (Nat.ltb_spec i j); auto. lia.
    + intros j s Hj1 Hj2 ->. cbv beta. replace (row i (j + 1)) with (row i j && negb (c_far H (f i j) (f j i))).
      2:{ unfold row. rewrite (Nat.add_1_r j), (seq_S j), forallb_app. simpl. destruct (Nat.ltb_spec i j); [simpl; rewrite andb_true_r; auto|lia]. }
      destruct (forallb (fun i => row i n) (seq 0 i) && row i j) eqn:E.
      * apply wp_bind. eapply mget_wp; eauto. apply wp_bind. eapply mget_wp; eauto. apply wp_Ok.
        apply andb_true_iff in E. destruct E as [-> ->]. auto.
      * apply wp_Ok. rewrite andb_assoc, E. auto.
Qed.

(** ** Substitution *)
Lemma sum_lower : forall n i (g : nat -> T), i < n -> (forall k, i < k -> k < n -> g k = n0 O) -> sum n g = nadd O (sum i g) (g i).
Proof.
  intros n i g Hi Hz. replace n with (S i + (n - S i)) by lia. rewrite (sum_app O HR). rewrite (sum_zero O HR (n - S i)).
  - simpl. ring.
  - intros k Hk. apply Hz; lia.
Qed.

Lemma sum_tail_ext : forall n m (g h : nat -> T), m <= n -> (forall k, m <= k -> k < n -> g k = h k) ->
  nsub O (sum n g) (sum m g) = nsub O (sum n h) (sum m h).
Proof.
  intros n m g h Hm E. replace n with (m + (n - m)) by lia. rewrite !(sum_app O HR).
  rewrite (sum_ext O (n - m) (fun i => g (m + i)) (fun i => h (m + i))); [ring|]. intros k Hk. apply E; lia.
Qed.

Lemma forwardc_wp : forall (A : matrix T) n L (src : nat -> list T -> res T) b x g (Q : list T -> Prop), is_matrix A n n L ->
  (forall i, i < n -> L i i <> n0 O) -> (forall r c, r < n -> c < n -> r < c -> L r c = n0 O) -> is_vector x n g ->
  (forall i x y, i < n -> is_vector x n (fun j => if j <? i then y j else g j) -> wp (src i x) (fun v => v = b i)) ->
  (forall x' y, is_vector x' n y -> (forall i, i < n -> sum n (fun k => nmul O (L i k) (y k)) = b i) -> Q x') ->
  wp (for_range 0 n (fun x i =>
    s <- src i x ;;
    s <- for_range 0 i (fun s k => l <- mget A i k ;; y <- vget x k ;; Ok (nsub O s (nmul O l y))) s ;;
    d <- mget A i i ;; vset x i (ndiv O s d)) x) Q.
Proof.
  intros A n L src b x g Q HA Hnz Hlow Hx Hsrc HQ.
  eapply wp_conseq; [|apply (for_range_inv _ _ (fun i x => exists y, is_vector x n (fun j => if j <? i then y j else g j) /\
     forall r, r < i -> sum n (fun k => nmul O (L r k) (y k)) = b r))].
  - intros x' (y & H1 & H2). apply (HQ x' y); auto. eapply is_vector_ext; [exact H1|]. intros j Hj. cbv beta. ltb.
  - lia.
  - exists (fun _ => n0 O). split; [eapply is_vector_ext; [exact Hx|]; intros; cbv beta; auto|intros; lia].
  - intros i x1 _ Hi (y & H1 & H2). cbv beta. apply wp_bind. eapply wp_conseq; [|eapply Hsrc; eauto]. intros v ->.
    apply wp_bind. apply (acc_sub_wp O HF 0 i (fun k => nmul O (L i k) (y k))); [lia| |].
    { intros s k _ Hk. apply wp_bind. eapply mget_wp; eauto; [lia|]. apply wp_bind. eapply vgetf_wp; eauto; [lia|]. cbv beta.
      destruct (Nat.ltb_spec k i); [|lia]. apply wp_Ok. auto. }
    apply wp_bind. eapply mget_wp; eauto. eapply vsetf_wp; eauto. intros x2 Hx2. simpl sumn.
    set (v := ndiv O (nsub O (b i) (nsub O (sum i (fun k => nmul O (L i k) (y k))) (n0 O))) (L i i)) in *.
    exists (vfset y i v). split.
    + eapply is_vector_ext; [exact Hx2|]. intros j Hj. unfold vfset. cbv beta. ltb.
    + intros r Hr. rewrite (sum_lower n r).
      * rewrite (sum_ext O r _ (fun k => nmul O (L r k) (y k))).
        -- unfold vfset. destruct (Nat.eqb_spec r i) as [->|Hne].
           ++ unfold v. field. apply Hnz; auto.
           ++ rewrite <- (H2 r) by lia. rewrite (sum_lower n r); auto; [lia|]. intros k Hk1 Hk2. rewrite Hlow by lia. ring.
        -- intros k Hk. unfold vfset. rewrite (proj2 (Nat.eqb_neq k i)) by lia. auto.
      * lia.
      * intros k Hk1 Hk2. rewrite Hlow by lia. ring.
Qed.

Lemma backwardc_wp : forall S n L x y (Q : list T -> Prop), ch_n S = n -> is_matrix (ch_l S) n n L ->
  (forall i, i < n -> L i i <> n0 O) -> (forall r c, r < n -> c < n -> r < c -> L r c = n0 O) -> is_vector x n y ->
  (forall x' z, is_vector x' n z -> (forall i, i < n -> sum n (fun k => nmul O (L k i) (z k)) = y i) -> Q x') ->
  wp (chol_backward O S x) Q.
Proof.
  intros S n L x y Q Hn HA Hnz Hlow Hx HQ. unfold chol_backward. rewrite Hn.
  assert (Up : forall r g, r < n -> (forall k, k < r -> g k = n0 O) -> sum n g = nadd O (g r) (nsub O (sum n g) (sum (r + 1) g))).
  { intros r g Hr Hz. rewrite (Nat.add_1_r r). simpl. rewrite (sum_zero O HR r g) by auto. ring. }
  eapply wp_conseq; [|apply (for_down_inv _ _ (fun i x => exists z, is_vector x n (fun j => if j <? i then y j else z j) /\
     forall r, i <= r -> r < n -> sum n (fun k => nmul O (L k r) (z k)) = y r))].
  - intros x' (z & H1 & H2). apply (HQ x' z); [|intros i Hi; apply H2; auto; lia]. eapply is_vector_ext; [exact H1|]. intros; cbv beta; auto.
  - lia.
  - exists (fun _ => n0 O). split; [|intros; lia]. eapply is_vector_ext; [exact Hx|]. intros j Hj. cbv beta. ltb.
  - intros i x1 _ Hi (z & H1 & H2). cbv beta. apply wp_bind. eapply vgetf_wp; eauto. cbv beta.
    destruct (Nat.ltb_spec i (i + 1)); [|lia]. apply wp_bind.
    apply (acc_sub_wp O HF (i + 1) n (fun k => nmul O (L k i) (z k))); [lia| |].
    { intros s k Hk1 Hk2. apply wp_bind. eapply mget_wp; eauto. apply wp_bind. eapply vgetf_wp; eauto. cbv beta.
      destruct (Nat.ltb_spec k (i + 1)); [lia|]. apply wp_Ok. auto. }
    apply wp_bind. eapply mget_wp; eauto. eapply vsetf_wp; eauto. intros x2 Hx2.
    set (d := nsub O (sum n (fun k => nmul O (L k i) (z k))) (sum (i + 1) (fun k => nmul O (L k i) (z k)))) in *.
    set (v := ndiv O (nsub O (y i) d) (L i i)) in *.
    exists (vfset z i v). split.
    + eapply is_vector_ext; [exact Hx2|]. intros j Hj. unfold vfset. cbv beta. ltb.
    + intros r Hr1 Hr2. destruct (Nat.eq_dec r i) as [->|Hne].
      * rewrite (Up i) by (auto; intros k Hk; rewrite Hlow by lia; ring).
        replace (nsub O (sum n (fun k => nmul O (L k i) (vfset z i v k))) (sum (i + 1) (fun k => nmul O (L k i) (vfset z i v k)))) with d.
        -- unfold vfset. rewrite Nat.eqb_refl. unfold v. field. apply Hnz; auto.
        -- unfold d. apply sum_tail_ext; [lia|]. intros k Hk1 Hk2. unfold vfset. rewrite (proj2 (Nat.eqb_neq k i)) by lia. auto.
      * rewrite <- (H2 r) by lia. apply sum_ext. intros k Hk. unfold vfset. destruct (Nat.eqb_spec k i) as [->|]; auto.
        rewrite Hlow by lia. ring.
Qed.

Lemma chol_apply : forall n f L x, chol_factor n f L -> forall i, i < n ->
  sum n (fun c => nmul O (f (Nat.min i c) (Nat.max i c)) (x c)) = sum n (fun k => nmul O (L i k) (sum n (fun c => nmul O (L c k) (x c)))).
Proof.
  intros n f L x (_ & _ & E) i Hi.
  rewrite (sum_ext O n _ (fun c => sum n (fun k => nmul O (nmul O (L i k) (L c k)) (x c)))).
  - rewrite (sum_swap O HR). apply sum_ext. intros k Hk. rewrite (sum_mul_l O HR). apply sum_ext. intros; ring.
  - intros c Hc. rewrite <- E by auto. apply (sum_mul_r O HR).
Qed.

Lemma lower_kernel : forall n L x, (forall i, i < n -> L i i <> n0 O) -> (forall r c, r < n -> c < n -> r < c -> L r c = n0 O) ->
  (forall i, i < n -> sum n (fun k => nmul O (L i k) (x k)) = n0 O) -> forall i, i < n -> x i = n0 O.
Proof.
  intros n L x Hnz Hlow Hz i. induction i as [i IH] using lt_wf_ind. intros Hi. pose proof (Hz i Hi) as E.
  rewrite (sum_one O HR n i) in E; auto.
  - eapply (mul_cancel O HF); [apply (Hnz i Hi)|exact E].
  - intros k Hk Hne. destruct (lt_dec k i); [rewrite IH by lia; ring|]. rewrite Hlow by lia. ring.
Qed.
Lemma lower_kernel_t : forall n L x, (forall i, i < n -> L i i <> n0 O) -> (forall r c, r < n -> c < n -> r < c -> L r c = n0 O) ->
  (forall i, i < n -> sum n (fun k => nmul O (L k i) (x k)) = n0 O) -> forall i, i < n -> x i = n0 O.
Proof.
  intros n L x Hnz Hlow Hz.
  assert (D : forall d i, n <= i + d -> i < n -> x i = n0 O).
  { induction d as [|d IH]; intros i Hd Hi; [lia|]. pose proof (Hz i Hi) as E. rewrite (sum_one O HR n i) in E; auto.
    - eapply (mul_cancel O HF); [apply (Hnz i Hi)|exact E].
    - intros k Hk Hne. destruct (lt_dec i k); [rewrite (IH k) by lia; ring|]. rewrite Hlow by lia. ring. }
  intros i Hi. apply (D n i); lia.
Qed.

Lemma factor_nz : forall n f L, chol_factor n f L -> forall i, i < n -> L i i <> n0 O.
Proof. intros n f L (_ & D & _) i Hi. apply (cl_nz HL). auto. Qed.

Lemma chol_kernel : forall n f L x, chol_factor n f L ->
  (forall i, i < n -> sum n (fun c => nmul O (f (Nat.min i c) (Nat.max i c)) (x c)) = n0 O) -> forall i, i < n -> x i = n0 O.
Proof.
  intros n f L x HC Hz. pose proof (factor_nz _ _ _ HC) as Hnz. pose proof HC as (Hlow & _ & _).
  apply (lower_kernel_t n L); auto. apply (lower_kernel n L); auto. intros i Hi. rewrite <- (chol_apply n f L x HC i Hi). auto.
Qed.

Definition symf f (i j : nat) : T := f (Nat.min i j) (Nat.max i j).

Lemma chol_solution : forall n f L b y z, chol_factor n f L ->
  (forall i, i < n -> sum n (fun k => nmul O (L i k) (y k)) = b i) ->
  (forall i, i < n -> sum n (fun k => nmul O (L k i) (z k)) = y i) ->
  solution O n (symf f) b z.
Proof.
  intros n f L b y z HC Hy Hz.
  assert (E : forall i, i < n -> sum n (fun k => nmul O (symf f i k) (z k)) = b i).
  { intros i Hi. unfold symf. rewrite (chol_apply n f L z HC i Hi). rewrite <- (Hy i Hi). apply sum_ext. intros k Hk. rewrite Hz by auto. auto. }
  split; auto. intros w Hw i Hi.
  assert (K := chol_kernel n f L (fun k => nsub O (w k) (z k)) HC).
  assert (K' : nsub O (w i) (z i) = n0 O).
  { apply K; auto. intros r Hr. transitivity (nsub O (b r) (b r)); [|ring]. rewrite <- (Hw r Hr) at 1. rewrite <- (E r Hr). unfold symf.
    rewrite <- (sum_sub O HR). apply sum_ext. intros; ring. }
  transitivity (nadd O (nsub O (w i) (z i)) (z i)); [ring|]. rewrite K'. ring.
Qed.

Lemma resize_vector : forall (v : list T) n, exists g, is_vector (vec_resize O v n) n g.
Proof.
  intros v n. assert (Hl : length (vec_resize O v n) = n).
  { unfold vec_resize. rewrite app_length, firstn_length, repeat_length. lia. }
  exists (fun i => nth i (vec_resize O v n) (n0 O)). rewrite <- Hl at 2. apply is_vector_self.
Qed.

Definition is_chol (n : nat) f (S : chol T) : Prop := ch_n S = n /\ exists L, is_matrix (ch_l S) n n L /\ chol_factor n f L.

Lemma chol_solve_wp : forall n f S b x bf (Q : list T -> Prop), is_chol n f S -> is_vector b n bf ->
  (forall x' xf, is_vector x' n xf -> solution O n (symf f) bf xf -> Q x') -> wp (chol_solve_into O S b x) Q.
Proof.
  intros n f S b x bf Q (Hn & L & HA & HC) Hb HQ. unfold chol_solve_into. pose proof Hb as [Lb _]. rewrite Hn, Lb, Nat.eqb_refl. simpl negb. cbv iota.
  destruct (resize_vector x n) as (g & Hg). apply wp_bind. unfold chol_forward. rewrite Hn.
  eapply (forwardc_wp (ch_l S) n L (fun i _ => vget b i) bf); eauto.
  - apply (factor_nz _ _ _ HC).
  - apply HC.
  - intros i x1 y Hi _. eapply vgetf_wp; eauto.
  - intros x1 y H1 H2. eapply (backwardc_wp S n L); eauto; [apply (factor_nz _ _ _ HC)|apply HC|].
    intros x2 z H3 H4. apply (HQ x2 z); auto. eapply chol_solution; eauto.
Qed.

Lemma chol_alias_wp : forall n f S b bf (Q : list T -> Prop), is_chol n f S -> is_vector b n bf ->
  (forall x' xf, is_vector x' n xf -> solution O n (symf f) bf xf -> Q x') -> wp (chol_solve_alias O S b) Q.
Proof.
  intros n f S b bf Q (Hn & L & HA & HC) Hb HQ. unfold chol_solve_alias. pose proof Hb as [Lb _]. rewrite Hn, Lb, Nat.eqb_refl. simpl negb. cbv iota.
  assert (Er : vec_resize O b n = b).
  { unfold vec_resize. rewrite Lb, Nat.sub_diag. simpl. rewrite app_nil_r. rewrite <- Lb. apply firstn_all. }
  rewrite Er. apply wp_bind.
  eapply (forwardc_wp (ch_l S) n L (fun i x => vget x i) bf); eauto.
  - apply (factor_nz _ _ _ HC).
  - apply HC.
  - intros i x1 y Hi Hx1. eapply vgetf_wp; eauto. cbv beta. rewrite Nat.ltb_irrefl. auto.
  - intros x1 y H1 H2. eapply (backwardc_wp S n L); eauto; [apply (factor_nz _ _ _ HC)|apply HC|].
    intros x2 z H3 H4. apply (HQ x2 z); auto. eapply chol_solution; eauto.
Qed.

(** ** The determinant *)
Lemma det_unit_lower : forall n (m : nat -> nat -> T) f g, (forall i j, i < n -> j < n -> f i j = nadd O (sum i (fun q => nmul O (m i q) (g q j))) (g i j)) ->
  det O n f = det O n g.
Proof.
  intros n m f g E.
  assert (D : forall l, l <= n -> det O n (fun i j => if i <? l then g i j else f i j) = det O n f).
  { induction l as [|l IH]; intros Hl.
    - apply det_ext. auto.
    - rewrite <- IH by lia.
      (* replace row l, one term of the sum at a time *)
      assert (P : forall p, p <= l -> det O n (fun i j => if i <? l then g i j else if Nat.eqb i l then nadd O (sum p (fun q => nmul O (m l q) (g q j))) (g l j) else f i j)
                          = det O n (fun i j => if i <? S l then g i j else f i j)).
      { induction p as [|p IHp]; intros Hp.
        - apply det_ext. intros i j Hi Hj. destruct (Nat.ltb_spec i l); destruct (Nat.ltb_spec i (S l)); destruct (Nat.eqb_spec i l); auto; try lia.
          subst. simpl. ring.
        - rewrite <- IHp by lia. apply (det_add_row O HR n l p _ _ (m l p)); try lia.
          + intros j Hj. rewrite Nat.ltb_irrefl, Nat.eqb_refl, (proj2 (Nat.ltb_lt p l)) by lia. simpl. ring.
          + intros i j Hi Hj Hne. destruct (Nat.ltb_spec i l); auto. rewrite (proj2 (Nat.eqb_neq i l)) by auto. auto. }
      rewrite <- (P l) by lia. apply det_ext. intros i j Hi Hj. destruct (Nat.ltb_spec i l); auto. destruct (Nat.eqb_spec i l) as [->|]; auto.
      symmetry. apply E; auto. }
  rewrite <- (D n) by lia. apply det_ext. intros i j Hi Hj. rewrite (proj2 (Nat.ltb_lt i n)) by auto. auto.
Qed.

Lemma chol_det : forall n f L, chol_factor n f L -> det O n (symf f) = prodn O n (fun i => nmul O (L i i) (L i i)).
Proof.
  intros n f L HC. pose proof (factor_nz _ _ _ HC) as Hnz. destruct HC as (Hlow & _ & E).
  rewrite (det_unit_lower n (fun i q => ndiv O (L i q) (L q q)) (symf f) (fun q j => nmul O (L q q) (L j q))).
  - rewrite (det_upper O HR); [apply prod_ext; auto|]. intros i j Hi Hj. rewrite (Hlow j i) by lia. ring.
  - intros i j Hi Hj. unfold symf. rewrite <- E by auto. rewrite (sum_lower n i).
    + f_equal. apply sum_ext. intros k Hk. field. apply Hnz. lia.
    + auto.
    + intros k Hk1 Hk2. rewrite (Hlow i k) by lia. ring.
Qed.
End F.
