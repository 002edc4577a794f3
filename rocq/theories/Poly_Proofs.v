(** * Polynomials: specification and proofs *)

From Coq Require Import List Arith Bool Lia ZArith Ring Field Permutation.
From Verif Require Import Base Num Mat_Model Mat_Proofs Gauss_Proofs Poly_Model.
Import ListNotations.
Local Open Scope nat_scope.

(** ** Specification: coefficients, powers, values *)
Section Spec.
Context {T : Type} (O : numops T).
(** coefficient of x^i *)
Definition coef (p : list T) (i : nat) : T := nth i p (n0 O).
Fixpoint npow (x : T) (k : nat) : T := match k with 0 => n1 O | S k => nmul O (npow x k) x end.
(** the value at x: the sum of coefficient times power *)
Definition peval (p : list T) (x : T) : T := sumn O (length p) (fun i => nmul O (coef p i) (npow x i)).
(** coefficient k of the product *)
Definition conv (p q : list T) (k : nat) : T := sumn O (k + 1) (fun i => nmul O (coef p i) (coef q (k - i))).
End Spec.

Section Proofs.
Context {T : Type} (O : numops T) (HR : ring_laws O).
Add Ring Tring : HR.
Notation "a +! b" := (nadd O a b) (at level 50, left associativity).
Notation "a -! b" := (nsub O a b) (at level 50, left associativity).
Notation "a *! b" := (nmul O a b) (at level 40, left associativity).
Notation "x ^! k" := (npow O x k) (at level 30).
Notation sum := (sumn O).
Notation z := (n0 O).
Notation co := (coef O).
Implicit Types (p q u v r : list T).

Lemma sum_more : forall n m f, n <= m -> (forall i, n <= i -> i < m -> f i = z) -> sum m f = sum n f.
Proof.
  intros n m f Hle Hz. replace m with (n + (m - n)) by lia. rewrite (sum_app O HR). rewrite (sum_zero O HR (m - n)); [ring|]. intros i Hi. apply Hz; lia.
Qed.
Lemma npow_add : forall x i j, x ^! (i + j) = x ^! i *! x ^! j.
Proof. intros x i j. induction j; simpl; [rewrite Nat.add_0_r; ring|]. rewrite Nat.add_succ_r. simpl. rewrite IHj. ring. Qed.
Lemma coef_out : forall p i, length p <= i -> co p i = z.
Proof. intros p i H. unfold coef. apply nth_overflow. auto. Qed.
Lemma coef_vec : forall p n f, is_vector p n f -> forall i, i < n -> co p i = f i.
Proof. intros p n f [H1 H2] i Hi. unfold coef. apply nth_error_nth. auto. Qed.
Lemma vec_coef : forall p, is_vector p (length p) (co p).
Proof. intros p. apply is_vector_self. Qed.
Lemma peval_more : forall p x m, length p <= m -> peval O p x = sum m (fun i => co p i *! x ^! i).
Proof. intros p x m H. unfold peval. symmetry. apply sum_more; auto. intros i Hi _. rewrite coef_out by auto. ring. Qed.
Lemma peval_coef : forall p q x, (forall i, co p i = co q i) -> peval O p x = peval O q x.
Proof.
  intros p q x E. rewrite (peval_more p x (Nat.max (length p) (length q))), (peval_more q x (Nat.max (length p) (length q))) by lia.
  apply sum_ext. intros i _. rewrite E. auto.
Qed.

(** ** Evaluation *)
Lemma p_eval_wp : forall p x (Q : T -> Prop), Q (peval O p x) -> wp (p_eval O p x) Q.
Proof.
  intros p x Q HQ. unfold p_eval. destruct (Nat.eqb_spec (length p) 0) as [E|E].
  - apply wp_Ok. unfold peval in HQ. rewrite E in HQ. auto.
  - apply wp_bind. eapply vgetf_wp; [apply vec_coef|lia|].
    eapply wp_conseq; [|apply (for_down_inv _ _ (fun m s => s = sum (length p - m) (fun i => co p (m + i) *! x ^! i)))].
    + intros s ->. rewrite Nat.sub_0_r. auto.
    + lia.
    + replace (length p - (length p - 1)) with 1 by lia. simpl. rewrite Nat.add_0_r. ring.
    + intros j s _ Hj ->. apply wp_bind. eapply vgetf_wp; [apply vec_coef|lia|]. apply wp_Ok.
      replace (length p - j) with (S (length p - (j + 1))) by lia. rewrite (sum_S_l O HR). simpl npow. rewrite Nat.add_0_r.
      rewrite (sum_mul_r O HR).
      rewrite (sum_ext O _ (fun i => co p (j + S i) *! (x ^! i *! x)) (fun i => co p (j + 1 + i) *! x ^! i *! x)); [ring|].
      intros i Hi. replace (j + S i) with (j + 1 + i) by lia. ring.
Qed.

(** ** Coefficientwise operations *)
Lemma p_neg_wp : forall p (Q : list T -> Prop), (forall r, is_vector r (length p) (fun i => nopp O (co p i)) -> Q r) -> wp (p_neg O p) Q.
Proof.
  intros p Q HQ. unfold p_neg.
  eapply wp_conseq; [|apply (for_range_inv _ _ (fun m r => is_vector r (length p) (fun i => if i <? m then nopp O (co p i) else z)))].
  - intros r Hr. apply HQ. eapply is_vector_ext; [exact Hr|]. intros i Hi. cbv beta. ltb.
  - lia.
  - eapply is_vector_ext; [apply is_vector_repeat|]. intros; cbv beta; auto.
  - intros m r _ Hm Hr. cbv beta in *. apply wp_bind. eapply vgetf_wp; [apply vec_coef|auto|]. eapply vsetf_wp; [exact Hr|auto|]. intros r' Hr'.
    eapply is_vector_ext; [exact Hr'|]. intros i Hi. unfold vfset. cbv beta. ltb.
Qed.
Lemma p_addsub_wp : forall op p q (Q : list T -> Prop), (forall a, op a z = a) ->
  (forall r, is_vector r (Nat.max (length p) (length q)) (fun i => op (co p i) (co q i)) -> Q r) -> wp (p_addsub O op p q) Q.
Proof.
  intros op p q Q Hop HQ. unfold p_addsub. set (n := Nat.max (length p) (length q)).
  eapply wp_conseq; [|apply (for_range_inv _ _ (fun m r => is_vector r n (fun i => if i <? m then op (co p i) (co q i) else z)))].
  - intros r Hr. apply HQ. eapply is_vector_ext; [exact Hr|]. intros i Hi. cbv beta. ltb.
  - lia.
  - eapply is_vector_ext; [apply is_vector_repeat|]. intros; cbv beta; auto.
  - intros m r _ Hm Hr. cbv beta in *. apply wp_bind.
    assert (W : wp (if m <? length p then x <- vget r m ;; c <- vget p m ;; vset r m (x +! c) else Ok r)
      (fun r => is_vector r n (fun i => if i <? m then op (co p i) (co q i) else if Nat.eqb i m then co p i else z))).
    { destruct (Nat.ltb_spec m (length p)).
      - apply wp_bind. eapply vgetf_wp; [exact Hr|auto|]. cbv beta. rewrite Nat.ltb_irrefl. apply wp_bind. eapply vgetf_wp; [apply vec_coef|auto|]. eapply vsetf_wp; [exact Hr|auto|].
        intros r' Hr'. eapply is_vector_ext; [exact Hr'|]. intros i Hi. unfold vfset. cbv beta. ltb; simpl; auto; ring.
      - apply wp_Ok. eapply is_vector_ext; [exact Hr|]. intros i Hi. cbv beta. destruct (Nat.ltb_spec i m); auto. destruct (Nat.eqb_spec i m) as [->|]; auto. rewrite coef_out; auto. }
    eapply wp_conseq; [|exact W]. intros r' Hr'. cbv beta in Hr'. destruct (Nat.ltb_spec m (length q)).
    + apply wp_bind. eapply vgetf_wp; [exact Hr'|auto|]. cbv beta. rewrite Nat.ltb_irrefl, Nat.eqb_refl. apply wp_bind. eapply vgetf_wp; [apply vec_coef|auto|].
      eapply vsetf_wp; [exact Hr'|auto|]. intros r2 Hr2. eapply is_vector_ext; [exact Hr2|]. intros i Hi. unfold vfset. cbv beta. ltb.
    + apply wp_Ok. eapply is_vector_ext; [exact Hr'|]. intros i Hi. cbv beta. destruct (Nat.eqb_spec i m) as [->|].
      * rewrite Nat.ltb_irrefl. rewrite (coef_out q) by auto. rewrite Hop. ltb.
      * ltb.
Qed.

(** ** Product *)
Definition conv' p q (k : nat) : T := sum (length p) (fun i => if i <=? k then co p i *! co q (k - i) else z).
Lemma conv_eq : forall p q k, conv' p q k = conv O p q k.
Proof.
  intros p q k. unfold conv', conv.
  transitivity (sum (length p + (k + 1)) (fun i => if i <=? k then co p i *! co q (k - i) else z)).
  - symmetry. apply sum_more; [lia|]. intros i Hi _. rewrite coef_out by auto. destruct (i <=? k); auto; ring.
  - rewrite (sum_more (k + 1)); [|lia|].
    + apply sum_ext. intros i Hi. destruct (Nat.leb_spec i k); auto; lia.
    + intros i Hi _. destruct (Nat.leb_spec i k); auto; lia.
Qed.
Lemma p_mul_wp : forall p q (Q : list T -> Prop), 0 < length p + length q ->
  (forall r, is_vector r (length p + length q - 1) (conv O p q) -> Q r) -> wp (p_mul O p q) Q.
Proof.
  intros p q Q Hne HQ. unfold p_mul. rewrite (proj2 (Nat.eqb_neq _ 0)) by lia. set (n := length p + length q - 1).
  eapply wp_conseq; [|apply (for_range_inv _ _ (fun i0 r => is_vector r n (fun k => sum i0 (fun i => if i <=? k then co p i *! co q (k - i) else z))))].
  - intros r Hr. apply HQ. eapply is_vector_ext; [exact Hr|]. intros k Hk. cbv beta. apply conv_eq.
  - lia.
  - eapply is_vector_ext; [apply is_vector_repeat|]. intros; cbv beta; auto.
  - intros i0 r _ Hi Hr. cbv beta in *.
    eapply wp_conseq; [|apply (for_range_inv _ _ (fun j0 r => is_vector r n (fun k => sum i0 (fun i => if i <=? k then co p i *! co q (k - i) else z) +!
       (if (i0 <=? k) && (k - i0 <? j0) then co p i0 *! co q (k - i0) else z))))].
    + intros r' Hr'. cbv beta in *. eapply is_vector_ext; [exact Hr'|]. intros k Hk. cbv beta. rewrite Nat.add_1_r. simpl. f_equal.
      destruct (Nat.leb_spec i0 k); simpl; auto. destruct (Nat.ltb_spec (k - i0) (length q)); auto. rewrite (coef_out q) by auto. ring.
    + lia.
    + eapply is_vector_ext; [exact Hr|]. intros k Hk. cbv beta. rewrite andb_false_r. ring.
    + intros j r' _ Hj Hr'. cbv beta in *. apply wp_bind. eapply vgetf_wp; [exact Hr'|unfold n; lia|]. cbv beta.
      apply wp_bind. eapply vgetf_wp; [apply vec_coef|auto|]. apply wp_bind. eapply vgetf_wp; [apply vec_coef|auto|]. eapply vsetf_wp; [exact Hr'|unfold n; lia|].
      intros r2 Hr2. eapply is_vector_ext; [exact Hr2|]. intros k Hk. unfold vfset. cbv beta. destruct (Nat.eqb_spec k (i0 + j)) as [->|Hne'].
      * rewrite (proj2 (Nat.leb_le i0 (i0 + j))) by lia. replace (i0 + j - i0) with j by lia. rewrite Nat.ltb_irrefl. rewrite (proj2 (Nat.ltb_lt j (j + 1))) by lia. simpl. ring.
      * f_equal. destruct (Nat.leb_spec i0 k); simpl; auto. destruct (Nat.ltb_spec (k - i0) j); destruct (Nat.ltb_spec (k - i0) (j + 1)); auto; lia.
Qed.
Lemma peval_fun : forall p n f x, is_vector p n f -> peval O p x = sum n (fun i => f i *! x ^! i).
Proof. intros p n f x Hp. unfold peval. rewrite (proj1 Hp). apply sum_ext. intros i Hi. rewrite (coef_vec p n f Hp) by auto. auto. Qed.
Lemma conv_values : forall p q x, sum (length p + length q - 1) (fun k => conv O p q k *! x ^! k) = peval O p x *! peval O q x.
Proof.
  intros p q x. rewrite (sum_ext O _ _ (fun k => sum (length p) (fun i => (if i <=? k then co p i *! co q (k - i) else z) *! x ^! k))).
  2:{ intros k Hk. rewrite <- conv_eq. unfold conv'. apply (sum_mul_r O HR). }
  rewrite (sum_swap O HR). unfold peval at 1. rewrite (sum_mul_r O HR). apply sum_ext. intros i Hi.
  set (N := length p + length q - 1). replace N with (i + (N - i)) by (unfold N; lia). rewrite (sum_app O HR).
  rewrite (sum_zero O HR i) by (intros k Hk; rewrite (proj2 (Nat.leb_gt i k)) by lia; ring).
  rewrite (peval_more q x (N - i)) by (unfold N; lia). rewrite (sum_mul_l O HR).
  transitivity (sum (N - i) (fun j => co p i *! x ^! i *! (co q j *! x ^! j))); [|auto].
  transitivity (sum (N - i) (fun k => (if i <=? i + k then co p i *! co q (i + k - i) else z) *! x ^! (i + k))); [ring|].
  apply sum_ext. intros j Hj. rewrite (proj2 (Nat.leb_le i (i + j))) by lia. replace (i + j - i) with j by lia. rewrite npow_add. ring.
Qed.

(** ** Derivative and integral *)
Lemma nnat_add : forall a b, nnat O (a + b) = nnat O a +! nnat O b.
Proof. intros a b. induction a; simpl; [ring|]. rewrite IHa. ring. Qed.

Definition pder p : list T := map (fun i => co p (i + 1) *! nnat O (i + 1)) (seq 0 (length p - 1)).
Lemma pder_length : forall p, length (pder p) = length p - 1.
Proof. intros p. unfold pder. rewrite map_length, seq_length. auto. Qed.
Lemma pder_coef : forall p i, co (pder p) i = co p (i + 1) *! nnat O (i + 1).
Proof.
  intros p i. destruct (lt_dec i (length p - 1)).
  - unfold pder, coef at 1. erewrite nth_indep; [|rewrite map_length, seq_length; auto]. rewrite map_nth with (d := 0). rewrite seq_nth by auto. auto.
  - rewrite !coef_out by (rewrite ?pder_length; lia). ring.
Qed.
Lemma is_vector_coef : forall p n f, length p = n -> (forall i, i < n -> co p i = f i) -> is_vector p n f.
Proof. intros p n f Hl Hc. split; auto. intros i Hi. rewrite <- Hc by auto. apply nth_error_nth'. lia. Qed.
Lemma p_derivative_wp : forall p (Q : list T -> Prop), Q (pder p) -> wp (p_derivative O p) Q.
Proof.
  intros p Q HQ. unfold p_derivative. destruct (Nat.leb_spec (length p) 1).
  - apply wp_Ok. replace (pder p) with (@nil T) in HQ; auto. symmetry. apply length_zero_iff_nil. rewrite pder_length. lia.
  - eapply wp_conseq; [|apply (for_range_inv _ _ (fun m r => is_vector r (length p - 1) (fun i => if i + 1 <? m then co (pder p) i else z)))].
    + intros r Hr. replace r with (pder p); auto. eapply is_vector_eq; [apply (is_vector_coef _ (length p - 1) (co (pder p)) (pder_length p)); auto|exact Hr|].
      intros i Hi. cbv beta. destruct (Nat.ltb_spec (i + 1) (length p)); auto; lia.
    + lia.
    + eapply is_vector_ext; [apply is_vector_repeat|]. intros i Hi. cbv beta. destruct (Nat.ltb_spec (i + 1) 1); auto; lia.
    + intros m r Hm1 Hm2 Hr. cbv beta in *. apply wp_bind. eapply vgetf_wp; [apply vec_coef|auto|]. eapply vsetf_wp; [exact Hr|lia|]. intros r' Hr'.
      eapply is_vector_ext; [exact Hr'|]. intros i Hi. unfold vfset. cbv beta. destruct (Nat.eqb_spec i (m - 1)) as [->|].
      * rewrite pder_coef. replace (m - 1 + 1) with m by lia. rewrite (proj2 (Nat.ltb_lt m (m + 1))) by lia. auto.
      * destruct (Nat.ltb_spec (i + 1) m); destruct (Nat.ltb_spec (i + 1) (m + 1)); auto; lia.
Qed.
(** (p q)' = p' q + p q' *)
Lemma sum_last : forall n f, sum (n + 1) f = sum n f +! f n.
Proof. intros n f. rewrite Nat.add_1_r. auto. Qed.
Lemma product_rule : forall p q k, conv O p q (k + 1) *! nnat O (k + 1) = conv O (pder p) q k +! conv O p (pder q) k.
Proof.
  intros p q k. unfold conv. rewrite (sum_mul_r O HR).
  rewrite (sum_ext O (k + 1 + 1) _ (fun i => co p i *! nnat O i *! co q (k + 1 - i) +! co p i *! (co q (k + 1 - i) *! nnat O (k + 1 - i)))).
  2:{ intros i Hi. replace (nnat O (k + 1)) with (nnat O i +! nnat O (k + 1 - i)); [ring|]. rewrite <- nnat_add. f_equal. lia. }
  rewrite (sum_add O HR). f_equal.
  - rewrite (Nat.add_1_r (k + 1)). rewrite (sum_S_l O HR). simpl nnat at 1.
    transitivity (sum (k + 1) (fun i => co p (S i) *! nnat O (S i) *! co q (k + 1 - S i))); [ring|]. apply sum_ext. intros i Hi. rewrite pder_coef.
    replace (i + 1) with (S i) by lia. replace (k + 1 - S i) with (k - i) by lia. auto.
  - rewrite sum_last. replace (k + 1 - (k + 1)) with 0 by lia. simpl nnat at 2.
    transitivity (sum (k + 1) (fun i => co p i *! (co q (k + 1 - i) *! nnat O (k + 1 - i)))); [ring|].
    apply sum_ext. intros i Hi. rewrite pder_coef. replace (k + 1 - i) with (k - i + 1) by lia. auto.
Qed.

(** ** Derive: Hasse derivatives by repeated synthetic division *)
Fixpoint hasse p (j : nat) (x : T) : T :=
  match p with
  | [] => z
  | c :: p' => match j with 0 => hasse p' 0 x *! x +! c | S j' => hasse p' j x *! x +! hasse p' j' x end
  end.
Lemma hasse_big : forall p j x, length p <= j -> hasse p j x = z.
Proof.
  induction p as [|c p IH]; intros j x H; simpl; auto. simpl in H. destruct j as [|j]; [lia|]. rewrite (IH (S j)), (IH j) by lia. ring.
Qed.
Fixpoint fT (j : nat) : T := match j with 0 => n1 O | S k => fT k *! nnat O (S k) end.
Fixpoint ff (i j : nat) : T := match j with 0 => n1 O | S k => ff i k *! nnat O (i + S k) end.
Lemma ff_shift : forall i j, nnat O (i + 1) *! ff (i + 1) j = ff i (S j).
Proof.
  intros i j. induction j as [|j IH]; [simpl; ring|].
  change (ff (i + 1) (S j)) with (ff (i + 1) j *! nnat O (i + 1 + S j)). change (ff i (S (S j))) with (ff i (S j) *! nnat O (i + S (S j))).
  rewrite <- IH. replace (i + 1 + S j) with (i + S (S j)) by lia. ring.
Qed.
Lemma pder_iter_coef : forall j p i, co (Nat.iter j pder p) i = ff i j *! co p (i + j).
Proof.
  induction j as [|j IH]; intros p i; [simpl; rewrite Nat.add_0_r; ring|]. simpl Nat.iter. rewrite pder_coef, IH.
  transitivity (nnat O (i + 1) *! ff (i + 1) j *! co p (i + 1 + j)); [ring|]. rewrite ff_shift. replace (i + 1 + j) with (i + S j) by lia. auto.
Qed.
Lemma pder_iter_length : forall j p, length (Nat.iter j pder p) = length p - j.
Proof. induction j as [|j IH]; intros p; simpl; [lia|]. rewrite pder_length, IH. lia. Qed.
Lemma hasse_sum : forall p j x, fT j *! hasse p j x = sum (length p) (fun i => ff i j *! co p (i + j) *! x ^! i).
Proof.
  induction p as [|c p IH]; intros j x; [simpl; ring|]. cbn [length hasse]. rewrite (sum_S_l O HR).
  destruct j as [|j].
  - specialize (IH 0 x). simpl fT in *. simpl ff in *. simpl npow at 1.
    transitivity (fT 0 *! hasse p 0 x *! x +! c); [simpl; ring|]. change (fT 0) with (n1 O). rewrite IH, (sum_mul_r O HR).
    assert (E : forall n, sum n (fun i => n1 O *! co p (i + 0) *! x ^! i *! x) = sum n (fun i => n1 O *! co (c :: p) (S i + 0) *! x ^! S i)).
    { intros n. apply sum_ext. intros i Hi. rewrite !Nat.add_0_r. unfold coef. simpl nth. simpl npow. ring. }
    rewrite E. unfold coef at 2. simpl nth. ring.
  - pose proof (IH (S j) x) as H1. pose proof (IH j x) as H2.
    transitivity (fT (S j) *! hasse p (S j) x *! x +! nnat O (S j) *! (fT j *! hasse p j x)); [simpl; ring|].
    rewrite H1, H2, (sum_mul_r O HR), (sum_mul_l O HR).
    (* shift the first sum by one *)
    assert (E1 : sum (length p) (fun i => nnat O (S j) *! (ff i j *! co p (i + j) *! x ^! i)) =
                 nnat O (S j) *! (ff 0 j *! co p j) +! sum (length p) (fun i => nnat O (S j) *! (ff (S i) j *! co p (S i + j) *! x ^! S i))).
    { transitivity (sum (S (length p)) (fun i => nnat O (S j) *! (ff i j *! co p (i + j) *! x ^! i))).
      - cbn [sumn]. rewrite (coef_out p (length p + j)) by lia. ring.
      - rewrite (sum_S_l O HR). simpl npow at 1. simpl Nat.add at 1. f_equal. ring. }
    rewrite E1.
    transitivity (nnat O (S j) *! (ff 0 j *! co p j) +! sum (length p) (fun i => ff i (S j) *! co p (i + S j) *! x ^! i *! x +! nnat O (S j) *! (ff (S i) j *! co p (S i + j) *! x ^! S i))).
    { rewrite (sum_add O HR). ring. }
    f_equal.
    + change (co (c :: p) (0 + S j)) with (co p j). change (ff 0 (S j)) with (ff 0 j *! nnat O (S j)). change (x ^! 0) with (n1 O). ring.
    + apply sum_ext. intros i Hi. change (co (c :: p) (S i + S j)) with (co p (i + S j)). replace (S i + j) with (i + S j) by lia.
      pose proof (ff_shift i j) as E. rewrite Nat.add_1_r in E. rewrite <- E. change (ff (S i) (S j)) with (ff (S i) j *! nnat O (S i + S j)).
      replace (nnat O (S i + S j)) with (nnat O (S i) +! nnat O (S j)) by (rewrite nnat_add; auto). simpl npow. ring.
Qed.
Lemma hasse_deriv : forall p j x, fT j *! hasse p j x = peval O (Nat.iter j pder p) x.
Proof.
  intros p j x. rewrite hasse_sum. rewrite (peval_more _ x (length p)) by (rewrite pder_iter_length; lia). apply sum_ext. intros i _. rewrite pder_iter_coef. auto.
Qed.

Lemma skipn_cons_coef : forall p i, i < length p -> skipn i p = co p i :: skipn (i + 1) p.
Proof.
  induction p as [|c p IH]; intros i Hi; simpl in Hi; [lia|]. destruct i as [|i]; [auto|]. simpl. rewrite (IH i) by lia. auto.
Qed.
Lemma p_derive_wp : forall p x pd (Q : list T -> Prop), 0 < length p -> 0 < length pd ->
  (forall pd', is_vector pd' (length pd) (fun j => peval O (Nat.iter j pder p) x) -> Q pd') -> wp (p_derive O p x pd) Q.
Proof.
  intros p x pd Q Hp Hd HQ. unfold p_derive. rewrite (proj2 (Nat.eqb_neq _ 0)) by lia. set (nd := length pd - 1). set (nc := length p - 1).
  assert (Hnd : length pd = nd + 1) by (unfold nd; lia).
  apply wp_bind. eapply vgetf_wp; [apply vec_coef|unfold nc; lia|]. apply wp_bind. eapply vsetf_wp; [apply (vec_coef pd)|lia|]. intros pd1 Hpd1. rewrite Hnd in Hpd1. apply wp_bind.
  eapply wp_conseq; [|apply (for_range_inv _ _ (fun m v => is_vector v (nd + 1) (fun j => if Nat.eqb j 0 then co p nc else if j <? m then z else co pd j)))].
  2: lia.
  2:{ eapply is_vector_ext; [exact Hpd1|]. intros j Hj. unfold vfset. cbv beta. ltb. }
  2:{ intros m v Hm1 Hm2 Hv. cbv beta in *. eapply vsetf_wp; [exact Hv|lia|]. intros v' Hv'. eapply is_vector_ext; [exact Hv'|]. intros j Hj. unfold vfset. cbv beta. ltb. }
  intros pd2 Hpd2. cbv beta in Hpd2. apply wp_bind.
  eapply wp_conseq; [|apply (for_down_inv _ _ (fun i v => is_vector v (nd + 1) (fun j => hasse (skipn i p) j x)))].
  2: lia.
  2:{ eapply is_vector_ext; [exact Hpd2|]. intros j Hj. cbv beta. rewrite (skipn_cons_coef p nc) by (unfold nc; lia). rewrite skipn_all2 by (unfold nc; lia).
      destruct j as [|j]; simpl; [ring|]. destruct (Nat.ltb_spec (S j) (nd + 1)); [ring|lia]. }
  2:{ intros i v _ Hi Hv. cbv beta in *. apply wp_bind.
      eapply wp_conseq; [|apply (for_down_inv _ _ (fun m v => is_vector v (nd + 1) (fun j => if (m <=? j) && (j <? Nat.min nd (nc - i) + 1) then hasse (skipn i p) j x else hasse (skipn (i + 1) p) j x)))].
      2: lia.
      2:{ eapply is_vector_ext; [exact Hv|]. intros j Hj. cbv beta. destruct (Nat.leb_spec (Nat.min nd (nc - i) + 1) j); simpl; auto.
          destruct (Nat.ltb_spec j (Nat.min nd (nc - i) + 1)); auto; lia. }
      2:{ intros j v' Hj1 Hj2 Hv'. cbv beta in *. apply wp_bind. eapply vgetf_wp; [exact Hv'|lia|]. cbv beta. apply wp_bind. eapply vgetf_wp; [exact Hv'|lia|]. cbv beta.
          eapply vsetf_wp; [exact Hv'|lia|]. intros v2 Hv2. eapply is_vector_ext; [exact Hv2|]. intros k Hk. unfold vfset. cbv beta.
          rewrite (proj2 (Nat.leb_gt (j + 1) j)) by lia. rewrite (proj2 (Nat.leb_gt (j + 1) (j - 1))) by lia. cbn [andb].
          destruct (Nat.eqb_spec k j) as [->|Hne].
          - rewrite (proj2 (Nat.leb_le j j)) by lia. rewrite (proj2 (Nat.ltb_lt j (Nat.min nd (nc - i) + 1))) by lia. cbn [andb].
            rewrite (skipn_cons_coef p i) by (unfold nc in *; lia). destruct j as [|j']; [lia|]. simpl hasse. rewrite Nat.sub_0_r. auto.
          - destruct (Nat.leb_spec (j + 1) k); destruct (Nat.leb_spec j k); simpl; auto; lia. }
      intros v2 Hv2. cbv beta in Hv2. apply wp_bind. eapply vgetf_wp; [exact Hv2|lia|]. cbv beta. rewrite (proj2 (Nat.leb_gt 1 0)) by lia. cbn [andb].
      apply wp_bind. eapply vgetf_wp; [apply vec_coef|unfold nc in *; lia|]. eapply vsetf_wp; [exact Hv2|lia|]. intros v3 Hv3.
      eapply is_vector_ext; [exact Hv3|]. intros j Hj. unfold vfset. cbv beta. rewrite (skipn_cons_coef p i) by (unfold nc in *; lia).
      destruct (Nat.eqb_spec j 0) as [->|Hne]; [simpl; auto|]. rewrite (proj2 (Nat.leb_le 1 j)) by lia. cbn [andb].
      destruct (Nat.ltb_spec j (Nat.min nd (nc - i) + 1)); auto.
      rewrite !hasse_big; auto; cbn [length]; rewrite skipn_length; unfold nc in *; lia. }
  intros pd3 Hpd3. cbv beta in Hpd3. simpl skipn in Hpd3. apply wp_bind.
  assert (W : wp (for_range 2 (nd + 1) (fun '(pd, cnst) i =>
      let cnst := nmul O cnst (nnat O i) in
      a <- vget pd i ;; pd <- vset pd i (nmul O a cnst) ;; Ok (pd, cnst)) (pd3, n1 O)) (fun w => is_vector (fst w) (nd + 1) (fun j => fT j *! hasse p j x))).
  { destruct (le_lt_dec 2 (nd + 1)) as [L|L].
    - eapply wp_conseq; [|apply (for_range_inv _ _ (fun m w => snd w = fT (m - 1) /\ is_vector (fst w) (nd + 1) (fun j => if j <? m then fT j *! hasse p j x else hasse p j x))); auto].
      + intros [v c] [_ Hv]. cbn [fst] in *. eapply is_vector_ext; [exact Hv|]. intros j Hj. cbv beta. destruct (Nat.ltb_spec j (nd + 1)); auto; lia.
      + split; [simpl; ring|]. eapply is_vector_ext; [exact Hpd3|]. intros j Hj. cbv beta. destruct j as [|[|j]]; simpl; ring.
      + intros m [v c] Hm1 Hm2 [Hc Hv]. cbn [fst snd] in *. subst c. cbv beta zeta. apply wp_bind. eapply vgetf_wp; [exact Hv|lia|]. cbv beta. rewrite Nat.ltb_irrefl. apply wp_bind.
        eapply vsetf_wp; [exact Hv|lia|]. intros v' Hv'. apply wp_Ok. cbn [fst snd].
        assert (E : fT (m - 1) *! nnat O m = fT m). { destruct m as [|m]; [lia|]. simpl. rewrite Nat.sub_0_r. auto. }
        replace (m + 1 - 1) with m by lia. split; auto. eapply is_vector_ext; [exact Hv'|]. intros j Hj. unfold vfset. cbv beta. rewrite E.
        destruct (Nat.eqb_spec j m) as [->|]; [rewrite (proj2 (Nat.ltb_lt m (m + 1))) by lia; ring|]. destruct (Nat.ltb_spec j m); destruct (Nat.ltb_spec j (m + 1)); auto; lia.
    - rewrite for_range_empty by lia. apply wp_Ok. cbn [fst]. eapply is_vector_ext; [exact Hpd3|]. intros j Hj. cbv beta. assert (j = 0) as -> by lia. simpl fT. ring. }
  eapply wp_conseq; [|exact W]. intros [v c] Hv. cbn [fst] in Hv. cbv beta iota. apply wp_Ok. apply HQ. rewrite Hnd. eapply is_vector_ext; [exact Hv|].
  intros j Hj. cbv beta. apply hasse_deriv.
Qed.
End Proofs.
