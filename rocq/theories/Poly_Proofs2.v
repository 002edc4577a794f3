(** * Polynomials: division and interpolation *)

From Coq Require Import List Arith Bool Lia ZArith Ring Field.
From Verif Require Import Base Num Mat_Model Mat_Proofs Lin_Base Gauss_Proofs Det Poly_Model Poly_Proofs.
Import ListNotations.
Local Open Scope nat_scope.

Section Proofs2.
Context {T : Type} (O : numops T) (HF : field_laws O) (eqb : T -> T -> bool) (Heqb : forall a b, eqb a b = true <-> a = b).
Let HR : ring_laws O := field_ring T O HF.
Add Ring Tring2 : HR.
Add Field Tfield2 : HF.
Notation "a +! b" := (nadd O a b) (at level 50, left associativity).
Notation "a -! b" := (nsub O a b) (at level 50, left associativity).
Notation "a *! b" := (nmul O a b) (at level 40, left associativity).
Notation "a /! b" := (ndiv O a b) (at level 40, left associativity).
Notation "x ^! k" := (npow O x k) (at level 30).
Notation sum := (sumn O).
Notation z := (n0 O).
Notation co := (coef O).
Implicit Types (p q u v r : list T).

Lemma one_ne : n1 O <> z.
Proof. exact (F_1_neq_0 HF). Qed.
Lemma no_zero_div : forall a b, a *! b = z -> a <> z -> b = z.
Proof. intros a b H Ha. assert (b = a *! b /! a) as -> by (field; auto). rewrite H. field. auto. Qed.
Lemma sub_zero : forall a b, a -! b = z -> a = b.
Proof. intros a b H. replace a with (a -! b +! b) by ring. rewrite H. ring. Qed.

(** ** The real size of a coefficient vector *)
Lemma real_size_wp : forall v n f k (Q : nat -> Prop), is_vector v n f -> k <= n ->
  (forall m, m <= k -> (forall j, m <= j -> j < k -> f j = z) -> (m = 0 \/ f (m - 1) <> z) -> Q m) -> wp (real_size O eqb v k) Q.
Proof.
  intros v n f k Q Hv. revert Q. induction k as [|k IH]; intros Q Hk HQ; cbn [real_size].
  - apply wp_Ok. apply HQ; auto. intros; lia.
  - apply wp_bind. eapply vgetf_wp; [exact Hv|lia|]. destruct (eqb (f k) z) eqn:E.
    + apply Heqb in E. apply IH; [lia|]. intros m Hm Hz Hl. apply HQ; auto. intros j Hj1 Hj2. destruct (Nat.eq_dec j k) as [->|]; auto. apply Hz; lia.
    + apply wp_Ok. apply HQ; [lia| |].
      * intros; lia.
      * right. replace (S k - 1) with k by lia. intros Hc. rewrite (proj2 (Heqb _ _) Hc) in E. discriminate.
Qed.

(** [d] is the degree of the polynomial with coefficients v *)
Definition is_degree v d := co v d <> z /\ forall j, d < j -> co v j = z.

Lemma is_degree_zero : forall v d, is_degree v d -> d < length v.
Proof. intros v d [H _]. destruct (lt_dec d (length v)); auto. exfalso. apply H. apply coef_out. lia. Qed.

Lemma real_size_degree : forall v d (Q : nat -> Prop), is_degree v d -> Q (d + 1) -> wp (real_size O eqb v (length v)) Q.
Proof.
  intros v d Q [Hd1 Hd2] HQ. eapply real_size_wp; [apply (vec_coef O)|lia|]. intros m Hm Hz Hl.
  assert (d < m). { destruct (lt_dec d m); auto. exfalso. apply Hd1. destruct (lt_dec d (length v)); [apply Hz; lia|apply coef_out; lia]. }
  destruct Hl as [->|Hl]; [lia|]. assert (m - 1 <= d). { destruct (le_lt_dec (m - 1) d); auto. exfalso. apply Hl. apply Hd2. auto. }
  replace m with (d + 1) by lia. auto.
Qed.
Lemma real_size_zero : forall v (Q : nat -> Prop), (forall i, co v i = z) -> Q 0 -> wp (real_size O eqb v (length v)) Q.
Proof.
  intros v Q Hz HQ. eapply real_size_wp; [apply (vec_coef O)|lia|]. intros m Hm _ [->|Hl]; auto. exfalso. apply Hl. apply Hz.
Qed.

Lemma copy_wp : forall (src : list T) n f m (Q : list T -> Prop), is_vector src n f -> m <= n -> (forall o, is_vector o m f -> Q o) ->
  wp (for_range 0 m (fun o j => c <- vget src j ;; vset o j c) (repeat z m)) Q.
Proof.
  intros src n f m Q Hs Hm HQ. eapply (vfill_wp (fun j => vget src j) _ m _ f); [apply is_vector_repeat| |exact HQ].
  intros i Hi. eapply vgetf_wp; [exact Hs|lia|auto].
Qed.

Lemma poldiv_wp : forall u v d (Q : list T * list T -> Prop), is_degree v d -> d <= length u ->
  (forall q r, length r = d -> (q = [] \/ co q (length q - 1) <> z) -> (forall i, co u i = conv O q v i +! co r i) -> Q (q, r)) -> wp (poldiv O eqb u v) Q.
Proof.
  intros u v d Q Hd Hdu HQ. unfold poldiv. apply wp_bind. apply (real_size_degree v d); auto.
  rewrite (proj2 (Nat.eqb_neq (d + 1) 0)) by lia. replace (d + 1 - 1) with d by lia. set (lu := length u).
  pose proof (is_degree_zero v d Hd) as Hdv. destruct Hd as [Hd1 Hd2]. apply wp_bind.
  eapply wp_conseq; [|apply (for_down_inv _ _ (fun m w => exists qf rf, is_vector (fst w) lu qf /\ is_vector (snd w) lu rf /\
     (forall k, k < m \/ lu - d <= k -> qf k = z) /\
     forall i, i < lu -> co u i = sum (i + 1) (fun k => qf k *! co v (i - k)) +! (if i <? d + m then rf i else z)))].
  - intros [q r] (qf & rf & Hq & Hr & Hqz & Hid). cbn [fst snd] in *. cbv beta iota zeta. apply wp_bind.
    eapply wp_conseq; [|apply (for_range_inv _ _ (fun m r => is_vector r lu (fun j => if (d <=? j) && (j <? m) then z else rf j)))].
    2: auto.
    2:{ eapply is_vector_ext; [exact Hr|]. intros j Hj. cbv beta. destruct (Nat.leb_spec d j); destruct (Nat.ltb_spec j d); simpl; auto; lia. }
    2:{ intros m r' Hm1 Hm2 Hr'. cbv beta in *. eapply vsetf_wp; [exact Hr'|auto|]. intros r2 Hr2. eapply is_vector_ext; [exact Hr2|]. intros j Hj. unfold vfset. cbv beta.
        destruct (Nat.eqb_spec j m) as [->|]; [rewrite (proj2 (Nat.leb_le d m)), (proj2 (Nat.ltb_lt m (m + 1))) by lia; auto|].
        destruct (Nat.leb_spec d j); destruct (Nat.ltb_spec j m); destruct (Nat.ltb_spec j (m + 1)); simpl; auto; lia. }
    intros r2 Hr2. cbv beta in Hr2. apply wp_bind. rewrite (proj1 Hq). eapply real_size_wp; [exact Hq|lia|]. intros nq Hnq Hnz Hlast.
    apply wp_bind. eapply copy_wp; [exact Hq|lia|]. intros qo Hqo. apply wp_bind. eapply copy_wp; [exact Hr2|auto|]. intros ro Hro. apply wp_Ok.
    assert (Eq : forall k, co qo k = qf k \/ (lu <= k /\ co qo k = z)).
    { intros k. destruct (lt_dec k nq) as [H|H]; [left; apply (coef_vec O _ _ _ Hqo); auto|]. destruct (lt_dec k lu) as [H'|H'].
      - left. rewrite coef_out by (rewrite (proj1 Hqo); lia). symmetry. apply Hnz; lia.
      - right. split; [lia|]. apply coef_out. rewrite (proj1 Hqo). lia. }
    assert (Eq' : forall k, lu - d <= k -> co qo k = z).
    { intros k Hk. destruct (Eq k) as [->|[_ ->]]; auto. }
    assert (Er : forall i, co ro i = if i <? d then rf i else z).
    { intros i. destruct (Nat.ltb_spec i d).
      - rewrite (coef_vec O _ _ _ Hro) by auto. cbv beta. rewrite (proj2 (Nat.leb_gt d i)) by lia. auto.
      - apply coef_out. rewrite (proj1 Hro). lia. }
    apply HQ.
    + apply (proj1 Hro).
    + destruct Hlast as [->|Hl]; [left; apply length_zero_iff_nil; apply (proj1 Hqo)|]. right. rewrite (proj1 Hqo).
      destruct (Nat.eq_dec nq 0) as [->|Hn0]; [exfalso; apply Hl; simpl in *|rewrite (coef_vec O _ _ _ Hqo) by lia; auto].
      destruct (Nat.eq_dec lu 0) as [H0|H0]; [apply Hqz; right; lia|apply Hnz; lia].
    + intros i. rewrite Er. unfold conv. destruct (lt_dec i lu) as [Hi|Hi].
      * rewrite (Hid i Hi). rewrite Nat.add_0_r. f_equal. apply sum_ext. intros k Hk. destruct (Eq k) as [->|[E1 _]]; auto; lia.
      * rewrite coef_out by (fold lu; lia). rewrite (proj2 (Nat.ltb_ge i d)) by lia. rewrite (sum_zero O HR); [ring|]. intros k Hk.
        destruct (le_lt_dec (lu - d) k); [rewrite Eq' by auto; ring|]. rewrite (Hd2 (i - k)) by lia. ring.
  - lia.
  - exists (fun _ => z), (co u). cbn [fst snd]. split; [apply is_vector_repeat|]. split; [apply (vec_coef O)|]. split; auto.
    intros i Hi. rewrite (sum_zero O HR) by (intros; ring). rewrite (proj2 (Nat.ltb_lt i (d + (lu - d)))) by lia. ring.
  - intros m [q r] _ Hm (qf & rf & Hq & Hr & Hqz & Hid). cbn [fst snd] in *. cbv beta iota zeta.
    apply wp_bind. eapply vgetf_wp; [exact Hr|lia|]. apply wp_bind. eapply vgetf_wp; [apply (vec_coef O)|auto|]. set (t := rf (d + m) /! co v d).
    apply wp_bind. eapply vsetf_wp; [exact Hq|lia|]. intros q' Hq'. apply wp_bind.
    eapply wp_conseq; [|apply (for_down_inv _ _ (fun j0 r => is_vector r lu (fun j => if (j0 <=? j) && (j <? d + m) then rf j -! t *! co v (j - m) else rf j)))].
    2: lia.
    2:{ eapply is_vector_ext; [exact Hr|]. intros j Hj. cbv beta. destruct (Nat.leb_spec (d + m) j); destruct (Nat.ltb_spec j (d + m)); simpl; auto; lia. }
    2:{ intros j0 r' Hj1 Hj2 Hr'. cbv beta in *. apply wp_bind. eapply vgetf_wp; [exact Hr'|lia|]. cbv beta. rewrite (proj2 (Nat.leb_gt (j0 + 1) j0)) by lia. cbn [andb].
        apply wp_bind. eapply vgetf_wp; [apply (vec_coef O)|lia|]. eapply vsetf_wp; [exact Hr'|lia|]. intros r2 Hr2. eapply is_vector_ext; [exact Hr2|]. intros j Hj. unfold vfset. cbv beta.
        destruct (Nat.eqb_spec j j0) as [->|]; [rewrite (proj2 (Nat.leb_le j0 j0)), (proj2 (Nat.ltb_lt j0 (d + m))) by lia; auto|].
        destruct (Nat.leb_spec (j0 + 1) j); destruct (Nat.leb_spec j0 j); simpl; auto; lia. }
    intros r2 Hr2. cbv beta in Hr2. apply wp_Ok. cbn [fst snd]. exists (vfset qf m t), (fun j => if (m <=? j) && (j <? d + m) then rf j -! t *! co v (j - m) else rf j).
    split; [exact Hq'|]. split; [exact Hr2|]. split.
    + intros k Hk. unfold vfset. destruct (Nat.eqb_spec k m); [lia|]. apply Hqz. lia.
    + intros i Hi. rewrite (Hid i Hi).
      assert (Es : sum (i + 1) (fun k => vfset qf m t k *! co v (i - k)) = sum (i + 1) (fun k => qf k *! co v (i - k)) +! (if m <=? i then t *! co v (i - m) else z)).
      { destruct (Nat.leb_spec m i).
        - rewrite (sum_split O HR (i + 1) m) by lia. rewrite (sum_split O HR (i + 1) m (fun k => qf k *! co v (i - k))) by lia. unfold vfset at 1. rewrite Nat.eqb_refl.
          rewrite (Hqz m) by lia. rewrite (sum_ext O _ _ (fun k => if Nat.eqb k m then z else qf k *! co v (i - k))); [ring|].
          intros k Hk. unfold vfset. destruct (Nat.eqb k m); auto.
        - rewrite (sum_ext O _ _ (fun k => qf k *! co v (i - k))); [ring|]. intros k Hk. unfold vfset. rewrite (proj2 (Nat.eqb_neq k m)) by lia. auto. }
      rewrite Es. destruct (Nat.leb_spec m i) as [H1|H1]; cbn [andb].
      * destruct (Nat.ltb_spec i (d + m)) as [H2|H2].
        -- rewrite (proj2 (Nat.ltb_lt i (d + (m + 1)))) by lia. ring.
        -- destruct (Nat.ltb_spec i (d + (m + 1))) as [H3|H3].
           ++ replace i with (d + m) by lia. replace (d + m - m) with d by lia. unfold t. field. auto.
           ++ rewrite (Hd2 (i - m)) by lia. ring.
      * rewrite (proj2 (Nat.ltb_lt i (d + m))), (proj2 (Nat.ltb_lt i (d + (m + 1)))) by lia. ring.
Qed.

Lemma poldiv_zero_wp : forall u v, (forall i, co v i = z) -> poldiv O eqb u v = Throw DivideByZero.
Proof.
  intros u v Hv. unfold poldiv. pose proof (real_size_zero v (fun m => m = 0) Hv eq_refl) as W.
  apply wp_elim in W as (m & E & ->). rewrite E. reflexivity.
Qed.
Lemma copy_out_of_bounds : forall (src o : list T) d, length src < d -> length o = d ->
  for_range 0 d (fun o j => c <- vget src j ;; vset o j c) o = UB.
Proof.
  intros src o d Hs Ho. unfold for_range. rewrite Nat.sub_0_r. replace d with (length src + (d - length src)) by lia. rewrite seq_app.
  assert (G : forall l (o : list T), length o = d -> (forall j, In j l -> j < length src) ->
    exists o', for_each (fun o j => c <- vget src j ;; vset o j c) l o = Ok o' /\ length o' = d).
  { induction l as [|j l IH]; intros o1 H1 Hl; [exists o1; auto|]. assert (Hj : j < length src) by (apply Hl; left; auto). cbn [for_each].
    assert (W : wp (c <- vget src j ;; vset o1 j c) (fun o2 => length o2 = d)).
    { apply wp_bind. apply vget_wp; auto. intros a _. apply vset_wp; [lia|]. rewrite upd_length. auto. }
    apply wp_elim in W as (o2 & E2 & L2). rewrite E2. cbn [bind]. apply IH; auto. intros; apply Hl; right; auto. }
  assert (A : forall l1 l2 (o : list T), for_each (fun o j => c <- vget src j ;; vset o j c) (l1 ++ l2) o =
     (o' <- for_each (fun o j => c <- vget src j ;; vset o j c) l1 o ;; for_each (fun o j => c <- vget src j ;; vset o j c) l2 o')).
  { induction l1 as [|j l1 IH]; intros l2 o1; [reflexivity|]. cbn [app for_each]. destruct (c <- vget src j ;; vset o1 j c); cbn [bind]; auto. }
  rewrite A. destruct (G (seq 0 (length src)) o Ho) as (o' & -> & L'); [intros j Hj; apply in_seq in Hj; lia|]. cbn [bind].
  replace (d - length src) with (S (d - length src - 1)) by lia. cbn [seq for_each]. unfold vget at 1.
  rewrite (proj2 (nth_error_None src (0 + length src))) by lia. reflexivity.
Qed.
Lemma poldiv_short_wp : forall u v d, is_degree v d -> length u < d -> poldiv O eqb u v = UB.
Proof.
  intros u v d Hd Hu. unfold poldiv. pose proof (real_size_degree v d (fun m => m = d + 1) Hd eq_refl) as W.
  apply wp_elim in W as (m & E & ->). rewrite E. cbn [bind]. rewrite (proj2 (Nat.eqb_neq (d + 1) 0)) by lia. replace (d + 1 - 1) with d by lia. cbv zeta.
  replace (length u - d) with 0 by lia. change (for_down 0 0 ?f ?s) with (@Ok (list T * list T) s). cbn [bind]. rewrite for_range_empty by lia. cbn [bind]. rewrite repeat_length.
  pose proof (real_size_zero (repeat z (length u)) (fun m => m = 0)) as W. rewrite repeat_length in W.
  assert (Hz : forall i, co (repeat z (length u)) i = z). { intros i. unfold coef. apply nth_repeat. }
  apply wp_elim in W as (m & E2 & ->); auto. rewrite E2. cbn [bind]. rewrite for_range_empty by lia. cbn [bind].
  rewrite copy_out_of_bounds; auto. apply repeat_length.
Qed.

(** quotient and remainder are unique *)
Lemma div_unique : forall v d q q' r r', is_degree v d -> (forall i, d <= i -> co r i = z) -> (forall i, d <= i -> co r' i = z) ->
  (forall i, conv O q v i +! co r i = conv O q' v i +! co r' i) -> (forall i, co q i = co q' i) /\ (forall i, co r i = co r' i).
Proof.
  intros v d q q' r r' [Hd1 Hd2] Hr Hr' H.
  set (D := fun i => co q i -! co q' i).
  assert (HD : forall i, sum (i + 1) (fun k => D k *! co v (i - k)) = co r' i -! co r i).
  { intros i. rewrite (sum_ext O _ _ (fun k => co q k *! co v (i - k) -! co q' k *! co v (i - k))) by (intros; unfold D; ring).
    rewrite (sum_sub O HR). specialize (H i). unfold conv in H.
    transitivity (sum (i + 1) (fun k => co q k *! co v (i - k)) +! co r i -! sum (i + 1) (fun k => co q' k *! co v (i - k)) -! co r i); [ring|]. rewrite H. ring. }
  assert (G : forall N, (forall k, N <= k -> D k = z) -> forall k, D k = z).
  { induction N as [|N IH]; intros HN k; [apply HN; lia|]. apply IH. intros k' Hk'. destruct (Nat.eq_dec k' N) as [->|]; [|apply HN; lia].
    specialize (HD (N + d)). rewrite Hr, Hr' in HD by lia. rewrite (sum_one O HR _ N) in HD; [|lia|].
    - replace (N + d - N) with d in HD by lia. apply (no_zero_div (co v d)); auto. transitivity (z -! z); [rewrite <- HD|]; ring.
    - intros k2 Hk2 Hne. destruct (le_lt_dec (S N) k2); [rewrite HN by auto; ring|]. rewrite (Hd2 (N + d - k2)) by lia. ring. }
  assert (Z : forall k, D k = z). { apply (G (Nat.max (length q) (length q'))). intros k Hk. unfold D. rewrite !coef_out by lia. ring. }
  split; intros i.
  - apply sub_zero. apply Z.
  - symmetry. apply sub_zero. rewrite <- HD. apply (sum_zero O HR). intros k _. rewrite Z. ring.
Qed.

(** ** Synthetic division and the root bound *)
Section Synth.
Variables (n : nat) (c : nat -> T) (a : T).
(** the Horner partial sums *)
Definition hq (i : nat) : T := sum (n - i) (fun t => c (i + t) *! a ^! t).
Lemma hq_step : forall i, i < n -> hq i = c i +! a *! hq (i + 1).
Proof.
  intros i Hi. unfold hq. replace (n - i) with (S (n - (i + 1))) by lia. rewrite (sum_S_l O HR), Nat.add_0_r, (sum_mul_l O HR). simpl npow at 1. f_equal; [ring|].
  apply sum_ext. intros t _. replace (i + S t) with (i + 1 + t) by lia. simpl. ring.
Qed.
Lemma hq_out : forall i, n <= i -> hq i = z.
Proof. intros i Hi. unfold hq. replace (n - i) with 0 by lia. auto. Qed.
Lemma hq_0 : hq 0 = sum n (fun i => c i *! a ^! i).
Proof. unfold hq. rewrite Nat.sub_0_r. auto. Qed.
Lemma synth : forall x, sum n (fun i => c i *! x ^! i) = (x -! a) *! sum n (fun i => hq (i + 1) *! x ^! i) +! hq 0.
Proof.
  intros x.
  assert (E1 : sum n (fun i => c i *! x ^! i) = sum n (fun i => hq i *! x ^! i) -! a *! sum n (fun i => hq (i + 1) *! x ^! i)).
  { rewrite (sum_mul_l O HR), <- (sum_sub O HR). apply sum_ext. intros i Hi. rewrite (hq_step i Hi). ring. }
  assert (E2 : x *! sum n (fun i => hq (i + 1) *! x ^! i) = sum n (fun i => hq i *! x ^! i) -! hq 0).
  { transitivity (sum (S n) (fun i => hq i *! x ^! i) -! hq 0).
    - rewrite (sum_S_l O HR), (sum_mul_l O HR). rewrite (sum_ext O _ (fun i => x *! (hq (i + 1) *! x ^! i)) (fun i => hq (S i) *! x ^! S i)); [simpl npow; ring|].
      intros i Hi. rewrite Nat.add_1_r. simpl. ring.
    - cbn [sumn]. rewrite (hq_out n) by auto. ring. }
  rewrite E1. transitivity (x *! sum n (fun i => hq (i + 1) *! x ^! i) -! a *! sum n (fun i => hq (i + 1) *! x ^! i) +! hq 0); [rewrite E2|]; ring.
Qed.
(** value of the quotient at a: the derivative *)
Lemma deriv_at : 1 <= n -> sum (n - 1) (fun t => nnat O (1 + t) *! c (1 + t) *! a ^! t) = sum n (fun i => hq (i + 1) *! a ^! i).
Proof.
  intros Hn.
  set (W := fun k => sum (n - k) (fun i => hq (k + i) *! a ^! i)).
  set (G := fun k => sum (n - k) (fun t => nnat O (k + t) *! c (k + t) *! a ^! t)).
  assert (Hs : forall f k, k < n -> sum (n - k) (fun t => f (k + t) *! a ^! t) = f k +! a *! sum (n - (k + 1)) (fun t => f (k + 1 + t) *! a ^! t)).
  { intros f k Hk. replace (n - k) with (S (n - (k + 1))) by lia. rewrite (sum_S_l O HR), Nat.add_0_r, (sum_mul_l O HR). simpl npow at 1. f_equal; [ring|].
    apply sum_ext. intros t _. replace (k + S t) with (k + 1 + t) by lia. simpl. ring. }
  assert (E : forall m k, n - k = m -> 1 <= k -> G k = W k +! nnat O (k - 1) *! hq k).
  { induction m as [|m IH]; intros k Hm Hk.
    - unfold G, W. rewrite Hm. simpl. rewrite hq_out by lia. ring.
    - unfold G, W. rewrite (Hs (fun i => nnat O i *! c i)), (Hs hq) by lia.
      fold (G (k + 1)) (W (k + 1)). rewrite (IH (k + 1)) by lia. replace (k + 1 - 1) with k by lia. rewrite (hq_step k) by lia.
      replace (nnat O k) with (nnat O (k - 1) +! n1 O); [ring|]. destruct k as [|k]; [lia|]. simpl. rewrite Nat.sub_0_r. auto. }
  specialize (E (n - 1) 1 eq_refl (le_n 1)). unfold G in E. rewrite E. simpl nnat. unfold W.
  transitivity (sum (n - 1) (fun i => hq (1 + i) *! a ^! i)); [ring|]. symmetry. rewrite (sum_more O HR (n - 1) n); [|lia|].
  - apply sum_ext. intros i _. rewrite Nat.add_comm. auto.
  - intros i Hi _. rewrite (hq_out (i + 1)) by lia. ring.
Qed.
End Synth.

Lemma root_bound : forall n c (X : nat -> T), (forall i j, i < n -> j < n -> X i = X j -> i = j) ->
  (forall m, m < n -> sum n (fun i => c i *! X m ^! i) = z) -> forall i, i < n -> c i = z.
Proof.
  induction n as [|n IH]; intros c X Hinj Hroot; [intros; lia|]. set (a := X n).
  assert (H0 : hq (S n) c a 0 = z). { rewrite hq_0. apply Hroot. lia. }
  assert (Hq : forall i, i < n -> hq (S n) c a (i + 1) = z).
  { apply (IH (fun i => hq (S n) c a (i + 1)) X); [intros; apply Hinj; auto|]. intros m Hm.
    apply (no_zero_div (X m -! a)).
    - pose proof (synth (S n) c a (X m)) as Sy. rewrite (Hroot m) in Sy by lia. rewrite H0 in Sy.
      cbn [sumn] in Sy. rewrite (hq_out (S n) c a (n + 1)) in Sy by lia.
      transitivity ((X m -! a) *! (sum n (fun i => hq (S n) c a (i + 1) *! X m ^! i) +! z *! X m ^! n) +! z); [ring|]. symmetry. exact Sy.
    - intros E. apply sub_zero in E. apply Hinj in E; lia. }
  intros i Hi. replace (c i) with (c i +! a *! hq (S n) c a (i + 1) -! a *! hq (S n) c a (i + 1)) by ring. rewrite <- (hq_step (S n) c a i Hi).
  assert (Z : forall k, hq (S n) c a k = z).
  { intros k. destruct k as [|k]; auto. destruct (lt_dec k n); [replace (S k) with (k + 1) by lia; auto|apply hq_out; lia]. }
  rewrite !Z. ring.
Qed.

(** ** The master polynomial *)
Section Master.
Variable X : nat -> T.
Fixpoint cfn (i k : nat) : T :=
  match i with
  | 0 => if Nat.eqb k 0 then n1 O else z
  | S i' => (match k with 0 => z | S k' => cfn i' k' end) -! X i' *! cfn i' k
  end.
Lemma cfn_out : forall i k, i < k -> cfn i k = z.
Proof.
  induction i as [|i IH]; intros k Hk; cbn [cfn]; [destruct k; [lia|auto]|]. destruct k as [|k]; [lia|]. rewrite (IH k), (IH (S k)) by lia. ring.
Qed.
Lemma cfn_lead : forall i, cfn i i = n1 O.
Proof. induction i as [|i IH]; cbn [cfn]; [auto|]. rewrite IH, cfn_out by lia. ring. Qed.
Lemma cfn_val : forall i x, sum (S i) (fun k => cfn i k *! x ^! k) = prodn O i (fun l => x -! X l).
Proof.
  induction i as [|i IH]; intros x; [simpl; ring|]. cbn [prodn]. rewrite <- IH.
  rewrite (sum_ext O _ _ (fun k => (match k with 0 => z | S k' => cfn i k' end) *! x ^! k -! X i *! (cfn i k *! x ^! k))) by (intros; cbn [cfn]; ring).
  rewrite (sum_sub O HR), <- (sum_mul_l O HR).
  assert (E1 : sum (S (S i)) (fun k => (match k with 0 => z | S k' => cfn i k' end) *! x ^! k) = sum (S i) (fun k => cfn i k *! x ^! k) *! x).
  { rewrite (sum_S_l O HR), (sum_mul_r O HR). rewrite (sum_ext O _ (fun k => cfn i k *! x ^! k *! x) (fun k => cfn i k *! x ^! S k)); [ring|]. intros; simpl; ring. }
  assert (E2 : sum (S (S i)) (fun k => cfn i k *! x ^! k) = sum (S i) (fun k => cfn i k *! x ^! k)).
  { cbn [sumn]. rewrite (cfn_out i (S i)) by lia. ring. }
  rewrite E1, E2. ring.
Qed.
Lemma prod_zero : forall n f m, m < n -> f m = z -> prodn O n f = z.
Proof. induction n as [|n IH]; intros f m Hm E; [lia|]. cbn [prodn]. destruct (Nat.eq_dec m n) as [->|]; [rewrite E; ring|]. rewrite (IH f m) by (auto; lia). ring. Qed.

(** the loop that builds the master polynomial *)
Lemma master_wp : forall (x : list T) n (Q : list T -> Prop), is_vector x n X -> 0 < n -> (forall s, is_vector s n (cfn n) -> Q s) ->
  wp (p_master O x) Q.
Proof.
  intros x n Q Hx Hn HQ. unfold p_master. rewrite (proj1 Hx). cbv zeta. apply wp_bind. eapply vgetf_wp; [exact Hx|auto|]. apply wp_bind. eapply vsetf_wp; [apply is_vector_repeat|lia|]. intros s0 Hs0.
  eapply wp_conseq; [|apply (for_range_inv _ _ (fun i s => is_vector s n (fun k => if n - i <=? k then cfn i (k - (n - i)) else z)))].
  - intros s Hs. apply HQ. eapply is_vector_ext; [exact Hs|]. intros k Hk. cbv beta. rewrite Nat.sub_diag, Nat.sub_0_r. auto.
  - lia.
  - eapply is_vector_ext; [exact Hs0|]. intros k Hk. unfold vfset. cbv beta. destruct (Nat.eqb_spec k (n - 1)) as [->|].
    + rewrite (proj2 (Nat.leb_le (n - 1) (n - 1))) by lia. rewrite Nat.sub_diag. cbn [cfn]. simpl. ring.
    + rewrite (proj2 (Nat.leb_gt (n - 1) k)) by lia. auto.
  - intros i s Hi1 Hi2 Hs. cbv beta in *. apply wp_bind. eapply vgetf_wp; [exact Hx|auto|]. apply wp_bind.
    eapply wp_conseq; [|apply (for_range_inv _ _ (fun m s => is_vector s n (fun k => if (n - 1 - i <=? k) && (k <? m) then cfn (S i) (k - (n - 1 - i)) else if n - i <=? k then cfn i (k - (n - i)) else z)))].
    2: lia.
    2:{ eapply is_vector_ext; [exact Hs|]. intros k Hk. cbv beta. destruct (Nat.leb_spec (n - 1 - i) k); destruct (Nat.ltb_spec k (n - 1 - i)); simpl; auto; lia. }
    2:{ intros m s' Hm1 Hm2 Hs'. cbv beta in *. apply wp_bind. eapply vgetf_wp; [exact Hs'|lia|]. cbv beta. apply wp_bind. eapply vgetf_wp; [exact Hs'|lia|]. cbv beta.
        eapply vsetf_wp; [exact Hs'|lia|]. intros s2 Hs2. eapply is_vector_ext; [exact Hs2|]. intros k Hk. unfold vfset. cbv beta.
        rewrite Nat.ltb_irrefl, andb_false_r. rewrite (proj2 (Nat.ltb_ge (m + 1) m)) by lia. rewrite andb_false_r.
        destruct (Nat.eqb_spec k m) as [->|].
        - rewrite (proj2 (Nat.leb_le (n - 1 - i) m)), (proj2 (Nat.ltb_lt m (m + 1))) by lia. cbn [andb]. rewrite (proj2 (Nat.leb_le (n - i) (m + 1))) by lia. cbn [cfn].
          replace (m + 1 - (n - i)) with (m - (n - 1 - i)) by lia. destruct (Nat.leb_spec (n - i) m).
          + replace (m - (n - 1 - i)) with (S (m - (n - i))) by lia. auto.
          + replace (m - (n - 1 - i)) with 0 by lia. auto.
        - destruct (Nat.ltb_spec k m); destruct (Nat.ltb_spec k (m + 1)); auto; lia. }
    intros s2 Hs2. cbv beta in Hs2. apply wp_bind. eapply vgetf_wp; [exact Hs2|lia|]. cbv beta. rewrite Nat.ltb_irrefl, andb_false_r. rewrite (proj2 (Nat.leb_le (n - i) (n - 1))) by lia.
    eapply vsetf_wp; [exact Hs2|lia|]. intros s3 Hs3. eapply is_vector_ext; [exact Hs3|]. intros k Hk. unfold vfset. cbv beta. rewrite Nat.add_1_r.
    replace (n - S i) with (n - 1 - i) by lia. destruct (Nat.eqb_spec k (n - 1)) as [->|].
    + rewrite (proj2 (Nat.leb_le (n - 1 - i) (n - 1))) by lia. replace (n - 1 - (n - 1 - i)) with i by lia. replace (n - 1 - (n - i)) with (i - 1) by lia. cbn [cfn].
      destruct i as [|i]; [lia|]. rewrite cfn_lead. replace (S i - 1) with i by lia. ring.
    + destruct (Nat.leb_spec (n - 1 - i) k); simpl.
      * rewrite (proj2 (Nat.ltb_lt k (n - 1))) by lia. auto.
      * rewrite (proj2 (Nat.leb_gt (n - i) k)) by lia. auto.
Qed.
End Master.

Lemma from_values_wpt : forall x y, length x = length y -> 0 < length x ->
  wpt (p_from_values O eqb x y) (fun e => e = InvalidArgument /\ exists i j, i < j /\ j < length x /\ co x i = co x j)
    (fun p => length p = length x /\ (forall i j, i < length x -> j < length x -> co x i = co x j -> i = j) /\ forall m, m < length x -> peval O p (co x m) = co y m).
Proof.
  intros x y Hl Hn. unfold p_from_values. rewrite <- Hl, Nat.eqb_refl. rewrite (proj2 (Nat.eqb_neq (length x) 0)) by lia. cbn [negb]. set (n := length x) in *. set (X := co x).
  assert (Hx : is_vector x n X) by apply (vec_coef O). assert (Hy : is_vector y n (co y)) by (rewrite Hl; apply (vec_coef O)).
  apply wpt_bind. eapply wpt_conseq; [|apply (wpt_for_range _ _ _ (fun m _ => forall i j, i < m -> i < j -> j < n -> X i <> X j))].
  2: lia.
  2: intros; lia.
  2:{ intros i _ _ Hi IH. eapply wpt_conseq; [|apply (wpt_for_range _ _ _ (fun m _ => forall j, i < j -> j < m -> X i <> X j))].
      - intros s2 H i' j Hi' Hij Hj. cbv beta in *. destruct (Nat.eq_dec i' i) as [->|]; [apply H; auto|apply IH; auto; lia].
      - lia.
      - intros; lia.
      - intros j s1 Hj1 Hj2 IH2. cbv beta in *. apply wpt_bind_wp. eapply vgetf_wp; [exact Hx|auto|]. apply wpt_bind_wp. eapply vgetf_wp; [exact Hx|auto|].
        destruct (eqb (X i) (X j)) eqn:E.
        + apply Heqb in E. simpl. split; auto. exists i, j. split; [lia|]. auto.
        + simpl. intros j' H1 H2. destruct (Nat.eq_dec j' j) as [->|]; [|apply IH2; lia]. intros Hc. rewrite (proj2 (Heqb _ _) Hc) in E. discriminate. }
  intros s3 Hd. cbv beta in Hd. clear s3.
  assert (Hinj : forall i j, i < n -> j < n -> X i = X j -> i = j).
  { intros i j Hi Hj E. destruct (lt_eq_lt_dec i j) as [[H|H]|H]; auto; exfalso; [apply (Hd i j)|apply (Hd j i)]; auto. }
  apply wpt_wp.
  set (c := cfn X n). set (N := n + 1).
  assert (Hroot : forall m, m < n -> sum N (fun k => c k *! X m ^! k) = z).
  { intros m Hm. unfold N. rewrite Nat.add_1_r. unfold c. rewrite cfn_val. apply (prod_zero n _ m); auto. ring. }
  assert (Hh0 : forall j, j < n -> hq N c (X j) 0 = z) by (intros j Hj; rewrite hq_0; auto).
  assert (Hhn : forall j, hq N c (X j) n = n1 O).
  { intros j. unfold hq, N. replace (n + 1 - n) with 1 by lia. simpl. rewrite Nat.add_0_r. unfold c. rewrite cfn_lead. ring. }
  set (B := fun j xx => sum n (fun i => hq N c (X j) (i + 1) *! xx ^! i)).
  assert (HB : forall j xx, sum N (fun i => hq N c (X j) (i + 1) *! xx ^! i) = B j xx).
  { intros j xx. unfold B, N. rewrite Nat.add_1_r. cbn [sumn]. rewrite (hq_out (S n)) by lia. ring. }
  assert (HB0 : forall j m, j < n -> m < n -> j <> m -> B j (X m) = z).
  { intros j m Hj Hm Hne. apply (no_zero_div (X m -! X j)).
    - pose proof (synth N c (X j) (X m)) as Sy. rewrite (Hroot m Hm), (Hh0 j Hj), HB in Sy. transitivity ((X m -! X j) *! B j (X m) +! z); [ring|]. auto.
    - intros E. apply sub_zero in E. apply Hinj in E; auto. }
  assert (HBj : forall j, j < n -> B j (X j) <> z).
  { intros j Hj E. apply one_ne. rewrite <- (Hhn j). transitivity (hq N c (X j) (n - 1 + 1)); [f_equal; lia|].
    apply (root_bound n (fun i => hq N c (X j) (i + 1)) X Hinj); [|lia]. intros m Hm. destruct (Nat.eq_dec j m) as [->|]; [exact E|apply HB0; auto]. }
  assert (Hphi : forall j, sum n (fun t => nnat O (1 + t) *! c (1 + t) *! X j ^! t) = B j (X j)).
  { intros j. rewrite <- HB. rewrite <- (deriv_at N c (X j)) by (unfold N; lia). unfold N. replace (n + 1 - 1) with n by lia. auto. }
  apply wp_bind. apply (master_wp X x n); auto. fold c. intros s Hs.
  eapply wp_conseq; [|apply (for_range_inv _ _ (fun j cof => is_vector cof n (fun k => sum j (fun j => co y j /! B j (X j) *! hq N c (X j) (k + 1)))))].
  - intros p Hp. cbv beta in Hp. split; [apply (proj1 Hp)|]. split; [exact Hinj|]. intros m Hm. rewrite (peval_fun O p n _ _ Hp).
    rewrite (sum_ext O _ _ (fun i => sum n (fun j => co y j /! B j (X j) *! hq N c (X j) (i + 1) *! X m ^! i))) by (intros; apply (sum_mul_r O HR)).
    rewrite (sum_swap O HR).
    rewrite (sum_ext O _ _ (fun j => co y j /! B j (X j) *! B j (X m))).
    2:{ intros j Hj. change (B j (X m)) with (sum n (fun i => hq N c (X j) (i + 1) *! X m ^! i)). rewrite (sum_mul_l O HR). apply sum_ext. intros i Hi. ring. }
    rewrite (sum_one O HR n m); [field; apply HBj; auto|auto|]. intros j Hj Hne. rewrite (HB0 j m) by auto. ring.
  - lia.
  - eapply is_vector_ext; [apply is_vector_repeat|]. intros; reflexivity.
  - intros j cof _ Hj Hcof. cbv beta in *. apply wp_bind. eapply vgetf_wp; [exact Hx|auto|]. apply wp_bind. eapply vgetf_wp; [exact Hy|auto|]. apply wp_bind.
    eapply wp_conseq; [|apply (for_down_inv _ _ (fun k phi => phi = sum (N - k) (fun t => nnat O (k + t) *! c (k + t) *! X j ^! t)))].
    2: lia.
    2:{ unfold N. replace (n + 1 - n) with 1 by lia. cbn [sumn]. rewrite Nat.add_0_r. unfold c. rewrite cfn_lead. simpl. ring. }
    2:{ intros k phi Hk1 Hk2 ->. cbv beta. apply wp_bind. eapply vgetf_wp; [exact Hs|auto|]. apply wp_Ok.
        replace (N - k) with (S (N - (k + 1))) by (unfold N; lia). rewrite (sum_S_l O HR), Nat.add_0_r, (sum_mul_l O HR). simpl npow at 2. f_equal; [ring|].
        apply sum_ext. intros t _. replace (k + S t) with (k + 1 + t) by lia. simpl npow. ring. }
    intros phi Ephi. cbv beta in Ephi. replace (N - 1) with n in Ephi by (unfold N; lia). rewrite Hphi in Ephi. subst phi. cbv zeta. set (w := co y j /! B j (X j)). apply wp_bind.
    eapply wp_conseq; [|apply (for_down_inv _ _ (fun k st => snd st = hq N c (X j) k /\ is_vector (fst st) n (fun i => sum j (fun j => co y j /! B j (X j) *! hq N c (X j) (i + 1)) +! (if k <=? i then w *! hq N c (X j) (i + 1) else z))))].
    + intros [cof' b] [_ Hc]. cbn [fst] in Hc. apply wp_Ok. eapply is_vector_ext; [exact Hc|]. intros i Hi. cbv beta. rewrite (Nat.add_1_r j). cbn [sumn Nat.leb]. reflexivity.
    + lia.
    + cbn [fst snd]. split; [symmetry; apply Hhn|]. eapply is_vector_ext; [exact Hcof|]. intros i Hi. cbv beta. rewrite (proj2 (Nat.leb_gt n i)) by lia. ring.
    + intros k [cof' b] _ Hk [Eb Hc]. cbn [fst snd] in *. subst b. cbv beta iota. apply wp_bind. eapply vgetf_wp; [exact Hc|auto|]. cbv beta. rewrite (proj2 (Nat.leb_gt (k + 1) k)) by lia.
      apply wp_bind. eapply vsetf_wp; [exact Hc|auto|]. intros cof2 Hc2. apply wp_bind. eapply vgetf_wp; [exact Hs|auto|]. apply wp_Ok. cbn [fst snd]. split.
      * rewrite (hq_step N c (X j) k) by (unfold N; lia). auto.
      * eapply is_vector_ext; [exact Hc2|]. intros i Hi. unfold vfset. cbv beta. destruct (Nat.eqb_spec i k) as [->|].
        -- rewrite (proj2 (Nat.leb_le k k)) by lia. ring.
        -- destruct (Nat.leb_spec (k + 1) i); destruct (Nat.leb_spec k i); auto; lia.
Qed.
End Proofs2.
