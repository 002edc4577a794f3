(** * C59: order statistics *)

From Coq Require Import List Arith Bool Lia ZArith Reals Lra Psatz Permutation Sorted.
From Verif Require Import Base Num Mat_Proofs RootFind_Model RootFind_Proofs Interp_Linear Interp_Bary Fourier_DCT Fourier_Real Fourier_Props Stat_Model Stat_Spec Stat_Mean.
Import ListNotations.
Local Open Scope R_scope.
Local Notation sum := (sumn Rnum).

(** ** Sorting *)
Lemma sinsert_perm : forall x l, Permutation (x :: l) (sinsert Rstat x l).
Proof.
  intros x l. induction l as [|y l IH]; cbn [sinsert]; auto. destruct (altb (sar Rstat) y x); auto.
  transitivity (y :: x :: l); [apply perm_swap|]. now constructor.
Qed.
Lemma ssort_perm : forall l, Permutation l (ssort Rstat l).
Proof. induction l as [|x l IH]; cbn; auto. transitivity (x :: ssort Rstat l); [now constructor|]. apply sinsert_perm. Qed.
Lemma sinsert_sorted : forall x l, Sorted Rle l -> Sorted Rle (sinsert Rstat x l).
Proof.
  intros x l H. induction H as [|y l Hs IH Hd]; cbn [sinsert]; [repeat constructor|]. snum. destruct (Rltb_spec y x) as [L|L].
  - constructor; auto. destruct l as [|z l]; cbn [sinsert]; [constructor; lra|]. snum. inversion Hd; subst. destruct (Rltb z x); constructor; lra.
  - constructor; [now constructor|]. constructor. lra.
Qed.
Lemma ssort_sorted : forall l, Sorted Rle (ssort Rstat l).
Proof. induction l as [|x l IH]; cbn; [constructor|]. now apply sinsert_sorted. Qed.
Lemma sorted_strong : forall l, Sorted Rle l -> StronglySorted Rle l.
Proof. intros l. apply Sorted_StronglySorted. intros a b c. apply Rle_trans. Qed.
Lemma sorted_unique : forall l1 l2, Permutation l1 l2 -> StronglySorted Rle l1 -> StronglySorted Rle l2 -> l1 = l2.
Proof.
  induction l1 as [|a l1 IH]; intros l2 P S1 S2. { apply Permutation_nil in P. now subst. }
  destruct l2 as [|b l2]. { apply Permutation_sym, Permutation_nil in P. discriminate. }
  inversion S1 as [|? ? S1' F1]; subst. inversion S2 as [|? ? S2' F2]; subst. rewrite Forall_forall in F1, F2.
  assert (a = b).
  { assert (Ha : In a (b :: l2)) by (apply (Permutation_in _ P); left; auto). assert (Hb : In b (a :: l1)) by (apply (Permutation_in _ (Permutation_sym P)); left; auto).
    destruct Ha as [|Ha]; auto. destruct Hb as [|Hb]; auto. apply Rle_antisym; auto. }
  subst b. f_equal. apply IH; auto. now apply Permutation_cons_inv in P.
Qed.
Lemma ssort_spec : forall data s, sorted_of data s -> ssort Rstat data = s.
Proof. intros data s (P & H). apply sorted_unique; try (apply sorted_strong; auto using ssort_sorted). transitivity data; auto. apply Permutation_sym, ssort_perm. Qed.
Lemma ssort_of : forall data, sorted_of data (ssort Rstat data).
Proof. intros. split; [apply ssort_perm|apply ssort_sorted]. Qed.

Lemma nth_mono : forall s i j, Sorted Rle s -> (i <= j)%nat -> (j < length s)%nat -> nthR s i <= nthR s j.
Proof.
  intros s i j H. apply sorted_strong in H. revert i j. induction H as [|a l S1 IH F]; intros i j Hij Hj; [cbn in Hj; lia|].
  destruct i as [|i], j as [|j]; cbn [nthR nth] in *; try lia; try apply Rle_refl.
  - rewrite Forall_forall in F. apply F. apply nth_In. cbn in Hj. lia.
  - apply IH; cbn in Hj; lia.
Qed.
Lemma vget_nth : forall s i, (i < length s)%nat -> vget s i = Ok (nthR s i).
Proof. intros. apply (vec_get _ s (length s) (nthR s)); auto. apply is_vector_self. Qed.
Lemma count_perm : forall A (P : A -> bool) l l', Permutation l l' -> count P l = count P l'.
Proof.
  intros A P l l' H. unfold count. induction H; cbn [filter]; auto; try lia.
  - destruct (P x); cbn [length]; lia.
  - destruct (P x), (P y); cbn [length]; lia.
Qed.
Lemma count_app : forall A (P : A -> bool) l l', count P (l ++ l') = (count P l + count P l')%nat.
Proof. intros. unfold count. now rewrite filter_app, app_length. Qed.
Lemma count_all : forall A (P : A -> bool) l, (forall a, In a l -> P a = true) -> count P l = length l.
Proof. intros A P l H. unfold count. f_equal. induction l as [|a l IH]; cbn; auto. rewrite H by (left; auto). f_equal. apply IH. intros; apply H; right; auto. Qed.
Lemma count_none : forall A (P : A -> bool) l, (forall a, In a l -> P a = false) -> count P l = 0%nat.
Proof. intros A P l H. unfold count. induction l as [|a l IH]; cbn; auto. rewrite H by (left; auto). apply IH. intros; apply H; right; auto. Qed.

(** ** Median *)
(** Median is the middle value of the sorted data, or half the sum of the two middle ones *)
Theorem C59_median : forall data s n, sorted_of data s -> length data = n -> (0 < n)%nat ->
  Median Rstat data = Ok ((nthR s ((n - 1) / 2) + nthR s (n / 2)) / 2).
Proof.
  intros data s n H L Hn. unfold Median. rewrite L, (ssort_spec _ _ H), leb0 by auto. destruct H as (P & _). apply Permutation_length in P.
  pose proof (Nat.div_mod n 2 ltac:(lia)) as D. pose proof (Nat.mod_upper_bound n 2 ltac:(lia)).
  destruct (Nat.eqb_spec (n mod 2) 0) as [E|E].
  - rewrite !vget_nth by lia. cbn [bind]. replace ((n - 1) / 2)%nat with (n / 2 - 1)%nat; [reflexivity|].
    apply (Nat.div_unique (n - 1) 2 (n / 2 - 1) 1); lia.
  - rewrite vget_nth by lia. replace ((n - 1) / 2)%nat with (n / 2)%nat. { f_equal. field. }
    apply (Nat.div_unique (n - 1) 2 (n / 2) 0); lia.
Qed.
Print Assumptions C59_median.

Lemma le_b_spec : forall a b, reflect (a <= b) (le_b a b). Proof. intros. unfold le_b. destruct (Rle_dec a b); now constructor. Qed.
Lemma count_le : forall s i m, Sorted Rle s -> (i < length s)%nat -> nthR s i <= m -> (i < count (fun v => le_b v m) s)%nat.
Proof.
  intros s i m H Hi Hm. rewrite <- (firstn_skipn (S i) s), count_app, (count_all _ _ (firstn (S i) s)).
  - rewrite firstn_length_le by lia. lia.
  - intros a Ha. destruct (In_nth _ _ 0 Ha) as (j & Hj & <-). rewrite firstn_length_le in Hj by lia.
    destruct (le_b_spec (nth j (firstn (S i) s) 0) m) as [|C]; auto. exfalso. apply C. apply Rle_trans with (nthR s i); auto.
    assert (E : nth j (firstn (S i) s) 0 = nthR s j). { unfold nthR. rewrite <- (firstn_skipn (S i) s) at 2. rewrite app_nth1; auto. rewrite firstn_length_le; lia. }
    rewrite E. apply nth_mono; auto; lia.
Qed.
Lemma count_ge : forall s i m, Sorted Rle s -> (i < length s)%nat -> m <= nthR s i -> (length s - i <= count (fun v => le_b m v) s)%nat.
Proof.
  intros s i m H Hi Hm. rewrite <- (firstn_skipn i s) at 2. rewrite count_app, (count_all _ _ (skipn i s)), skipn_length. { lia. }
  intros a Ha. destruct (In_nth _ _ 0 Ha) as (j & Hj & <-). rewrite skipn_length in Hj.
  destruct (le_b_spec m (nth j (skipn i s) 0)) as [|C]; auto. exfalso. apply C. apply Rle_trans with (nthR s i); auto.
  assert (E : nth j (skipn i s) 0 = nthR s (i + j)). { unfold nthR. rewrite <- (firstn_skipn i s) at 2. rewrite app_nth2; rewrite firstn_length_le by lia; [f_equal; lia|lia]. }
  rewrite E. apply nth_mono; auto; lia.
Qed.
(** at least half of the values are at most the median and at least half are at least the median *)
Theorem C59_median_halves : forall data, data <> [] -> exists m, Median Rstat data = Ok m /\
  (length data <= 2 * count (fun v => le_b v m) data)%nat /\ (length data <= 2 * count (fun v => le_b m v) data)%nat.
Proof.
  intros data Hne. assert (Hn : (0 < length data)%nat) by (destruct data; [easy|cbn; lia]). pose proof (ssort_of data) as H. set (s := ssort Rstat data) in *.
  eexists. split; [apply (C59_median data s); auto|]. destruct H as (P & H). pose proof (Permutation_length P) as L. rewrite !(count_perm _ _ _ _ P).
  set (n := length data) in *. set (m := (_ + _) / 2). pose proof (Nat.div_mod n 2 ltac:(lia)) as D. pose proof (Nat.mod_upper_bound n 2 ltac:(lia)).
  pose proof (Nat.div_mod (n - 1) 2 ltac:(lia)) as D'. pose proof (Nat.mod_upper_bound (n - 1) 2 ltac:(lia)).
  pose proof (nth_mono s ((n - 1) / 2) (n / 2) H ltac:(lia) ltac:(lia)) as M.
  pose proof (count_le s ((n - 1) / 2) m H ltac:(lia) ltac:(unfold m; lra)). pose proof (count_ge s (n / 2) m H ltac:(lia) ltac:(unfold m; lra)). lia.
Qed.
Print Assumptions C59_median_halves.

(** ** Percentiles *)
Lemma floor_spec : forall r, IZR (Rfloor r) <= r < IZR (Rfloor r) + 1.
Proof. intros r. unfold Rfloor. rewrite minus_IZR. destruct (archimed r). lra. Qed.
Lemma ceil_spec : forall r, IZR (Rceil r) - 1 < r <= IZR (Rceil r).
Proof. intros r. unfold Rceil. rewrite opp_IZR. pose proof (floor_spec (- r)). lra. Qed.
Lemma IZR_unique : forall a b, IZR a < IZR b + 1 -> IZR b < IZR a + 1 -> a = b.
Proof. intros a b H1 H2. rewrite <- plus_IZR in *. apply lt_IZR in H1, H2. lia. Qed.
Lemma zget_nth : forall s k, (k < length s)%nat -> zget s (Z.of_nat k) = Ok (nthR s k).
Proof. intros s k H. unfold zget. destruct (Z.ltb_spec (Z.of_nat k) 0); [lia|]. rewrite Nat2Z.id. now apply vget_nth. Qed.

(** Percentile interpolates linearly between neighbouring sorted values: position r = p/100 (n-1), between positions k
    and k + 1.  (At k = n - 1 the second term is 0.) *)
Theorem C59_percentile : forall data s n p k, sorted_of data s -> length data = n -> (k < n)%nat ->
  let r := p / 100 * (INR n - 1) in 0 <= p <= 100 -> INR k <= r <= INR k + 1 ->
  Percentile Rstat data p = Ok (nthR s k + (r - INR k) * (nthR s (k + 1) - nthR s k)).
Proof.
  intros data s n p k H L Hk r Hp Hr. unfold Percentile. rewrite L, (ssort_spec _ _ H), leb0 by lia. destruct H as (P & _). apply Permutation_length in P.
  snum. rewrite !Rltb_false by lra. cbn [orb]. rewrite of_nat_IZR1. fold r. assert (Hn1 : INR k + 1 <= INR n) by (rewrite <- S_INR; apply le_INR; lia).
  destruct (Raeqb p 0) as [Hz|Hz].
  { assert (E : r = 0) by (unfold r; subst p; field). assert (k = 0%nat). { destruct k; auto. exfalso. rewrite S_INR in Hr. pose proof (pos_INR k). lra. } subst k.
    rewrite vget_nth by lia. f_equal. rewrite E. change (INR 0) with 0. ring. }
  destruct (Raeqb p 100) as [Hh|Hh].
  { assert (E : r = INR n - 1) by (unfold r; subst p; field). rewrite vget_nth by lia. f_equal.
    destruct (Nat.eq_dec k (n - 1)) as [->|Nk]. { rewrite E, minus_INR by lia. change (INR 1) with 1. ring. }
    assert (k = n - 2)%nat. { assert (INR n <= INR (k + 2)). { rewrite plus_INR. change (INR 2) with 2. lra. } apply INR_le in H. lia. }
    subst k. replace (n - 2 + 1)%nat with (n - 1)%nat by lia. rewrite E, minus_INR by lia. change (INR 2) with 2. ring. }
  pose proof (floor_spec r) as F. pose proof (ceil_spec r) as C. rewrite <- (of_nat_IZR k) in *.
  destruct (Z.eqb_spec (Rfloor r) (Rceil r)) as [E|E].
  - assert (Er : r = IZR (Rfloor r)) by (rewrite <- E in C; lra).
    destruct (Req_dec r (IZR (Z.of_nat k))) as [Ek|Nk].
    + assert (Rfloor r = Z.of_nat k) as -> by (apply eq_IZR; lra). rewrite zget_nth by lia. f_equal. rewrite Ek. ring.
    + assert (Rfloor r = Z.of_nat (k + 1)) as Ef. { apply IZR_unique; rewrite of_nat_IZR, plus_INR, <- of_nat_IZR; change (INR 1) with 1; lra. }
      assert (Hk1 : (k + 1 < n)%nat). { apply INR_lt. rewrite plus_INR. change (INR 1) with 1. rewrite of_nat_IZR in *.
        assert (p < 100) by lra. assert (0 < INR n - 1). { pose proof (pos_INR k). assert (r <> 0). { intros Z. rewrite Z in *. lra. } unfold r in *. nra. } unfold r in *. nra. }
      rewrite Ef, zget_nth by lia. f_equal. replace (r - IZR (Z.of_nat k)) with 1; [ring|]. rewrite Er, Ef, of_nat_IZR, plus_INR, <- of_nat_IZR. change (INR 1) with 1. ring.
  - assert (Nr : r <> IZR (Rfloor r)). { intros Er. apply E. apply IZR_unique; lra. }
    assert (Ef : Rfloor r = Z.of_nat k) by (apply IZR_unique; lra).
    assert (Ec : Rceil r = Z.of_nat (k + 1)). { assert (Rceil r = Rfloor r + 1)%Z as ->; [|lia]. apply IZR_unique; rewrite plus_IZR; lra. }
    assert (Hk1 : (k + 1 < n)%nat). { rewrite Ef in Nr. destruct (Nat.eq_dec (k + 1) n) as [En|]; [|lia]. exfalso. apply Nr. rewrite !of_nat_IZR in *. assert (En' : INR n = INR k + 1) by (rewrite <- En, plus_INR; reflexivity).
      apply Rle_antisym; [|lra]. pose proof (pos_INR k). unfold r. rewrite En'. replace (INR k + 1 - 1) with (INR k) by ring. nra. }
    rewrite Ef, Ec, !zget_nth by lia. cbn [bind]. reflexivity.
Qed.
Print Assumptions C59_percentile.

Lemma floor_nat : forall r n, 0 <= r <= INR n - 1 -> (0 < n)%nat -> exists k, (k < n)%nat /\ INR k <= r < INR k + 1.
Proof.
  intros r n Hr Hn. exists (Z.to_nat (Rfloor r)). pose proof (floor_spec r) as F.
  assert (H0 : (0 <= Rfloor r)%Z). { assert (-1 < Rfloor r)%Z; [|lia]. apply lt_IZR. lra. }
  assert (E : INR (Z.to_nat (Rfloor r)) = IZR (Rfloor r)) by (rewrite <- of_nat_IZR, Z2Nat.id; auto).
  rewrite E. split; [|lra]. apply INR_lt. rewrite E. lra.
Qed.
Lemma percentile_pos : forall n p, (0 < n)%nat -> 0 <= p <= 100 -> 0 <= p / 100 * (INR n - 1) <= INR n - 1.
Proof. intros n p Hn Hp. assert (1 <= INR n) by (change 1 with (INR 1); apply le_INR; lia). split; [apply Rmult_le_pos; lra|]. nra. Qed.

(** a percentile lies between smallest and largest value and grows with p; percentile 0 is the minimum and percentile 100
    the maximum *)
Theorem C59_percentile_monotone : forall data s p p', sorted_of data s -> data <> [] -> 0 <= p -> p <= p' -> p' <= 100 ->
  exists v v', Percentile Rstat data p = Ok v /\ Percentile Rstat data p' = Ok v' /\ nthR s 0 <= v /\ v <= v' /\ v' <= nthR s (length s - 1) /\
    Percentile Rstat data 0 = Ok (nthR s 0) /\ Percentile Rstat data 100 = Ok (nthR s (length s - 1)).
Proof.
  intros data s p p' H Hne Hp Hpp Hp'. assert (Hn : (0 < length data)%nat) by (destruct data; [easy|cbn; lia]). set (n := length data) in *.
  destruct (floor_nat (p / 100 * (INR n - 1)) n) as (k & Hk & Ek); [apply percentile_pos; auto; lra|auto|].
  destruct (floor_nat (p' / 100 * (INR n - 1)) n) as (k' & Hk' & Ek'); [apply percentile_pos; auto; lra|auto|].
  set (r := p / 100 * (INR n - 1)) in *. set (r' := p' / 100 * (INR n - 1)) in *.
  assert (1 <= INR n) by (change 1 with (INR 1); apply le_INR; lia). assert (Hr : r <= r') by (unfold r, r'; nra).
  pose proof (percentile_pos n p Hn ltac:(lra)) as B. pose proof (percentile_pos n p' Hn ltac:(lra)) as B'. fold r in B. fold r' in B'.
  exists (nthR s k + (r - INR k) * (nthR s (k + 1) - nthR s k)), (nthR s k' + (r' - INR k') * (nthR s (k' + 1) - nthR s k')).
  assert (Hpr : 0 <= p <= 100) by lra. assert (Hpr' : 0 <= p' <= 100) by lra. assert (Hkr : INR k <= r <= INR k + 1) by lra. assert (Hkr' : INR k' <= r' <= INR k' + 1) by lra.
  pose proof (C59_percentile data s n p k H eq_refl Hk Hpr Hkr) as E. pose proof (C59_percentile data s n p' k' H eq_refl Hk' Hpr' Hkr') as E'.
  fold r in E. fold r' in E'. split; [exact E|]. split; [exact E'|]. pose proof H as (P & S). apply Permutation_length in P. fold n in P. rewrite <- P.
  assert (Seg : forall j t, (j < n)%nat -> INR j <= t < INR j + 1 -> t <= INR n - 1 -> nthR s j <= nthR s j + (t - INR j) * (nthR s (j + 1) - nthR s j) /\
            nthR s j + (t - INR j) * (nthR s (j + 1) - nthR s j) <= nthR s (Nat.min (j + 1) (n - 1))).
  { intros j t Hj Ht Htn. destruct (Nat.eq_dec (j + 1) n) as [Ej|].
    - assert (t = INR j). { rewrite <- Ej, plus_INR in Htn. change (INR 1) with 1 in Htn. lra. } subst t. replace (Nat.min (j + 1) (n - 1)) with j by lia. lra.
    - replace (Nat.min (j + 1) (n - 1)) with (j + 1)%nat by lia. pose proof (nth_mono s j (j + 1) S ltac:(lia) ltac:(lia)). nra. }
  destruct (Seg k r Hk Ek ltac:(lra)) as (S1 & S2). destruct (Seg k' r' Hk' Ek' ltac:(lra)) as (S3 & S4).
  assert (Hkk : (k <= k')%nat). { assert (k < k' + 1)%nat; [|lia]. apply INR_lt. rewrite plus_INR. change (INR 1) with 1. lra. }
  split; [apply Rle_trans with (nthR s k); auto; apply nth_mono; auto; lia|].
  split. { destruct (Nat.eq_dec k k') as [<-|Nk].
    - destruct (Nat.eq_dec (k + 1) n) as [Ej|].
      + rewrite <- Ej, plus_INR in B, B'. change (INR 1) with 1 in *. replace r' with r by lra. lra.
      + pose proof (nth_mono s k (k + 1) S ltac:(lia) ltac:(lia)). nra.
    - apply Rle_trans with (nthR s (Nat.min (k + 1) (n - 1))); auto. apply Rle_trans with (nthR s k'); auto. apply nth_mono; auto; lia. }
  split. { apply Rle_trans with (nthR s (Nat.min (k' + 1) (n - 1))); auto. apply nth_mono; auto; lia. }
  split.
  - rewrite (C59_percentile data s n 0 0 H eq_refl ltac:(lia) ltac:(lra) ltac:(change (INR 0) with 0; lra)). f_equal. change (INR 0) with 0. field.
  - assert (In1 : INR (n - 1) = INR n - 1) by (rewrite minus_INR by lia; reflexivity).
    rewrite (C59_percentile data s n 100 (n - 1) H eq_refl ltac:(lia) ltac:(lra) ltac:(rewrite In1; lra)). f_equal. rewrite In1. field.
Qed.
Print Assumptions C59_percentile_monotone.

(** percentile 50 is the median; Quartiles are the percentiles 25, 50, 75 in ascending order and IQR is their spread *)
Theorem C59_quartiles : forall data, data <> [] -> exists q1 m q3, Quartiles Rstat data = Ok (q1, m, q3) /\ Median Rstat data = Ok m /\
  Percentile Rstat data 25 = Ok q1 /\ Percentile Rstat data 50 = Ok m /\ Percentile Rstat data 75 = Ok q3 /\ q1 <= m <= q3 /\ IQR Rstat data = Ok (q3 - q1).
Proof.
  intros data Hne. assert (Hn : (0 < length data)%nat) by (destruct data; [easy|cbn; lia]). pose proof (ssort_of data) as H. set (s := ssort Rstat data) in *.
  destruct (C59_percentile_monotone data s 25 50 H Hne) as (q1 & m & E1 & E2 & _ & L1 & _); try lra.
  destruct (C59_percentile_monotone data s 50 75 H Hne) as (m' & q3 & E2' & E3 & _ & L2 & _); try lra. rewrite E2 in E2'. injection E2' as <-.
  exists q1, m, q3. unfold Quartiles, IQR. rewrite leb0 by auto. snum. rewrite E1, E2, E3. cbn [bind].
  split; [auto|]. split; [|repeat split; auto]. rewrite (C59_median data s (length data)) by auto. rewrite <- E2. set (n := length data) in *.
  pose proof (Nat.div_mod (n - 1) 2 ltac:(lia)) as D'. pose proof (Nat.mod_upper_bound (n - 1) 2 ltac:(lia)). set (k := ((n - 1) / 2)%nat) in *.
  assert (In1 : INR n = 2 * INR k + INR ((n - 1) mod 2) + 1).
  { replace n with ((2 * k + (n - 1) mod 2) + 1)%nat at 1 by lia. rewrite !plus_INR, mult_INR. reflexivity. }
  assert (C : ((n - 1) mod 2 = 0 \/ (n - 1) mod 2 = 1)%nat) by lia. destruct C as [C|C]; rewrite C in *; cbn [INR] in In1.
  - rewrite (C59_percentile data s n 50 k H eq_refl ltac:(lia)) by lra. f_equal. replace (n / 2)%nat with k. { rewrite In1. field. } apply (Nat.div_unique n 2 k 1); lia.
  - rewrite (C59_percentile data s n 50 k H eq_refl ltac:(lia)) by lra. f_equal. replace (n / 2)%nat with (k + 1)%nat. { rewrite In1. field. } apply (Nat.div_unique n 2 (k + 1) 0); lia.
Qed.
Print Assumptions C59_quartiles.

(** empty data, a percentile outside [0, 100] and a trim percentage outside [0, 50) are rejected *)
Theorem C59_errors : forall data p, (data = [] \/ p < 0 \/ 100 < p -> Percentile Rstat data p = Throw DomainError) /\
  (data = [] \/ p < 0 \/ 50 <= p -> TrimmedMean Rstat data p = Throw DomainError) /\
  (data = [] -> Median Rstat data = Throw DomainError /\ Quartiles Rstat data = Throw DomainError /\ IQR Rstat data = Throw DomainError /\ Range Rstat data = Throw DomainError /\
                MinMax Rstat data = Throw DomainError /\ Mode Rstat data = Throw DomainError /\ MAD Rstat data = Throw DomainError).
Proof.
  intros data p. split; [|split].
  - unfold Percentile. intros [-> |H]; [reflexivity|]. destruct (length data <=? 0)%nat; auto. snum. destruct (Rltb_spec p 0); auto. destruct (Rltb_spec 100 p); auto. lra.
  - unfold TrimmedMean. intros [-> |H]; [reflexivity|]. destruct (length data <=? 0)%nat; auto. snum. destruct (Rltb_spec p 0); auto. destruct (Rltb_spec p 50); auto. lra.
  - intros ->. repeat split.
Qed.
Print Assumptions C59_errors.

(** ** Minimum, maximum and range *)
Theorem C59_minmax : forall data, data <> [] -> exists mn mx, MinMax Rstat data = Ok (mn, mx) /\ Range Rstat data = Ok (mx - mn) /\
  In mn data /\ In mx data /\ (forall v, In v data -> mn <= v <= mx).
Proof.
  intros data Hne. assert (Hn : (0 < length data)%nat) by (destruct data; [easy|cbn; lia]).
  assert (W : wp (MinMax Rstat data) (fun r => In (fst r) data /\ In (snd r) data /\ forall v, In v data -> fst r <= v <= snd r)).
  { unfold MinMax. rewrite leb0 by auto. rewrite vget_nth by auto. cbn [bind]. snum.
    eapply wp_conseq; [|apply (for_range_inv _ _ (fun i r => In (fst r) data /\ In (snd r) data /\ forall j, (j < i)%nat -> fst r <= nthR data j <= snd r))].
    - intros (mn, mx) (I1 & I2 & I3). split; [auto|]. split; [auto|]. intros v Hv. destruct (In_nth _ _ 0 Hv) as (j & Hj & <-). apply I3; auto.
    - lia.
    - cbn [fst snd]. split; [now apply nth_In|]. split; [now apply nth_In|]. intros j Hj. replace j with 0%nat by lia. split; apply Rle_refl.
    - intros i (mn, mx) H1 H2 (I1 & I2 & I3). rewrite vget_nth by auto. cbn [bind]. apply wp_Ok. cbn [fst snd] in *. assert (Hin : In (nthR data i) data) by now apply nth_In.
      split; [destruct (Rltb_spec (nthR data i) mn); auto|]. split; [destruct (Rltb_spec mx (nthR data i)); auto|].
      intros j Hj. destruct (Nat.eq_dec j i) as [->|].
      + destruct (Rltb_spec (nthR data i) mn), (Rltb_spec mx (nthR data i)); lra.
      + specialize (I3 j ltac:(lia)). destruct (Rltb_spec (nthR data i) mn), (Rltb_spec mx (nthR data i)); lra. }
  apply wp_elim in W. destruct W as ((mn, mx) & E & I1 & I2 & I3). exists mn, mx. split; [exact E|]. unfold Range. rewrite E. cbn [bind fst snd]. auto.
Qed.
Print Assumptions C59_minmax.

(** ** Mode *)
Local Notation cnt v l := (count (eq_b v) l).
Lemma eq_b_refl : forall a, eq_b a a = true. Proof. intros. unfold eq_b. destruct (Req_EM_T a a); auto. Qed.
Lemma eq_b_neq : forall a b, a <> b -> eq_b a b = false. Proof. intros. unfold eq_b. destruct (Req_EM_T a b); auto; easy. Qed.
Lemma cnt_snoc : forall v l a, cnt v (l ++ [a]) = (cnt v l + (if Req_EM_T v a then 1 else 0))%nat.
Proof. intros. rewrite count_app. unfold count, eq_b. cbn. destruct (Req_EM_T v a); auto. Qed.
Lemma cnt_pos : forall v l, In v l -> (1 <= cnt v l)%nat.
Proof. intros v l H. unfold count. induction l as [|a l IH]; [easy|]. cbn. destruct H as [->|H]; [rewrite eq_b_refl; cbn; lia|]. specialize (IH H). destruct (eq_b v a); cbn; lia. Qed.
Lemma cnt_zero : forall v l, ~ In v l -> cnt v l = 0%nat.
Proof. intros v l H. apply count_none. intros a Ha. apply eq_b_neq. now intros ->. Qed.
Lemma firstn_snoc : forall s i, (i < length s)%nat -> firstn (i + 1) s = firstn i s ++ [nthR s i].
Proof.
  induction s as [|a s IH]; intros i Hi; [cbn in Hi; lia|]. destruct i as [|i]; [reflexivity|]. cbn [Nat.add firstn app]. f_equal. apply IH. cbn in Hi. lia.
Qed.
Definition mode_inv (s : list R) (i : nat) (st : R * nat * nat) : Prop :=
  let '(mode, mc, cur) := st in let P := firstn i s in let last := nthR s (i - 1) in
  (1 <= mc)%nat /\ cur = cnt last P /\ In mode P /\ ((mode = last /\ mc = 1%nat /\ forall v, In v P -> v = last) \/ (mode <> last /\ mc = cnt mode P)) /\
  (forall v, In v P -> v <> last -> (cnt v P <= mc)%nat /\ (cnt v P = mc -> mode <= v)).
(** Mode returns a value that occurs most often, the smallest such value *)
Theorem C59_mode : forall data, data <> [] -> exists m, Mode Rstat data = Ok m /\ In m data /\
  forall v, (count (eq_b v) data <= count (eq_b m) data)%nat /\ (In v data -> count (eq_b v) data = count (eq_b m) data -> m <= v).
Proof.
  intros data Hne. assert (Hn : (0 < length data)%nat) by (destruct data; [easy|cbn; lia]). pose proof (ssort_of data) as (P & Hs).
  assert (W : wp (Mode Rstat data) (fun m => In m data /\ forall v, In v data -> (cnt v data <= cnt m data)%nat /\ (cnt v data = cnt m data -> m <= v))).
  { unfold Mode. rewrite leb0 by auto. destruct (Nat.eqb_spec (length data) 1) as [E1|E1].
    { destruct data as [|a [|b d]]; try discriminate. cbn. split; [auto|]. intros v [->|[]]. split; [auto|intros; lra]. }
    set (s := ssort Rstat data) in *. pose proof (Permutation_length P) as L. rewrite vget_nth by lia. cbn [bind]. apply wp_bind.
    assert (Last : forall i v, (1 <= i <= length s)%nat -> In v (firstn i s) -> v <= nthR s (i - 1)).
    { intros i v Hi Hv. destruct (In_nth _ _ 0 Hv) as (j & Hj & <-). rewrite firstn_length_le in Hj by lia.
      assert (E : nth j (firstn i s) 0 = nthR s j). { unfold nthR. rewrite <- (firstn_skipn i s) at 2. rewrite app_nth1; auto. rewrite firstn_length_le; lia. }
      rewrite E. apply nth_mono; auto; lia. }
    eapply wp_conseq; [|apply (for_range_inv _ _ (mode_inv s))].
    - intros ((mode, mc), cur) Inv. unfold mode_inv in Inv. rewrite L, firstn_all in Inv. destruct Inv as (I0 & I1 & I2 & I3 & I4).
      assert (Lst : forall v, In v s -> v <= nthR s (length s - 1)). { intros v Hv. apply (Last (length s)); [lia|now rewrite firstn_all]. }
      assert (HlastIn : In (nthR s (length s - 1)) s) by (apply nth_In; lia).
      assert (Goal : forall m, In m s -> (forall v, In v s -> (cnt v s <= cnt m s)%nat /\ (cnt v s = cnt m s -> m <= v)) ->
                In m data /\ (forall v, In v data -> (cnt v data <= cnt m data)%nat /\ (cnt v data = cnt m data -> m <= v))).
      { intros m Hm G. split; [apply (Permutation_in _ (Permutation_sym P)); auto|]. intros v Hv. rewrite !(count_perm _ _ _ _ P). apply G. apply (Permutation_in _ P); auto. }
      destruct (Nat.ltb_spec mc cur) as [Lt|Ge].
      + rewrite L, vget_nth by lia. apply wp_Ok. apply Goal; auto. intros v Hv. destruct (Req_dec v (nthR s (length s - 1))) as [->|Nv]; [split; [lia|lra]|].
        destruct (I4 v Hv Nv). rewrite <- I1. split; [lia|]. intros; lia.
      + apply wp_Ok. apply Goal; auto. intros v Hv. destruct I3 as [(-> & Emc & Eall)|(Nm & Em)].
        * rewrite (Eall v Hv). split; [auto|lra].
        * rewrite <- Em. destruct (Req_dec v (nthR s (length s - 1))) as [->|Nv]; [|now apply I4]. rewrite <- I1. split; [lia|]. intros _. now apply Lst.
    - lia.
    - unfold mode_inv. destruct s as [|a s'] eqn:Es; [cbn in L; lia|]. cbn [firstn Nat.sub nthR nth].
      split; [lia|]. split; [unfold count; cbn; now rewrite eq_b_refl|]. split; [left; auto|]. split; [left; repeat split; auto; intros v [->|[]]; auto|].
      intros v [->|[]] Nv. easy.
    - intros i ((mode, mc), cur) H1 H2 Inv. unfold mode_inv in Inv. destruct Inv as (I0 & I1 & I2 & I3 & I4). rewrite !vget_nth by lia. cbn [bind]. snum.
      set (last := nthR s (i - 1)) in *. set (a := nthR s i) in *. assert (Hla : last <= a) by (apply nth_mono; auto; lia).
      assert (Hlin : In last (firstn i s)). { unfold last. replace (nthR s (i - 1)) with (nth (i - 1) (firstn i s) 0); [apply nth_In; rewrite firstn_length_le; lia|].
        unfold nthR. rewrite <- (firstn_skipn i s) at 2. rewrite app_nth1; auto. rewrite firstn_length_le; lia. }
      assert (Hle : forall v, In v (firstn i s) -> v <= last) by (intros; apply (Last i); auto; lia).
      destruct (Raeqb a last) as [Ea|Na].
      + apply wp_Ok. unfold mode_inv. rewrite firstn_snoc by lia. replace (i + 1 - 1)%nat with i by lia. fold a. rewrite Ea. rewrite !cnt_snoc.
        split; [auto|]. split. { destruct (Req_EM_T last last); [rewrite I1; symmetry; apply Nat.add_1_r|easy]. } split; [apply in_or_app; auto|]. split.
        * destruct I3 as [(J1 & J2 & J3)|(J1 & J2)]; [left|right].
          -- repeat split; auto. intros v Hv. apply in_app_or in Hv. destruct Hv as [Hv|[->|[]]]; auto.
          -- split; auto. destruct (Req_EM_T mode last); [easy|lia].
        * intros v Hv Nv. apply in_app_or in Hv. destruct Hv as [Hv|[->|[]]]; [|easy]. rewrite cnt_snoc. destruct (Req_EM_T v last); [easy|]. rewrite Nat.add_0_r. now apply I4.
      + assert (Hlt : last < a) by lra. assert (Hnin : ~ In a (firstn i s)) by (intros Hin; specialize (Hle a Hin); lra).
        destruct (Nat.ltb_spec mc cur) as [Lt|Ge]; apply wp_Ok; unfold mode_inv; rewrite firstn_snoc by lia; replace (i + 1 - 1)%nat with i by lia; fold a.
        * split; [lia|]. split. { rewrite cnt_snoc, (cnt_zero a) by auto. destruct (Req_EM_T a a); [lia|easy]. } split; [apply in_or_app; auto|]. split.
          -- right. split; [lra|]. rewrite cnt_snoc. destruct (Req_EM_T last a); [lra|lia].
          -- intros v Hv Nv. apply in_app_or in Hv. destruct Hv as [Hv|[->|[]]]; [|easy]. rewrite cnt_snoc. destruct (Req_EM_T v a); [easy|]. rewrite Nat.add_0_r.
             destruct (Req_dec v last) as [->|Nl]; [rewrite <- I1; split; [lia|lra]|]. destruct (I4 v Hv Nl). split; [lia|intros; lia].
        * split; [auto|]. split. { rewrite cnt_snoc, (cnt_zero a) by auto. destruct (Req_EM_T a a); [lia|easy]. } split; [apply in_or_app; auto|].
          assert (Nma : mode <> a) by (intros ->; auto). destruct I3 as [(J1 & J2 & J3)|(J1 & J2)].
          -- subst mode. assert (cur = 1%nat) by (rewrite I1 in *; pose proof (cnt_pos _ _ Hlin); lia). split.
             ++ right. split; auto. rewrite cnt_snoc, <- I1. destruct (Req_EM_T last a); [easy|lia].
             ++ intros v Hv Nv. apply in_app_or in Hv. destruct Hv as [Hv|[->|[]]]; [|easy]. rewrite (J3 v Hv). rewrite cnt_snoc, <- I1. destruct (Req_EM_T last a); [easy|]. split; [lia|lra].
          -- split.
             ++ right. split; auto. rewrite cnt_snoc. destruct (Req_EM_T mode a); [easy|lia].
             ++ intros v Hv Nv. apply in_app_or in Hv. destruct Hv as [Hv|[->|[]]]; [|easy]. rewrite cnt_snoc. destruct (Req_EM_T v a); [easy|]. rewrite Nat.add_0_r.
                destruct (Req_dec v last) as [->|Nl]; [rewrite <- I1; split; [lia|intros; now apply Hle]|]. now apply I4. }
  apply wp_elim in W. destruct W as (m & E & H1 & H2). exists m. split; [auto|]. split; [auto|]. intros v. destruct (in_dec Req_EM_T v data) as [Hv|Hv].
  - destruct (H2 v Hv). auto.
  - split; [rewrite (cnt_zero v) by auto; lia|intros; easy].
Qed.
Print Assumptions C59_mode.

(** ** Trimmed mean and median absolute deviation *)
(** TrimmedMean drops the k smallest and the k largest values, k the whole part of n p / 100, and averages the rest, of
    which there is always at least one *)
Theorem C59_trimmed_mean : forall data s n k p, sorted_of data s -> length data = n -> (0 < n)%nat -> 0 <= p < 50 -> INR k <= INR n * p / 100 < INR k + 1 ->
  (2 * k < n)%nat /\ TrimmedMean Rstat data p = Ok (mean (n - 2 * k) (fun i => nthR s (k + i))).
Proof.
  intros data s n k p H L Hn Hp Hk. pose proof (INR_pos n Hn).
  assert (Hk2 : (2 * k < n)%nat). { apply INR_lt. rewrite mult_INR. change (INR 2) with 2. nra. }
  split; auto. unfold TrimmedMean. rewrite L, (ssort_spec _ _ H), leb0 by auto. destruct H as (P & _). apply Permutation_length in P. snum.
  rewrite Rltb_false, Rltb_true by lra. cbn [orb negb]. rewrite of_nat_IZR. pose proof (floor_spec (INR n * p / 100)) as F.
  assert (Ef : Rfloor (INR n * p / 100) = Z.of_nat k) by (apply IZR_unique; rewrite of_nat_IZR; lra). rewrite Ef, Nat2Z.id.
  destruct (Z.ltb_spec (Z.of_nat k) 0); [lia|].
  set (G := fun i => (sum (i - k) (fun j => nthR s (k + j)), (i - k)%nat)). assert (E0 : (0, 0%nat) = G k) by (unfold G; now rewrite Nat.sub_diag). rewrite E0.
  rewrite (acc_loop _ k (n - k) _ G); [|lia|intros i Hi; unfold G; cbv beta iota].
  - cbn [bind]. unfold G. replace (n - k - k)%nat with (n - 2 * k)%nat by lia. destruct (Nat.eqb_spec (n - 2 * k) 0); [lia|]. now rewrite of_nat_IZR.
  - rewrite vget_nth by lia. cbn [bind]. replace (i + 1 - k)%nat with (S (i - k)) by lia. rewrite sumS_R. do 3 f_equal. f_equal. lia.
Qed.
Print Assumptions C59_trimmed_mean.

(** MAD is the median of the distances to the median *)
Theorem C59_mad : forall data, data <> [] -> exists m v, Median Rstat data = Ok m /\ Median Rstat (map (fun x => Rabs (x - m)) data) = Ok v /\ MAD Rstat data = Ok v.
Proof.
  intros data Hne. assert (Hn : (0 < length data)%nat) by (destruct data; [easy|cbn; lia]).
  destruct (C59_median_halves data Hne) as (m & Em & _). exists m.
  destruct (C59_median_halves (map (fun x => Rabs (x - m)) data)) as (v & Ev & _). { destruct data; [easy|discriminate]. }
  exists v. split; [auto|]. split; [auto|]. unfold MAD. rewrite leb0 by auto. rewrite Em. cbn [bind]. snum. set (n := length data) in *.
  assert (W : wp (for_range 0 n (fun v i => x <- vget data i ;; vset v i (aabs Rarith (x - m))) (repeat 0 n)) (fun d => d = map (fun x => Rabs (x - m)) data)).
  { apply (fill_range R (repeat 0 n) n (fun _ => 0) (fun i => Rabs (nthR data i - m)) 0 n); auto; try lia.
    - apply is_vector_repeat.
    - intros v' i Hi. rewrite vget_nth by (fold n; lia). cbn [bind]. rewrite Rabs_aabs. reflexivity.
    - intros v' V'. eapply is_vector_eq; [exact V'| |].
      + split; [now rewrite map_length|]. intros i Hi. rewrite nth_error_map, (nth_error_nth' data 0) by auto. reflexivity.
      + intros i Hi. cbv beta. destruct (Nat.ltb_spec i n); [|lia]. cbn [Nat.leb andb]. reflexivity. }
  apply wp_eq in W. rewrite W. cbn [bind]. exact Ev.
Qed.
Print Assumptions C59_mad.
