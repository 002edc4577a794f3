(** * C61: ranks, Spearman's and Kendall's correlation *)

From Coq Require Import List Arith Bool Lia ZArith Reals Lra Psatz Permutation Sorted.
From Verif Require Import Base Num Mat_Proofs RootFind_Model RootFind_Proofs Interp_Linear Interp_Bary Fourier_DCT Fourier_Props Stat_Model Stat_Spec Stat_Mean Stat_Order Stat_Corr.
Import ListNotations.
Local Open Scope R_scope.
Local Notation sum := (sumn Rnum).

Lemma lt_b_spec : forall a b, reflect (a < b) (lt_b a b). Proof. intros. unfold lt_b. destruct (Rlt_dec a b); now constructor. Qed.
Lemma eq_b_spec : forall a b, reflect (a = b) (eq_b a b). Proof. intros. unfold eq_b. destruct (Req_EM_T a b); now constructor. Qed.
Lemma rank_eps_val : rank_eps Rstat = 1 / 10 ^ 14.
Proof. unfold rank_eps. snum. f_equal. rewrite pow_IZR. reflexivity. Qed.
Lemma rank_eps_pos : 0 < rank_eps Rstat.
Proof. rewrite rank_eps_val. apply Rdiv_lt_0_compat; [lra|apply pow_lt; lra]. Qed.
(** under the separation hypothesis the tolerance test recognises exactly the equal values *)
Lemma tie_test : forall data a b, separated data -> In a data -> In b data -> Rltb (Rabs (b - a)) (rank_eps Rstat) = eq_b a b.
Proof.
  intros data a b H Ha Hb. pose proof rank_eps_pos. destruct (eq_b_spec a b) as [->|N].
  - rewrite Rminus_eq_0, Rabs_R0. now apply Rltb_true.
  - apply Rltb_false. rewrite rank_eps_val. apply H; auto.
Qed.

(** ** Counting along a sorted list *)
Lemma count_seg : forall (P : R -> bool) s a b, (a <= b <= length s)%nat -> (forall k, (k < length s)%nat -> P (nthR s k) = (a <=? k)%nat && (k <? b)%nat) -> count P s = (b - a)%nat.
Proof.
  intros P s. induction s as [|x l IH]; intros a b H HP; [cbn in *; lia|].
  assert (Hx : P x = (a <=? 0)%nat && (0 <? b)%nat) by (apply (HP 0%nat); cbn; lia).
  destruct a as [|a].
  - destruct b as [|b].
    + apply count_none. intros v Hv. destruct (In_nth _ _ 0 Hv) as (k & Hk & <-). change (nth k (x :: l) 0) with (nthR (x :: l) k). rewrite HP by auto. destruct (0 <=? k)%nat; reflexivity.
    + unfold count in *. cbn [filter]. rewrite Hx. cbn [Nat.leb Nat.ltb andb length]. rewrite (IH 0%nat b); [lia|cbn in H; lia|]. intros k Hk. specialize (HP (S k) ltac:(cbn; lia)). exact HP.
  - destruct b as [|b]; [lia|]. unfold count in *. cbn [filter]. rewrite Hx. cbn [Nat.leb andb]. rewrite (IH a b); [lia|cbn in H; lia|]. intros k Hk. specialize (HP (S k) ltac:(cbn; lia)). exact HP.
Qed.
Lemma rank_group : forall data s i j, Permutation data s -> Sorted Rle s -> (i <= j < length s)%nat -> (forall k, (i <= k <= j)%nat -> nthR s k = nthR s i) ->
  (i = 0%nat \/ nthR s (i - 1) <> nthR s i) -> (S j = length s \/ nthR s (S j) <> nthR s i) -> rank_of data (nthR s i) = INR (i + 1 + j + 1) / 2.
Proof.
  intros data s i j P Hs Hij He Hl Hr. unfold rank_of. rewrite !(count_perm _ _ _ _ P).
  assert (Lo : forall k, (k < i)%nat -> nthR s k < nthR s i).
  { intros k Hk. destruct Hl as [|N]; [lia|]. pose proof (nth_mono s k (i - 1) Hs ltac:(lia) ltac:(lia)). pose proof (nth_mono s (i - 1) i Hs ltac:(lia) ltac:(lia)). lra. }
  assert (Hi : forall k, (j < k < length s)%nat -> nthR s i < nthR s k).
  { intros k Hk. destruct Hr as [|N]; [lia|]. pose proof (nth_mono s (S j) k Hs ltac:(lia) ltac:(lia)). pose proof (nth_mono s i (S j) Hs ltac:(lia) ltac:(lia)). lra. }
  rewrite (count_seg _ s 0 i), (count_seg _ s i (S j)).
  - rewrite Nat.sub_0_r, minus_INR, !plus_INR, S_INR by lia. change (INR 1) with 1. field.
  - lia.
  - intros k Hk. destruct (eq_b_spec (nthR s k) (nthR s i)) as [E|N], (Nat.leb_spec i k), (Nat.ltb_spec k (S j)); cbn [andb]; auto; exfalso.
    + specialize (Hi k ltac:(lia)). lra.
    + specialize (Lo k ltac:(lia)). lra.
    + specialize (Lo k ltac:(lia)). lra.
    + apply N. apply He. lia.
  - lia.
  - intros k Hk. cbn [Nat.leb andb]. destruct (lt_b_spec (nthR s k) (nthR s i)) as [L|N], (Nat.ltb_spec k i); auto; exfalso.
    + destruct (le_lt_dec k j); [specialize (He k ltac:(lia)); lra|specialize (Hi k ltac:(lia)); lra].
Qed.

(** ** ComputeRanks *)
Section Ranks.
Variables (data : list R) (indices : list nat).
Hypothesis HS : sorts data indices.
Hypothesis Sep : separated data.
Let n := length data.
Let s := map (nthR data) indices.
Let ix (k : nat) : nat := nth k indices 0%nat.

Lemma len_ix : length indices = n. Proof. destruct HS as (P & _). apply Permutation_length in P. now rewrite seq_length in P. Qed.
Lemma len_s : length s = n. Proof. unfold s. rewrite map_length. apply len_ix. Qed.
Lemma ix_lt : forall k, (k < n)%nat -> (ix k < n)%nat.
Proof. intros k Hk. destruct HS as (P & _). assert (In (ix k) (seq 0 n)) by (apply (Permutation_in _ P), nth_In; rewrite len_ix; auto). apply in_seq in H. lia. Qed.
Lemma get_ix : forall k, (k < n)%nat -> vget indices k = Ok (ix k).
Proof. intros k Hk. apply (vec_get _ indices n ix); auto. rewrite <- len_ix. apply is_vector_self. Qed.
Lemma s_ix : forall k, (k < n)%nat -> nthR s k = nthR data (ix k).
Proof. intros k Hk. unfold s, nthR at 1. rewrite (nth_indep _ 0 (nthR data 0%nat)) by (rewrite map_length, len_ix; auto). now rewrite map_nth. Qed.
Lemma get_s : forall k, (k < n)%nat -> vget data (ix k) = Ok (nthR s k).
Proof. intros k Hk. rewrite s_ix by auto. apply vget_nth. now apply ix_lt. Qed.
Lemma ix_inj : forall k l, (k < n)%nat -> (l < n)%nat -> ix k = ix l -> k = l.
Proof.
  intros k l Hk Hl E. destruct HS as (P & _). assert (ND : NoDup indices) by (apply (Permutation_NoDup (Permutation_sym P)), seq_NoDup).
  apply (proj1 (NoDup_nth indices 0%nat) ND); auto; rewrite len_ix; auto.
Qed.
Lemma ix_surj : forall d, (d < n)%nat -> exists k, (k < n)%nat /\ ix k = d.
Proof.
  intros d Hd. destruct HS as (P & _). assert (In d indices) by (apply (Permutation_in _ (Permutation_sym P)), in_seq; lia).
  destruct (In_nth _ _ 0%nat H) as (k & Hk & E). exists k. rewrite len_ix in Hk. auto.
Qed.
Lemma s_perm : Permutation data s.
Proof.
  destruct HS as (P & _). unfold s. transitivity (map (nthR data) (seq 0 (length data))).
  - replace (map (nthR data) (seq 0 (length data))) with data; auto. apply (is_vector_eq data _ n (nthR data) (nthR data)); auto; [apply is_vector_self|].
    split; [now rewrite map_length, seq_length|]. intros i Hi. rewrite nth_error_map, (nth_error_nth' _ 0%nat) by (rewrite seq_length; auto). cbn [option_map]. now rewrite seq_nth.
  - apply Permutation_map, Permutation_sym. exact P.
Qed.
Lemma s_sorted : Sorted Rle s. Proof. exact (proj2 HS). Qed.
Lemma in_s : forall k, (k < n)%nat -> In (nthR s k) data.
Proof. intros k Hk. apply (Permutation_in _ (Permutation_sym s_perm)), nth_In. now rewrite len_s. Qed.

Lemma tie_end_ok : forall fuel i j, (i <= j < n)%nat -> (n - j <= fuel)%nat -> (forall k, (i <= k <= j)%nat -> nthR s k = nthR s i) ->
  exists j', tie_end Rstat fuel data indices i j = Ok j' /\ (i <= j' < n)%nat /\ (forall k, (i <= k <= j')%nat -> nthR s k = nthR s i) /\ (S j' = n \/ nthR s (S j') <> nthR s i).
Proof.
  induction fuel as [|fuel IH]; intros i j Hij Hf He; [lia|]. cbn [tie_end]. unfold Nat.succ. fold n. destruct (Nat.ltb_spec (S j) n) as [L|L].
  - rewrite (get_ix (S j)), (get_ix i) by lia. cbn [bind]. rewrite (get_s (S j)), (get_s i) by lia. cbn [bind]. snum.
    rewrite (tie_test data) by (auto; apply in_s; lia). destruct (eq_b_spec (nthR s i) (nthR s (S j))) as [E|N].
    + apply IH; [lia|lia|]. intros k Hk. destruct (Nat.eq_dec k (S j)) as [->|]; [auto|apply He; lia].
    + exists j. repeat split; auto; try lia.
  - exists j. repeat split; auto; lia.
Qed.
Lemma rank_loop_ok : forall fuel i ranks, (i <= n)%nat -> (n - i < fuel)%nat -> length ranks = n -> (i = 0%nat \/ i = n \/ nthR s (i - 1) <> nthR s i) ->
  (forall k, (k < i)%nat -> nth_error ranks (ix k) = Some (rank_of data (nthR s k))) ->
  exists r, rank_loop Rstat fuel data indices i ranks = Ok r /\ length r = n /\ forall k, (k < n)%nat -> nth_error r (ix k) = Some (rank_of data (nthR s k)).
Proof.
  induction fuel as [|fuel IH]; intros i ranks Hi Hf Hl Hb Hr; [lia|]. cbn [rank_loop]. unfold Nat.succ. fold n. destruct (Nat.ltb_spec i n) as [L|L].
  2:{ assert (i = n) by lia. subst i. exists ranks. auto. }
  destruct (tie_end_ok n i i) as (j & E & Hj & He & Hend); [lia|lia|intros k Hk; f_equal; lia|]. rewrite E. cbn [bind]. snum.
  set (av := IZR (Z.of_nat (i + 1 + j + 1)) / 2).
  assert (Eav : rank_of data (nthR s i) = av).
  { unfold av. rewrite of_nat_IZR. apply (rank_group data s i j); auto using s_perm, s_sorted.
    - rewrite len_s. lia.
    - destruct Hb as [|[|]]; auto; lia.
    - rewrite len_s. exact Hend. }
  assert (W : wp (for_range i (S j) (fun ranks k => d <- vget indices k ;; vset ranks d av) ranks)
                 (fun r => length r = n /\ forall k, (k < S j)%nat -> nth_error r (ix k) = Some (rank_of data (nthR s k)))).
  { apply (for_range_inv _ _ (fun m r => length r = n /\ forall k, (k < m)%nat -> nth_error r (ix k) = Some (rank_of data (nthR s k)))); auto; [lia|].
    intros k r G1 G2 (R1 & R2). rewrite get_ix by lia. cbn [bind]. pose proof (ix_lt k ltac:(lia)).
    eapply (vsetf_wp r n (fun d => nth d r 0)); [rewrite <- R1; apply is_vector_self|lia|]. intros r' (V1 & V2). split; auto. intros l Hl'.
    rewrite V2 by (apply ix_lt; lia). unfold vfset. destruct (Nat.eqb_spec (ix l) (ix k)) as [El|Nl].
    - apply ix_inj in El; try lia. subst l. rewrite (He k) by lia. now rewrite Eav.
    - assert (l <> k) by congruence. rewrite <- R2 by lia. symmetry. apply nth_error_nth'. rewrite R1. apply ix_lt. lia. }
  apply wp_elim in W. destruct W as (r & E2 & R1 & R2). rewrite E2. cbn [bind]. apply IH; auto; try lia.
  destruct Hend as [<-|N]; [auto|]. right. right. replace (S j - 1)%nat with j by lia. rewrite (He j) by lia. auto.
Qed.
End Ranks.

(** Every order of the indices that sorts the data gives each value the average position of its equals: rank = number of
    smaller values + (number of equal values + 1) / 2.  Hypothesis: distinct values are at least 1e-14 apart. *)
Theorem C61_ranks : forall data indices, sorts data indices -> separated data ->
  ComputeRanks Rstat data indices = Ok (map (rank_of data) data).
Proof.
  intros data indices HS Sep. unfold ComputeRanks. destruct (Nat.eqb_spec (length data) 0) as [E|E]. { destruct data; [reflexivity|discriminate]. }
  destruct (rank_loop_ok data indices HS Sep (Nat.succ (length data)) 0 (repeat 0 (length data))) as (r & Er & L & Hr); auto; try lia.
  - unfold Nat.succ. lia.
  - apply repeat_length.
  - snum. rewrite Er. f_equal. apply (is_vector_eq r _ (length data) (fun d => rank_of data (nthR data d)) (fun d => rank_of data (nthR data d))); auto.
    + split; auto. intros d Hd. destruct (ix_surj data indices HS d Hd) as (k & Hk & <-). rewrite Hr by auto. now rewrite (s_ix data indices HS).
    + split; [now rewrite map_length|]. intros d Hd. now rewrite nth_error_map, (nth_error_nth' data 0).
Qed.
Print Assumptions C61_ranks.

(** ranks keep the order: a larger value has a larger rank, equal values have equal ranks *)
Lemma count_mono : forall A (P Q : A -> bool) l, (forall a, In a l -> P a = true -> Q a = true) -> (count P l <= count Q l)%nat.
Proof.
  intros A P Q l H. unfold count. induction l as [|a l IH]; cbn [filter]; auto. assert (IH' := IH (fun b Hb => H b (or_intror Hb))).
  destruct (P a) eqn:Ep. { rewrite (H a (or_introl eq_refl) Ep). cbn [length]. lia. } destruct (Q a); cbn [length]; lia.
Qed.
Lemma count_or : forall A (P Q : A -> bool) l, (forall a, In a l -> P a = true -> Q a = true -> False) -> (count P l + count Q l = count (fun a => P a || Q a) l)%nat.
Proof.
  intros A P Q l H. unfold count. induction l as [|a l IH]; cbn [filter]; auto. assert (IH' := IH (fun b Hb => H b (or_intror Hb))).
  destruct (P a) eqn:Ep, (Q a) eqn:Eq; cbn [orb length]; try lia. exfalso. apply (H a); cbn; auto.
Qed.
Lemma count_pos : forall A (P : A -> bool) l a, In a l -> P a = true -> (1 <= count P l)%nat.
Proof. intros A P l a H E. unfold count. destruct (filter P l) as [|x f] eqn:F; [|cbn; lia]. exfalso. assert (In a (filter P l)) by (apply filter_In; auto). rewrite F in *. easy. Qed.
Theorem C61_rank_order : forall data a b, In a data -> In b data -> (a < b <-> rank_of data a < rank_of data b) /\ 1 <= rank_of data a <= INR (length data).
Proof.
  intros data a b Ha Hb.
  assert (M : forall a b, In a data -> In b data -> a < b -> rank_of data a < rank_of data b).
  { clear a b Ha Hb. intros a b Ha Hb H. unfold rank_of.
    assert (C : (count (fun u => lt_b u a) data + count (fun u => eq_b u a) data <= count (fun u => lt_b u b) data)%nat).
    { rewrite count_or. - apply count_mono. intros u _. destruct (lt_b_spec u a), (eq_b_spec u a), (lt_b_spec u b); cbn; auto; lra.
      - intros u _. destruct (lt_b_spec u a), (eq_b_spec u a); try discriminate. lra. }
    apply le_INR in C. rewrite plus_INR in C. pose proof (count_pos _ (fun u => eq_b u a) data a Ha (eq_b_refl a)) as P1.
    pose proof (count_pos _ (fun u => eq_b u b) data b Hb (eq_b_refl b)) as P2. apply le_INR in P1, P2. change (INR 1) with 1 in *. lra. }
  split; [split; [now apply M|]|].
  - intros H. destruct (Rtotal_order a b) as [|[->|G]]; auto; [lra|]. apply M in G; auto. lra.
  - unfold rank_of. pose proof (count_pos _ (fun u => eq_b u a) data a Ha (eq_b_refl a)) as P1. apply le_INR in P1. change (INR 1) with 1 in P1.
    pose proof (pos_INR (count (fun u => lt_b u a) data)).
    assert (C : (count (fun u => lt_b u a) data + count (fun u => eq_b u a) data <= length data)%nat).
    { rewrite count_or. - rewrite <- (count_all _ (fun _ => true) data) by auto. apply count_mono. auto.
      - intros u _. destruct (lt_b_spec u a), (eq_b_spec u a); try discriminate. lra. }
    apply le_INR in C. rewrite plus_INR in C. lra.
Qed.
Print Assumptions C61_rank_order.

(** ** Spearman *)
Definition ranks_of (data : list R) (i : nat) : R := rank_of data (nthR data i).
Lemma ranks_vec : forall data, is_vector (map (rank_of data) data) (length data) (ranks_of data).
Proof. intros. split; [apply map_length|]. intros i Hi. now rewrite nth_error_map, (nth_error_nth' data 0). Qed.
Lemma ranks_constant : forall data, constant (length data) (ranks_of data) <-> constant (length data) (nthR data).
Proof.
  intros data. assert (MM : forall a b, a < b -> In a data -> In b data -> rank_of data a < rank_of data b) by (intros; now apply C61_rank_order). split; intros H i j Hi Hj.
  - specialize (H i j Hi Hj). unfold ranks_of in H. assert (In (nthR data i) data) by now apply nth_In. assert (In (nthR data j) data) by now apply nth_In.
    destruct (Rtotal_order (nthR data i) (nthR data j)) as [L|[E|L]]; auto; apply MM in L; auto; lra.
  - unfold ranks_of. f_equal. auto.
Qed.
(** SpearmanCorrelation is Pearson's coefficient of the ranks: in [-1, 1], whatever order the sort gives to ties *)
Theorem C61_spearman : forall x y ix iy n, length x = n -> length y = n -> (2 <= n)%nat -> sorts x ix -> sorts y iy -> separated x -> separated y ->
  ~ constant n (nthR x) -> ~ constant n (nthR y) ->
  exists rho, SpearmanCorrelation Rstat x y ix iy = Ok rho /\ rho = correlation n (ranks_of x) (ranks_of y) /\ -1 <= rho <= 1 /\
    ((3 <= n)%nat -> SpearmanCorrelationWithTest Rstat x y ix iy = Ok (rho, rho * sqrt (INR n - 1), n)).
Proof.
  intros x y ix iy n Lx Ly Hn Sx Sy Px Py Cx Cy. exists (correlation n (ranks_of x) (ranks_of y)).
  assert (Cx' : ~ constant n (ranks_of x)) by (subst n; now rewrite ranks_constant). assert (Cy' : ~ constant n (ranks_of y)) by (rewrite <- Ly in *; now rewrite ranks_constant).
  assert (E : SpearmanCorrelation Rstat x y ix iy = Ok (correlation n (ranks_of x) (ranks_of y))).
  { unfold SpearmanCorrelation. rewrite Lx, Ly, Nat.eqb_refl. destruct (Nat.ltb_spec n 2); [lia|]. cbn [negb]. rewrite (C61_ranks x ix), (C61_ranks y iy) by auto. cbn [bind].
    apply pearson_ok; auto; [rewrite <- Lx; apply ranks_vec|rewrite <- Ly; apply ranks_vec]. }
  split; [auto|]. split; [auto|]. split; [now apply correlation_bound|]. intros H3. unfold SpearmanCorrelationWithTest. rewrite Lx. destruct (Nat.ltb_spec n 3); [lia|]. rewrite E. cbn [bind]. snum. now rewrite of_nat_IZR1.
Qed.
Print Assumptions C61_spearman.

(** ordering both variables the same way gives 1 *)
Lemma rank_same : forall x y n, length x = n -> length y = n -> (forall i j, (i < n)%nat -> (j < n)%nat -> nthR x i < nthR x j <-> nthR y i < nthR y j) ->
  forall i, (i < n)%nat -> ranks_of x i = ranks_of y i.
Proof.
  intros x y n Lx Ly H i Hi. unfold ranks_of, rank_of.
  assert (CI : forall (P : R -> bool) l, count P l = count (fun k => P (nthR l k)) (seq 0 (length l))).
  { intros P l. unfold count. induction l as [|a l IH]; auto. cbn [length seq filter]. change (nthR (a :: l) 0) with a. rewrite <- seq_shift.
    assert (F : forall m, length (filter (fun k => P (nthR (a :: l) k)) (map S m)) = length (filter (fun k => P (nthR l k)) m)).
    { induction m as [|c m IHm]; auto. cbn [map filter]. change (nthR (a :: l) (S c)) with (nthR l c). destruct (P (nthR l c)); cbn [length]; auto. }
    destruct (P a); cbn [length]; rewrite F, <- IH; auto. }
  assert (CE : forall (P Q : nat -> bool) l, (forall k, In k l -> P k = Q k) -> count P l = count Q l).
  { intros P Q l HPQ. unfold count. f_equal. induction l as [|c l IH]; auto. cbn [filter]. rewrite HPQ by (left; auto). rewrite IH by (intros; apply HPQ; right; auto). reflexivity. }
  rewrite !(CI _ x), !(CI _ y), Lx, Ly. rewrite (CE (fun k => lt_b (nthR x k) (nthR x i)) (fun k => lt_b (nthR y k) (nthR y i))).
  - rewrite (CE (fun k => eq_b (nthR x k) (nthR x i)) (fun k => eq_b (nthR y k) (nthR y i))); auto.
    intros k Hk. apply in_seq in Hk. pose proof (H k i ltac:(lia) Hi). pose proof (H i k Hi ltac:(lia)).
    destruct (eq_b_spec (nthR x k) (nthR x i)) as [E|N], (eq_b_spec (nthR y k) (nthR y i)) as [E'|N']; auto; exfalso.
    + destruct (Rtotal_order (nthR y k) (nthR y i)) as [L|[L|L]]; [apply H0 in L; lra|auto|apply H1 in L; lra].
    + destruct (Rtotal_order (nthR x k) (nthR x i)) as [L|[L|L]]; [apply H0 in L; lra|auto|apply H1 in L; lra].
  - intros k Hk. apply in_seq in Hk. pose proof (H k i ltac:(lia) Hi). destruct (lt_b_spec (nthR x k) (nthR x i)), (lt_b_spec (nthR y k) (nthR y i)); auto; exfalso; tauto.
Qed.
Theorem C61_spearman_monotone : forall x y ix iy n, length x = n -> length y = n -> (2 <= n)%nat -> sorts x ix -> sorts y iy -> separated x -> separated y -> ~ constant n (nthR x) ->
  (forall i j, (i < n)%nat -> (j < n)%nat -> nthR x i < nthR x j <-> nthR y i < nthR y j) -> SpearmanCorrelation Rstat x y ix iy = Ok 1.
Proof.
  intros x y ix iy n Lx Ly Hn Sx Sy Px Py Cx H.
  assert (Cy : ~ constant n (nthR y)). { intros C. apply Cx. intros i j Hi Hj. pose proof (H i j Hi Hj). pose proof (H j i Hj Hi). specialize (C i j Hi Hj). destruct (Rtotal_order (nthR x i) (nthR x j)) as [L|[L|L]]; auto; [apply H0 in L|apply H1 in L]; lra. }
  destruct (C61_spearman x y ix iy n) as (rho & E & Er & _); auto. rewrite E. f_equal. rewrite Er.
  assert (Cx' : ~ constant n (ranks_of x)) by (rewrite <- Lx in *; now rewrite ranks_constant). pose proof (rank_same x y n Lx Ly H) as S.
  assert (Eq : covariance n (ranks_of x) (ranks_of y) = variance n (ranks_of x) /\ variance n (ranks_of y) = variance n (ranks_of x)).
  { unfold covariance, variance. rewrite <- !cosum_self. split; f_equal; apply cosum_ext; auto; intros; symmetry; auto. }
  unfold correlation. destruct Eq as (-> & ->). pose proof (variance_pos n _ Hn Cx') as P. rewrite sqrt_sqrt by lra. field. lra.
Qed.
Print Assumptions C61_spearman_monotone.

(** without ties: rho = 1 - 6 sum d^2 / (n (n^2 - 1)), d the difference of the two ranks *)
Lemma sum_perm : forall n (g : nat -> R) l, Permutation l (seq 0 n) -> sum n g = sum n (fun k => g (nth k l 0%nat)).
Proof.
  intros n g l P. assert (F : forall m (h : nat -> R), sum m h = fold_right Rplus 0 (map h (seq 0 m))).
  { induction m as [|m IH]; intros h; auto. rewrite sumS_R, IH, seq_S, map_app, fold_right_app. cbn [map fold_right Nat.add]. generalize (map h (seq 0 m)). clear.
    induction l as [|a l IH]; cbn; [lra|]. rewrite <- IH. lra. }
  rewrite F. assert (E : map (fun k => g (nth k l 0%nat)) (seq 0 n) = map g l).
  { rewrite <- (map_map (fun k => nth k l 0%nat) g). f_equal. assert (L : length l = n) by (apply Permutation_length in P; now rewrite seq_length in P). subst n. clear.
    induction l as [|a l IH]; auto. cbn [length seq map]. f_equal. rewrite <- seq_shift, map_map. exact IH. }
  rewrite F, E. assert (Q : forall a b : list R, Permutation a b -> fold_right Rplus 0 a = fold_right Rplus 0 b). { induction 1; cbn; lra. }
  apply Q, Permutation_map, Permutation_sym, P.
Qed.
Lemma sum_int : forall n, sum n (fun k => INR (k + 1)) = INR n * (INR n + 1) / 2.
Proof. induction n as [|n IH]; [cbn; lra|]. rewrite sumS_R, IH. cbv beta. rewrite plus_INR, (S_INR n). change (INR 1) with 1. field. Qed.
Lemma sum_int2 : forall n, sum n (fun k => INR (k + 1) ^ 2) = INR n * (INR n + 1) * (2 * INR n + 1) / 6.
Proof. induction n as [|n IH]; [cbn; lra|]. rewrite sumS_R, IH. cbv beta. rewrite plus_INR, (S_INR n). change (INR 1) with 1. field. Qed.
Lemma rank_sums : forall x ix n, length x = n -> sorts x ix -> NoDup x -> sum n (ranks_of x) = INR n * (INR n + 1) / 2 /\ sum n (fun i => ranks_of x i ^ 2) = INR n * (INR n + 1) * (2 * INR n + 1) / 6.
Proof.
  intros x ix n L S ND. assert (R : forall k, (k < n)%nat -> ranks_of x (nth k ix 0%nat) = INR (k + 1)).
  { intros k Hk. unfold ranks_of. rewrite <- (s_ix x ix S) by (rewrite L; auto). pose proof (s_perm x ix S) as P. pose proof (len_s x ix S) as LS. rewrite L in LS.
    assert (NDs : NoDup (map (nthR x) ix)) by (apply (Permutation_NoDup P ND)).
    assert (Ne : forall a b, (a < n)%nat -> (b < n)%nat -> a <> b -> nthR (map (nthR x) ix) a <> nthR (map (nthR x) ix) b). { intros a b Ha Hb N E. apply N. apply (proj1 (NoDup_nth _ 0) NDs); auto; rewrite LS; auto. }
    rewrite (rank_group x (map (nthR x) ix) k k); auto.
    - replace (k + 1 + k + 1)%nat with (2 * (k + 1))%nat by lia. rewrite mult_INR. change (INR 2) with 2. field.
    - apply S.
    - lia.
    - intros l Hl. f_equal. lia.
    - destruct k; [left; auto|right]. apply Ne; lia.
    - destruct (Nat.eq_dec (Datatypes.S k) n); [left; lia|right]. apply Ne; lia. }
  destruct S as (P & _). rewrite L in P. split.
  - rewrite (sum_perm n _ ix P), (sum_ext_R n _ _ R). apply sum_int.
  - rewrite (sum_perm n _ ix P). rewrite (sum_ext_R n (fun k => ranks_of x (nth k ix 0%nat) ^ 2) (fun k => INR (k + 1) ^ 2)) by (intros; rewrite R; auto). apply sum_int2.
Qed.
Theorem C61_spearman_no_ties : forall x y ix iy n, length x = n -> length y = n -> (2 <= n)%nat -> sorts x ix -> sorts y iy -> separated x -> separated y -> NoDup x -> NoDup y ->
  SpearmanCorrelation Rstat x y ix iy = Ok (1 - 6 * sum n (fun i => (ranks_of x i - ranks_of y i) ^ 2) / (INR n * (INR n ^ 2 - 1))).
Proof.
  intros x y ix iy n Lx Ly Hn Sx Sy Px Py Nx Ny.
  assert (NC : forall z, length z = n -> NoDup z -> ~ constant n (nthR z)). { intros z Lz Nz C. specialize (C 0%nat 1%nat ltac:(lia) ltac:(lia)). apply (proj1 (NoDup_nth z 0) Nz) in C; lia. }
  destruct (C61_spearman x y ix iy n) as (rho & E & Er & _); auto. rewrite E. f_equal. rewrite Er.
  rewrite correlation_cosum by (auto; rewrite <- ?Lx; rewrite ?ranks_constant; rewrite ?Lx; auto; rewrite <- Ly at 1; rewrite ranks_constant, Ly; auto).
  destruct (rank_sums x ix n Lx Sx Nx) as (A1 & A2). destruct (rank_sums y iy n Ly Sy Ny) as (B1 & B2). assert (Pn : 2 <= INR n) by (apply (le_INR 2 n) in Hn; exact Hn).
  assert (Mx : mean n (ranks_of x) = (INR n + 1) / 2) by (unfold mean; rewrite A1; field; lra). assert (My : mean n (ranks_of y) = (INR n + 1) / 2) by (unfold mean; rewrite B1; field; lra).
  set (m := (INR n + 1) / 2) in *.
  assert (V : forall r, sum n r = INR n * (INR n + 1) / 2 -> sum n (fun i => r i ^ 2) = INR n * (INR n + 1) * (2 * INR n + 1) / 6 -> mean n r = m -> central 2 n r = INR n * (INR n ^ 2 - 1) / 12).
  { intros r R1 R2 R3. unfold central. rewrite R3. rewrite (sum_ext_R n _ (fun i => r i ^ 2 - 2 * m * r i + m ^ 2)) by (intros; ring). rewrite sum_add_R, sum_sub_R, sum_const_R, <- sum_mul_R, R1, R2. unfold m. field. }
  rewrite (V (ranks_of x)), (V (ranks_of y)) by auto. set (D := sum n (fun i => (ranks_of x i - ranks_of y i) ^ 2)).
  assert (Dv : cosum n (ranks_of x) (ranks_of y) = INR n * (INR n ^ 2 - 1) / 12 - D / 2).
  { unfold cosum. rewrite Mx, My. transitivity (/ 2 * (central 2 n (ranks_of x) + central 2 n (ranks_of y) - D)).
    - unfold central, D. rewrite Mx, My, <- sum_add_R, <- sum_sub_R, sum_mul_R. apply sum_ext_R. intros. field.
    - rewrite (V (ranks_of x)), (V (ranks_of y)) by auto. field. }
  rewrite Dv. assert (0 < INR n * (INR n ^ 2 - 1)) by nra. rewrite sqrt_square by lra. field. split; nra.
Qed.
Print Assumptions C61_spearman_no_ties.

(** ** Kendall *)
(** all pairs of positions i < j < n *)
Definition pairs (n : nat) : list (nat * nat) := flat_map (fun i => map (pair i) (seq (i + 1) (n - (i + 1)))) (seq 0 n).
Definition concordant (x y : list R) (p : nat * nat) : bool :=
  (lt_b (nthR x (fst p)) (nthR x (snd p)) && lt_b (nthR y (fst p)) (nthR y (snd p))) || (lt_b (nthR x (snd p)) (nthR x (fst p)) && lt_b (nthR y (snd p)) (nthR y (fst p))).
Definition discordant (x y : list R) (p : nat * nat) : bool :=
  (lt_b (nthR x (fst p)) (nthR x (snd p)) && lt_b (nthR y (snd p)) (nthR y (fst p))) || (lt_b (nthR x (snd p)) (nthR x (fst p)) && lt_b (nthR y (fst p)) (nthR y (snd p))).
(** tied in the first variable only *)
Definition tied (x y : list R) (p : nat * nat) : bool := eq_b (nthR x (fst p)) (nthR x (snd p)) && negb (eq_b (nthR y (fst p)) (nthR y (snd p))).
Lemma pairs_in : forall n i j, In (i, j) (pairs n) <-> (i < j < n)%nat.
Proof.
  intros n i j. unfold pairs. rewrite in_flat_map. split.
  - intros (k & Hk & H). apply in_map_iff in H. destruct H as (l & E & Hl). injection E as -> ->. apply in_seq in Hl, Hk. lia.
  - intros H. exists i. split; [apply in_seq; lia|]. apply in_map_iff. exists j. split; auto. apply in_seq. lia.
Qed.
Lemma for_each_map : forall A B S (g : A -> B) (f : S -> B -> res S) l s, for_each f (map g l) s = for_each (fun s a => f s (g a)) l s.
Proof. induction l as [|a l IH]; intros s; cbn; auto. destruct (f s (g a)); cbn; auto. Qed.
Lemma for_each_flat : forall A B S (g : A -> list B) (f : S -> B -> res S) l s, for_each f (flat_map g l) s = for_each (fun s a => for_each f (g a) s) l s.
Proof. induction l as [|a l IH]; intros s; cbn [flat_map for_each]; auto. rewrite for_each_app. destruct (for_each f (g a) s); cbn [bind]; auto. Qed.
Lemma for_each_ext : forall A S (f g : S -> A -> res S) l s, (forall s a, In a l -> f s a = g s a) -> for_each f l s = for_each g l s.
Proof. induction l as [|a l IH]; intros s H; cbn [for_each]; auto. rewrite H by (left; auto). destruct (g s a); cbn [bind]; auto. apply IH. intros; apply H; right; auto. Qed.
Lemma quad : forall a b c d a' b' c' d' : nat, a = a' -> b = b' -> c = c' -> d = d' -> Ok (a, b, c, d) = Ok (a', b', c', d').
Proof. intros. now subst. Qed.
Lemma kendall_counts_ok : forall x y n, length x = n -> length y = n -> separated x -> separated y ->
  kendall_counts Rstat x y = Ok (count (concordant x y) (pairs n), count (discordant x y) (pairs n), count (tied x y) (pairs n), count (tied y x) (pairs n)).
Proof.
  intros x y n Lx Ly Sx Sy. unfold kendall_counts. rewrite Lx.
  set (body := fun (st : nat * nat * nat * nat) (p : nat * nat) => Ok (kendall_pair Rstat (nthR x (snd p) - nthR x (fst p)) (nthR y (snd p) - nthR y (fst p)) st)).
  assert (E : for_range 0 (n - 1) (fun st i => for_range (Nat.succ i) n (fun st j => xj <- vget x j ;; xi <- vget x i ;; yj <- vget y j ;; yi <- vget y i ;;
               Ok (kendall_pair Rstat (nsub (aops (sar Rstat)) xj xi) (nsub (aops (sar Rstat)) yj yi) st)) st) (0, 0, 0, 0)%nat = for_each body (pairs n) (0, 0, 0, 0)%nat).
  { unfold pairs. rewrite for_each_flat. unfold for_range at 1. rewrite Nat.sub_0_r.
    transitivity (for_each (fun s a => for_each body (map (pair a) (seq (a + 1) (n - (a + 1)))) s) (seq 0 (n - 1)) (0, 0, 0, 0)%nat).
    - apply for_each_ext. intros st i Hi. apply in_seq in Hi. rewrite for_each_map. unfold for_range. rewrite !Nat.add_1_r. apply for_each_ext. intros st' j Hj. apply in_seq in Hj.
      rewrite !vget_nth by lia. reflexivity.
    - destruct n as [|m]; auto. replace (S m - 1)%nat with m by lia. rewrite seq_S, for_each_app. destruct (for_each _ (seq 0 m) _); cbn [bind for_each]; auto.
      replace (S m - (0 + m + 1))%nat with 0%nat by lia. reflexivity. }
  rewrite E. clear E.
  assert (G : forall l c d tx ty, (forall p, In p l -> (fst p < n)%nat /\ (snd p < n)%nat) -> for_each body l (c, d, tx, ty) =
     Ok (c + count (concordant x y) l, d + count (discordant x y) l, tx + count (tied x y) l, ty + count (tied y x) l)%nat).
  { induction l as [|p l IH]; intros c d tx ty H. { cbn. now rewrite !Nat.add_0_r. }
    cbn [for_each]. unfold body at 1. cbn [bind]. destruct (H p (or_introl eq_refl)) as (H1 & H2). unfold kendall_pair. snum.
    set (xi := nthR x (fst p)). set (xj := nthR x (snd p)). set (yi := nthR y (fst p)). set (yj := nthR y (snd p)).
    assert (In xi x) by (apply nth_In; lia). assert (In xj x) by (apply nth_In; lia). assert (In yi y) by (apply nth_In; lia). assert (In yj y) by (apply nth_In; lia).
    rewrite (tie_test x), (tie_test y) by auto.
    assert (Step : forall c' d' tx' ty', (c' = c + if concordant x y p then 1 else 0)%nat -> (d' = d + if discordant x y p then 1 else 0)%nat -> (tx' = tx + if tied x y p then 1 else 0)%nat ->
              (ty' = ty + if tied y x p then 1 else 0)%nat -> for_each body l (c', d', tx', ty') = Ok (c + count (concordant x y) (p :: l), d + count (discordant x y) (p :: l), tx + count (tied x y) (p :: l), ty + count (tied y x) (p :: l))%nat).
    { intros c' d' tx' ty' -> -> -> ->. rewrite IH by (intros; apply H; right; auto). unfold count. cbn [filter].
      destruct (concordant x y p), (discordant x y p), (tied x y p), (tied y x p); cbn [length]; apply quad; lia. }
    destruct (eq_b_spec xi xj) as [Ex|Nx], (eq_b_spec yi yj) as [Ey|Ny]; cbn [andb].
    - apply Step; unfold concordant, discordant, tied; fold xi xj yi yj; destruct (lt_b_spec xi xj), (lt_b_spec xj xi), (lt_b_spec yi yj), (lt_b_spec yj yi), (eq_b_spec xi xj), (eq_b_spec yi yj); cbn [andb orb negb]; try lra; try lia; try easy.
    - apply Step; unfold concordant, discordant, tied; fold xi xj yi yj; destruct (lt_b_spec xi xj), (lt_b_spec xj xi), (lt_b_spec yi yj), (lt_b_spec yj yi), (eq_b_spec xi xj), (eq_b_spec yi yj); cbn [andb orb negb]; try lra; try (unfold Nat.succ; lia); try easy.
    - apply Step; unfold concordant, discordant, tied; fold xi xj yi yj; destruct (lt_b_spec xi xj), (lt_b_spec xj xi), (lt_b_spec yi yj), (lt_b_spec yj yi), (eq_b_spec xi xj), (eq_b_spec yi yj); cbn [andb orb negb]; try lra; try (unfold Nat.succ; lia); try easy.
    - destruct (Rltb_spec 0 (xj - xi)), (Rltb_spec 0 (yj - yi)), (Rltb_spec (xj - xi) 0), (Rltb_spec (yj - yi) 0); cbn [andb orb]; try lra;
        apply Step; unfold concordant, discordant, tied; fold xi xj yi yj; destruct (lt_b_spec xi xj), (lt_b_spec xj xi), (lt_b_spec yi yj), (lt_b_spec yj yi), (eq_b_spec xi xj), (eq_b_spec yi yj); cbn [andb orb negb]; try lra; try (unfold Nat.succ; lia); try easy. }
  apply (G (pairs n) 0%nat 0%nat 0%nat 0%nat). intros (i, j) H. apply pairs_in in H. cbn. lia.
Qed.

Definition tau_b (C D Tx Ty : nat) : R :=
  if ((C + D + Tx =? 0) || (C + D + Ty =? 0))%nat then 0 else (INR C - INR D) / sqrt (INR (C + D + Tx) * INR (C + D + Ty)).
(** KendallCorrelation is tau-b of the numbers of concordant, discordant and tied pairs, and lies in [-1, 1] *)
Theorem C61_kendall : forall x y n, length x = n -> length y = n -> (2 <= n)%nat -> separated x -> separated y ->
  let tau := tau_b (count (concordant x y) (pairs n)) (count (discordant x y) (pairs n)) (count (tied x y) (pairs n)) (count (tied y x) (pairs n)) in
  KendallCorrelation Rstat x y = Ok tau /\ -1 <= tau <= 1 /\ KendallCorrelation Rstat y x = Ok tau /\
  ((3 <= n)%nat -> KendallCorrelationWithTest Rstat x y = Ok (tau, tau / sqrt (2 * (2 * INR n + 5) / (9 * INR n * (INR n - 1))), n)).
Proof.
  intros x y n Lx Ly Hn Sx Sy.
  assert (M : forall x y, length x = n -> length y = n -> separated x -> separated y -> KendallCorrelation Rstat x y =
     Ok (tau_b (count (concordant x y) (pairs n)) (count (discordant x y) (pairs n)) (count (tied x y) (pairs n)) (count (tied y x) (pairs n)))).
  { clear x y Lx Ly Sx Sy. intros x y Lx Ly Sx Sy. unfold KendallCorrelation. rewrite Lx, Ly, Nat.eqb_refl. destruct (Nat.ltb_spec n 2); [lia|]. cbn [negb].
    rewrite (kendall_counts_ok x y n) by auto. cbn [bind]. snum. unfold tau_b.
    set (C := count (concordant x y) (pairs n)). set (D := count (discordant x y) (pairs n)). set (Tx := count (tied x y) (pairs n)). set (Ty := count (tied y x) (pairs n)).
    assert (I : forall a, IZR (Z.of_nat C + Z.of_nat D + Z.of_nat a) = INR (C + D + a)) by (intros; rewrite <- !Nat2Z.inj_add; apply of_nat_IZR). rewrite !I.
    rewrite minus_IZR, !of_nat_IZR.
    assert (Z : forall a, negb (Rltb 0 (INR a)) = (a =? 0)%nat). { intros a. destruct (Nat.eqb_spec a 0) as [->|]; [change (INR 0) with 0; now rewrite Rltb_false by lra|]. rewrite Rltb_true; auto. apply INR_pos. lia. }
    rewrite !Z. destruct ((C + D + Tx =? 0) || (C + D + Ty =? 0))%nat; reflexivity. }
  cbv zeta. set (C := count (concordant x y) (pairs n)). set (D := count (discordant x y) (pairs n)). set (Tx := count (tied x y) (pairs n)). set (Ty := count (tied y x) (pairs n)).
  split; [now apply M|]. split; [|split].
  - unfold tau_b. destruct (Nat.eqb_spec (C + D + Tx) 0) as [|N1]; [cbn; lra|]. destruct (Nat.eqb_spec (C + D + Ty) 0) as [|N2]; [cbn; lra|]. cbn [orb].
    pose proof (pos_INR C). pose proof (pos_INR D). pose proof (pos_INR Tx). pose proof (pos_INR Ty). pose proof (INR_pos (C + D + Tx) ltac:(lia)) as P1. pose proof (INR_pos (C + D + Ty) ltac:(lia)) as P2. rewrite !plus_INR in *.
    set (d := (INR C + INR D + INR Tx) * (INR C + INR D + INR Ty)) in *. assert (Pd : 0 < d) by (unfold d; nra). pose proof (sqrt_lt_R0 d Pd) as Ps.
    assert (Hs : INR C + INR D <= sqrt d). { rewrite <- (sqrt_square (INR C + INR D)) by lra. apply sqrt_le_1; [nra|lra|]. unfold d. nra. }
    split; apply (Rmult_le_reg_r (sqrt d)); auto; unfold Rdiv; rewrite Rmult_assoc, Rinv_l by lra; lra.
  - rewrite (M y x) by auto. f_equal. unfold tau_b.
    assert (E1 : count (concordant y x) (pairs n) = C). { unfold C, count. f_equal. apply filter_ext. intros p. unfold concordant. f_equal; apply andb_comm. }
    assert (E2 : count (discordant y x) (pairs n) = D). { unfold D, count. f_equal. apply filter_ext. intros p. unfold discordant. rewrite orb_comm. f_equal; apply andb_comm. }
    rewrite E1, E2. fold Tx Ty. rewrite orb_comm. destruct ((C + D + Tx =? 0)%nat || (C + D + Ty =? 0)%nat); auto. now rewrite Rmult_comm.
  - intros H3. unfold KendallCorrelationWithTest. rewrite Lx. destruct (Nat.ltb_spec n 3); [lia|]. rewrite (M x y) by auto. cbn [bind]. snum. rewrite of_nat_IZR, of_nat_IZR1. reflexivity.
Qed.
Print Assumptions C61_kendall.

(** the same strict order in both variables gives 1, opposite orders give -1 *)
Theorem C61_kendall_extreme : forall x y n, length x = n -> length y = n -> (2 <= n)%nat -> separated x -> separated y -> NoDup x ->
  ((forall i j, (i < n)%nat -> (j < n)%nat -> nthR x i < nthR x j -> nthR y i < nthR y j) -> KendallCorrelation Rstat x y = Ok 1) /\
  ((forall i j, (i < n)%nat -> (j < n)%nat -> nthR x i < nthR x j -> nthR y j < nthR y i) -> KendallCorrelation Rstat x y = Ok (-1)).
Proof.
  intros x y n Lx Ly Hn Sx Sy Nx. destruct (C61_kendall x y n Lx Ly Hn Sx Sy) as (E & _). rewrite E.
  assert (Nxx : forall i j, (i < j < n)%nat -> nthR x i <> nthR x j). { intros i j H C. apply (proj1 (NoDup_nth x 0) Nx) in C; lia. }
  assert (P0 : (0 < length (pairs n))%nat). { destruct (pairs n) eqn:F; [|cbn; lia]. assert (In (0, 1)%nat (pairs n)) by (apply pairs_in; lia). rewrite F in *. easy. }
  assert (Val : forall a, (0 < a)%nat -> sqrt (INR a * INR a) = INR a) by (intros; apply sqrt_square, pos_INR).
  split; intros H; f_equal.
  - assert (Hp : forall p, In p (pairs n) -> concordant x y p = true /\ discordant x y p = false /\ tied x y p = false /\ tied y x p = false).
    { intros (i, j) Hp. apply pairs_in in Hp. pose proof (Nxx i j Hp). unfold concordant, discordant, tied. cbn [fst snd]. pose proof (H i j ltac:(lia) ltac:(lia)). pose proof (H j i ltac:(lia) ltac:(lia)).
      destruct (lt_b_spec (nthR x i) (nthR x j)), (lt_b_spec (nthR x j) (nthR x i)), (lt_b_spec (nthR y i) (nthR y j)), (lt_b_spec (nthR y j) (nthR y i)), (eq_b_spec (nthR x i) (nthR x j)), (eq_b_spec (nthR y i) (nthR y j)); cbn; auto; exfalso; try tauto; try lra. }
    rewrite (count_all _ (concordant x y)), (count_none _ (discordant x y)), (count_none _ (tied x y)), (count_none _ (tied y x)) by (intros p Hi; apply Hp; auto).
    unfold tau_b. rewrite !Nat.add_0_r. destruct (Nat.eqb_spec (length (pairs n)) 0); [lia|]. cbn [orb]. rewrite Val by auto. change (INR 0) with 0. pose proof (INR_pos _ P0). field. lra.
  - assert (Hp : forall p, In p (pairs n) -> concordant x y p = false /\ discordant x y p = true /\ tied x y p = false /\ tied y x p = false).
    { intros (i, j) Hp. apply pairs_in in Hp. pose proof (Nxx i j Hp). unfold concordant, discordant, tied. cbn [fst snd]. pose proof (H i j ltac:(lia) ltac:(lia)). pose proof (H j i ltac:(lia) ltac:(lia)).
      destruct (lt_b_spec (nthR x i) (nthR x j)), (lt_b_spec (nthR x j) (nthR x i)), (lt_b_spec (nthR y i) (nthR y j)), (lt_b_spec (nthR y j) (nthR y i)), (eq_b_spec (nthR x i) (nthR x j)), (eq_b_spec (nthR y i) (nthR y j)); cbn; auto; exfalso; try tauto; try lra. }
    rewrite (count_none _ (concordant x y)), (count_all _ (discordant x y)), (count_none _ (tied x y)), (count_none _ (tied y x)) by (intros p Hi; apply Hp; auto).
    unfold tau_b. rewrite !Nat.add_0_r. cbn [Nat.add]. destruct (Nat.eqb_spec (length (pairs n)) 0); [lia|]. cbn [orb]. rewrite Val by auto. change (INR 0) with 0. pose proof (INR_pos _ P0). field. lra.
Qed.
Print Assumptions C61_kendall_extreme.

(** fewer than two values (three for the tests) and different sizes are rejected; constant data is rejected by Spearman *)
Theorem C61_errors : forall x y ix iy, ((length x < 2)%nat \/ length y <> length x -> SpearmanCorrelation Rstat x y ix iy = Throw DomainError /\ KendallCorrelation Rstat x y = Throw DomainError) /\
  ((length x < 3)%nat -> SpearmanCorrelationWithTest Rstat x y ix iy = Throw DomainError /\ KendallCorrelationWithTest Rstat x y = Throw DomainError) /\
  (sorts x ix -> sorts y iy -> separated x -> separated y -> constant (length x) (nthR x) \/ constant (length y) (nthR y) -> SpearmanCorrelation Rstat x y ix iy = Throw DomainError).
Proof.
  intros x y ix iy. split; [|split].
  - intros H. unfold SpearmanCorrelation, KendallCorrelation. destruct (Nat.ltb_spec (length x) 2); auto. destruct (Nat.eqb_spec (length y) (length x)); auto. lia.
  - intros H. unfold SpearmanCorrelationWithTest, KendallCorrelationWithTest. destruct (Nat.ltb_spec (length x) 3); auto. lia.
  - intros Sx Sy Px Py H. unfold SpearmanCorrelation. destruct (Nat.ltb_spec (length x) 2); auto. destruct (Nat.eqb_spec (length y) (length x)) as [L|]; auto. cbn [negb].
    rewrite (C61_ranks x ix), (C61_ranks y iy) by auto. cbn [bind]. pose proof (ranks_vec x) as V. pose proof (ranks_vec y) as W. rewrite <- !ranks_constant in H.
    destruct (C60_errors _ _ _ _ _ _ V W) as (_ & G & _). apply G. destruct H as [H|H]; [right; left|right; right]; auto.
Qed.
Print Assumptions C61_errors.
