(** * C58: means, variance and moments *)

From Coq Require Import List Arith Bool Lia ZArith Reals Lra Psatz.
From Verif Require Import Base Num Mat_Proofs RootFind_Model RootFind_Proofs Interp_Linear Interp_Bary Fourier_DCT Stat_Model Stat_Spec.
Import ListNotations.
Local Open Scope R_scope.
Local Notation sum := (sumn Rnum).

(** ** Loops that compute a known sequence of states *)
Lemma acc_loop_from : forall S lo n (body : S -> nat -> res S) (G : nat -> S), (forall i, (lo <= i < lo + n)%nat -> body (G i) i = Ok (G (i + 1)%nat)) ->
  for_each body (seq lo n) (G lo) = Ok (G (lo + n)%nat).
Proof.
  intros S lo n. revert lo. induction n as [|n IH]; intros lo body G H; cbn [seq for_each].
  - now rewrite Nat.add_0_r.
  - rewrite H by lia. cbn [bind]. replace (lo + 1)%nat with (Datatypes.S lo) by lia. rewrite IH by (intros; apply H; lia). do 2 f_equal. lia.
Qed.
Lemma acc_loop : forall S lo hi (body : S -> nat -> res S) (G : nat -> S), (lo <= hi)%nat -> (forall i, (lo <= i < hi)%nat -> body (G i) i = Ok (G (i + 1)%nat)) ->
  for_range lo hi body (G lo) = Ok (G hi).
Proof. intros S lo hi body G Hl H. unfold for_range. rewrite acc_loop_from by (intros; apply H; lia). do 2 f_equal. lia. Qed.
Lemma for_each_app : forall A S (f : S -> A -> res S) l1 l2 s, for_each f (l1 ++ l2) s = (s' <- for_each f l1 s ;; for_each f l2 s').
Proof. induction l1 as [|a l IH]; intros l2 s; cbn [for_each app bind]; auto. destruct (f s a); cbn [bind]; auto. Qed.
Lemma acc_throw : forall S k n (body : S -> nat -> res S) (G : nat -> S) e, (k < n)%nat -> (forall i, (i < k)%nat -> body (G i) i = Ok (G (i + 1)%nat)) ->
  body (G k) k = Throw e -> for_range 0 n body (G 0%nat) = Throw e.
Proof.
  intros S k n body G e Hk H He. unfold for_range. replace (n - 0)%nat with (k + Datatypes.S (n - k - 1))%nat by lia.
  rewrite seq_app, for_each_app, acc_loop_from by (intros; apply H; lia). cbn [bind seq for_each]. cbn [Nat.add]. rewrite He. reflexivity.
Qed.
Lemma first_bad : forall (P : nat -> Prop) n, (forall i, {P i} + {~ P i}) -> (exists i, (i < n)%nat /\ P i) -> exists k, (k < n)%nat /\ P k /\ forall i, (i < k)%nat -> ~ P i.
Proof.
  intros P n D. induction n as [|n IH]; intros (i & Hi & Hp); [lia|].
  destruct (lt_dec i n) as [L|L].
  - destruct IH as (k & K1 & K2 & K3); eauto. exists k. repeat split; auto.
  - assert (i = n) by lia. subst i. destruct (existsb (fun i => if D i then true else false) (seq 0 n)) eqn:E.
    + apply existsb_exists in E. destruct E as (j & Hj & Hd). apply in_seq in Hj. destruct (D j); [|discriminate].
      destruct IH as (k & K1 & K2 & K3); eauto. { exists j. split; auto. lia. } exists k. repeat split; auto.
    + exists n. repeat split; auto. intros j Hj Hp'. assert (F : existsb (fun i => if D i then true else false) (seq 0 n) = true).
      { apply existsb_exists. exists j. split; [apply in_seq; lia|]. destruct (D j); auto. } congruence.
Qed.

Ltac snum := cbn [Rstat sar sfloor sceil slog sexp] in *; rnum.

(** ** Sums *)
Lemma sum_le : forall n f g, (forall i, (i < n)%nat -> f i <= g i) -> sum n f <= sum n g.
Proof. induction n as [|n IH]; intros f g H; [cbn; lra|]. rewrite !sumS_R. apply Rplus_le_compat; [apply IH; intros; apply H; lia|apply H; lia]. Qed.
Lemma sum_nonneg : forall n f, (forall i, (i < n)%nat -> 0 <= f i) -> 0 <= sum n f.
Proof. intros n f H. rewrite <- (sum_zero_R n (fun _ => 0)) by auto. apply sum_le; auto. Qed.
Lemma sum_nonneg_zero : forall n f, (forall i, (i < n)%nat -> 0 <= f i) -> sum n f = 0 -> forall i, (i < n)%nat -> f i = 0.
Proof.
  induction n as [|n IH]; intros f H E i Hi; [lia|]. rewrite sumS_R in E.
  assert (0 <= sum n f) by (apply sum_nonneg; intros; apply H; lia). assert (0 <= f n) by (apply H; lia).
  destruct (Nat.eq_dec i n) as [->|]; [lra|]. apply IH; try lia; [intros; apply H; lia|lra].
Qed.
Lemma INR_pos : forall n, (0 < n)%nat -> 0 < INR n. Proof. intros. now apply lt_0_INR. Qed.
Lemma INR_m1 : forall n, (2 <= n)%nat -> 0 < INR n - 1.
Proof. intros n H. apply le_INR in H. cbn in H. lra. Qed.
Lemma sum_dev : forall n x, (0 < n)%nat -> sum n (fun i => x i - mean n x) = 0.
Proof. intros n x H. rewrite sum_sub_R, sum_const_R. unfold mean. field. apply not_0_INR. lia. Qed.
Lemma mean_const : forall n a, (0 < n)%nat -> mean n (fun _ => a) = a.
Proof. intros. unfold mean. rewrite sum_const_R. field. apply not_0_INR. lia. Qed.
Lemma mean_ext : forall n x y, (forall i, (i < n)%nat -> x i = y i) -> mean n x = mean n y.
Proof. intros. unfold mean. f_equal. now apply sum_ext_R. Qed.
Lemma mean_affine : forall n x a b, (0 < n)%nat -> mean n (fun i => a * x i + b) = a * mean n x + b.
Proof. intros. unfold mean. rewrite sum_add_R, sum_const_R, <- sum_mul_R. field. apply not_0_INR. lia. Qed.
Lemma mean_le : forall n x y, (0 < n)%nat -> (forall i, (i < n)%nat -> x i <= y i) -> mean n x <= mean n y.
Proof. intros. unfold mean. apply Rmult_le_compat_r; [apply Rlt_le, Rinv_0_lt_compat, INR_pos; auto|]. now apply sum_le. Qed.
Lemma central2 : forall n x, central 2 n x = sum n (fun i => (x i - mean n x) * (x i - mean n x)).
Proof. intros. unfold central. apply sum_ext_R. intros. ring. Qed.
Lemma central2_nonneg : forall n x, 0 <= central 2 n x.
Proof. intros. rewrite central2. apply sum_nonneg. intros. apply Rle_0_sqr. Qed.
Lemma central2_zero : forall n x, (0 < n)%nat -> (central 2 n x = 0 <-> constant n x).
Proof.
  intros n x Hn. rewrite central2. split.
  - intros E i j Hi Hj. pose proof (sum_nonneg_zero n _ ltac:(intros; apply Rle_0_sqr) E) as Z. cbv beta in Z.
    pose proof (Rsqr_0_uniq _ (Z i Hi)). pose proof (Rsqr_0_uniq _ (Z j Hj)). lra.
  - intros C. apply sum_zero_R. intros i Hi. assert (E : mean n x = x i). { rewrite (mean_ext n x (fun _ => x i)) by (intros; apply C; auto). now apply mean_const. } rewrite E. ring.
Qed.
Lemma variance_nonneg : forall n x, (2 <= n)%nat -> 0 <= variance n x.
Proof. intros. unfold variance. apply Rmult_le_pos; [apply central2_nonneg|apply Rlt_le, Rinv_0_lt_compat, INR_m1; auto]. Qed.
Lemma variance_zero : forall n x, (2 <= n)%nat -> (variance n x = 0 <-> constant n x).
Proof.
  intros n x Hn. rewrite <- central2_zero by lia. unfold variance. pose proof (INR_m1 n Hn). split; intros E.
  - apply Rmult_integral in E. destruct E as [E|E]; auto. apply Rinv_neq_0_compat in E; [easy|lra].
  - rewrite E. field. lra.
Qed.
Lemma of_nat_IZR : forall n, IZR (Z.of_nat n) = INR n. Proof. intros. symmetry. apply INR_IZR_INZ. Qed.
Lemma of_nat_IZR1 : forall n, IZR (Z.of_nat n - 1) = INR n - 1. Proof. intros. rewrite minus_IZR, of_nat_IZR. reflexivity. Qed.
Lemma leb0 : forall n, (0 < n)%nat -> (n <=? 0)%nat = false. Proof. intros. apply Nat.leb_gt. auto. Qed.

(** ** The functions *)
Lemma avg_ok : forall data n x, is_vector data n x -> (0 < n)%nat -> Avg Rstat data = Ok (mean n x).
Proof.
  intros data n x V Hn. unfold Avg. destruct V as (L & V). rewrite L, leb0 by auto. snum.
  rewrite (acc_loop R 0 n _ (fun i => sum i x)); [|lia|intros i Hi].
  - cbn [bind]. now rewrite of_nat_IZR.
  - rewrite (vec_get _ data n x i) by (auto; try split; auto; lia). cbn [bind]. now rewrite Nat.add_1_r, sumS_R.
Qed.
Lemma avgvar_ok : forall data n x, is_vector data n x -> (2 <= n)%nat -> AvgVar Rstat data = Ok (mean n x, variance n x).
Proof.
  intros data n x V Hn. unfold AvgVar. pose proof V as (L & _). rewrite L, leb0 by lia. rewrite (avg_ok data n x) by (auto; lia). cbn [bind]. snum.
  rewrite (acc_loop (R * R) 0 n _ (fun i => (sum i (fun j => x j - mean n x), sum i (fun j => (x j - mean n x) * (x j - mean n x))))); [|lia|intros i Hi].
  - cbn [bind]. rewrite of_nat_IZR, of_nat_IZR1, sum_dev by lia. unfold variance. rewrite central2. do 2 f_equal. pose proof (INR_m1 n Hn). field. split; lra.
  - cbv beta iota zeta. rewrite (vec_get _ data n x i) by (auto; lia). cbn [bind]. now rewrite Nat.add_1_r, !sumS_R.
Qed.

(** Mean is the sum divided by the number of values *)
Theorem C58_mean : forall data n x, is_vector data n x -> (0 < n)%nat -> Mean Rstat data = Ok (mean n x).
Proof. intros. now apply avg_ok. Qed.
Print Assumptions C58_mean.

(** the mean lies between any bounds of the data *)
Theorem C58_mean_bounds : forall data n x a b, is_vector data n x -> (0 < n)%nat -> (forall i, (i < n)%nat -> a <= x i <= b) ->
  exists m, Mean Rstat data = Ok m /\ a <= m <= b.
Proof.
  intros data n x a b V Hn H. exists (mean n x). split; [now apply avg_ok|]. split.
  - rewrite <- (mean_const n a Hn). apply mean_le; auto. intros; apply H; auto.
  - rewrite <- (mean_const n b Hn). apply mean_le; auto. intros; apply H; auto.
Qed.
Print Assumptions C58_mean_bounds.

(** Variance is the sum of the squared deviations over n - 1, StdDev its root; the variance is never negative and is
    zero exactly for constant data *)
Theorem C58_variance : forall data n x, is_vector data n x -> (2 <= n)%nat ->
  AvgVar Rstat data = Ok (mean n x, variance n x) /\ Variance Rstat data = Ok (variance n x) /\ StdDev Rstat data = Ok (sqrt (variance n x)) /\
  AvgStdDev Rstat data = Ok (mean n x, sqrt (variance n x)) /\
  0 <= variance n x /\ (variance n x = 0 <-> constant n x).
Proof.
  intros data n x V Hn. pose proof (avgvar_ok data n x V Hn) as E. pose proof V as (L & _).
  unfold StdDev, AvgStdDev, Variance. rewrite L, leb0, !E by lia. cbn [bind fst snd]. snum.
  split; [auto|]. split; [auto|]. split; [auto|]. split; [auto|]. split; [now apply variance_nonneg|now apply variance_zero].
Qed.
Print Assumptions C58_variance.

(** shifting the data does not change the variance, scaling by a multiplies it by a squared *)
Theorem C58_variance_affine : forall data data' n x a b v, is_vector data n x -> is_vector data' n (fun i => a * x i + b) -> (2 <= n)%nat ->
  Variance Rstat data = Ok v -> Variance Rstat data' = Ok (a ^ 2 * v).
Proof.
  intros data data' n x a b v V V' Hn Hv. destruct (C58_variance _ _ _ V Hn) as (_ & E & _). destruct (C58_variance _ _ _ V' Hn) as (_ & E' & _).
  rewrite E in Hv. injection Hv as <-. rewrite E'. f_equal. unfold variance, central. rewrite mean_affine by lia.
  rewrite (sum_ext_R n _ (fun i => a ^ 2 * (x i - mean n x) ^ 2)) by (intros; ring). rewrite <- sum_mul_R. unfold Rdiv. ring.
Qed.
Print Assumptions C58_variance_affine.

(** Moments returns mean, mean absolute deviation, standard deviation, variance, skewness and excess kurtosis, and
    refuses data without variance *)
Theorem C58_moments : forall data n x, is_vector data n x -> (2 <= n)%nat -> ~ constant n x ->
  let v := variance n x in
  Moments Rstat data = Ok (mean n x, sum n (fun i => Rabs (x i - mean n x)) / INR n, sqrt v, v,
                           central 3 n x / (INR n * v * sqrt v), central 4 n x / (INR n * v ^ 2) - 3).
Proof.
  intros data n x V Hn Hc v. unfold Moments. pose proof V as (L & _). rewrite L. assert (E1 : (n <=? 1)%nat = false) by (apply Nat.leb_gt; lia). rewrite E1. snum.
  rewrite (acc_loop R 0 n _ (fun i => sum i x)); [|lia|intros i Hi; rewrite (vec_get _ data n x i) by (auto; lia); cbn [bind]; now rewrite Nat.add_1_r, sumS_R].
  cbn [bind]. rewrite of_nat_IZR. fold (mean n x). set (m := mean n x).
  rewrite (acc_loop (R * R * R * R * R) 0 n _ (fun i => (sum i (fun j => Rabs (x j - m)), sum i (fun j => x j - m), sum i (fun j => (x j - m) * (x j - m)),
      sum i (fun j => (x j - m) * (x j - m) * (x j - m)), sum i (fun j => (x j - m) * (x j - m) * (x j - m) * (x j - m))))); [|lia|intros i Hi].
  2:{ cbv beta iota zeta. rewrite (vec_get _ data n x i) by (auto; lia). cbn [bind]. now rewrite Rabs_aabs, Nat.add_1_r, !sumS_R. }
  cbn [bind]. rewrite of_nat_IZR1. unfold m at 1. unfold m. rewrite sum_dev by lia.
  assert (Ev : (sum n (fun j => (x j - mean n x) * (x j - mean n x)) - 0 * 0 / INR n) / (INR n - 1) = v).
  { unfold v, variance. rewrite central2. pose proof (INR_m1 n Hn). field. split; lra. }
  rewrite !Ev. destruct (Raeqb v 0) as [Hz|Hz]; [exfalso; apply Hc; now apply variance_zero|]. cbn [negb].
  assert (E3 : sum n (fun j => (x j - mean n x) * (x j - mean n x) * (x j - mean n x)) = central 3 n x) by (unfold central; apply sum_ext_R; intros; ring).
  assert (E4 : sum n (fun j => (x j - mean n x) * (x j - mean n x) * (x j - mean n x) * (x j - mean n x)) = central 4 n x) by (unfold central; apply sum_ext_R; intros; ring).
  rewrite E3, E4. replace (INR n * v ^ 2) with (INR n * v * v) by ring. reflexivity.
Qed.
Print Assumptions C58_moments.
Theorem C58_moments_constant : forall data n x, is_vector data n x -> (n <= 1 \/ constant n x)%nat -> Moments Rstat data = Throw DomainError.
Proof.
  intros data n x V Hc. unfold Moments. pose proof V as (L & _). rewrite L. destruct (Nat.leb_spec n 1) as [|Hn]; auto. destruct Hc as [|Hc]; [lia|]. snum.
  rewrite (acc_loop R 0 n _ (fun i => sum i x)); [|lia|intros i Hi; rewrite (vec_get _ data n x i) by (auto; lia); cbn [bind]; now rewrite Nat.add_1_r, sumS_R].
  cbn [bind]. rewrite of_nat_IZR. fold (mean n x). set (m := mean n x).
  rewrite (acc_loop (R * R * R * R * R) 0 n _ (fun i => (sum i (fun j => Rabs (x j - m)), sum i (fun j => x j - m), sum i (fun j => (x j - m) * (x j - m)),
      sum i (fun j => (x j - m) * (x j - m) * (x j - m)), sum i (fun j => (x j - m) * (x j - m) * (x j - m) * (x j - m))))); [|lia|intros i Hi].
  2:{ cbv beta iota zeta. rewrite (vec_get _ data n x i) by (auto; lia). cbn [bind]. now rewrite Rabs_aabs, Nat.add_1_r, !sumS_R. }
  cbn [bind]. rewrite of_nat_IZR1. unfold m at 1. unfold m. rewrite sum_dev by lia.
  apply central2_zero in Hc; [|lia]. rewrite central2 in Hc. rewrite Hc.
  replace ((0 - 0 * 0 / INR n) / (INR n - 1)) with 0. 2:{ pose proof (INR_m1 n Hn). field. split; lra. }
  destruct (Raeqb 0 0); [reflexivity|easy].
Qed.
Print Assumptions C58_moments_constant.

(** an empty vector is rejected by every function *)
Theorem C58_empty : forall T (S : sarith T) w,
  Mean S [] = Throw DomainError /\ AvgVar S [] = Throw DomainError /\ Variance S [] = Throw DomainError /\ StdDev S [] = Throw DomainError /\ Moments S [] = Throw DomainError /\
  GeometricMean S [] = Throw DomainError /\ HarmonicMean S [] = Throw DomainError /\ WeightedMean S [] w = Throw DomainError /\ WeightedVariance S [] w = Throw DomainError.
Proof. intros. repeat split. Qed.
Print Assumptions C58_empty.

(** One value is accepted by Variance and StdDev although the sample variance needs two: whatever the arithmetic, the
    result is a quotient whose divisor is the number 0 (NaN in floating point). *)
Theorem C58_variance_single_refuted : forall T (S : sarith T) (a : T), exists num,
  Variance S [a] = Ok (ndiv (aops (sar S)) num (alit (sar S) 0)) /\ StdDev S [a] = Ok (asqrt (sar S) (ndiv (aops (sar S)) num (alit (sar S) 0))).
Proof. intros. eexists. split; reflexivity. Qed.
Print Assumptions C58_variance_single_refuted.

(** ** Weighted, geometric and harmonic means *)
Lemma Rltb_false : forall a b, b <= a -> Rltb a b = false. Proof. intros a b H. destruct (Rltb_spec a b); try lra; auto. Qed.
Lemma Rltb_true : forall a b, a < b -> Rltb a b = true. Proof. intros a b H. destruct (Rltb_spec a b); try lra; auto. Qed.

Lemma wm_loop : forall data ws n x w (D : R -> R), is_vector data n x -> is_vector ws n w -> (forall i, (i < n)%nat -> 0 <= w i) ->
  for_range 0 n (fun st i => let '(s, tw) := st in w <- vget ws i ;; if Rltb w 0 then Throw DomainError else x <- vget data i ;; Ok (s + w * x, tw + w)) (0, 0)
  = Ok (sum n (fun i => w i * x i), sum n w).
Proof.
  intros data ws n x w D V W Hw. rewrite (acc_loop (R * R) 0 n _ (fun i => (sum i (fun j => w j * x j), sum i w))); auto; [lia|].
  intros i Hi. cbv beta iota. rewrite (vec_get _ ws n w i) by (auto; lia). cbn [bind]. rewrite Rltb_false by (apply Hw; lia).
  rewrite (vec_get _ data n x i) by (auto; lia). cbn [bind]. now rewrite Nat.add_1_r, !sumS_R.
Qed.
Lemma wmean_eq : forall data ws n x w, is_vector data n x -> is_vector ws n w -> (0 < n)%nat -> (forall i, (i < n)%nat -> 0 <= w i) -> 0 < sum n w ->
  WeightedMean Rstat data ws = Ok (sum n (fun i => w i * x i) / sum n w).
Proof.
  intros data ws n x w V W Hn Hw Ht. unfold WeightedMean. pose proof V as (L & _). pose proof W as (LW & _). rewrite L, LW, leb0, Nat.eqb_refl by auto. cbn [negb]. snum.
  rewrite (wm_loop data ws n x w (fun x => x)) by auto. cbn [bind]. now rewrite Rltb_true by auto.
Qed.
(** WeightedMean is sum(w x) / sum(w) and lies between any bounds of the data *)
Theorem C58_weighted_mean : forall data ws n x w, is_vector data n x -> is_vector ws n w -> (forall i, (i < n)%nat -> 0 <= w i) -> (exists i, (i < n)%nat /\ 0 < w i) ->
  exists m, WeightedMean Rstat data ws = Ok m /\ m * sum n w = sum n (fun i => w i * x i) /\
            forall a b, (forall i, (i < n)%nat -> a <= x i <= b) -> a <= m <= b.
Proof.
  intros data ws n x w V W Hw (k & Hk & Hp).
  assert (Ht : 0 < sum n w). { destruct (Rle_lt_or_eq_dec 0 (sum n w)) as [|E]; auto; [apply sum_nonneg; auto|]. exfalso. pose proof (sum_nonneg_zero n w Hw (eq_sym E) k Hk). lra. }
  exists (sum n (fun i => w i * x i) / sum n w). split; [apply wmean_eq; auto; lia|]. split; [field; lra|].
  intros a b Hb. assert (H1 : a * sum n w <= sum n (fun i => w i * x i)). { rewrite sum_mul_R. apply sum_le. intros i Hi. specialize (Hb i Hi). specialize (Hw i Hi). nra. }
  assert (H2 : sum n (fun i => w i * x i) <= b * sum n w). { rewrite sum_mul_R. apply sum_le. intros i Hi. specialize (Hb i Hi). specialize (Hw i Hi). nra. }
  split; [apply (Rmult_le_reg_r (sum n w)); auto|apply (Rmult_le_reg_r (sum n w)); auto]; unfold Rdiv; rewrite Rmult_assoc, Rinv_l by lra; lra.
Qed.
Print Assumptions C58_weighted_mean.

(** equal positive weights give the ordinary mean *)
Theorem C58_weighted_mean_equal : forall data ws n x c, is_vector data n x -> is_vector ws n (fun _ => c) -> (0 < n)%nat -> 0 < c -> WeightedMean Rstat data ws = Mean Rstat data.
Proof.
  intros data ws n x c V W Hn Hc. pose proof (INR_pos n Hn). rewrite (wmean_eq data ws n x (fun _ => c)); auto.
  - unfold Mean. rewrite (avg_ok data n x) by auto. f_equal. rewrite <- sum_mul_R, sum_const_R. unfold mean. field. split; lra.
  - intros; lra.
  - rewrite sum_const_R. nra.
Qed.
Print Assumptions C58_weighted_mean_equal.

(** the weighted variance: squared deviations from the weighted mean, weighted, over the total weight less one *)
Theorem C58_weighted_variance : forall data ws n x w m, is_vector data n x -> is_vector ws n w -> (2 <= n)%nat -> (forall i, (i < n)%nat -> 0 <= w i) -> 1 < sum n w ->
  m = sum n (fun i => w i * x i) / sum n w ->
  WeightedVariance Rstat data ws = Ok (sum n (fun i => w i * (x i - m) ^ 2) / (sum n w - 1)) /\ 0 <= sum n (fun i => w i * (x i - m) ^ 2) / (sum n w - 1).
Proof.
  intros data ws n x w m V W Hn Hw Ht Hm. split.
  - unfold WeightedVariance. pose proof V as (L & _). pose proof W as (LW & _). rewrite L, LW, Nat.eqb_refl. assert (E1 : (n <? 2)%nat = false) by (apply Nat.ltb_ge; lia). rewrite E1. cbn [negb].
    rewrite (wmean_eq data ws n x w) by (auto; try lia; lra). rewrite <- Hm. cbn [bind]. snum.
    rewrite (acc_loop (R * R) 0 n _ (fun i => (sum i (fun j => w j * (x j - m) ^ 2), sum i w))); [|lia|intros i Hi].
    + cbn [bind]. now rewrite Rltb_true by auto.
    + cbv beta iota zeta. rewrite (vec_get _ ws n w i) by (auto; lia). cbn [bind]. rewrite Rltb_false by (apply Hw; lia).
      rewrite (vec_get _ data n x i) by (auto; lia). cbn [bind]. rewrite Nat.add_1_r, !sumS_R. do 2 f_equal. ring.
  - apply Rmult_le_pos; [|apply Rlt_le, Rinv_0_lt_compat; lra]. apply sum_nonneg. intros i Hi. specialize (Hw i Hi). apply Rmult_le_pos; auto. apply pow2_ge_0.
Qed.
Print Assumptions C58_weighted_variance.

(** weights of the wrong number, a negative weight, or no weight at all are rejected; so is a total weight of at most one
    for the variance *)
Theorem C58_weighted_errors : forall data ws n m x w, is_vector data n x -> is_vector ws m w ->
  (m <> n \/ (exists i, (i < n)%nat /\ w i < 0) \/ (m = n /\ sum n w <= 0) -> WeightedMean Rstat data ws = Throw DomainError /\ WeightedVariance Rstat data ws = Throw DomainError) /\
  (m = n -> sum n w <= 1 -> WeightedVariance Rstat data ws = Throw DomainError).
Proof.
  intros data ws n m x w V W. pose proof V as (L & _). pose proof W as (LW & _).
  assert (Main : m <> n \/ (exists i, (i < n)%nat /\ w i < 0) \/ (m = n /\ sum n w <= 0) -> WeightedMean Rstat data ws = Throw DomainError).
  { intros H. unfold WeightedMean. rewrite L, LW. destruct (Nat.leb_spec n 0); auto. destruct (Nat.eqb_spec m n) as [->|]; auto. cbn [negb]. snum.
    destruct H as [|H]; [easy|].
    destruct (existsb (fun i => Rltb (w i) 0) (seq 0 n)) eqn:E.
    - apply existsb_exists in E. destruct E as (i & Hi & Hn). apply in_seq in Hi. destruct (Rltb_spec (w i) 0) as [Hl|]; [|discriminate].
      destruct (first_bad (fun i => w i < 0) n) as (k & K1 & K2 & K3); [intros; apply Rlt_dec|exists i; split; auto; lia|].
      change ((0, 0) : R * R) with ((fun i => (sum i (fun j => w j * x j), sum i w)) 0%nat) at 1.
      rewrite (acc_throw (R * R) k n _ _ DomainError); auto.
      + intros j Hj. cbv beta iota. rewrite (vec_get _ ws n w j) by (auto; lia). cbn [bind]. specialize (K3 j Hj). rewrite Rltb_false by lra.
        rewrite (vec_get _ data n x j) by (auto; lia). cbn [bind]. now rewrite Nat.add_1_r, !sumS_R.
      + cbv beta iota. rewrite (vec_get _ ws n w k) by (auto; lia). cbn [bind]. now rewrite Rltb_true.
    - assert (Hw : forall i, (i < n)%nat -> 0 <= w i).
      { intros i Hi. destruct (Rle_dec 0 (w i)); auto. exfalso. assert (F : existsb (fun i => Rltb (w i) 0) (seq 0 n) = true); [|congruence].
        apply existsb_exists. exists i. split; [apply in_seq; lia|]. apply Rltb_true. lra. }
      destruct H as [(i & Hi & Hneg)|(_ & Ht)]; [specialize (Hw i Hi); lra|].
      rewrite (wm_loop data ws n x w (fun x => x)) by auto. cbn [bind]. now rewrite Rltb_false. }
  split.
  - intros H. split; [auto|]. unfold WeightedVariance. rewrite L, LW. destruct (n <? 2)%nat; auto. destruct (negb (m =? n)); auto. rewrite (Main H). reflexivity.
  - intros -> Ht. unfold WeightedVariance. rewrite L, LW. destruct (Nat.ltb_spec n 2) as [|Hn]; auto. rewrite Nat.eqb_refl. cbn [negb].
    destruct (Rle_dec (sum n w) 0) as [Hz|Hz]. { rewrite (Main (or_intror (or_intror (conj eq_refl Hz)))). reflexivity. }
    destruct (existsb (fun i => Rltb (w i) 0) (seq 0 n)) eqn:E.
    + apply existsb_exists in E. destruct E as (i & Hi & Hl). apply in_seq in Hi. destruct (Rltb_spec (w i) 0) as [Hl'|]; [|discriminate].
      rewrite Main; [reflexivity|]. right. left. exists i. split; auto. lia.
    + assert (Hw : forall i, (i < n)%nat -> 0 <= w i).
      { intros i Hi. destruct (Rle_dec 0 (w i)); auto. exfalso. assert (F : existsb (fun i => Rltb (w i) 0) (seq 0 n) = true); [|congruence].
        apply existsb_exists. exists i. split; [apply in_seq; lia|]. apply Rltb_true. lra. }
      rewrite (wmean_eq data ws n x w) by (auto; try lia; lra). cbn [bind]. set (mu := sum n _ / sum n w). snum.
      rewrite (acc_loop (R * R) 0 n _ (fun i => (sum i (fun j => w j * (x j - mu) ^ 2), sum i w))); [|lia|intros i Hi].
      * cbn [bind]. now rewrite Rltb_false.
      * cbv beta iota zeta. rewrite (vec_get _ ws n w i) by (auto; lia). cbn [bind]. rewrite Rltb_false by (apply Hw; lia).
        rewrite (vec_get _ data n x i) by (auto; lia). cbn [bind]. rewrite Nat.add_1_r, !sumS_R. do 2 f_equal. ring.
Qed.
Print Assumptions C58_weighted_errors.

Lemma geo_eq : forall data n x, is_vector data n x -> (0 < n)%nat -> (forall i, (i < n)%nat -> 0 < x i) -> GeometricMean Rstat data = Ok (exp (mean n (fun i => ln (x i)))).
Proof.
  intros data n x V Hn Hp. unfold GeometricMean. pose proof V as (L & _). rewrite L, leb0 by auto. snum.
  rewrite (acc_loop R 0 n _ (fun i => sum i (fun j => ln (x j)))); [|lia|intros i Hi].
  - cbn [bind]. now rewrite of_nat_IZR.
  - rewrite (vec_get _ data n x i) by (auto; lia). cbn [bind]. rewrite Rltb_true by (apply Hp; lia). cbn [negb]. now rewrite Nat.add_1_r, sumS_R.
Qed.
Lemma har_eq : forall data n x, is_vector data n x -> (0 < n)%nat -> (forall i, (i < n)%nat -> 0 < x i) -> HarmonicMean Rstat data = Ok (INR n / sum n (fun i => 1 / x i)).
Proof.
  intros data n x V Hn Hp. unfold HarmonicMean. pose proof V as (L & _). rewrite L, leb0 by auto. snum.
  rewrite (acc_loop R 0 n _ (fun i => sum i (fun j => 1 / x j))); [|lia|intros i Hi].
  - cbn [bind]. now rewrite of_nat_IZR.
  - rewrite (vec_get _ data n x i) by (auto; lia). cbn [bind]. rewrite Rltb_true by (apply Hp; lia). cbn [negb]. now rewrite Nat.add_1_r, sumS_R.
Qed.
Lemma exp_sum_ln : forall n x, (forall i, (i < n)%nat -> 0 < x i) -> exp (sum n (fun i => ln (x i))) = prod n x.
Proof. induction n as [|n IH]; intros x H; [cbn; apply exp_0|]. rewrite sumS_R, exp_plus, IH, exp_ln by (intros; apply H; lia). reflexivity. Qed.
Lemma exp_INR : forall n a, exp a ^ n = exp (INR n * a).
Proof. induction n as [|n IH]; intros a. { cbn. now rewrite Rmult_0_l, exp_0. } cbn [pow]. rewrite IH, S_INR, <- exp_plus. f_equal. ring. Qed.
Lemma ln_le_m1 : forall t, 0 < t -> ln t <= t - 1.
Proof. intros t H. pose proof (exp_ineq1_le (ln t)) as E. rewrite exp_ln in E by auto. lra. Qed.
Lemma gm_le_am : forall n x, (0 < n)%nat -> (forall i, (i < n)%nat -> 0 < x i) -> exp (mean n (fun i => ln (x i))) <= mean n x.
Proof.
  intros n x Hn Hp. assert (P : 0 < mean n x).
  { destruct (Rle_lt_or_eq_dec 0 (mean n x)) as [|E]; auto.
    - rewrite <- (mean_const n 0 Hn). apply mean_le; auto. intros; apply Rlt_le; auto.
    - exfalso. assert (sum n x = 0). { unfold mean in E. pose proof (INR_pos n Hn). apply (Rmult_eq_reg_r (/ INR n)); [|apply Rinv_neq_0_compat; lra]. unfold Rdiv in E. lra. }
      pose proof (sum_nonneg_zero n x (fun i H => Rlt_le _ _ (Hp i H)) H 0 Hn). specialize (Hp 0%nat Hn). lra. }
  set (m := mean n x) in *. rewrite <- (exp_ln m) by auto. assert (mean n (fun i => ln (x i)) <= ln m) as [L| ->]; [|left; now apply exp_increasing|right; auto].
  apply Rle_trans with (mean n (fun i => ln m + (x i / m - 1))).
  - apply mean_le; auto. intros i Hi. specialize (Hp i Hi). assert (0 < x i / m) by (apply Rdiv_lt_0_compat; auto). pose proof (ln_le_m1 _ H).
    assert (E : ln (x i) = ln m + ln (x i / m)). { rewrite <- ln_mult by auto. f_equal. field. lra. } lra.
  - rewrite (mean_ext n _ (fun i => / m * x i + (ln m - 1))) by (intros; field; lra). rewrite mean_affine by auto. fold m. rewrite Rinv_l by lra. lra.
Qed.
(** GeometricMean is the positive n-th root of the product, HarmonicMean the reciprocal of the mean reciprocal, and
    harmonic <= geometric <= arithmetic *)
Theorem C58_geometric_harmonic : forall data n x, is_vector data n x -> (0 < n)%nat -> (forall i, (i < n)%nat -> 0 < x i) ->
  exists g h a, GeometricMean Rstat data = Ok g /\ HarmonicMean Rstat data = Ok h /\ Mean Rstat data = Ok a /\
    0 < g /\ g ^ n = prod n x /\ h * mean n (fun i => 1 / x i) = 1 /\ 0 < h /\ h <= g <= a.
Proof.
  intros data n x V Hn Hp. exists (exp (mean n (fun i => ln (x i)))), (INR n / sum n (fun i => 1 / x i)), (mean n x). pose proof (INR_pos n Hn) as Pn.
  assert (Ps : 0 < sum n (fun i => 1 / x i)).
  { destruct (Rle_lt_or_eq_dec 0 (sum n (fun i => 1 / x i))) as [|E]; auto.
    - apply sum_nonneg. intros i Hi. apply Rlt_le, Rdiv_lt_0_compat; [lra|auto].
    - exfalso. assert (Q : forall i, (i < n)%nat -> 0 < 1 / x i) by (intros; apply Rdiv_lt_0_compat; [lra|auto]).
      pose proof (sum_nonneg_zero n _ (fun i H => Rlt_le _ _ (Q i H)) (eq_sym E) 0%nat Hn). specialize (Q 0%nat Hn). cbv beta in *. lra. }
  split; [now apply geo_eq|]. split; [now apply har_eq|]. split; [now apply avg_ok|]. split; [apply exp_pos|].
  split. { rewrite exp_INR. rewrite <- exp_sum_ln by auto. f_equal. unfold mean. field. lra. }
  split. { unfold mean. field. split; lra. } split; [now apply Rdiv_lt_0_compat|]. split; [|now apply gm_le_am].
  pose proof (gm_le_am n (fun i => 1 / x i) Hn ltac:(intros; apply Rdiv_lt_0_compat; [lra|auto])) as G.
  cbv beta in G. rewrite (mean_ext n (fun i => ln (1 / x i)) (fun i => -1 * ln (x i) + 0)) in G.
  2:{ intros i Hi. unfold Rdiv. rewrite Rmult_1_l, ln_Rinv by auto. lra. }
  rewrite mean_affine in G by auto. replace (-1 * mean n (fun i => ln (x i)) + 0) with (- mean n (fun i => ln (x i))) in G by ring. rewrite exp_Ropp in G.
  replace (INR n / sum n (fun i => 1 / x i)) with (/ mean n (fun i => 1 / x i)) by (unfold mean; field; split; lra).
  rewrite <- (Rinv_inv (exp _)). apply Rinv_le_contravar; auto. apply Rinv_0_lt_compat, exp_pos.
Qed.
Print Assumptions C58_geometric_harmonic.

(** a value that is not positive is rejected *)
Theorem C58_nonpositive : forall data n x, is_vector data n x -> (exists i, (i < n)%nat /\ x i <= 0) -> GeometricMean Rstat data = Throw DomainError /\ HarmonicMean Rstat data = Throw DomainError.
Proof.
  intros data n x V (i & Hi & Hz). destruct (first_bad (fun i => x i <= 0) n) as (k & K1 & K2 & K3); [intros; apply Rle_dec|eauto|].
  unfold GeometricMean, HarmonicMean. pose proof V as (L & _). rewrite L, leb0 by lia. snum. split.
  - change (0 : R) with ((fun i => sum i (fun j => ln (x j))) 0%nat) at 2. rewrite (acc_throw R k n _ _ DomainError); auto.
    + intros j Hj. rewrite (vec_get _ data n x j) by (auto; lia). cbn [bind]. specialize (K3 j Hj). rewrite Rltb_true by lra. cbn [negb]. now rewrite Nat.add_1_r, sumS_R.
    + rewrite (vec_get _ data n x k) by (auto; lia). cbn [bind]. now rewrite Rltb_false by lra.
  - change (0 : R) with ((fun i => sum i (fun j => 1 / x j)) 0%nat) at 2. rewrite (acc_throw R k n _ _ DomainError); auto.
    + intros j Hj. rewrite (vec_get _ data n x j) by (auto; lia). cbn [bind]. specialize (K3 j Hj). rewrite Rltb_true by lra. cbn [negb]. now rewrite Nat.add_1_r, sumS_R.
    + rewrite (vec_get _ data n x k) by (auto; lia). cbn [bind]. now rewrite Rltb_false by lra.
Qed.
Print Assumptions C58_nonpositive.
