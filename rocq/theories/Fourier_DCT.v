(** * C57: discrete cosine and sine transforms *)

From Coq Require Import List Arith Bool Lia ZArith Reals Lra Ring.
From Verif Require Import Base Num Mat_Proofs RootFind_Model RootFind_Proofs Interp_Linear Interp_Bary Fourier_Model Fourier_Spec Fourier_FFT Fourier_Props Fourier_Real.
Import ListNotations.
Local Open Scope R_scope.
Local Notation sum := (sumn Rnum).

(** ** Specification *)
(** X_k = 2/N sum_n x_n cos(pi k (n + 1/2) / N) *)
Definition dct2 (N : nat) (x : nat -> R) (k : nat) : R := 2 / INR N * sum N (fun n => x n * cos (PI * INR k * (INR n + 1 / 2) / INR N)).
(** x_n = X_0 / 2 + sum_{k=1}^{N-1} X_k cos(pi k (n + 1/2) / N) *)
Definition idct2 (N : nat) (X : nat -> R) (n : nat) : R := X 0%nat / 2 + sum (N - 1) (fun i => X (S i) * cos (PI * INR (S i) * (INR n + 1 / 2) / INR N)).
(** X_k = sqrt(2/(N+1)) sum_n x_n sin(pi (k+1) (n+1) / (N+1)) *)
Definition dst1 (N : nat) (x : nat -> R) (k : nat) : R := sqrt (2 / INR (N + 1)) * sum N (fun n => x n * sin (PI * INR (k + 1) * INR (n + 1) / INR (N + 1))).

(** ** Sums of cosines *)
Lemma sumS_R : forall n f, sum (S n) f = sum n f + f n. Proof. reflexivity. Qed.
Lemma sum_S_l_R : forall n f, sum (S n) f = f 0%nat + sum n (fun i => f (S i)).
Proof. intros. apply (sum_S_l Rnum Rring). Qed.
Lemma sum_add_R : forall n f g, sum n (fun i => f i + g i) = sum n f + sum n g.
Proof. intros. apply (sum_add Rnum Rring). Qed.
Lemma sum_sub_R : forall n f g, sum n (fun i => f i - g i) = sum n f - sum n g.
Proof. intros. apply (sum_sub Rnum Rring). Qed.
Lemma sum_one_R : forall n k f, (k < n)%nat -> (forall i, (i < n)%nat -> i <> k -> f i = 0) -> sum n f = f k.
Proof. intros. apply (sum_one Rnum Rring); auto. Qed.
Lemma sum_const_R : forall n a, sum n (fun _ => a) = INR n * a.
Proof. induction n; intros; [cbn; ring|]. rewrite sumS_R, IHn, S_INR. ring. Qed.
Lemma sum_rev_R : forall n f, sum n (fun k => f (n - 1 - k)%nat) = sum n f.
Proof.
  induction n as [|n IH]; intros f; auto. rewrite sumS_R, sum_S_l_R, <- (IH (fun i => f (S i))). replace (S n - 1 - n)%nat with 0%nat by lia.
  rewrite (sum_ext_R n _ (fun k => f (S (n - 1 - k)))) by (intros; f_equal; lia). ring.
Qed.
Lemma cos_2pi : forall t k, cos (2 * PI * INR k - t) = cos t.
Proof. intros. pose proof (expi_2pi k) as E. unfold expi in E. injection E as E1 E2. rewrite cos_minus, E1, E2. ring. Qed.
Lemma cos_2pi' : forall t k, cos (t - 2 * PI * INR k) = cos t.
Proof. intros. pose proof (expi_2pi k) as E. unfold expi in E. injection E as E1 E2. rewrite cos_minus, E1, E2. ring. Qed.
Lemma cos_pi_odd : forall t m, cos (t + (2 * INR m + 1) * PI) = - cos t.
Proof. intros. replace (t + (2 * INR m + 1) * PI) with (t + PI + 2 * INR m * PI) by ring. rewrite cos_period. apply neg_cos. Qed.

Lemma cos_sum : forall M d, (0 < M)%nat -> (0 < d < 2 * M)%nat -> sum M (fun k => cos (PI * INR k * INR d / INR M)) = (1 - cos (PI * INR d)) / 2.
Proof.
  intros M d HM Hd. assert (NM : INR M <> 0) by (apply not_0_INR; lia). pose proof (roots_sum (2 * M) d ltac:(lia) Hd 1 ltac:(auto)) as E. apply (f_equal fst) in E. rewrite Csum_fst in E. cbn [fst expi] in E.
  rewrite (sum_ext_R (2 * M) _ (fun k => cos (PI * INR k * INR d / INR M))) in E. 2: { intros k Hk. f_equal. rewrite mult_INR. cbn [INR]. field. auto. }
  replace (2 * M)%nat with (M + M)%nat in E by lia. rewrite sum_app_R in E. rewrite <- (sum_rev_R M (fun i => cos (PI * INR (M + i) * INR d / INR M))) in E.
  rewrite (sum_ext_R M (fun k => cos (PI * INR (M + (M - 1 - k)) * INR d / INR M)) (fun i => cos (PI * INR (S i) * INR d / INR M))) in E.
  2: { intros k Hk. cbv beta. rewrite <- (cos_2pi (PI * INR (S k) * INR d / INR M) d). f_equal. rewrite plus_INR. rewrite !minus_INR by lia. rewrite (S_INR k). cbn [INR]. field. auto. }
  pose proof (sum_S_l_R M (fun k => cos (PI * INR k * INR d / INR M))) as E2. rewrite sumS_R in E2. change (INR 0) with 0 in E2. replace (PI * 0 * INR d / INR M) with 0 in E2 by (field; auto). rewrite cos_0 in E2.
  replace (PI * INR M * INR d / INR M) with (PI * INR d) in E2 by (field; auto).
 lra.
Qed.
Lemma cos_half_sum : forall N d, (0 < N)%nat -> (0 < d < 2 * N)%nat -> sum N (fun n => cos (PI * INR d * (INR n + 1 / 2) / INR N)) = 0.
Proof.
  intros N d HN Hd. assert (NN : INR N <> 0) by (apply not_0_INR; lia). pose proof (roots_sum (2 * N) d ltac:(lia) Hd 1 ltac:(auto)) as E.
  apply (f_equal (Cmul (expi (PI * INR d / (2 * INR N))))) in E. rewrite Csum_mul_l in E. apply (f_equal fst) in E. rewrite Csum_fst in E.
  rewrite (sum_ext_R (2 * N) _ (fun n => cos (PI * INR d * (INR n + 1 / 2) / INR N))) in E. 2: { intros k Hk. rewrite <- expi_add. cbn [fst expi]. f_equal. rewrite mult_INR. cbn [INR]. field. auto. }
  replace (2 * N)%nat with (N + N)%nat in E by lia. rewrite sum_app_R in E. rewrite <- (sum_rev_R N (fun i => cos (PI * INR d * (INR (N + i) + 1 / 2) / INR N))) in E.
  rewrite (sum_ext_R N (fun k => cos (PI * INR d * (INR (N + (N - 1 - k)) + 1 / 2) / INR N)) (fun n => cos (PI * INR d * (INR n + 1 / 2) / INR N))) in E.
  2: { intros k Hk. cbv beta. rewrite <- (cos_2pi (PI * INR d * (INR k + 1 / 2) / INR N) d). f_equal. rewrite plus_INR. rewrite !minus_INR by lia. cbn [INR]. field. auto. }
  cbn [Cmul fst snd] in E. lra.
Qed.
Lemma cos_cos : forall a b, cos a * cos b = (cos (a - b) + cos (a + b)) / 2. Proof. intros. rewrite cos_minus, cos_plus. field. Qed.
Lemma sin_sin : forall a b, sin a * sin b = (cos (a - b) - cos (a + b)) / 2. Proof. intros. rewrite cos_minus, cos_plus. field. Qed.

(** ** Orthogonality *)
Definition ck (N k n : nat) : R := cos (PI * INR k * (INR n + 1 / 2) / INR N).
Lemma ortho_k : forall N m n, (m < N)%nat -> (n <= m)%nat -> 2 * sum N (fun k => ck N k m * ck N k n) - 1 = if (m =? n)%nat then INR N else 0.
Proof.
  intros N m n Hm Hn. assert (NN : INR N <> 0) by (apply not_0_INR; lia). rewrite sum_mul_R.
  rewrite (sum_ext_R N _ (fun k => cos (PI * INR k * INR (m - n) / INR N) + cos (PI * INR k * INR (m + n + 1) / INR N))).
  2: { intros k Hk. unfold ck. rewrite cos_cos. rewrite minus_INR, !plus_INR by lia. cbn [INR].
       replace (PI * INR k * (INR m + 1 / 2) / INR N - PI * INR k * (INR n + 1 / 2) / INR N) with (PI * INR k * (INR m - INR n) / INR N) by (field; auto).
       replace (PI * INR k * (INR m + 1 / 2) / INR N + PI * INR k * (INR n + 1 / 2) / INR N) with (PI * INR k * (INR m + INR n + 1) / INR N) by (field; auto). field. }
  rewrite sum_add_R. rewrite (cos_sum N (m + n + 1)) by lia. destruct (Nat.eqb_spec m n) as [->|NE].
  - rewrite (sum_ext_R N _ (fun _ => 1)). 2: { intros k Hk. rewrite Nat.sub_diag. cbn [INR]. replace (PI * INR k * 0 / INR N) with 0 by (field; auto). apply cos_0. }
    rewrite sum_const_R. replace (PI * INR (n + n + 1)) with (0 + (2 * INR n + 1) * PI) by (rewrite !plus_INR; cbn [INR]; ring). rewrite cos_pi_odd, cos_0. field.
  - rewrite (cos_sum N (m - n)) by lia. replace (PI * INR (m + n + 1)) with (PI * INR (m - n) + (2 * INR n + 1) * PI) by (rewrite minus_INR, !plus_INR by lia; cbn [INR]; ring). rewrite cos_pi_odd. field.
Qed.
Lemma ortho_k' : forall N m n, (m < N)%nat -> (n < N)%nat -> 2 * sum N (fun k => ck N k m * ck N k n) - 1 = if (m =? n)%nat then INR N else 0.
Proof.
  intros N m n Hm Hn. destruct (le_lt_dec n m); [apply ortho_k; auto|]. rewrite (sum_ext_R N _ (fun k => ck N k n * ck N k m)) by (intros; ring). rewrite ortho_k by lia. rewrite Nat.eqb_sym. reflexivity.
Qed.
Lemma ortho_n : forall N k l, (k < N)%nat -> (l <= k)%nat -> 2 * sum N (fun n => ck N k n * ck N l n) = if (k =? l)%nat then (if (k =? 0)%nat then 2 * INR N else INR N) else 0.
Proof.
  intros N k l Hk Hl. assert (NN : INR N <> 0) by (apply not_0_INR; lia). rewrite sum_mul_R.
  rewrite (sum_ext_R N _ (fun n => cos (PI * INR (k - l) * (INR n + 1 / 2) / INR N) + cos (PI * INR (k + l) * (INR n + 1 / 2) / INR N))).
  2: { intros n Hn. unfold ck. rewrite cos_cos. rewrite minus_INR, !plus_INR by lia.
       replace (PI * INR k * (INR n + 1 / 2) / INR N - PI * INR l * (INR n + 1 / 2) / INR N) with (PI * (INR k - INR l) * (INR n + 1 / 2) / INR N) by (field; auto).
       replace (PI * INR k * (INR n + 1 / 2) / INR N + PI * INR l * (INR n + 1 / 2) / INR N) with (PI * (INR k + INR l) * (INR n + 1 / 2) / INR N) by (field; auto). field. }
  rewrite sum_add_R. destruct (Nat.eqb_spec k l) as [->|NE].
  - rewrite (sum_ext_R N (fun n => cos (PI * INR (l - l) * (INR n + 1 / 2) / INR N)) (fun _ => 1)). 2: { intros n Hn. rewrite Nat.sub_diag. cbn [INR]. replace (PI * 0 * (INR n + 1 / 2) / INR N) with 0 by (field; auto). apply cos_0. }
    rewrite sum_const_R. destruct (Nat.eqb_spec l 0) as [->|N0].
    + rewrite (sum_ext_R N _ (fun _ => 1)). 2: { intros n Hn. cbn [Nat.add INR]. replace (PI * 0 * (INR n + 1 / 2) / INR N) with 0 by (field; auto). apply cos_0. } rewrite sum_const_R. ring.
    + rewrite cos_half_sum by lia. ring.
  - rewrite !cos_half_sum by lia. ring.
Qed.
Lemma ortho_n' : forall N k l, (k < N)%nat -> (l < N)%nat -> 2 * sum N (fun n => ck N k n * ck N l n) = if (k =? l)%nat then (if (k =? 0)%nat then 2 * INR N else INR N) else 0.
Proof.
  intros N m n Hm Hn. destruct (le_lt_dec n m); [apply ortho_n; auto|]. rewrite (sum_ext_R N _ (fun k => ck N n k * ck N m k)) by (intros; ring). rewrite ortho_n by lia. rewrite (Nat.eqb_sym m n). destruct (Nat.eqb_spec n m); auto. subst. auto.
Qed.
Lemma ck_0 : forall N n, (0 < N)%nat -> ck N 0 n = 1.
Proof. intros. unfold ck. cbn [INR]. replace (PI * 0 * (INR n + 1 / 2) / INR N) with 0; [apply cos_0|]. field. apply not_0_INR. lia. Qed.
Lemma idct2_sum : forall N X n, (0 < N)%nat -> idct2 N X n = sum N (fun k => X k * ck N k n) - X 0%nat / 2.
Proof. intros N X n HN. destruct N as [|N]; [lia|]. unfold idct2. rewrite sum_S_l_R, ck_0 by lia. replace (S N - 1)%nat with N by lia. unfold ck. lra. Qed.
Lemma dct2_sum : forall N x k, dct2 N x k = 2 / INR N * sum N (fun n => x n * ck N k n). Proof. reflexivity. Qed.

Theorem idct2_dct2 : forall N x n, (n < N)%nat -> idct2 N (dct2 N x) n = x n.
Proof.
  intros N x n Hn. assert (NN : INR N <> 0) by (apply not_0_INR; lia). rewrite idct2_sum by lia.
  transitivity (sum N (fun m => x m / INR N * (2 * sum N (fun k => ck N k m * ck N k n) - 1))).
  - rewrite (sum_ext_R N (fun k => dct2 N x k * ck N k n) (fun k => sum N (fun m => 2 / INR N * x m * (ck N k m * ck N k n)))).
    2: { intros k Hk. rewrite dct2_sum. match goal with |- ?a * ?b * ?c = _ => replace (a * b * c) with (a * c * b) by ring end. rewrite sum_mul_R. apply sum_ext_R. intros m Hm. ring. }
    rewrite sum_swap_R. rewrite dct2_sum. replace (2 / INR N * sum N (fun n0 => x n0 * ck N 0 n0) / 2) with (/ INR N * sum N (fun n0 => x n0 * ck N 0 n0)) by (field; auto). rewrite sum_mul_R, <- sum_sub_R. apply sum_ext_R. intros m Hm.
    rewrite <- sum_mul_R, ck_0 by lia. field. auto.
  - rewrite (sum_one_R N n) by (auto; (intros m Hm NE; rewrite ortho_k' by auto; destruct (Nat.eqb_spec m n); [congruence|ring])). rewrite ortho_k', Nat.eqb_refl by auto. field. auto.
Qed.
Theorem dct2_idct2 : forall N X k, (k < N)%nat -> dct2 N (idct2 N X) k = X k.
Proof.
  intros N X k Hk. assert (NN : INR N <> 0) by (apply not_0_INR; lia). rewrite dct2_sum.
  transitivity (/ INR N * (sum N (fun l => X l * (2 * sum N (fun n => ck N l n * ck N k n))) - X 0%nat / 2 * (2 * sum N (fun n => ck N 0 n * ck N k n)))).
  - replace (2 / INR N * sum N (fun n => idct2 N X n * ck N k n)) with (/ INR N * (2 * sum N (fun n => idct2 N X n * ck N k n))) by (field; auto). f_equal.
    rewrite (sum_ext_R N (fun n => idct2 N X n * ck N k n) (fun n => sum N (fun l => X l * (ck N l n * ck N k n)) - X 0%nat / 2 * (ck N 0 n * ck N k n))).
    2: { intros n Hn. rewrite idct2_sum by lia. rewrite Rmult_minus_distr_r, Rmult_comm, sum_mul_R. rewrite ck_0 by lia. f_equal; [apply sum_ext_R; intros; ring|ring]. }
    rewrite sum_sub_R, sum_swap_R. rewrite Rmult_minus_distr_l. rewrite <- sum_mul_R. f_equal; [|ring]. rewrite sum_mul_R. apply sum_ext_R. intros l Hl. rewrite <- sum_mul_R. ring.
  - rewrite (ortho_n' N 0 k) by lia. rewrite (sum_one_R N k) by (auto; (intros l Hl NE; rewrite ortho_n' by auto; destruct (Nat.eqb_spec l k); [congruence|ring])). rewrite ortho_n', !Nat.eqb_refl by auto.
    destruct (Nat.eqb_spec k 0) as [->|N0]; [cbn [Nat.eqb]; field; auto|]. destruct (Nat.eqb_spec 0 k); [congruence|]. field. auto.
Qed.

Definition sk (M a b : nat) : R := sin (PI * INR a * INR b / INR M).
Lemma ortho_s : forall M a b, (0 < b <= a)%nat -> (a < M)%nat -> 2 * sum (M - 1) (fun k => sk M (k + 1) a * sk M (k + 1) b) = if (a =? b)%nat then INR M else 0.
Proof.
  intros M a b Hb Ha. assert (NM : INR M <> 0) by (apply not_0_INR; lia). rewrite sum_mul_R.
  rewrite (sum_ext_R (M - 1) _ (fun k => cos (PI * INR (S k) * INR (a - b) / INR M) - cos (PI * INR (S k) * INR (a + b) / INR M))).
  2: { intros k Hk. unfold sk. rewrite sin_sin. rewrite Nat.add_1_r, minus_INR, (plus_INR a b) by lia.
       replace (PI * INR (S k) * INR a / INR M - PI * INR (S k) * INR b / INR M) with (PI * INR (S k) * (INR a - INR b) / INR M) by (field; auto).
       replace (PI * INR (S k) * INR a / INR M + PI * INR (S k) * INR b / INR M) with (PI * INR (S k) * (INR a + INR b) / INR M) by (field; auto). field. }
  assert (TL : forall d, sum (M - 1) (fun k => cos (PI * INR (S k) * INR d / INR M)) = sum M (fun k => cos (PI * INR k * INR d / INR M)) - 1).
  { intros d. destruct M as [|M]; [lia|]. rewrite (sum_S_l_R M). change (INR 0) with 0. replace (PI * 0 * INR d / INR (S M)) with 0 by (field; auto). rewrite cos_0. replace (S M - 1)%nat with M by lia. ring. }
  rewrite sum_sub_R, !TL. rewrite (cos_sum M (a + b)) by lia. destruct (Nat.eqb_spec a b) as [->|NE].
  - rewrite (sum_ext_R M _ (fun _ => 1)). 2: { intros n Hn. rewrite Nat.sub_diag. cbn [INR]. replace (PI * INR n * 0 / INR M) with 0 by (field; auto). apply cos_0. }
    rewrite sum_const_R. replace (PI * INR (b + b)) with (2 * PI * INR b - 0) by (rewrite plus_INR; ring). rewrite cos_2pi, cos_0. field.
  - rewrite (cos_sum M (a - b)) by lia. replace (PI * INR (a - b)) with (PI * INR (a + b) - 2 * PI * INR b) by (rewrite minus_INR, plus_INR by lia; ring). rewrite cos_2pi'. field.
Qed.
Lemma ortho_s' : forall M a b, (0 < b < M)%nat -> (0 < a < M)%nat -> 2 * sum (M - 1) (fun k => sk M (k + 1) a * sk M (k + 1) b) = if (a =? b)%nat then INR M else 0.
Proof.
  intros M m n Hm Hn. destruct (le_lt_dec n m); [apply ortho_s; lia|]. rewrite (sum_ext_R (M - 1) _ (fun k => sk M (k + 1) n * sk M (k + 1) m)) by (intros; ring). rewrite ortho_s by lia. rewrite Nat.eqb_sym. reflexivity.
Qed.
Theorem dst1_dst1 : forall N x n, (n < N)%nat -> dst1 N (dst1 N x) n = x n.
Proof.
  intros N x n Hn. assert (NN : INR (N + 1) <> 0) by (apply not_0_INR; lia). assert (PN : 0 < INR (N + 1)) by (apply lt_0_INR; lia). set (s := sqrt (2 / INR (N + 1))).
  assert (SS : s * s = 2 / INR (N + 1)). { apply sqrt_sqrt. apply Rlt_le, Rdiv_lt_0_compat; lra. }
  transitivity (sum N (fun m => x m / INR (N + 1) * (2 * sum (N + 1 - 1) (fun k => sk (N + 1) (k + 1) (m + 1) * sk (N + 1) (k + 1) (n + 1))))).
  - unfold dst1. fold s. rewrite Nat.add_sub. transitivity (s * s * sum N (fun k => sum N (fun m => x m * (sk (N + 1) (k + 1) (m + 1) * sk (N + 1) (k + 1) (n + 1))))).
    + rewrite Rmult_assoc. f_equal. rewrite sum_mul_R. apply sum_ext_R. intros k Hk. rewrite Rmult_assoc. f_equal. rewrite Rmult_comm, sum_mul_R. apply sum_ext_R. intros m Hm. unfold sk.
      replace (PI * INR (n + 1) * INR (k + 1) / INR (N + 1)) with (PI * INR (k + 1) * INR (n + 1) / INR (N + 1)) by (field; auto). ring.
    + rewrite SS, sum_swap_R, sum_mul_R. apply sum_ext_R. intros m Hm. rewrite <- sum_mul_R. field. auto.
  - rewrite (sum_one_R N n) by (auto; (intros m Hm NE; rewrite ortho_s' by lia; destruct (Nat.eqb_spec (m + 1) (n + 1)); [lia|ring])). rewrite ortho_s', Nat.eqb_refl by lia. field. auto.
Qed.

(** ** The reference implementations *)
Lemma acc_sum : forall n s0 (f : nat -> R) (b : R -> nat -> res R), (forall s i, (i < n)%nat -> b s i = Ok (s + f i)) -> for_range 0 n b s0 = Ok (s0 + sum n f).
Proof.
  intros n s0 f b HB. apply wp_eq. eapply wp_conseq; [|apply (for_range_inv _ _ (fun i s => s = s0 + sum i f))]; auto.
  - lia.
  - cbn. ring.
  - intros i s _ Hi ->. rewrite HB by auto. apply wp_Ok. rewrite Nat.add_1_r, sumS_R. ring.
Qed.
Lemma acc_sum1 : forall n s0 (f : nat -> R) (b : R -> nat -> res R), (1 <= n)%nat -> (forall s i, (1 <= i < n)%nat -> b s i = Ok (s + f i)) -> for_range 1 n b s0 = Ok (s0 + sum (n - 1) (fun i => f (S i))).
Proof.
  intros n s0 f b H1 HB. apply wp_eq. eapply wp_conseq; [|apply (for_range_inv _ _ (fun i s => s = s0 + sum (i - 1) (fun i => f (S i))))]; auto.
  - cbn. ring.
  - intros i s Hi0 Hi ->. rewrite HB by auto. apply wp_Ok. replace (i + 1 - 1)%nat with (S (i - 1)) by lia. rewrite sumS_R. replace (S (i - 1)) with i by lia. ring.
Qed.
Lemma forward_ref : forall data N x, is_vector data N x -> (1 <= N)%nat -> wp (DCT_ForwardII_Reference Rtrig data) (fun r => is_vector r N (dct2 N x)).
Proof.
  intros data N x HD HN. unfold DCT_ForwardII_Reference. rewrite (proj1 HD). destruct (Nat.eqb_spec N 0); [lia|]. cbv zeta.
  eapply (fill_range _ _ N _ (dct2 N x)); [apply is_vector_repeat|lia|lia| |].
  - intros v k Hk. rewrite (acc_sum N _ (fun n => x n * cos (PI * INR k * (INR n + 1 / 2) / INR N))).
    + cbn [bind]. f_equal. unfold dct2. tnum. rewrite <- INR_IZR_INZ. ring.
    + intros s i Hi. rewrite (vec_get _ data N x i HD Hi). cbn [bind]. unfold lhalf. tnum. rewrite <- !INR_IZR_INZ. reflexivity.
  - intros v Hv. eapply is_vector_ext; [exact Hv|]. intros i Hi. cbv beta. destruct (Nat.ltb_spec i N); [reflexivity|lia].
Qed.
Lemma inverse_ref : forall data N x, is_vector data N x -> (1 <= N)%nat -> wp (DCT_InverseII_Reference Rtrig data) (fun r => is_vector r N (idct2 N x)).
Proof.
  intros data N x HD HN. unfold DCT_InverseII_Reference. rewrite (proj1 HD). destruct (Nat.eqb_spec N 0); [lia|]. cbv zeta.
  eapply (fill_range _ _ N _ (idct2 N x)); [apply is_vector_repeat|lia|lia| |].
  - intros v n0 Hn. rewrite (vec_get _ data N x 0%nat HD HN). cbn [bind]. rewrite (acc_sum1 N _ (fun k => x k * cos (PI * INR k * (INR n0 + 1 / 2) / INR N))) by (auto; intros s i Hi; rewrite (vec_get _ data N x i HD) by lia; cbn [bind]; unfold lhalf; tnum; rewrite <- !INR_IZR_INZ; reflexivity).
    cbn [bind]. tnum. reflexivity.
  - intros v Hv. eapply is_vector_ext; [exact Hv|]. intros i Hi. cbv beta. destruct (Nat.ltb_spec i N); [reflexivity|lia].
Qed.
Lemma dst_ref : forall data N x, is_vector data N x -> (1 <= N)%nat -> wp (DCT_ForwardDST Rtrig data) (fun r => is_vector r N (dst1 N x)).
Proof.
  intros data N x HD HN. unfold DCT_ForwardDST. rewrite (proj1 HD). destruct (Nat.eqb_spec N 0); [lia|]. cbv zeta.
  eapply (fill_range _ _ N _ (dst1 N x)); [apply is_vector_repeat|lia|lia| |].
  - intros v k Hk. rewrite (acc_sum N _ (fun n => x n * sin (PI * INR (k + 1) * INR (n + 1) / INR (N + 1)))).
    + cbn [bind]. f_equal. unfold dst1. tnum. rewrite <- INR_IZR_INZ. ring.
    + intros s i Hi. rewrite (vec_get _ data N x i HD Hi). cbn [bind]. tnum. rewrite <- !INR_IZR_INZ. reflexivity.
  - intros v Hv. eapply is_vector_ext; [exact Hv|]. intros i Hi. cbv beta. destruct (Nat.ltb_spec i N); [reflexivity|lia].
Qed.

(** ** The fast implementations *)
Lemma forward_fast : forall data L x, is_vector data (2 ^ L) x -> wp (DCT_ForwardII_Fast Rtrig data) (fun r => is_vector r (2 ^ L) (dct2 (2 ^ L) x)).
Proof.
  intros data L x HD. unfold DCT_ForwardII_Fast. rewrite (proj1 HD). pose proof (pow2_pos L) as PN. assert (EP : IsPowerOfTwo (Z.of_nat (2 ^ L)) = true) by (apply is_pow2_nat; eauto). rewrite EP. cbn [negb]. clear EP.
  set (N := (2 ^ L)%nat) in *. destruct (Nat.eqb_spec N 0); [lia|]. cbv zeta. assert (NN : INR N <> 0) by (apply not_0_INR; lia).
  apply wp_bind. eapply (fill_range _ _ (2 * N)%nat _ (fun j => RtoC (x j))); [apply is_vector_repeat|lia|lia| |]. { intros v i Hi. rewrite (vec_get _ data N x i HD) by lia. reflexivity. }
  intros y Hy. apply wp_bind. eapply (fill_range _ _ (2 * N)%nat _ (fun j => RtoC (x (2 * N - 1 - j)%nat))); [exact Hy|lia|lia| |]. { intros v i Hi. rewrite (vec_get _ data N x _ HD) by lia. reflexivity. }
  clear y Hy. intros y Hy. set (Y := fun j => RtoC (if (j <? N)%nat then x j else x (2 * N - 1 - j)%nat)). assert (HY : is_vector y (2 ^ S L) Y).
  { eapply is_vector_ext; [exact Hy|]. intros j Hj. unfold Y. cbv beta. change (2 ^ S L)%nat with (2 * N)%nat in Hj. destruct (Nat.leb_spec N j), (Nat.ltb_spec j (2 * N)), (Nat.ltb_spec j N); try lia; reflexivity. }
  apply wp_bind. eapply wp_conseq; [|apply (fft_ok 1 (S L) y Y eq_refl HY)]. clear y Hy HY. intros y Hy. cbv beta in Hy. change (2 ^ S L)%nat with (2 * N)%nat in Hy.
  eapply (fill_range _ _ N _ (dct2 N x)); [apply is_vector_repeat|lia|lia| |].
  2: { intros v Hv. eapply is_vector_ext; [exact Hv|]. intros i Hi. cbv beta. destruct (Nat.ltb_spec i N); [reflexivity|lia]. }
  intros v k Hk. rewrite (vec_get _ y (2 * N)%nat _ k Hy) by lia. cbn [bind]. f_equal. unfold dct2. tnum. rewrite <- !INR_IZR_INZ.
  change (cis Rtrig (- PI * INR k / INR (2 * N))) with (expi (- PI * INR k / INR (2 * N))).
  change (cmul Rtrig (expi (- PI * INR k / INR (2 * N))) (dfts 1 (2 * N) Y k)) with (Cmul (expi (- PI * INR k / INR (2 * N))) (dfts 1 (2 * N) Y k)).
  unfold dfts. rewrite Csum_mul_l, Csum_fst. replace (2 * N)%nat with (N + N)%nat at 1 by lia. rewrite sum_app_R.
  rewrite <- (sum_rev_R N (fun i => fst (Cmul (expi (- PI * INR k / INR (2 * N))) (Cmul (Y (N + i)%nat) (tw 1 (2 * N) ((N + i) * k)))))).
  rewrite <- sum_add_R. replace (2 / INR N) with (1 / INR N * 2) by (field; auto). rewrite Rmult_assoc. f_equal. rewrite sum_mul_R. apply sum_ext_R. intros i Hi. unfold Y.
  destruct (Nat.ltb_spec i N), (Nat.ltb_spec (N + (N - 1 - i)) N); try lia. replace (2 * N - 1 - (N + (N - 1 - i)))%nat with i by lia.
  assert (RP : forall a r b, fst (Cmul (expi a) (Cmul (RtoC r) (expi b))) = r * cos (a + b)). { intros. rewrite cos_plus. cbn. ring. }
  unfold tw. rewrite !RP. set (t := PI * INR k * (INR i + 1 / 2) / INR N).
  replace (- PI * INR k / INR (2 * N) + - (1) * (2 * PI * INR (i * k) / INR (2 * N))) with (- t).
  2: { unfold t. rewrite !mult_INR. cbn [INR]. field. auto. }
  replace (- PI * INR k / INR (2 * N) + - (1) * (2 * PI * INR ((N + (N - 1 - i)) * k) / INR (2 * N))) with (- (2 * PI * INR k - t)).
  2: { unfold t. rewrite !mult_INR, plus_INR, !minus_INR by lia. cbn [INR]. field. auto. }
  rewrite !cos_neg, cos_2pi. ring.
Qed.
Lemma inverse_fast : forall data L x, is_vector data (2 ^ L) x -> wp (DCT_InverseII_Fast Rtrig data) (fun r => is_vector r (2 ^ L) (idct2 (2 ^ L) x)).
Proof.
  intros data L x HD. unfold DCT_InverseII_Fast. rewrite (proj1 HD). pose proof (pow2_pos L) as PN. assert (EP : IsPowerOfTwo (Z.of_nat (2 ^ L)) = true) by (apply is_pow2_nat; eauto). rewrite EP. cbn [negb]. clear EP.
  set (N := (2 ^ L)%nat) in *. destruct (Nat.eqb_spec N 0); [lia|]. cbv zeta. assert (NN : INR N <> 0) by (apply not_0_INR; lia).
  set (F := fun k => Cmul (RtoC (x k)) (expi (PI * INR k / INR (2 * N)))).
  apply wp_bind. eapply (fill_range _ _ (2 * N)%nat _ F); [apply is_vector_repeat|lia|lia| |].
  { intros v i Hi. rewrite (vec_get _ data N x i HD) by lia. cbn [bind]. f_equal. unfold F. rewrite Cscal. unfold cscale, cis. tnum. rewrite <- !INR_IZR_INZ. reflexivity. }
  intros y Hy. set (Y := fun j => if (j <? N)%nat then F j else if (j =? N)%nat then (0, 0) else Cconj (F (2 * N - j)%nat)).
  apply wp_bind. eapply wp_conseq; [|apply (for_range_inv _ _ (fun m y => is_vector y (2 * N) (fun j => if (j <? N)%nat then F j else if (2 * N <? m + j)%nat then Cconj (F (2 * N - j)%nat) else (0, 0))))]; cycle 1.
  { lia. } { eapply is_vector_ext; [exact Hy|]. intros j Hj. cbv beta. destruct (Nat.ltb_spec j N); [reflexivity|]. destruct (Nat.ltb_spec (2 * N) (1 + j)); [lia|]. reflexivity. }
  { intros k y' Hk1 Hk2 Hy'. rewrite (vec_get _ y' (2 * N)%nat _ k Hy') by lia. cbn [bind]. destruct (Nat.ltb_spec k N); [|lia]. eapply vsetf_wp; [exact Hy'|lia|]. intros y2 Hy2. eapply is_vector_ext; [exact Hy2|]. intros j Hj. unfold vfset. cbv beta.
    destruct (Nat.eqb_spec j (2 * N - k)) as [->|NE].
    - destruct (Nat.ltb_spec (2 * N - k) N); [lia|]. destruct (Nat.ltb_spec (2 * N) (k + 1 + (2 * N - k))); [|lia]. replace (2 * N - (2 * N - k))%nat with k by lia. reflexivity.
    - destruct (Nat.ltb_spec j N); [reflexivity|]. destruct (Nat.ltb_spec (2 * N) (k + j)), (Nat.ltb_spec (2 * N) (k + 1 + j)); try lia; reflexivity. }
  clear y Hy. intros y Hy. cbv beta in Hy. assert (HY : is_vector y (2 ^ S L) Y).
  { eapply is_vector_ext; [exact Hy|]. intros j Hj. unfold Y. cbv beta. change (2 ^ S L)%nat with (2 * N)%nat in Hj. destruct (Nat.ltb_spec j N); [reflexivity|]. destruct (Nat.eqb_spec j N), (Nat.ltb_spec (2 * N) (N + j)); try lia; reflexivity. }
  apply wp_bind. eapply wp_conseq; [|apply (fft_ok (-1) (S L) y Y eq_refl HY)]. clear y Hy HY. intros y Hy. cbv beta in Hy. change (2 ^ S L)%nat with (2 * N)%nat in Hy.
  eapply (fill_range _ _ N _ (idct2 N x)); [apply is_vector_repeat|lia|lia| |].
  2: { intros v Hv. eapply is_vector_ext; [exact Hv|]. intros i Hi. cbv beta. destruct (Nat.ltb_spec i N); [reflexivity|lia]. }
  intros v n1 Hk. rewrite (vec_get _ y (2 * N)%nat _ n1 Hy) by lia. cbn [bind]. f_equal. unfold lhalf. tnum.
  unfold dfts. rewrite Csum_fst. replace (2 * N)%nat with (N + N)%nat at 1 by lia. rewrite sum_app_R. unfold idct2.
  assert (EN : exists N', N = S N') by (exists (N - 1)%nat; lia). destruct EN as (N' & EN). replace (N - 1)%nat with N' by lia.
  assert (RP2 : forall a r b, fst (Cmul (Cmul (RtoC r) (expi a)) (expi b)) = r * cos (a + b)). { intros. rewrite cos_plus. cbn. ring. }
  assert (T : forall k, fst (Cmul (F k) (tw (-1) (2 * N) (k * n1))) = x k * cos (PI * INR k * (INR n1 + 1 / 2) / INR N)).
  { intros k. unfold F, tw. transitivity (x k * cos (PI * INR k / INR (2 * N) + - (-1) * (2 * PI * INR (k * n1) / INR (2 * N)))); [apply RP2|]. f_equal. f_equal. rewrite !mult_INR. cbn [INR]. field. auto. }
  assert (S1 : sum N (fun i => fst (Cmul (Y i) (tw (-1) (2 * N) (i * n1)))) = x 0%nat + sum N' (fun i => x (S i) * cos (PI * INR (S i) * (INR n1 + 1 / 2) / INR N))).
  { rewrite (sum_ext_R N _ (fun k => x k * cos (PI * INR k * (INR n1 + 1 / 2) / INR N))). 2: { intros k Hk2. rewrite <- T. unfold Y. destruct (Nat.ltb_spec k N); [reflexivity|lia]. }
    rewrite EN at 1. rewrite sum_S_l_R. f_equal. cbn [INR]. replace (PI * 0 * (INR n1 + 1 / 2) / INR N) with 0 by (field; auto). rewrite cos_0. ring. }
  assert (S2 : sum N (fun i => fst (Cmul (Y (N + i)%nat) (tw (-1) (2 * N) ((N + i) * n1)))) = sum N' (fun i => x (S i) * cos (PI * INR (S i) * (INR n1 + 1 / 2) / INR N))).
  { rewrite EN at 1. rewrite sum_S_l_R. replace (fst (Cmul (Y (N + 0)%nat) (tw (-1) (2 * N) ((N + 0) * n1)))) with 0.
    2: { unfold Y. destruct (Nat.ltb_spec (N + 0) N), (Nat.eqb_spec (N + 0) N); try lia. cbn. ring. }
    rewrite Rplus_0_l. rewrite <- (sum_rev_R N' (fun i => fst (Cmul (Y (N + S i)%nat) (tw (-1) (2 * N) ((N + S i) * n1))))). apply sum_ext_R. intros i Hi. rewrite <- T. unfold Y.
    destruct (Nat.ltb_spec (N + S (N' - 1 - i)) N), (Nat.eqb_spec (N + S (N' - 1 - i)) N); try lia. replace (N + S (N' - 1 - i))%nat with (2 * N - S i)%nat by lia. replace (2 * N - (2 * N - S i))%nat with (S i) by lia.
    rewrite (Nat.mul_comm (2 * N - S i) n1), (Nat.mul_comm (S i) n1). rewrite <- (tw_mirror (-1) (2 * N) n1 (S i)) by lia. cbn. ring. }
  rewrite S1, S2. lra.
Qed.

(** ** C57 *)
(** both implementations of each transform compute the defining sums, for every length they accept *)
Theorem C57_forward : forall data N x, is_vector data N x -> (1 <= N)%nat -> exists r, DCT_ForwardII Rtrig data = Ok r /\ is_vector r N (dct2 N x) /\ DCT_ForwardII_Reference Rtrig data = Ok r /\
  ((exists L, N = 2 ^ L)%nat -> DCT_ForwardII_Fast Rtrig data = Ok r).
Proof.
  intros data N x HD HN. destruct (wp_elim _ _ _ (forward_ref data N x HD HN)) as (r & E & Hr). exists r.
  assert (FA : (exists L, N = 2 ^ L)%nat -> DCT_ForwardII_Fast Rtrig data = Ok r). { intros (L & ->). apply wp_eq. eapply wp_conseq; [|apply (forward_fast data L x HD)]. intros v Hv. eapply is_vector_eq; [exact Hv|exact Hr|]. auto. }
  split; [|auto]. unfold DCT_ForwardII. rewrite (proj1 HD). destruct (Nat.eqb_spec N 0); [lia|]. destruct (IsPowerOfTwo (Z.of_nat N)) eqn:EP; [|rewrite orb_true_r; auto]. apply is_pow2_nat in EP. destruct ((N <? 32)%nat || negb true); auto.
Qed.
Print Assumptions C57_forward.
Theorem C57_inverse : forall data N X, is_vector data N X -> (1 <= N)%nat -> exists r, DCT_InverseII Rtrig data = Ok r /\ is_vector r N (idct2 N X) /\ DCT_InverseII_Reference Rtrig data = Ok r /\
  ((exists L, N = 2 ^ L)%nat -> DCT_InverseII_Fast Rtrig data = Ok r).
Proof.
  intros data N x HD HN. destruct (wp_elim _ _ _ (inverse_ref data N x HD HN)) as (r & E & Hr). exists r.
  assert (FA : (exists L, N = 2 ^ L)%nat -> DCT_InverseII_Fast Rtrig data = Ok r). { intros (L & ->). apply wp_eq. eapply wp_conseq; [|apply (inverse_fast data L x HD)]. intros v Hv. eapply is_vector_eq; [exact Hv|exact Hr|]. auto. }
  split; [|auto]. unfold DCT_InverseII. rewrite (proj1 HD). destruct (Nat.eqb_spec N 0); [lia|]. destruct (IsPowerOfTwo (Z.of_nat N)) eqn:EP; [|rewrite orb_true_r; auto]. apply is_pow2_nat in EP. destruct ((N <? 32)%nat || negb true); auto.
Qed.
Print Assumptions C57_inverse.
(** the cosine pair is inverse in both orders, for every length *)
Theorem C57_dct_round_trip : forall data, data <> [] -> exists X x, DCT_ForwardII Rtrig data = Ok X /\ DCT_InverseII Rtrig X = Ok data /\ DCT_InverseII Rtrig data = Ok x /\ DCT_ForwardII Rtrig x = Ok data.
Proof.
  intros data NE. assert (HN : (1 <= length data)%nat) by (destruct data; [congruence|cbn; lia]). pose proof (is_vector_self data 0) as HD. set (N := length data) in *. set (f := fun i => nth i data 0) in *.
  destruct (C57_forward data N f HD HN) as (X & E1 & H1 & _). destruct (C57_inverse data N f HD HN) as (x & E2 & H2 & _). destruct (C57_inverse X N _ H1 HN) as (y & E3 & H3 & _). destruct (C57_forward x N _ H2 HN) as (z & E4 & H4 & _).
  exists X, x. split; auto. split; [|split; auto].
  - rewrite E3. f_equal. eapply is_vector_eq; [exact H3|exact HD|]. intros i Hi. apply idct2_dct2. auto.
  - rewrite E4. f_equal. eapply is_vector_eq; [exact H4|exact HD|]. intros i Hi. apply dct2_idct2. auto.
Qed.
Print Assumptions C57_dct_round_trip.
(** the sine transform computes its sum and is its own inverse *)
Theorem C57_dst : forall data N x, is_vector data N x -> (1 <= N)%nat -> exists X, DCT_ForwardDST Rtrig data = Ok X /\ is_vector X N (dst1 N x) /\ DCT_InverseDST Rtrig X = Ok data.
Proof.
  intros data N x HD HN. destruct (wp_elim _ _ _ (dst_ref data N x HD HN)) as (X & E & HX). exists X. split; auto. split; auto. unfold DCT_InverseDST. apply wp_eq. eapply wp_conseq; [|apply (dst_ref X N _ HX HN)].
  intros v Hv. eapply is_vector_eq; [exact Hv|exact HD|]. intros i Hi. apply dst1_dst1. auto.
Qed.
Print Assumptions C57_dst.
Theorem C57_errors : forall T (A : trig T), DCT_ForwardII A [] = Throw InvalidArgument /\ DCT_InverseII A [] = Throw InvalidArgument /\ DCT_ForwardDST A [] = Throw InvalidArgument /\ DCT_InverseDST A [] = Throw InvalidArgument /\
  forall data, (forall L, length data <> (2 ^ L)%nat) -> DCT_ForwardII_Fast A data = Throw InvalidArgument /\ DCT_InverseII_Fast A data = Throw InvalidArgument.
Proof.
  intros T A. do 4 (split; [reflexivity|]). intros data H. unfold DCT_ForwardII_Fast, DCT_InverseII_Fast. destruct (Nat.eqb_spec (length data) 0); auto.
  destruct (IsPowerOfTwo (Z.of_nat (length data))) eqn:E; auto. apply is_pow2_nat in E. destruct E as [L E]. exfalso. exact (H L E).
Qed.
Print Assumptions C57_errors.
(** ** Concrete cases *)
(** exact arithmetic in quarter turns: pi stands for 2, cos and sin are the tables at whole quarter turns *)
From Coq Require Import QArith Qcanon.
From Verif Require Import RootFind_Props.
Local Open Scope nat_scope.
Definition quarter (a b c d : Z) (t : Qc) : Qc := let z := QArith_base.Qnum (this t) in Q2Qc (inject_Z (match (z mod 4)%Z with 0%Z => a | 1%Z => b | 2%Z => c | _ => d end)).
Definition Qtrig : trig Qc := mkTrig Qc Qarith (quarter 1 0 (-1) 0) (quarter 0 1 0 (-1)) (q 2 1).
Definition showc (z : Qc * Qc) := (showq (fst z), showq (snd z)).
Definition qs (l : list Z) : list Qc := map (fun z => q z 1) l.
Definition qcs (l : list (Z * Z)) : list (Qc * Qc) := map (fun z => (q (fst z) 1, q (snd z) 1)) l.
Definition zres {A B} (f : A -> B) (r : res (list A)) : option (list B) := match r with Ok l => Some (map f l) | _ => None end.
Definition qc_int (z : Qc * Qc) : Z * Z := (QArith_base.Qnum (this (fst z)), QArith_base.Qnum (this (snd z))).
Definition q_int (z : Qc) : Z := QArith_base.Qnum (this z).
Example C54_computed : zres qc_int (DFT_Forward Qtrig (qcs [(1, 0); (2, 0); (3, 0); (4, 1)]%Z)) = Some [(10, 1); (-3, 2); (-2, -1); (-1, -2)]%Z /\ zres qc_int (DFT_Inverse Qtrig (qcs [(10, 1); (-3, 2); (-2, -1); (-1, -2)]%Z)) = Some [(1, 0); (2, 0); (3, 0); (4, 1)]%Z.
Proof. split; vm_compute; reflexivity. Qed.
Example C55_computed : zres qc_int (FFT_Forward Qtrig (qcs [(1, 0); (2, 0); (3, 0); (4, 1)]%Z)) = Some [(10, 1); (-3, 2); (-2, -1); (-1, -2)]%Z /\ zres qc_int (FFT_ZeroPad Qtrig (qcs [(1, 1); (2, 0); (3, 0)]%Z)) = Some [(1, 1); (2, 0); (3, 0); (0, 0)]%Z
  /\ FFT_Forward Qtrig (qcs [(1, 0); (2, 0); (3, 0)]%Z) = Throw InvalidArgument /\ NextPowerOfTwo 5 = Ok 8%Z /\ Log2 40 = Ok 5%Z.
Proof. repeat split; vm_compute; reflexivity. Qed.
Example C56_computed : zres qc_int (RealFFT_Forward Qtrig (qs [1; 2; 3; 4]%Z)) = Some [(10, 0); (-2, 2); (-2, 0)]%Z /\ zres q_int (RealFFT_Inverse Qtrig (qcs [(10, 0); (-2, 2); (-2, 0)]%Z)) = Some [1; 2; 3; 4]%Z
  /\ zres q_int (RealFFT_Transform Qtrig (qs [1; 2; 3; 4]%Z) 1) = Some [10; -2; -2; 2]%Z /\ zres q_int (RealFFT_Transform Qtrig (qs [10; -2; -2; 2]%Z) (-1)) = Some [1; 2; 3; 4]%Z.
Proof. repeat split; vm_compute; reflexivity. Qed.
Local Open Scope R_scope.
Example C57_example : exists r, DCT_ForwardII Rtrig [1; 3] = Ok r /\ nth_error r 0 = Some 4 /\ nth_error r 1 = Some (- sqrt 2).
Proof.
  assert (HD : is_vector [1; 3] 2 (fun i => if (i =? 0)%nat then 1 else 3)). { split; [reflexivity|]. intros [|[|i]] Hi; try reflexivity. lia. }
  destruct (C57_forward _ _ _ HD ltac:(lia)) as (r & E & Hr & _). exists r. split; auto. rewrite (proj2 Hr 0%nat), (proj2 Hr 1%nat) by lia. unfold dct2. cbn [sumn Rnum nadd n0 nmul Nat.eqb INR]. split; f_equal.
  - replace (PI * 0 * (0 + 1 / 2) / (1 + 1)) with 0 by field. replace (PI * 0 * (1 + 1 / 2) / (1 + 1)) with 0 by field. rewrite cos_0. field.
  - replace (PI * 1 * (0 + 1 / 2) / (1 + 1)) with (PI / 4) by field. replace (PI * 1 * (1 + 1 / 2) / (1 + 1)) with (PI - PI / 4) by field. rewrite cos_minus, cos_PI, sin_PI, cos_PI4. assert (sqrt 2 <> 0) by (apply Rgt_not_eq, sqrt_lt_R0; lra).
    assert (E2 : sqrt 2 * sqrt 2 = 2) by (apply sqrt_sqrt; lra). apply (Rmult_eq_reg_r (sqrt 2)); auto. transitivity (-2); [field; auto|]. lra.
Qed.
