(** * C60: covariance and Pearson correlation *)

From Coq Require Import List Arith Bool Lia ZArith Reals Lra Psatz.
From Verif Require Import Base Num Mat_Model Mat_Proofs RootFind_Model RootFind_Proofs Interp_Linear Interp_Bary Fourier_DCT Fourier_Props Stat_Model Stat_Spec Stat_Mean.
Import ListNotations.
Local Open Scope R_scope.
Local Notation sum := (sumn Rnum).

(** ** Facts about the definitions *)
Lemma cosum_sym : forall n x y, cosum n x y = cosum n y x.
Proof. intros. unfold cosum. apply sum_ext_R. intros. ring. Qed.
Lemma covariance_sym : forall n x y, covariance n x y = covariance n y x.
Proof. intros. unfold covariance. now rewrite cosum_sym. Qed.
Lemma cosum_self : forall n x, cosum n x x = central 2 n x.
Proof. intros. now rewrite central2. Qed.
Lemma cosum_ext : forall n x x' y y', (forall i, (i < n)%nat -> x i = x' i) -> (forall i, (i < n)%nat -> y i = y' i) -> cosum n x y = cosum n x' y'.
Proof. intros n x x' y y' Hx Hy. unfold cosum. rewrite (mean_ext n x x' Hx), (mean_ext n y y' Hy). apply sum_ext_R. intros. rewrite Hx, Hy; auto. Qed.
Lemma cosum_affine : forall n x y a b, (0 < n)%nat -> cosum n (fun i => a * x i + b) y = a * cosum n x y.
Proof. intros. unfold cosum. rewrite mean_affine by auto. rewrite sum_mul_R. apply sum_ext_R. intros. ring. Qed.
Lemma mean_add : forall n x y, mean n (fun i => x i + y i) = mean n x + mean n y.
Proof. intros. unfold mean. rewrite sum_add_R. unfold Rdiv. ring. Qed.
Lemma cosum_add : forall n x y z, cosum n (fun i => x i + y i) z = cosum n x z + cosum n y z.
Proof. intros. unfold cosum. rewrite mean_add, <- sum_add_R. apply sum_ext_R. intros. ring. Qed.
(** the Cauchy-Schwarz inequality *)
Lemma cauchy_gap : forall n (a b : nat -> R), 0 < sum n (fun i => a i * a i) ->
  sum n (fun i => (b i - sum n (fun j => a j * b j) / sum n (fun j => a j * a j) * a i) ^ 2) =
  sum n (fun i => b i * b i) - sum n (fun i => a i * b i) ^ 2 / sum n (fun i => a i * a i).
Proof.
  intros n a b HA. set (A := sum n (fun i => a i * a i)) in *. set (B := sum n (fun i => b i * b i)). set (C := sum n (fun i => a i * b i)). set (t := C / A).
  rewrite (sum_ext_R n _ (fun i => b i * b i - 2 * t * (a i * b i) + t ^ 2 * (a i * a i))) by (intros; ring).
  rewrite sum_add_R, sum_sub_R, <- !sum_mul_R. fold A B C. unfold t. field. lra.
Qed.
Lemma cauchy : forall n (a b : nat -> R), sum n (fun i => a i * b i) ^ 2 <= sum n (fun i => a i * a i) * sum n (fun i => b i * b i).
Proof.
  intros n a b. assert (HA : 0 <= sum n (fun i => a i * a i)) by (apply sum_nonneg; intros; apply Rle_0_sqr).
  destruct (Rle_lt_or_eq_dec _ _ HA) as [P|E].
  - pose proof (cauchy_gap n a b P) as G. assert (0 <= sum n (fun i => (b i - sum n (fun j => a j * b j) / sum n (fun j => a j * a j) * a i) ^ 2)) as N by (apply sum_nonneg; intros; apply pow2_ge_0).
    rewrite G in N. set (A := sum n (fun i => a i * a i)) in *. set (C := sum n (fun i => a i * b i)) in *. set (B := sum n (fun i => b i * b i)) in *.
    assert (A * (C ^ 2 / A) = C ^ 2) by (field; lra). nra.
  - rewrite (sum_zero_R n (fun i => a i * b i)). { rewrite <- E. lra. }
    intros i Hi. pose proof (sum_nonneg_zero n _ (fun i _ => Rle_0_sqr (a i)) (eq_sym E) i Hi) as Z. cbv beta in Z. apply Rsqr_0_uniq in Z. rewrite Z. ring.
Qed.
Lemma central2_pos : forall n x, (0 < n)%nat -> ~ constant n x -> 0 < central 2 n x.
Proof. intros n x Hn Hc. destruct (Rle_lt_or_eq_dec _ _ (central2_nonneg n x)) as [|E]; auto. exfalso. apply Hc. apply central2_zero; auto. Qed.
Lemma variance_pos : forall n x, (2 <= n)%nat -> ~ constant n x -> 0 < variance n x.
Proof. intros n x Hn Hc. destruct (Rle_lt_or_eq_dec _ _ (variance_nonneg n x Hn)) as [|E]; auto. exfalso. apply Hc. apply variance_zero; auto. Qed.
Lemma correlation_cosum : forall n x y, (2 <= n)%nat -> ~ constant n x -> ~ constant n y -> correlation n x y = cosum n x y / sqrt (central 2 n x * central 2 n y).
Proof.
  intros n x y Hn Hx Hy. unfold correlation, covariance, variance. pose proof (INR_m1 n Hn) as P. pose proof (central2_pos n x ltac:(lia) Hx) as Px. pose proof (central2_pos n y ltac:(lia) Hy) as Py.
  rewrite <- sqrt_mult by (apply Rlt_le, Rdiv_lt_0_compat; auto).
  replace (central 2 n x / (INR n - 1) * (central 2 n y / (INR n - 1))) with (central 2 n x * central 2 n y / ((INR n - 1) * (INR n - 1))) by (field; lra).
  rewrite sqrt_div by nra. rewrite sqrt_square by lra. assert (0 < sqrt (central 2 n x * central 2 n y)) by (apply sqrt_lt_R0; nra). field. split; lra.
Qed.
Lemma correlation_sq : forall n x y, (2 <= n)%nat -> ~ constant n x -> ~ constant n y -> correlation n x y ^ 2 = cosum n x y ^ 2 / (central 2 n x * central 2 n y).
Proof.
  intros n x y Hn Hx Hy. rewrite correlation_cosum by auto. pose proof (central2_pos n x ltac:(lia) Hx) as Px. pose proof (central2_pos n y ltac:(lia) Hy) as Py.
  unfold Rdiv. rewrite Rpow_mult_distr, pow_inv, pow2_sqrt by nra. reflexivity.
Qed.
Lemma correlation_bound : forall n x y, (2 <= n)%nat -> ~ constant n x -> ~ constant n y -> -1 <= correlation n x y <= 1.
Proof.
  intros n x y Hn Hx Hy. pose proof (central2_pos n x ltac:(lia) Hx) as Px. pose proof (central2_pos n y ltac:(lia) Hy) as Py.
  assert (correlation n x y ^ 2 <= 1).
  { rewrite correlation_sq by auto. apply (Rmult_le_reg_r (central 2 n x * central 2 n y)); [nra|]. unfold Rdiv. rewrite Rmult_assoc, Rinv_l by nra.
    rewrite !central2 in *. unfold cosum. pose proof (cauchy n (fun i => x i - mean n x) (fun i => y i - mean n y)). cbv beta in *. lra. }
  nra.
Qed.

(** ** The functions *)
Lemma cov_ok : forall dx dy n x y, is_vector dx n x -> is_vector dy n y -> (2 <= n)%nat -> Covariance Rstat dx dy = Ok (covariance n x y).
Proof.
  intros dx dy n x y V W Hn. unfold Covariance. pose proof V as (L & _). pose proof W as (LW & _). rewrite L, LW, Nat.eqb_refl. assert (E : (n <=? 1)%nat = false) by (apply Nat.leb_gt; lia). rewrite E. cbn [negb].
  rewrite (avg_ok dx n x), (avg_ok dy n y) by (auto; lia). cbn [bind]. snum.
  rewrite (acc_loop R 0 n _ (fun i => sum i (fun j => (x j - mean n x) * (y j - mean n y)))); [|lia|intros i Hi].
  - cbn [bind]. now rewrite of_nat_IZR1.
  - rewrite (vec_get _ dx n x i), (vec_get _ dy n y i) by (auto; lia). cbn [bind]. now rewrite Nat.add_1_r, sumS_R.
Qed.
(** Covariance is the sum of the products of the deviations over n - 1; it does not depend on the order of the arguments,
    of a variable with itself it is the variance, and it is linear in each argument and blind to shifts *)
Theorem C60_covariance : forall dx dy n x y, is_vector dx n x -> is_vector dy n y -> (2 <= n)%nat ->
  Covariance Rstat dx dy = Ok (covariance n x y) /\ Covariance Rstat dy dx = Covariance Rstat dx dy /\ Covariance Rstat dx dx = Variance Rstat dx.
Proof.
  intros dx dy n x y V W Hn. rewrite (cov_ok dx dy n x y), (cov_ok dy dx n y x), (cov_ok dx dx n x x) by auto. split; [auto|]. split; [now rewrite covariance_sym|].
  destruct (C58_variance dx n x V Hn) as (_ & E & _). rewrite E. f_equal. unfold covariance, variance. now rewrite cosum_self.
Qed.
Print Assumptions C60_covariance.
Theorem C60_covariance_linear : forall dx dz dy ds n x z y a b c, is_vector dx n x -> is_vector dz n z -> is_vector dy n y -> is_vector ds n (fun i => a * x i + b * z i + c) -> (2 <= n)%nat ->
  exists u v, Covariance Rstat dx dy = Ok u /\ Covariance Rstat dz dy = Ok v /\ Covariance Rstat ds dy = Ok (a * u + b * v).
Proof.
  intros dx dz dy ds n x z y a b c V Z W S Hn. exists (covariance n x y), (covariance n z y). rewrite (cov_ok dx dy n x y), (cov_ok dz dy n z y), (cov_ok ds dy n _ y S) by auto.
  split; [auto|]. split; [auto|]. f_equal. unfold covariance.
  rewrite (cosum_ext n (fun i => a * x i + b * z i + c) (fun i => (a * x i + 0) + (b * z i + c)) y y) by (intros; auto; ring). rewrite cosum_add, !cosum_affine by lia. unfold Rdiv. ring.
Qed.
Print Assumptions C60_covariance_linear.

Lemma pearson_eq : forall dx dy n x y, is_vector dx n x -> is_vector dy n y -> (2 <= n)%nat ->
  PearsonCorrelation Rstat dx dy = if aeqb Rarith (central 2 n x) 0 then Throw DomainError else if aeqb Rarith (central 2 n y) 0 then Throw DomainError
                                   else Ok (cosum n x y / sqrt (central 2 n x * central 2 n y)).
Proof.
  intros dx dy n x y V W Hn. unfold PearsonCorrelation. pose proof V as (L & _). pose proof W as (LW & _). rewrite L, LW, Nat.eqb_refl. assert (E : (n <=? 1)%nat = false) by (apply Nat.leb_gt; lia). rewrite E. cbn [negb].
  rewrite (avg_ok dx n x), (avg_ok dy n y) by (auto; lia). cbn [bind]. snum.
  rewrite (acc_loop (R * R * R) 0 n _ (fun i => (sum i (fun j => (x j - mean n x) * (y j - mean n y)), sum i (fun j => (x j - mean n x) * (x j - mean n x)), sum i (fun j => (y j - mean n y) * (y j - mean n y)))));
    [|lia|intros i Hi; cbv beta iota zeta].
  - cbn [bind]. rewrite !central2. reflexivity.
  - rewrite (vec_get _ dx n x i), (vec_get _ dy n y i) by (auto; lia). cbn [bind]. now rewrite Nat.add_1_r, !sumS_R.
Qed.
Lemma pearson_ok : forall dx dy n x y, is_vector dx n x -> is_vector dy n y -> (2 <= n)%nat -> ~ constant n x -> ~ constant n y -> PearsonCorrelation Rstat dx dy = Ok (correlation n x y).
Proof.
  intros dx dy n x y V W Hn Hx Hy. rewrite (pearson_eq dx dy n x y), correlation_cosum by auto. pose proof (central2_pos n x ltac:(lia) Hx). pose proof (central2_pos n y ltac:(lia) Hy).
  destruct (Raeqb (central 2 n x) 0); [lra|]. destruct (Raeqb (central 2 n y) 0); [lra|]. reflexivity.
Qed.
(** PearsonCorrelation is the covariance over the product of the standard deviations, lies in [-1, 1] and does not depend
    on the order of the arguments; RSquared is its square, in [0, 1] *)
Theorem C60_pearson : forall dx dy n x y, is_vector dx n x -> is_vector dy n y -> (2 <= n)%nat -> ~ constant n x -> ~ constant n y ->
  exists r, PearsonCorrelation Rstat dx dy = Ok r /\ r = covariance n x y / (sqrt (variance n x) * sqrt (variance n y)) /\ -1 <= r <= 1 /\
    PearsonCorrelation Rstat dy dx = Ok r /\ RSquared Rstat dx dy = Ok (r ^ 2) /\ 0 <= r ^ 2 <= 1.
Proof.
  intros dx dy n x y V W Hn Hx Hy. exists (correlation n x y). pose proof (correlation_bound n x y Hn Hx Hy). unfold RSquared. rewrite (pearson_ok dx dy n x y), (pearson_ok dy dx n y x) by auto.
  split; [auto|]. split; [auto|]. split; [auto|]. split. { f_equal. unfold correlation. now rewrite covariance_sym, (Rmult_comm (sqrt _)). }
  cbn [bind]. snum. split; [f_equal; ring|]. nra.
Qed.
Print Assumptions C60_pearson.

(** it is +1 or -1 exactly when one variable is a linear function of the other, with the sign of the slope *)
Theorem C60_pearson_extreme : forall dx dy n x y, is_vector dx n x -> is_vector dy n y -> (2 <= n)%nat -> ~ constant n x -> ~ constant n y ->
  (PearsonCorrelation Rstat dx dy = Ok 1 <-> exists a b, 0 < a /\ forall i, (i < n)%nat -> y i = a * x i + b) /\
  (PearsonCorrelation Rstat dx dy = Ok (-1) <-> exists a b, a < 0 /\ forall i, (i < n)%nat -> y i = a * x i + b).
Proof.
  intros dx dy n x y V W Hn Hx Hy. rewrite (pearson_ok dx dy n x y) by auto. pose proof (central2_pos n x ltac:(lia) Hx) as Px. pose proof (central2_pos n y ltac:(lia) Hy) as Py.
  assert (Fwd : forall a b, (forall i, (i < n)%nat -> y i = a * x i + b) -> cosum n x y = a * central 2 n x /\ central 2 n y = a ^ 2 * central 2 n x).
  { intros a b H. split.
    - rewrite cosum_sym, (cosum_ext n y (fun i => a * x i + b) x x) by auto. rewrite cosum_affine, cosum_self by lia. reflexivity.
    - rewrite <- cosum_self, (cosum_ext n y (fun i => a * x i + b) y (fun i => a * x i + b)) by auto. rewrite cosum_affine, cosum_sym, cosum_affine, cosum_self by lia. ring. }
  assert (Val : forall a b, (forall i, (i < n)%nat -> y i = a * x i + b) -> a <> 0 -> correlation n x y = a / Rabs a).
  { intros a b H Ha. rewrite correlation_cosum by auto. destruct (Fwd a b H) as (E1 & E2). rewrite E1, E2. replace (central 2 n x * (a ^ 2 * central 2 n x)) with ((a * central 2 n x) * (a * central 2 n x)) by ring.
    fold (Rsqr (a * central 2 n x)). rewrite sqrt_Rsqr_abs, Rabs_mult, (Rabs_right (central 2 n x)) by lra. field. split; [apply Rabs_no_R0; auto|lra]. }
  assert (Bwd : correlation n x y ^ 2 = 1 -> forall i, (i < n)%nat -> y i = cosum n x y / central 2 n x * x i + (mean n y - cosum n x y / central 2 n x * mean n x)).
  { intros E i Hi. rewrite correlation_sq in E by auto. assert (E' : cosum n x y ^ 2 = central 2 n x * central 2 n y). { apply (Rmult_eq_reg_r (/ (central 2 n x * central 2 n y))); [|apply Rinv_neq_0_compat; nra].
      unfold Rdiv in E. rewrite E. field. split; lra. }
    rewrite !central2 in *. pose proof (cauchy_gap n (fun i => x i - mean n x) (fun i => y i - mean n y) Px) as G. cbv beta in G. fold (cosum n x y) in G. rewrite E' in G.
    set (A := sum n (fun i => (x i - mean n x) * (x i - mean n x))) in *. set (B := sum n (fun i => (y i - mean n y) * (y i - mean n y))) in *.
    assert (Z : B - A * B / A = 0) by (field; lra). rewrite Z in G.
    pose proof (sum_nonneg_zero n _ (fun i _ => pow2_ge_0 _) G i Hi) as Q. cbv beta in Q. assert (Q' : y i - mean n y - cosum n x y / A * (x i - mean n x) = 0) by nra. lra. }
  assert (Sgn : correlation n x y = cosum n x y / sqrt (central 2 n x * central 2 n y)) by now apply correlation_cosum.
  assert (Ps : 0 < sqrt (central 2 n x * central 2 n y)) by (apply sqrt_lt_R0; nra).
  assert (Sg2 : cosum n x y = correlation n x y * sqrt (central 2 n x * central 2 n y)) by (rewrite Sgn; field; lra).
  split; split.
  - intros E. injection E as E. exists (cosum n x y / central 2 n x), (mean n y - cosum n x y / central 2 n x * mean n x). split; [|apply Bwd; rewrite E; ring].
    apply Rdiv_lt_0_compat; auto. rewrite Sg2, E. lra.
  - intros (a & b & Ha & H). f_equal. rewrite (Val a b) by (auto; lra). rewrite Rabs_right by lra. field. lra.
  - intros E. injection E as E. exists (cosum n x y / central 2 n x), (mean n y - cosum n x y / central 2 n x * mean n x). split; [|apply Bwd; rewrite E; ring].
    apply Ropp_lt_cancel. rewrite Ropp_0, <- Ropp_div. apply Rdiv_lt_0_compat; auto. rewrite Sg2, E. lra.
  - intros (a & b & Ha & H). f_equal. rewrite (Val a b) by (auto; lra). rewrite Rabs_left by lra. field. lra.
Qed.
Print Assumptions C60_pearson_extreme.

(** rescaling a variable by a positive factor and shifting it changes nothing; a negative factor flips the sign *)
Theorem C60_pearson_affine : forall dx dx' dy n x y a b r, is_vector dx n x -> is_vector dx' n (fun i => a * x i + b) -> is_vector dy n y -> (2 <= n)%nat -> a <> 0 ->
  PearsonCorrelation Rstat dx dy = Ok r -> PearsonCorrelation Rstat dx' dy = Ok (if Rlt_dec 0 a then r else - r).
Proof.
  intros dx dx' dy n x y a b r V V' W Hn Ha E. rewrite (pearson_eq dx dy n x y) in E by auto. rewrite (pearson_eq dx' dy n _ y V') by auto.
  assert (Ec : central 2 n (fun i => a * x i + b) = a ^ 2 * central 2 n x). { rewrite <- cosum_self, cosum_affine, cosum_sym, cosum_affine, cosum_self by lia. ring. }
  rewrite Ec, cosum_affine by lia. destruct (Raeqb (central 2 n x) 0) as [|Nx]; [discriminate|]. destruct (Raeqb (central 2 n y) 0) as [|Ny]; [discriminate|]. injection E as <-.
  pose proof (central2_nonneg n x). pose proof (central2_nonneg n y). assert (0 < a ^ 2) by (assert (0 < a \/ a < 0) as [|] by lra; nra).
  destruct (Raeqb (a ^ 2 * central 2 n x) 0) as [Z|_]. { apply Rmult_integral in Z. lra. } f_equal.
  replace (a ^ 2 * central 2 n x * central 2 n y) with (a * a * (central 2 n x * central 2 n y)) by ring. rewrite sqrt_mult by nra. fold (Rsqr a). rewrite sqrt_Rsqr_abs.
  assert (0 < sqrt (central 2 n x * central 2 n y)) by (apply sqrt_lt_R0; nra).
  destruct (Rlt_dec 0 a); [rewrite Rabs_right by lra|rewrite Rabs_left by lra]; field; split; lra.
Qed.
Print Assumptions C60_pearson_affine.

(** fewer than two observations, different sizes, and a constant variable are rejected *)
Theorem C60_errors : forall dx dy n m x y, is_vector dx n x -> is_vector dy m y ->
  ((n <= 1 \/ m <> n)%nat -> Covariance Rstat dx dy = Throw DomainError) /\
  ((n <= 1 \/ m <> n)%nat \/ constant n x \/ (m = n /\ constant m y) -> PearsonCorrelation Rstat dx dy = Throw DomainError /\ RSquared Rstat dx dy = Throw DomainError /\ PearsonCorrelationWithTest Rstat dx dy = Throw DomainError) /\
  ((n <= 2)%nat -> PearsonCorrelationWithTest Rstat dx dy = Throw DomainError).
Proof.
  intros dx dy n m x y V W. pose proof V as (L & _). pose proof W as (LW & _). split; [|split].
  - intros H. unfold Covariance. rewrite L, LW. destruct (Nat.leb_spec n 1); auto. destruct (Nat.eqb_spec m n); auto. lia.
  - intros H. assert (E : PearsonCorrelation Rstat dx dy = Throw DomainError).
    { destruct (Nat.leb_spec n 1) as [L1|L1]. { unfold PearsonCorrelation. rewrite L. destruct (Nat.leb_spec n 1); auto; lia. }
      destruct (Nat.eq_dec m n) as [->|Nm]. 2:{ unfold PearsonCorrelation. rewrite L, LW. destruct (Nat.leb_spec n 1); auto. destruct (Nat.eqb_spec m n); auto; lia. }
      destruct H as [H|H]; [lia|]. rewrite (pearson_eq dx dy n x y) by (auto; lia). rewrite <- !central2_zero in H by lia.
      destruct (Raeqb (central 2 n x) 0); auto. destruct (Raeqb (central 2 n y) 0); auto. lra. }
    unfold RSquared, PearsonCorrelationWithTest. rewrite E, L. repeat split; auto. destruct (n <=? 2)%nat; reflexivity.
  - intros H. unfold PearsonCorrelationWithTest. rewrite L. destruct (Nat.leb_spec n 2); auto. lia.
Qed.
Print Assumptions C60_errors.

(** the significance test: t = r sqrt((n - 2) / (1 - r^2)) with n - 2 degrees of freedom, infinite with the sign of r for
    a perfect correlation *)
Theorem C60_pearson_test : forall dx dy n x y, is_vector dx n x -> is_vector dy n y -> (3 <= n)%nat -> ~ constant n x -> ~ constant n y ->
  exists r t, PearsonCorrelation Rstat dx dy = Ok r /\ PearsonCorrelationWithTest Rstat dx dy = Ok (r, t, (n - 2)%nat) /\
    (-1 < r < 1 -> t = inr (r * sqrt (INR (n - 2) / (1 - r ^ 2)))) /\ (r = 1 -> t = inl true) /\ (r = -1 -> t = inl false).
Proof.
  intros dx dy n x y V W Hn Hx Hy. exists (correlation n x y). pose proof V as (L & _). unfold PearsonCorrelationWithTest. rewrite L. assert (E : (n <=? 2)%nat = false) by (apply Nat.leb_gt; lia). rewrite E.
  rewrite (pearson_ok dx dy n x y) by (auto; lia). cbn [bind]. set (r := correlation n x y). eexists. split; [reflexivity|]. split; [reflexivity|]. snum. split; [|split].
  - intros Hr. rewrite Rltb_true by nra. cbn [negb]. rewrite of_nat_IZR. replace (r ^ 2) with (r * r) by ring. reflexivity.
  - intros ->. rewrite Rltb_false, Rltb_true by lra. reflexivity.
  - intros ->. rewrite !Rltb_false by lra. reflexivity.
Qed.
Print Assumptions C60_pearson_test.

(** ** Matrices: column j of the data matrix holds variable j *)
Definition column (f : nat -> nat -> R) (j : nat) : nat -> R := fun i => f i j.
Lemma covmatrix_wp : forall D n p f, is_matrix D n p f -> (2 <= n)%nat -> (1 <= p)%nat -> dims_fit p p ->
  wp (CovarianceMatrix Rstat D) (fun C => is_matrix C p p (fun a b => covariance n (column f a) (column f b))).
Proof.
  intros D n p f V Hn Hp Hd. unfold CovarianceMatrix. pose proof V as (Lr & Lc & _). rewrite Lr, Lc. assert (E : (n <=? 1)%nat = false) by (apply Nat.leb_gt; lia). rewrite E, leb0 by lia. snum.
  apply wp_bind. eapply wp_conseq; [|apply (for_range_inv _ _ (fun j v => is_vector v p (fun a => if (a <? j)%nat then mean n (column f a) else 0)))].
  2:{ lia. }
  2:{ eapply is_vector_ext; [apply is_vector_repeat|]. intros a Ha. reflexivity. }
  2:{ intros j v H1 H2 Hv. rewrite (acc_loop R 0 n _ (fun i => sum i (column f j))); [|lia|intros i Hi].
      - cbn [bind]. eapply vsetf_wp; [exact Hv|lia|]. intros v' Hv'. eapply is_vector_ext; [exact Hv'|]. intros a Ha. unfold vfset. cbv beta. rewrite of_nat_IZR.
        destruct (Nat.eqb_spec a j) as [->|]; [destruct (Nat.ltb_spec j (j + 1)); [reflexivity|lia]|]. destruct (Nat.ltb_spec a j), (Nat.ltb_spec a (j + 1)); auto; lia.
      - rewrite (mget_Ok D n p f) by (auto; lia). cbn [bind]. now rewrite Nat.add_1_r, sumS_R. }
  intros means Hm. apply wp_bind. unfold mat_new. destruct (Z.ltb_spec (Z.of_nat p) 0); [lia|]. cbn [orb]. rewrite Nat2Z.id. apply alloc_ok_wp; [split; auto; lia|]. intros C0 HC0. cbn [n0 Rnum] in HC0.
  set (F := fun a b => covariance n (column f a) (column f b)). assert (Fs : forall a b, F a b = F b a) by (intros; apply covariance_sym).
  eapply wp_conseq; [|apply (for_range_inv _ _ (fun j C => is_matrix C p p (fun a b => if (Nat.min a b <? j)%nat then F a b else 0)))].
  - intros C HC. eapply is_matrix_ext; [exact HC|]. intros a b Ha Hb. cbv beta. destruct (Nat.ltb_spec (Nat.min a b) p); [auto|lia].
  - lia.
  - eapply is_matrix_ext; [exact HC0|]. intros a b Ha Hb. reflexivity.
  - intros j1 C H1 H2 HC. eapply wp_conseq; [|apply (for_range_inv _ _ (fun j2 C => is_matrix C p p (fun a b => if (Nat.min a b <? j1)%nat || ((Nat.min a b =? j1)%nat && (Nat.max a b <? j2)%nat) then F a b else 0)))].
    + intros C' HC'. eapply is_matrix_ext; [exact HC'|]. intros a b Ha Hb. cbv beta.
      destruct (Nat.ltb_spec (Nat.min a b) j1), (Nat.eqb_spec (Nat.min a b) j1), (Nat.ltb_spec (Nat.max a b) p), (Nat.ltb_spec (Nat.min a b) (j1 + 1)); cbn [orb andb]; auto; lia.
    + lia.
    + eapply is_matrix_ext; [exact HC|]. intros a b Ha Hb. cbv beta.
      destruct (Nat.ltb_spec (Nat.min a b) j1), (Nat.eqb_spec (Nat.min a b) j1), (Nat.ltb_spec (Nat.max a b) j1); cbn [orb andb]; auto; lia.
    + intros j2 C' G1 G2 HC'. rewrite !(vec_get _ means p _ _ Hm) by lia. cbn [bind]. cbv beta. destruct (Nat.ltb_spec j1 p); [|lia]. destruct (Nat.ltb_spec j2 p); [|lia].
      rewrite (acc_loop R 0 n _ (fun i => sum i (fun k => (column f j1 k - mean n (column f j1)) * (column f j2 k - mean n (column f j2))))); [|lia|intros i Hi].
      * cbn [bind]. rewrite of_nat_IZR1. apply wp_bind. eapply mset_wp; [exact HC'|lia|lia|]. intros C1 HC1. eapply mset_wp; [exact HC1|lia|lia|]. intros C2 HC2.
        eapply is_matrix_ext; [exact HC2|]. intros a b Ha Hb. unfold fset. cbv beta.
        change (sum n (fun k => (column f j1 k - mean n (column f j1)) * (column f j2 k - mean n (column f j2))) / (INR n - 1)) with (F j1 j2).
        destruct (Nat.eqb_spec a j2) as [E1|E1], (Nat.eqb_spec b j1) as [E2|E2], (Nat.eqb_spec a j1) as [E3|E3], (Nat.eqb_spec b j2) as [E4|E4]; cbn [andb];
          destruct (Nat.ltb_spec (Nat.min a b) j1), (Nat.eqb_spec (Nat.min a b) j1), (Nat.ltb_spec (Nat.max a b) j2), (Nat.ltb_spec (Nat.max a b) (j2 + 1)); cbn [orb andb]; subst; auto; try lia; try (rewrite Fs; reflexivity).
      * rewrite !(mget_Ok D n p f) by (auto; lia). cbn [bind]. now rewrite Nat.add_1_r, sumS_R.
Qed.
Lemma sum_prod : forall p (g h : nat -> R), sum p g * sum p h = sum p (fun a => sum p (fun b => g a * h b)).
Proof.
  intros p g h. rewrite Rmult_comm, (sum_mul_R p (sum p h) g). apply sum_ext_R. intros a Ha. rewrite Rmult_comm, (sum_mul_R p (g a) h). reflexivity.
Qed.
Lemma cov_combination : forall n p f (w : nat -> R), (0 < n)%nat ->
  sum p (fun a => sum p (fun b => w a * w b * cosum n (column f a) (column f b))) = central 2 n (fun i => sum p (fun a => w a * f i a)).
Proof.
  intros n p f w Hn. rewrite central2. set (m := mean n (fun i => sum p (fun a => w a * f i a))).
  assert (Em : m = sum p (fun a => w a * mean n (column f a))).
  { unfold m, mean. rewrite sum_swap_R. unfold Rdiv. rewrite Rmult_comm, sum_mul_R. apply sum_ext_R. intros a Ha. rewrite <- sum_mul_R. unfold column. ring. }
  assert (Ed : forall i, sum p (fun a => w a * f i a) - m = sum p (fun a => w a * (f i a - mean n (column f a)))).
  { intros i. rewrite Em, <- sum_sub_R. apply sum_ext_R. intros. ring. }
  transitivity (sum p (fun a => sum p (fun b => sum n (fun i => w a * w b * ((f i a - mean n (column f a)) * (f i b - mean n (column f b))))))).
  { apply sum_ext_R. intros a Ha. apply sum_ext_R. intros b Hb. unfold cosum. rewrite sum_mul_R. reflexivity. }
  transitivity (sum p (fun a => sum n (fun i => sum p (fun b => w a * w b * ((f i a - mean n (column f a)) * (f i b - mean n (column f b))))))).
  { apply sum_ext_R. intros a Ha. apply sum_swap_R. }
  rewrite sum_swap_R. apply sum_ext_R. intros i Hi. rewrite !Ed, sum_prod. apply sum_ext_R. intros a Ha. apply sum_ext_R. intros b Hb. ring.
Qed.
(** CovarianceMatrix holds the covariance of every two columns: it is symmetric and positive semidefinite *)
Theorem C60_covariance_matrix : forall D n p f, is_matrix D n p f -> (2 <= n)%nat -> (1 <= p)%nat -> dims_fit p p ->
  exists C c, CovarianceMatrix Rstat D = Ok C /\ is_matrix C p p c /\ (forall a b, c a b = covariance n (column f a) (column f b)) /\ (forall a b, c a b = c b a) /\
    forall w, 0 <= sum p (fun a => sum p (fun b => w a * w b * c a b)).
Proof.
  intros D n p f V Hn Hp Hd. pose proof (covmatrix_wp D n p f V Hn Hp Hd) as W. apply wp_elim in W. destruct W as (C & E & HC). exists C, (fun a b => covariance n (column f a) (column f b)).
  split; [auto|]. split; [auto|]. split; [auto|]. split; [intros; apply covariance_sym|]. intros w. pose proof (INR_m1 n Hn).
  rewrite (sum_ext_R p _ (fun a => / (INR n - 1) * sum p (fun b => w a * w b * cosum n (column f a) (column f b)))).
  2:{ intros a Ha. rewrite sum_mul_R. apply sum_ext_R. intros b Hb. unfold covariance, Rdiv. ring. }
  rewrite <- sum_mul_R, cov_combination by lia. apply Rmult_le_pos; [apply Rlt_le, Rinv_0_lt_compat; lra|apply central2_nonneg].
Qed.
Print Assumptions C60_covariance_matrix.

(** CorrelationMatrix holds the correlation of every two columns, with 1 on the diagonal and all entries in [-1, 1]; a
    constant column is rejected *)
Theorem C60_correlation_matrix : forall D n p f, is_matrix D n p f -> (2 <= n)%nat -> (1 <= p)%nat -> dims_fit p p -> (forall a, (a < p)%nat -> ~ constant n (column f a)) ->
  exists K c, CorrelationMatrix Rstat D = Ok K /\ is_matrix K p p c /\ (forall a b, (a < p)%nat -> (b < p)%nat -> c a b = correlation n (column f a) (column f b) /\ -1 <= c a b <= 1 /\ c a b = c b a) /\
    (forall a, (a < p)%nat -> c a a = 1).
Proof.
  intros D n p f V Hn Hp Hd Hc. set (c := fun a b => correlation n (column f a) (column f b)).
  assert (W : wp (CorrelationMatrix Rstat D) (fun K => is_matrix K p p c)).
  { unfold CorrelationMatrix. pose proof V as (Lr & Lc & _). rewrite Lr, Lc. assert (E : (n <=? 1)%nat = false) by (apply Nat.leb_gt; lia). rewrite E, leb0 by lia.
    apply wp_bind. eapply wp_conseq; [|apply (covmatrix_wp D n p f V Hn Hp Hd)]. intros C HC. snum.
    apply wp_bind. eapply wp_conseq; [|apply (for_range_inv _ _ (fun j v => is_vector v p (fun a => if (a <? j)%nat then sqrt (variance n (column f a)) else 0)))].
    2:{ lia. }
    2:{ eapply is_vector_ext; [apply is_vector_repeat|]. intros a Ha. reflexivity. }
    2:{ intros j v H1 H2 Hv. rewrite (mget_Ok C p p _ j j HC) by lia. cbn [bind]. assert (Ev : covariance n (column f j) (column f j) = variance n (column f j)) by (unfold covariance, variance; now rewrite cosum_self).
        rewrite !Ev. rewrite Rltb_true by (apply variance_pos; auto). cbn [negb]. eapply vsetf_wp; [exact Hv|lia|]. intros v' Hv'. eapply is_vector_ext; [exact Hv'|]. intros a Ha. unfold vfset. cbv beta.
        destruct (Nat.eqb_spec a j) as [->|]; [destruct (Nat.ltb_spec j (j + 1)); [reflexivity|lia]|]. destruct (Nat.ltb_spec a j), (Nat.ltb_spec a (j + 1)); auto; lia. }
    intros sd Hsd. apply wp_bind. unfold mat_new. destruct (Z.ltb_spec (Z.of_nat p) 0); [lia|]. cbn [orb]. rewrite Nat2Z.id. apply alloc_ok_wp; [split; auto; lia|]. intros K0 HK0.
    eapply wp_conseq; [|apply (for_range_inv _ _ (fun j K => is_matrix K p p (fun a b => if (a <? j)%nat then c a b else n0 Rnum)))].
    - intros K HK. eapply is_matrix_ext; [exact HK|]. intros a b Ha Hb. cbv beta. destruct (Nat.ltb_spec a p); [auto|lia].
    - lia.
    - eapply is_matrix_ext; [exact HK0|]. intros a b Ha Hb. reflexivity.
    - intros j1 K H1 H2 HK. eapply wp_conseq; [|apply (for_range_inv _ _ (fun j2 K => is_matrix K p p (fun a b => if (a <? j1)%nat || ((a =? j1)%nat && (b <? j2)%nat) then c a b else n0 Rnum)))].
      + intros K' HK'. eapply is_matrix_ext; [exact HK'|]. intros a b Ha Hb. cbv beta. destruct (Nat.ltb_spec a j1), (Nat.eqb_spec a j1), (Nat.ltb_spec b p), (Nat.ltb_spec a (j1 + 1)); cbn [orb andb]; auto; lia.
      + lia.
      + eapply is_matrix_ext; [exact HK|]. intros a b Ha Hb. cbv beta. destruct (Nat.ltb_spec a j1), (Nat.eqb_spec a j1), (Nat.ltb_spec b 0); cbn [orb andb]; auto; lia.
      + intros j2 K' G1 G2 HK'. rewrite (mget_Ok C p p _ j1 j2 HC) by lia. cbn [bind]. rewrite !(vec_get _ sd p _ _ Hsd) by lia. cbn [bind]. cbv beta. destruct (Nat.ltb_spec j1 p); [|lia]. destruct (Nat.ltb_spec j2 p); [|lia].
        eapply mset_wp; [exact HK'|lia|lia|]. intros K1 HK1. eapply is_matrix_ext; [exact HK1|]. intros a b Ha Hb. unfold fset. cbv beta.
        destruct (Nat.eqb_spec a j1) as [->|], (Nat.eqb_spec b j2) as [->|]; cbn [andb].
        * destruct (Nat.ltb_spec j1 j1); [lia|]. destruct (Nat.ltb_spec j2 (j2 + 1)); [|lia]. reflexivity.
        * destruct (Nat.ltb_spec b j2), (Nat.ltb_spec b (j2 + 1)); cbn [orb andb]; auto; lia.
        * destruct (Nat.ltb_spec a j1); reflexivity.
        * destruct (Nat.ltb_spec a j1); reflexivity. }
  apply wp_elim in W. destruct W as (K & E & HK). exists K, c. split; [auto|]. split; [auto|]. split.
  - intros a b Ha Hb. split; [auto|]. split; [apply correlation_bound; auto|]. unfold c, correlation. now rewrite covariance_sym, (Rmult_comm (sqrt _)).
  - intros a Ha. unfold c, correlation. assert (Ev : covariance n (column f a) (column f a) = variance n (column f a)) by (unfold covariance, variance; now rewrite cosum_self). rewrite Ev.
    pose proof (variance_pos n _ Hn (Hc a Ha)) as P. rewrite sqrt_sqrt by lra. field. lra.
Qed.
Print Assumptions C60_correlation_matrix.

Theorem C60_matrix_errors : forall D n p f, is_matrix D n p f -> dims_fit p p ->
  ((n <= 1 \/ p = 0)%nat -> CovarianceMatrix Rstat D = Throw DomainError /\ CorrelationMatrix Rstat D = Throw DomainError) /\
  ((exists a, (a < p)%nat /\ constant n (column f a)) -> CorrelationMatrix Rstat D = Throw DomainError).
Proof.
  intros D n p f V Hd. pose proof V as (Lr & Lc & _). split.
  - intros H. unfold CovarianceMatrix, CorrelationMatrix. rewrite Lr, Lc. destruct (Nat.leb_spec n 1); auto. destruct (Nat.leb_spec p 0); auto. lia.
  - intros (a & Ha & Hc). unfold CorrelationMatrix. rewrite Lr, Lc. destruct (Nat.leb_spec n 1); auto. rewrite leb0 by lia.
    destruct (wp_elim _ _ _ (covmatrix_wp D n p f V ltac:(lia) ltac:(lia) Hd)) as (C & E & HC). rewrite E. cbn [bind]. snum.
    assert (Ev : forall j, covariance n (column f j) (column f j) = variance n (column f j)) by (intros; unfold covariance, variance; now rewrite cosum_self).
    destruct (first_bad (fun j => variance n (column f j) <= 0) p) as (k & K1 & K2 & K3); [intros; apply Rle_dec|exists a; split; auto; right; apply variance_zero; auto; lia|].
    assert (T : for_range 0 p (fun sd j => c <- mget C j j ;; if negb (Rltb 0 c) then Throw DomainError else vset sd j (sqrt c)) (repeat 0 p) = Throw DomainError).
    { set (G := fun j => map (fun i => if (i <? j)%nat then sqrt (variance n (column f i)) else 0) (seq 0 p)).
      assert (G0 : repeat 0 p = G 0%nat).
      { unfold G. eapply (is_vector_eq (repeat 0 p) _ p (fun _ => 0) (fun _ => 0)); auto; [apply is_vector_repeat|]. split; [now rewrite map_length, seq_length|].
        intros i Hi. rewrite nth_error_map, (nth_error_nth' _ 0%nat) by (rewrite seq_length; auto). reflexivity. }
      rewrite G0. apply (acc_throw _ k p _ G); auto.
      - intros i Hi. rewrite (mget_Ok C p p _ i i HC) by lia. cbn [bind]. rewrite !Ev. rewrite Rltb_true by (specialize (K3 i Hi); lra). cbn [negb].
        assert (GV : forall j, is_vector (G j) p (fun i => if (i <? j)%nat then sqrt (variance n (column f i)) else 0)).
        { intros j. split; [unfold G; now rewrite map_length, seq_length|]. intros b Hb. unfold G. rewrite nth_error_map, (nth_error_nth' _ 0%nat) by (rewrite seq_length; auto). rewrite seq_nth by auto. reflexivity. }
        apply wp_eq. eapply vsetf_wp; [apply GV|lia|]. intros v' Hv'. eapply is_vector_eq; [exact Hv'|apply GV|]. intros b Hb. unfold vfset. cbv beta.
        destruct (Nat.eqb_spec b i) as [->|]; [destruct (Nat.ltb_spec i (i + 1)); [reflexivity|lia]|]. destruct (Nat.ltb_spec b i), (Nat.ltb_spec b (i + 1)); auto; lia.
      - rewrite (mget_Ok C p p _ k k HC) by lia. cbn [bind]. rewrite !Ev. now rewrite Rltb_false. }
    rewrite T. reflexivity.
Qed.
Print Assumptions C60_matrix_errors.
