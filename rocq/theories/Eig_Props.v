(** * C88: the Jacobi eigenvalue solver for symmetric matrices

    [thr] is the library's zero threshold (10^-15 in double precision). *)
From Coq Require Import Reals Lra List Arith ZArith Lia Bool QArith.QArith QArith.Qcanon.
From Verif Require Import Base Num Mat_Model Mat_Proofs Mat_Props QR_Math Iter_Math RootFind_Model RootFind_Proofs RootFind_Props Fourier_Model Fourier_Spec Fourier_Props Fourier_Real Fourier_DCT Fit_Proofs Iter_Props Eig_Model Eig_Spec Eig_Math Eig_Proofs.
Import ListNotations.
Local Open Scope nat_scope.
Local Open Scope R_scope.

Lemma facts : forall thr S n a tol maxIter r lam v, 0 < thr -> is_sym S n a -> dim_ok n -> jac_solve Reig thr S tol maxIter = Ok r -> is_result r n lam v ->
  exists v' d r2, (forall i, (i < n)%nat -> lam i = d i i) /\ (forall i j, (i < n)%nat -> (j < n)%nat -> v i j = v' i j) /\ decomp n a v' d r2 /\ r_residual r = sqrt r2 /\ 0 <= r2 /\ r_converged r = negb (Rltb tol (sqrt r2)) /\
  (forall i j, (i < j)%nat -> (j < n)%nat -> d i i <= d j j) /\ r2 <= off2 n a /\ (0 <= r_iterations r <= Z.max 0 maxIter)%Z /\ (tol < sqrt r2 -> r_iterations r = Z.max 0 maxIter) /\
  (enough_tol thr n tol -> sqrt r2 <= tol \/ IZR (r_iterations r) * (thr * thr) <= off2 n a) /\
  (sqrt (off2 n a) <= tol \/ (maxIter <= 0)%Z -> r_iterations r = 0%Z /\ r2 = off2 n a) /\
  (tol < sqrt (off2 n a) -> (0 < maxIter)%Z -> (0 < r_iterations r)%Z) /\
  (n = 2%nat -> thr <= Rabs (a 0%nat 1%nat) -> 0 <= tol < sqrt (off2 n a) -> (0 < maxIter)%Z -> r_iterations r = 1%Z /\ r2 = 0) /\ (off2 n a < thr * thr -> r2 = off2 n a).
Proof.
  intros thr S n a tol maxIter r lam v Ht HS Hd E (H1 & H2). destruct (solve_core thr Ht n a S tol maxIter HS Hd) as (r' & v' & d & r2 & E' & K1 & K2 & K3 & K4 & K5 & K6 & K7 & K8 & K9 & K10 & K11 & K12 & K13 & K14).
  rewrite E in E'. injection E' as <-. exists v', d, r2. split. { intros i Hi. apply (vec_at _ _ _ i H1) in Hi as A1. apply (vec_at _ _ _ i K1) in Hi as A2. congruence. }
  split. { intros i j Hi Hj. eapply is_matrix_fun; eauto. }
  split; [auto|]. split; [auto|]. split. { destruct K3 as (_ & _ & _ & _ & <- & _). apply off_pos. } repeat (split; [solve [auto]|]). auto.
Qed.

(** ** C88 *)
(** the solver returns for every symmetric matrix the library can hold, and rejects the empty one *)
Theorem C88_outcome : forall thr S tol maxIter, 0 < thr ->
  (forall n a, is_sym S n a -> dim_ok n -> exists r lam v, jac_solve Reig thr S tol maxIter = Ok r /\ is_result r n lam v) /\
  (s_dim S = 0%nat -> jac_solve Reig thr S tol maxIter = Throw DimensionError).
Proof.
  intros thr S tol maxIter Ht. split.
  - intros n a HS Hd. destruct (solve_core thr Ht n a S tol maxIter HS Hd) as (r & v & d & r2 & E & K1 & K2 & _). exists r, (fun i => d i i), v. split; auto. split; auto.
  - intros E. unfold jac_solve. rewrite E. reflexivity.
Qed.
Print Assumptions C88_outcome.
(** the eigenvectors are orthonormal, the eigenvalues ascend, their sum is the trace and their squares with twice the squared residual are the squared norm of the matrix *)
Theorem C88_decomposition : forall thr S n a tol maxIter r lam v, 0 < thr -> is_sym S n a -> dim_ok n -> jac_solve Reig thr S tol maxIter = Ok r -> is_result r n lam v ->
  orthonormal n v /\ (forall i j, (i < j)%nat -> (j < n)%nat -> lam i <= lam j) /\
  rsum n lam = rsum n (fun i => a i i) /\ rsum n (fun i => lam i * lam i) + 2 * (r_residual r * r_residual r) = frob2 n a.
Proof.
  intros thr S n a tol maxIter r lam v Ht HS Hd E HR. destruct (facts thr S n a tol maxIter r lam v Ht HS Hd E HR) as (v' & d & r2 & L & V & D & -> & Rp & _ & So & _). rewrite sqrt_sqrt by auto. split; [|split; [|split]].
  - intros i j Hi Hj. destruct D as (_ & D & _). rewrite <- (D i j) by auto. apply rsum_ext. intros k Hk. rewrite !V by auto. auto.
  - intros i j Hij Hj. rewrite !L by lia. auto.
  - rewrite (rsum_ext n lam (fun i => d i i)) by auto. apply D.
  - rewrite <- (decomp_squares n a v' d r2 D). f_equal. apply rsum_ext. intros i Hi. rewrite L by auto. auto.
Qed.
Print Assumptions C88_decomposition.
(** every returned pair is an eigenpair up to the residual, and the residual never exceeds the off-diagonal norm of the matrix *)
Theorem C88_residual : forall thr S n a tol maxIter r lam v, 0 < thr -> is_sym S n a -> dim_ok n -> jac_solve Reig thr S tol maxIter = Ok r -> is_result r n lam v ->
  (forall j, (j < n)%nat -> sqrt (eig_error2 n a v (lam j) j) <= r_residual r) /\ 0 <= r_residual r <= sqrt (off2 n a).
Proof.
  intros thr S n a tol maxIter r lam v Ht HS Hd E HR. destruct (facts thr S n a tol maxIter r lam v Ht HS Hd E HR) as (v' & d & r2 & L & V & D & -> & Rp & _ & So & Le & _). split; [|split; [apply sqrt_pos|apply sqrt_le_1_alt; auto]].
  intros j Hj. apply sqrt_le_1_alt. rewrite L by auto. eapply Rle_trans; [|apply (decomp_error_le n a v' d r2 D j Hj)]. right. unfold eig_error2. apply rsum_ext. intros i Hi. cbv zeta. rewrite V by auto.
  rewrite (rsum_ext n (fun k => a i k * v k j) (fun k => a i k * v' k j)); auto. intros k Hk. rewrite V by auto. auto.
Qed.
Print Assumptions C88_residual.
(** the status: converged means residual <= tol; sweeps are counted, start only when needed, and only their limit stops them early *)
Theorem C88_status : forall thr S n a tol maxIter r lam v, 0 < thr -> is_sym S n a -> dim_ok n -> jac_solve Reig thr S tol maxIter = Ok r -> is_result r n lam v ->
  (r_converged r = true <-> r_residual r <= tol) /\ (0 <= r_iterations r <= Z.max 0 maxIter)%Z /\ (r_converged r = false -> r_iterations r = Z.max 0 maxIter) /\
  (r_iterations r = 0%Z <-> sqrt (off2 n a) <= tol \/ (maxIter <= 0)%Z) /\ (r_iterations r = 0%Z -> r_residual r = sqrt (off2 n a)).
Proof.
  intros thr S n a tol maxIter r lam v Ht HS Hd E HR. destruct (facts thr S n a tol maxIter r lam v Ht HS Hd E HR) as (v' & d & r2 & L & V & D & -> & Rp & -> & So & Le & I1 & I2 & _ & I3 & I4 & _).
  assert (W : r_iterations r = 0%Z -> sqrt (off2 n a) <= tol \/ (maxIter <= 0)%Z). { intros Z. destruct (Rle_lt_dec (sqrt (off2 n a)) tol); auto. destruct (Z.le_gt_cases maxIter 0); auto. specialize (I4 ltac:(auto) ltac:(lia)). lia. }
  split; [|split; [|split; [|split]]].
  - destruct (Rltb_spec tol (sqrt r2)); cbn [negb]; split; intros; try discriminate; try lra; auto.
  - auto.
  - destruct (Rltb_spec tol (sqrt r2)) as [T|T]; cbn [negb]; intros; [auto|discriminate].
  - split; [exact W|]. intros H. apply I3, H.
  - intros Z. destruct (I3 (W Z)) as (_ & ->). auto.
Qed.
Print Assumptions C88_status.
(** every true eigenvalue is within sqrt 2 times the residual of a returned one; with residual 0 the returned values are exactly the eigenvalues *)
Theorem C88_eigenvalues : forall thr S n a tol maxIter r lam v, 0 < thr -> is_sym S n a -> dim_ok n -> jac_solve Reig thr S tol maxIter = Ok r -> is_result r n lam v ->
  (forall mu, eigenvalue n a mu -> exists i, (i < n)%nat /\ Rabs (mu - lam i) <= sqrt 2 * r_residual r) /\
  (r_residual r = 0 -> forall mu, eigenvalue n a mu <-> exists i, (i < n)%nat /\ mu = lam i).
Proof.
  intros thr S n a tol maxIter r lam v Ht HS Hd E HR. pose proof (C88_residual thr S n a tol maxIter r lam v Ht HS Hd E HR) as (ER & _). pose proof (C88_decomposition thr S n a tol maxIter r lam v Ht HS Hd E HR) as (OR & _).
  destruct (facts thr S n a tol maxIter r lam v Ht HS Hd E HR) as (v' & d & r2 & L & V & D & EQ & Rp & _).
  assert (P : forall mu, eigenvalue n a mu -> exists i, (i < n)%nat /\ Rabs (mu - lam i) <= sqrt 2 * r_residual r).
  { intros mu Hm. destruct (decomp_near n a v' d r2 D mu Hm) as (i & Hi & B). exists i. split; auto. rewrite L by auto. rewrite EQ, <- sqrt_mult by lra. rewrite <- sqrt_Rsqr_abs. apply sqrt_le_1_alt. exact B. }
  split; auto. intros Z mu. split.
  - intros Hm. destruct (P mu Hm) as (i & Hi & B). exists i. split; auto. rewrite Z, Rmult_0_r in B. pose proof (Rabs_pos (mu - lam i)). assert (Rabs (mu - lam i) = 0) as A0 by lra. destruct (Req_dec (mu - lam i) 0) as [|N]; [lra|]. apply Rabs_no_R0 in N. contradiction.
  - intros (i & Hi & ->). exists (fun k => v k i). split.
    + destruct (Classical_Prop.classic (exists k, (k < n)%nat /\ v k i <> 0)) as [|N]; auto. exfalso. pose proof (OR i i Hi Hi) as O1. rewrite rsum_zero in O1; [unfold delta in O1; rewrite Nat.eqb_refl in O1; lra|]. intros k Hk. destruct (Req_dec (v k i) 0) as [->|Nz]; [ring|]. exfalso. apply N. eauto.
    + specialize (ER i Hi). rewrite Z in ER. pose proof (sqrt_pos (eig_error2 n a v (lam i) i)). assert (sqrt (eig_error2 n a v (lam i) i) = 0) as S0 by lra. apply sqrt_eq_0 in S0; [|apply rsum_pos; intros; apply Rle_0_sqr].
      intros k Hk. unfold eig_error2 in S0. assert (0 <= (rsum n (fun m => a k m * v m i) - lam i * v k i) * (rsum n (fun m => a k m * v m i) - lam i * v k i) <= 0) as B.
      { split; [apply Rle_0_sqr|]. rewrite <- S0. apply (rsum_elem n (fun k => let e := rsum n (fun m => a k m * v m i) - lam i * v k i in e * e) k Hk). intros; apply Rle_0_sqr. }
      assert ((rsum n (fun m => a k m * v m i) - lam i * v k i) * (rsum n (fun m => a k m * v m i) - lam i * v k i) = 0) as B0 by lra. apply Rmult_integral in B0. lra.
Qed.
Print Assumptions C88_eigenvalues.
(** the sweeps converge for every matrix when the tolerance is not below the threshold's share of the off-diagonal entries; the number of sweeps is bounded in advance *)
Theorem C88_converges : forall thr S n a tol maxIter r, 0 < thr -> is_sym S n a -> dim_ok n -> jac_solve Reig thr S tol maxIter = Ok r ->
  0 <= tol -> INR (n * (n - 1)) * (thr * thr) <= 2 * (tol * tol) -> off2 n a < IZR maxIter * (thr * thr) -> r_converged r = true.
Proof.
  intros thr S n a tol maxIter r Ht HS Hd E T1 T2 Lim. destruct (C88_outcome thr S tol maxIter Ht) as (O1 & _). destruct (O1 n a HS Hd) as (r' & lam & v & E' & HR). rewrite E in E'. injection E' as <-.
  destruct (facts thr S n a tol maxIter r lam v Ht HS Hd E HR) as (v' & d & r2 & L & V & D & EQ & Rp & -> & So & Le & I1 & I2 & I5 & _).
  destruct (Rltb_spec tol (sqrt r2)) as [T|T]; auto. exfalso. specialize (I2 T). destruct (I5 (Logic.conj T1 T2)) as [C|C]; [lra|]. rewrite I2 in C.
  assert (IZR maxIter <= IZR (Z.max 0 maxIter)) by (apply IZR_le; lia). assert (0 < thr * thr) by (apply Rmult_lt_0_compat; auto). assert (IZR maxIter * (thr * thr) <= IZR (Z.max 0 maxIter) * (thr * thr)) by (apply Rmult_le_compat_r; lra). lra.
Qed.
Print Assumptions C88_converges.
(** a 2 x 2 matrix is diagonalised exactly by one sweep *)
Theorem C88_two : forall thr S a tol maxIter r lam v, 0 < thr -> is_sym S 2 a -> jac_solve Reig thr S tol maxIter = Ok r -> is_result r 2 lam v ->
  thr <= Rabs (a 0%nat 1%nat) -> 0 <= tol < Rabs (a 0%nat 1%nat) -> (0 < maxIter)%Z ->
  r_iterations r = 1%Z /\ r_residual r = 0 /\ r_converged r = true /\ (forall i j, (i < 2)%nat -> (j < 2)%nat -> rsum 2 (fun k => a i k * v k j) = lam j * v i j) /\
  lam 0%nat + lam 1%nat = a 0%nat 0%nat + a 1%nat 1%nat /\ lam 0%nat * lam 1%nat = a 0%nat 0%nat * a 1%nat 1%nat - a 0%nat 1%nat * a 0%nat 1%nat.
Proof.
  intros thr S a tol maxIter r lam v Ht HS E HR T1 T2 M. assert (Hd : dim_ok 2) by (split; lia). assert (O : off2 2 a = a 0%nat 1%nat * a 0%nat 1%nat) by (unfold off2; cbn; ring).
  assert (SO : sqrt (off2 2 a) = Rabs (a 0%nat 1%nat)) by (rewrite O; apply sqrt_Rsqr_abs).
  pose proof (C88_decomposition thr S 2 a tol maxIter r lam v Ht HS Hd E HR) as (_ & _ & TR & FR). pose proof (C88_residual thr S 2 a tol maxIter r lam v Ht HS Hd E HR) as (ER & _).
  destruct (facts thr S 2 a tol maxIter r lam v Ht HS Hd E HR) as (v' & d & r2 & L & V & D & EQ & Rp & CV & So & Le & I1 & I2 & I5 & _ & _ & I6 & _). destruct (I6 eq_refl T1 ltac:(rewrite SO; auto) M) as (Q1 & ->). rewrite sqrt_0 in *.
  split; [auto|]. split; [auto|]. split; [rewrite CV; destruct (Rltb_spec tol 0); [lra|auto]|]. split.
  - intros i j Hi Hj. specialize (ER j Hj). rewrite EQ in ER. pose proof (sqrt_pos (eig_error2 2 a v (lam j) j)). assert (sqrt (eig_error2 2 a v (lam j) j) = 0) as S0 by lra. apply sqrt_eq_0 in S0; [|apply rsum_pos; intros; apply Rle_0_sqr].
    unfold eig_error2 in S0. set (e := fun i => rsum 2 (fun m => a i m * v m j) - lam j * v i j) in *. assert (e i * e i <= 0) as B. { rewrite <- S0. apply (rsum_elem 2 (fun i => e i * e i) i Hi). intros; apply Rle_0_sqr. }
    pose proof (Rle_0_sqr (e i)) as B2. unfold Rsqr in B2. assert (e i * e i = 0) as B0 by lra. apply Rmult_integral in B0. unfold e in B0. lra.
  - rewrite EQ in FR. unfold frob2 in FR. cbn in TR, FR. destruct HS as (_ & HS). rewrite (proj2 (HS 1%nat 0%nat ltac:(lia) ltac:(lia))) in FR. split; [lra|]. assert (TR' : lam 0%nat + lam 1%nat = a 0%nat 0%nat + a 1%nat 1%nat) by lra.
    assert (X : (lam 0%nat + lam 1%nat) * (lam 0%nat + lam 1%nat) = (a 0%nat 0%nat + a 1%nat 1%nat) * (a 0%nat 0%nat + a 1%nat 1%nat)) by (rewrite TR'; ring). lra.
Qed.
Print Assumptions C88_two.

(** ** The storage of MatrixSym *)
Definition tri (j : nat) : nat := (j * (j + 1) / 2)%nat.
Lemma tri_S : forall j, tri (S j) = (tri j + S j)%nat.
Proof. intros j. unfold tri. replace (S j * (S j + 1))%nat with (j * (j + 1) + S j * 2)%nat by lia. rewrite Nat.div_add by lia. auto. Qed.
Lemma tri_mono : forall i j, (i <= j)%nat -> (tri i <= tri j)%nat.
Proof. intros i j H. induction H; [lia|]. rewrite tri_S. lia. Qed.
Lemma sym_index_eq : forall i j, sym_index i j = (tri (Nat.max i j) + Nat.min i j)%nat.
Proof. intros i j. unfold sym_index, tri. destruct (Nat.ltb_spec i j); [rewrite Nat.max_r, Nat.min_l by lia|rewrite Nat.max_l, Nat.min_r by lia]; auto. Qed.
Lemma sym_index_lt : forall n i j, (i < n)%nat -> (j < n)%nat -> (sym_index i j < tri n)%nat.
Proof. intros n i j Hi Hj. rewrite sym_index_eq. pose proof (tri_mono (S (Nat.max i j)) n ltac:(lia)) as H. rewrite tri_S in H. lia. Qed.
Lemma sym_index_inj : forall i j k l, sym_index i j = sym_index k l <-> (i = k /\ j = l) \/ (i = l /\ j = k).
Proof.
  intros i j k l. rewrite !sym_index_eq. split; [|intros [[-> ->]|[-> ->]]; rewrite ?(Nat.max_comm l k), ?(Nat.min_comm l k); auto]. intros H.
  assert (M : Nat.max i j = Nat.max k l). { destruct (Nat.lt_trichotomy (Nat.max i j) (Nat.max k l)) as [L|[L|L]]; auto; [pose proof (tri_mono (S (Nat.max i j)) (Nat.max k l) L) as T|pose proof (tri_mono (S (Nat.max k l)) (Nat.max i j) L) as T]; rewrite tri_S in T; lia. }
  rewrite M in H. lia.
Qed.
(** entry (i, j) and entry (j, i) are one cell and no other entry shares it: a write is seen by exactly these two *)
Theorem C88_storage : forall n (S : symmat R) i j x, s_dim S = n -> length (s_data S) = (n * (n + 1) / 2)%nat -> (i < n)%nat -> (j < n)%nat ->
  exists S', sym_set S i j x = Ok S' /\ s_dim S' = n /\ length (s_data S') = length (s_data S) /\
  forall k l, (k < n)%nat -> (l < n)%nat -> exists y, sym_get S k l = Ok y /\ sym_get S' k l = Ok (if (Nat.eqb k i && Nat.eqb l j) || (Nat.eqb k j && Nat.eqb l i) then x else y).
Proof.
  intros n S i j x Hd HL Hi Hj. fold (tri n) in HL. pose proof (sym_index_lt n i j Hi Hj) as LI. unfold sym_set, vset. rewrite HL. apply Nat.ltb_lt in LI as LB. rewrite LB. cbn [bind]. eexists. split; [reflexivity|]. cbn [s_dim s_data]. split; auto. split; [rewrite upd_length; lia|].
  intros k l Hk Hl. pose proof (sym_index_lt n k l Hk Hl) as LK. unfold sym_get, vget. cbn [s_data]. destruct (nth_error (s_data S) (sym_index k l)) as [y|] eqn:E; [|apply nth_error_None in E; lia]. exists y. split; auto.
  destruct ((Nat.eqb k i && Nat.eqb l j) || (Nat.eqb k j && Nat.eqb l i)) eqn:B.
  - assert (IX : sym_index i j = sym_index k l). { apply sym_index_inj. apply orb_true_iff in B. destruct B as [B|B]; apply andb_true_iff in B; destruct B as [B1 B2]; apply Nat.eqb_eq in B1, B2; subst; auto. }
    rewrite IX. rewrite nth_error_upd_eq by lia. auto.
  - rewrite nth_error_upd_neq; [rewrite E; auto|]. intros C. apply sym_index_inj in C. destruct C as [[-> ->]|[-> ->]]; rewrite !Nat.eqb_refl in B; cbn in B; rewrite ?orb_true_r in B; discriminate.
Qed.
Print Assumptions C88_storage.

(** ** The overloads *)
Lemma symmetrise_ok : forall (A : matrix R) n f, is_matrix A n n f -> dim_ok n -> exists S, jac_symmetrise Reig A = Ok S /\ is_sym S n (fun i j => (f i j + f j i) / 2).
Proof.
  intros A n f HA Hd. set (g := fun i j => (f i j + f j i) / 2).
  enough (W : wp (jac_symmetrise Reig A) (fun S => is_sym S n g)) by (destruct (wp_elim _ _ _ W) as (S & E & H); eauto).
  unfold jac_symmetrise. replace (m_rows A) with n by (symmetry; apply HA). destruct Hd as [Hn Hb].
  assert (T2 : (Z.of_nat n * (Z.of_nat n + 1) / 2 = Z.of_nat (tri n))%Z). { unfold tri. rewrite Nat2Z.inj_div, Nat2Z.inj_mul, Nat2Z.inj_add. reflexivity. }
  assert (T3 : (Z.of_nat (tri n) <= 50000000)%Z). { rewrite <- T2. apply Z.div_le_upper_bound; nia. }
  unfold sym_new. destruct (Z.eqb_spec (Z.of_nat n) 0) as [?C|_]; [lia|]. destruct (Z.ltb_spec (Z.of_nat n) 0) as [?C|_]; [lia|]. destruct (Z.ltb_spec 10000 (Z.of_nat n)) as [?C|_]; [lia|]. cbn [orb]. rewrite T2. destruct (Z.ltb_spec 50000000 (Z.of_nat (tri n))) as [?C|_]; [lia|]. cbn [bind]. rewrite !Nat2Z.id.
  set (I := fun i j S => s_dim S = n /\ length (s_data S) = tri n /\ forall x y, (x <= y)%nat -> (y < n)%nat -> (x < i \/ (x = i /\ y < j))%nat -> sym_get S x y = Ok (g x y)).
  eapply wp_conseq; [|apply (for_range_inv _ _ (fun i S => I i i S))].
  - intros S (H1 & H2 & H3). split; auto. intros i j Hi Hj. split; [|unfold g; lra]. destruct (Nat.le_ge_cases i j).
    + apply H3; lia.
    + replace (sym_get S i j) with (sym_get S j i) by (unfold sym_get; f_equal; apply sym_index_inj; auto). rewrite H3 by lia. f_equal. unfold g. lra.
  - lia.
  - split; [reflexivity|]. split; [apply repeat_length|]. intros; lia.
  - intros i S _ Hi HI. eapply wp_conseq; [|apply (for_range_inv _ _ (fun j S => I i j S))].
    + intros S' (H1 & H2 & H3). split; auto. split; auto. intros x y Hxy Hy Hc. apply H3; lia.
    + lia.
    + exact HI.
    + intros j S' Hlo Hj (H1 & H2 & H3). rewrite (mget_ok A n n f i j HA), (mget_ok A n n f j i HA) by lia. cbn [bind]. enum.
      destruct (C88_storage n S' i j (1 / 2 * (f i j + f j i)) H1 H2 ltac:(lia) ltac:(lia)) as (S2 & E & K1 & K2 & K3). rewrite E. cbn [wp]. split; auto. split; [congruence|]. intros x y Hxy Hy Hc. destruct (K3 x y ltac:(lia) Hy) as (z & G1 & ->).
      destruct ((Nat.eqb x i && Nat.eqb y j) || (Nat.eqb x j && Nat.eqb y i)) eqn:B.
      * f_equal. apply orb_true_iff in B. destruct B as [B|B]; apply andb_true_iff in B; destruct B as [B1 B2]; apply Nat.eqb_eq in B1, B2; subst; unfold g; lra.
      * rewrite <- G1. apply H3; auto. apply orb_false_iff in B. destruct B as [B _]. apply andb_false_iff in B. destruct B as [B|B]; apply Nat.eqb_neq in B; lia.
Qed.
(** the overload for a general square matrix solves for the symmetric part (A + A^T)/2; the configured overloads run the same solver, replacing a limit that is not positive by 100, and report success exactly when it converged *)
Theorem C88_overloads : forall thr (A : matrix R) n f, is_matrix A n n f -> dim_ok n -> exists S, is_sym S n (fun i j => (f i j + f j i) / 2) /\
  (forall tol maxIter, jac_solve_matrix Reig thr A tol maxIter = jac_solve Reig thr S tol maxIter) /\
  forall cfg, jac_solve_matrix_config Reig thr A cfg = jac_solve_config Reig thr S cfg /\
    (forall r ok, jac_solve_config Reig thr S cfg = Ok (r, ok) <-> jac_solve Reig thr S (cf_tolerance cfg) (if (0 <? cf_max_iterations cfg)%Z then cf_max_iterations cfg else 100%Z) = Ok r /\ ok = r_converged r).
Proof.
  intros thr A n f HA Hd. destruct (symmetrise_ok A n f HA Hd) as (S & E & HS). exists S. split; auto. split; [intros; unfold jac_solve_matrix; rewrite E; auto|]. intros cfg. split; [unfold jac_solve_matrix_config; rewrite E; auto|].
  intros r ok. unfold jac_solve_config. destruct (jac_solve Reig thr S _ _) as [r'| | |]; cbn [bind]; split; try discriminate; try (intros [X _]; discriminate X).
  - intros X. injection X as <- <-. split; auto. destruct (r_converged r'); auto.
  - intros [X ->]. injection X as ->. destruct (r_converged r); auto.
Qed.
Print Assumptions C88_overloads.

(** ** Examples and refuted statements *)
Definition sym2 (x y z : R) : symmat R := mkSym 2 [x; y; z].
Definition fun2 (x y z : R) (i j : nat) : R := match i, j with 0%nat, 0%nat => x | 1%nat, 1%nat => z | _, _ => y end.
Lemma sym2_ok : forall x y z, is_sym (sym2 x y z) 2 (fun2 x y z).
Proof. intros x y z. split; [reflexivity|]. intros i j Hi Hj. destruct i as [|[|i]]; [| |lia]; (destruct j as [|[|j]]; [| |lia]); split; reflexivity. Qed.
Lemma dim2 : dim_ok 2. Proof. split; lia. Qed.
Lemma off_sym2 : forall x y z, sqrt (off2 2 (fun2 x y z)) = Rabs y.
Proof. intros x y z. replace (off2 2 (fun2 x y z)) with (Rsqr y) by (unfold off2, Rsqr; cbn; ring). apply sqrt_Rsqr_abs. Qed.
(** the postcondition A V = V diag(lambda) of the documentation does not hold for converged results, whatever positive tolerance is used: [[0, u], [u, 0]] with u = tol is accepted as diagonal *)
Theorem C88_exact_refuted : ~ (exists thr tol maxIter, 0 < thr /\ 0 < tol /\ forall S n a r lam v, is_sym S n a -> dim_ok n -> jac_solve Reig thr S tol maxIter = Ok r -> is_result r n lam v -> r_converged r = true ->
  forall i j, (i < n)%nat -> (j < n)%nat -> rsum n (fun k => a i k * v k j) = lam j * v i j).
Proof.
  intros (thr & tol & maxIter & Ht & Htol & H). destruct (C88_outcome thr (sym2 0 tol 0) tol maxIter Ht) as (O1 & _). destruct (O1 2%nat _ (sym2_ok 0 tol 0) dim2) as (r & lam & v & E & HR).
  pose proof (C88_status thr _ 2 _ tol maxIter r lam v Ht (sym2_ok 0 tol 0) dim2 E HR) as (C1 & _ & _ & C2 & C3). rewrite off_sym2, (Rabs_pos_eq tol) in * by lra. assert (I0 : r_iterations r = 0%Z) by (apply C2; lra). specialize (C3 I0). assert (CV : r_converged r = true) by (apply C1; lra).
  pose proof (C88_decomposition thr _ 2 _ tol maxIter r lam v Ht (sym2_ok 0 tol 0) dim2 E HR) as (OR & _ & _ & FR). rewrite C3 in FR. unfold frob2 in FR. cbn in FR.
  assert (L0 : lam 0%nat = 0). { pose proof (Rle_0_sqr (lam 0%nat)). pose proof (Rle_0_sqr (lam 1%nat)). unfold Rsqr in *. assert (lam 0%nat * lam 0%nat = 0) as Z by lra. apply Rmult_integral in Z. tauto. }
  pose proof (H _ 2%nat _ r lam v (sym2_ok 0 tol 0) dim2 E HR CV 0%nat 0%nat ltac:(lia) ltac:(lia)) as Q0. pose proof (H _ 2%nat _ r lam v (sym2_ok 0 tol 0) dim2 E HR CV 1%nat 0%nat ltac:(lia) ltac:(lia)) as Q1. cbn in Q0, Q1. rewrite L0 in Q0, Q1.
  assert (tol * v 1%nat 0%nat = 0) as Z1 by lra. assert (tol * v 0%nat 0%nat = 0) as Z0 by lra. apply Rmult_integral in Z0, Z1. destruct Z0 as [Z0|Z0]; [lra|]. destruct Z1 as [Z1|Z1]; [lra|]. pose proof (OR 0%nat 0%nat ltac:(lia) ltac:(lia)) as U. cbn in U. rewrite Z0, Z1 in U. unfold delta in U. cbn in U. lra.
Qed.
Print Assumptions C88_exact_refuted.
(** a smaller tolerance and more sweeps do not always reach it: entries below the zero threshold are never rotated away, so a tolerance below them is never met *)
Theorem C88_tolerance_refuted : ~ (exists thr, 0 < thr /\ forall S n a tol, is_sym S n a -> dim_ok n -> 0 < tol -> exists maxIter r, jac_solve Reig thr S tol maxIter = Ok r /\ r_converged r = true).
Proof.
  intros (thr & Ht & H). destruct (H _ 2%nat _ (thr / 4) (sym2_ok 0 (thr / 2) 0) dim2 ltac:(lra)) as (maxIter & r & E & CV). destruct (C88_outcome thr (sym2 0 (thr / 2) 0) (thr / 4) maxIter Ht) as (O1 & _). destruct (O1 2%nat _ (sym2_ok 0 (thr / 2) 0) dim2) as (r' & lam & v & E' & HR). rewrite E in E'. injection E' as <-.
  pose proof (C88_status thr _ 2 _ (thr / 4) maxIter r lam v Ht (sym2_ok _ _ _) dim2 E HR) as (C1 & _). apply C1 in CV.
  destruct (facts thr _ 2 _ (thr / 4) maxIter r lam v Ht (sym2_ok _ _ _) dim2 E HR) as (v' & d & r2 & _ & _ & _ & EQ & _ & _ & _ & _ & _ & _ & _ & _ & _ & _ & S0). rewrite EQ, S0, off_sym2, Rabs_pos_eq in CV by (try lra; unfold off2; cbn; assert (0 < thr * thr) by (apply Rmult_lt_0_compat; auto); lra). lra.
Qed.
Print Assumptions C88_tolerance_refuted.
(** a non-symmetric matrix is not rejected: for the quarter turn [[0, 1], [-1, 0]], which has no real eigenvalue, the solver converges with residual 0 and eigenvalues 0, 0 *)
Theorem C88_nonsymmetric_refuted : ~ (forall thr A n f tol maxIter r lam v, 0 < thr -> 0 <= tol -> is_matrix A n n f -> dim_ok n -> jac_solve_matrix Reig thr A tol maxIter = Ok r -> is_result r n lam v -> r_converged r = true -> r_residual r = 0 ->
  forall j, (j < n)%nat -> eigenvalue n f (lam j)).
Proof.
  intros H. set (f := fun i j : nat => match i, j with 0%nat, 1%nat => 1 | 1%nat, 0%nat => -1 | _, _ => 0 end). pose proof (mat_of 2 f) as HA. set (A := mkMat 2 2 _) in HA.
  destruct (C88_overloads 1 A 2 f HA dim2) as (S & HS & EM & _). destruct (C88_outcome 1 S 0 5 ltac:(lra)) as (O1 & _). destruct (O1 2%nat _ HS dim2) as (r & lam & v & E & HR).
  assert (Z2 : off2 2 (fun i j => (f i j + f j i) / 2) = 0) by (unfold off2, f; cbn; field). assert (Ft : frob2 2 (fun i j => (f i j + f j i) / 2) = 0) by (unfold frob2, f; cbn; field).
  pose proof (C88_status 1 S 2 _ 0 5 r lam v ltac:(lra) HS dim2 E HR) as (C1 & _ & _ & C2 & C3). rewrite Z2, sqrt_0 in *. assert (I0 : r_iterations r = 0%Z) by (apply C2; lra). specialize (C3 I0).
  assert (CV : r_converged r = true) by (apply C1; lra). pose proof (C88_decomposition 1 S 2 _ 0 5 r lam v ltac:(lra) HS dim2 E HR) as (_ & _ & _ & FR). rewrite C3, Ft in FR. cbn in FR.
  assert (L0 : lam 0%nat = 0). { pose proof (Rle_0_sqr (lam 0%nat)). pose proof (Rle_0_sqr (lam 1%nat)). unfold Rsqr in *. assert (lam 0%nat * lam 0%nat = 0) as Z by lra. apply Rmult_integral in Z. tauto. }
  destruct (H 1 A 2%nat f 0 5%Z r lam v ltac:(lra) ltac:(lra) HA dim2 ltac:(rewrite EM; exact E) HR CV C3 0%nat ltac:(lia)) as (x & (k & Hk & Nk) & HX). pose proof (HX 0%nat ltac:(lia)) as X0. pose proof (HX 1%nat ltac:(lia)) as X1. rewrite L0 in X0, X1. unfold f in X0, X1. cbn in X0, X1. apply Nk. destruct k as [|[|k]]; [lra|lra|lia].
Qed.
Print Assumptions C88_nonsymmetric_refuted.

(** one sweep on [[0, 12], [12, 7]]: eigenvalues -9 and 16; a 3 x 3 matrix with a zero row.  The arithmetic is rational, with angles represented by their tangents *)
Definition Qeig : eigalg Qc := mkEig Qc (mkTrig Qc Qarith (fun t => 1 / asqrt Qarith (1 + t * t))%Qc (fun t => t / asqrt Qarith (1 + t * t))%Qc (q 3 1)) (fun t => t).
Definition eshow (m : res (eigres Qc)) : option (list (Z * positive) * list (Z * positive) * bool * Z * (Z * positive)) :=
  match m with Ok r => Some (map showq (r_values r), map showq (m_data (r_vectors r)), r_converged r, r_iterations r, showq (r_residual r)) | _ => None end.
Example C88_ex_run : eshow (jac_solve Qeig (q 1 1000000) (mkSym 2 [q 0 1; q 12 1; q 7 1]) (q 1 1000) 10) =
  Some ([((-9)%Z, 1%positive); (16%Z, 1%positive)], [(4%Z, 5%positive); (3%Z, 5%positive); ((-3)%Z, 5%positive); (4%Z, 5%positive)], true, 1%Z, (0%Z, 1%positive)).
Proof. vm_compute. reflexivity. Qed.
Example C88_ex_three : eshow (jac_solve Qeig (q 1 1000000) (mkSym 3 [q 20 1; q 0 1; q 0 1; q 0 1; q 12 1; q 7 1]) (q 1 1000) 10) =
  Some ([((-9)%Z, 1%positive); (16%Z, 1%positive); (20%Z, 1%positive)], [(0%Z, 1%positive); (0%Z, 1%positive); (1%Z, 1%positive); (4%Z, 5%positive); (3%Z, 5%positive); (0%Z, 1%positive); ((-3)%Z, 5%positive); (4%Z, 5%positive); (0%Z, 1%positive)], true, 1%Z, (0%Z, 1%positive)).
Proof. vm_compute. reflexivity. Qed.
Example C88_ex_real : exists r lam v, jac_solve Reig (1 / 1000) (sym2 0 12 7) (1 / 100) 10 = Ok r /\ is_result r 2 lam v /\ r_converged r = true /\ lam 0%nat = -9 /\ lam 1%nat = 16.
Proof.
  destruct (C88_outcome (1 / 1000) (sym2 0 12 7) (1 / 100) 10 ltac:(lra)) as (O1 & _). destruct (O1 2%nat _ (sym2_ok _ _ _) dim2) as (r & lam & v & E & HR). exists r, lam, v.
  assert (A12 : Rabs 12 = 12) by (apply Rabs_pos_eq; lra). pose proof (C88_two (1 / 1000) _ _ (1 / 100) 10 r lam v ltac:(lra) (sym2_ok _ _ _) E HR) as T. cbn [fun2] in T. rewrite A12 in T. destruct (T ltac:(lra) ltac:(lra) ltac:(lia)) as (_ & _ & CV & _ & T1 & T2).
  pose proof (C88_decomposition (1 / 1000) _ 2 _ (1 / 100) 10 r lam v ltac:(lra) (sym2_ok _ _ _) dim2 E HR) as (_ & AS & _). specialize (AS 0%nat 1%nat ltac:(lia) ltac:(lia)).
  assert (E1 : lam 1%nat = 7 - lam 0%nat) by lra. rewrite E1 in T2, AS. assert ((lam 0%nat + 9) * (lam 0%nat - 16) = 0) as Z. { replace ((lam 0%nat + 9) * (lam 0%nat - 16)) with (- (lam 0%nat * (7 - lam 0%nat)) - 144) by ring. rewrite T2. ring. } apply Rmult_integral in Z. split; [auto|]. split; [exact HR|]. split; [auto|]. destruct Z; split; lra.
Qed.
