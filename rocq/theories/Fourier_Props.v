(** * C54, C55: the discrete Fourier transform and the radix-2 FFT *)

From Coq Require Import List Arith Bool Lia ZArith Reals Lra Ring.
From Verif Require Import Base Num Mat_Proofs RootFind_Model RootFind_Proofs Interp_Linear Fourier_Model Fourier_Spec Fourier_FFT.
Import ListNotations.
Local Open Scope R_scope.

Ltac tnum := cbn [Rtrig tar tpi tcos tsin] in *; rnum.
Lemma wp_eq : forall A (m : res A) a, wp m (fun x => x = a) -> m = Ok a.
Proof. intros A m a H. destruct (wp_elim _ _ _ H) as (x & E & ->). exact E. Qed.
Lemma eq_wp : forall A (m : res A) a (Q : A -> Prop), m = Ok a -> Q a -> wp m Q.
Proof. intros A m a Q -> H. exact H. Qed.

Lemma Cscal : forall r z, Cmul (RtoC r) z = (r * fst z, r * snd z).
Proof. intros. apply C_eq; cbn; ring. Qed.
Lemma dft_bin_ok : forall sg data N x k, is_vector data N x -> dft_bin Rtrig sg data k = Ok (Csum N (fun j => Cmul (x j) (expi (sg * (2 * PI * INR (k * j) / INR N))))).
Proof.
  intros sg data N x k HD. apply wp_eq. unfold dft_bin. rewrite (proj1 HD).
  eapply wp_conseq; [|apply (for_range_inv _ _ (fun n s => s = Csum n (fun j => Cmul (x j) (expi (sg * (2 * PI * INR (k * j) / INR N))))))].
  - intros s H. exact H.
  - lia.
  - reflexivity.
  - intros j s _ Hj ->. rewrite (vec_get _ data N x) by auto. cbn [bind]. apply wp_Ok. rewrite Nat.add_1_r, CsumS. unfold cadd, cmul, cis. tnum. unfold Cadd, Cmul, expi. cbn [fst snd].
    rewrite <- !INR_IZR_INZ, mult_INR. replace (sg * (2 * PI) * INR k * INR j / INR N) with (sg * (2 * PI * (INR k * INR j) / INR N)) by (unfold Rdiv; ring). reflexivity.
Qed.
Lemma dft_sum : forall N x k, Csum N (fun j => Cmul (x j) (expi (-1 * (2 * PI * INR (k * j) / INR N)))) = dft N x k.
Proof. intros. apply Csum_ext. intros j Hj. f_equal. f_equal. rewrite (Nat.mul_comm k j). ring. Qed.

(** ** C54: DFT *)
(** Forward returns X_k = sum_j x_j e^(-2 pi i j k / N), Inverse returns x_j = 1/N sum_k X_k e^(2 pi i j k / N) *)
Theorem C54_forward : forall data N x, is_vector data N x -> (1 <= N)%nat -> exists r, DFT_Forward Rtrig data = Ok r /\ is_vector r N (dft N x).
Proof.
  intros data N x HD HN. enough (W : wp (DFT_Forward Rtrig data) (fun r => is_vector r N (dft N x))) by (destruct (wp_elim _ _ _ W); eauto).
  unfold DFT_Forward. rewrite (proj1 HD). destruct (Nat.eqb_spec N 0); [lia|].
  eapply (vfill_wp (fun k => dft_bin Rtrig _ data k) _ N _ (dft N x)); [apply is_vector_repeat| |auto]. intros k Hk. rewrite (dft_bin_ok _ data N x k HD). tnum. cbn [wp]. replace (- (1)) with (-1) by ring. apply dft_sum.
Qed.
Print Assumptions C54_forward.
Theorem C54_inverse : forall data N X, is_vector data N X -> (1 <= N)%nat -> exists r, DFT_Inverse Rtrig data = Ok r /\ is_vector r N (idft N X).
Proof.
  intros data N X HD HN. enough (W : wp (DFT_Inverse Rtrig data) (fun r => is_vector r N (idft N X))) by (destruct (wp_elim _ _ _ W); eauto).
  unfold DFT_Inverse. rewrite (proj1 HD). destruct (Nat.eqb_spec N 0); [lia|]. assert (0 < INR N) by (apply lt_0_INR; lia).
  eapply wp_conseq; [|apply (for_range_inv _ _ (fun i r => is_vector r N (fun k => if (k <? i)%nat then idft N X k else czero Rtrig)))].
  - intros r Hr. eapply is_vector_ext; [exact Hr|]. intros k Hk. cbv beta. destruct (Nat.ltb_spec k N); auto; lia.
  - lia.
  - eapply is_vector_ext; [apply is_vector_repeat|]. intros k Hk. reflexivity.
  - intros j r _ Hj Hr. rewrite (dft_bin_ok _ data N X j HD). cbn [bind]. eapply vsetf_wp; [exact Hr|auto|]. intros r' Hr'. eapply is_vector_ext; [exact Hr'|]. intros k Hk. unfold vfset. cbv beta.
    destruct (Nat.eqb_spec k j) as [->|NE].
    + destruct (Nat.ltb_spec j (j + 1)); [|lia]. unfold idft. tnum. unfold cdivr. rewrite Cscal. tnum. rewrite <- INR_IZR_INZ.
      rewrite (Csum_ext N _ (fun k => Cmul (X k) (expi (2 * PI * INR (j * k) / INR N)))). 2: { intros l Hl. rewrite Rmult_1_l. reflexivity. }
      f_equal; unfold Rdiv; ring.
    + destruct (Nat.ltb_spec k j), (Nat.ltb_spec k (j + 1)); auto; lia.
Qed.
Print Assumptions C54_inverse.
(** the two are inverse to each other, in both orders, for every length *)
Theorem C54_round_trip : forall data, data <> [] -> exists X x,
  DFT_Forward Rtrig data = Ok X /\ DFT_Inverse Rtrig X = Ok data /\ DFT_Inverse Rtrig data = Ok x /\ DFT_Forward Rtrig x = Ok data.
Proof.
  intros data NE. assert (HN : (1 <= length data)%nat) by (destruct data; [congruence|cbn; lia]). pose proof (is_vector_self data (0, 0)) as HD. set (N := length data) in *. set (f := fun i => nth i data (0, 0)) in *.
  destruct (C54_forward data N f HD HN) as (X & E1 & H1). destruct (C54_inverse data N f HD HN) as (x & E2 & H2). destruct (C54_inverse X N _ H1 HN) as (y & E3 & H3). destruct (C54_forward x N _ H2 HN) as (z & E4 & H4).
  exists X, x. split; auto. split; [|split; auto].
  - rewrite E3. f_equal. eapply is_vector_eq; [exact H3|exact HD|]. intros i Hi. apply idft_dft. auto.
  - rewrite E4. f_equal. eapply is_vector_eq; [exact H4|exact HD|]. intros i Hi. apply dft_idft. auto.
Qed.
Print Assumptions C54_round_trip.
(** real input, single bins, empty input, index check *)
Theorem C54_real : forall data N x, is_vector data N x -> (1 <= N)%nat -> exists r, DFT_Forward_real Rtrig data = Ok r /\ is_vector r N (dft N (fun j => RtoC (x j))) /\ DFT_InverseReal Rtrig r = Ok data.
Proof.
  intros data N x HD HN.
  assert (W : wp (for_range 0 N (fun c i => x <- vget data i ;; vset c i (x, alit (tar Rtrig) 0)) (repeat (czero Rtrig) N)) (fun c => is_vector c N (fun j => RtoC (x j)))).
  { assert (E : forall c i, (x <- vget data i ;; vset c i (x, alit (tar Rtrig) 0)) = (z <- (x <- vget data i ;; Ok (RtoC x)) ;; vset c i z)) by (intros; destruct (vget data i); reflexivity).
    eapply wp_conseq; [|apply (for_range_inv _ _ (fun i c => is_vector c N (fun k => if (k <? i)%nat then RtoC (x k) else czero Rtrig)))].
    - intros c Hc. eapply is_vector_ext; [exact Hc|]. intros k Hk. cbv beta. destruct (Nat.ltb_spec k N); auto; lia.
    - lia.
    - eapply is_vector_ext; [apply is_vector_repeat|]. intros k Hk. reflexivity.
    - intros i c _ Hi Hc. rewrite (vec_get _ data N x) by auto. cbn [bind]. eapply vsetf_wp; [exact Hc|auto|]. intros c' Hc'. eapply is_vector_ext; [exact Hc'|]. intros k Hk. unfold vfset. cbv beta.
      destruct (Nat.eqb_spec k i) as [->|NE]; [destruct (Nat.ltb_spec i (i + 1)); [reflexivity|lia]|]. destruct (Nat.ltb_spec k i), (Nat.ltb_spec k (i + 1)); auto; lia. }
  destruct (wp_elim _ _ _ W) as (c & E & HC). destruct (C54_forward c N _ HC HN) as (r & ER & HR). exists r. split; [|split; auto].
  - unfold DFT_Forward_real. rewrite (proj1 HD). destruct (Nat.eqb_spec N 0); [lia|]. rewrite E. cbn [bind]. exact ER.
  - unfold DFT_InverseReal. destruct (C54_inverse r N _ HR HN) as (y & EY & HY). rewrite EY. cbn [bind]. rewrite (proj1 HY). apply wp_eq.
    eapply wp_conseq; [|apply (for_range_inv _ _ (fun i c => is_vector c N (fun k => if (k <? i)%nat then x k else 0)))].
    + intros d Hd. eapply is_vector_eq; [exact Hd|exact HD|]. intros k Hk. cbv beta. destruct (Nat.ltb_spec k N); auto; lia.
    + lia.
    + eapply is_vector_ext; [apply is_vector_repeat|]. intros k Hk. reflexivity.
    + intros i d _ Hi Hd. rewrite (vec_get _ y N _ i HY Hi). cbn [bind]. eapply vsetf_wp; [exact Hd|auto|]. intros c' Hc'. eapply is_vector_ext; [exact Hc'|]. intros k Hk. unfold vfset. cbv beta.
      destruct (Nat.eqb_spec k i) as [->|NE]; [destruct (Nat.ltb_spec i (i + 1)); [|lia]|]. { rewrite idft_dft by auto. reflexivity. } destruct (Nat.ltb_spec k i), (Nat.ltb_spec k (i + 1)); auto; lia.
Qed.
Print Assumptions C54_real.
Theorem C54_bin : forall data N x k, is_vector data N x ->
  ((0 <= k < Z.of_nat N)%Z -> DFT_ComputeBin Rtrig data k = Ok (dft N x (Z.to_nat k))) /\ (~ (0 <= k < Z.of_nat N)%Z -> DFT_ComputeBin Rtrig data k = Throw InvalidArgument).
Proof.
  intros data N x k HD. unfold DFT_ComputeBin. rewrite (proj1 HD). split; intros Hk; destruct (Z.ltb_spec k 0), (Z.leb_spec (Z.of_nat N) k); try lia; cbn [orb]; auto.
  rewrite (dft_bin_ok _ data N x _ HD). tnum. f_equal. replace (- (1)) with (-1) by ring. apply dft_sum.
Qed.
Print Assumptions C54_bin.
Theorem C54_empty : DFT_Forward Rtrig [] = Throw InvalidArgument /\ DFT_Inverse Rtrig [] = Throw InvalidArgument /\ DFT_Forward_real Rtrig [] = Throw InvalidArgument.
Proof. repeat split. Qed.
Print Assumptions C54_empty.
(** Parseval: the spectrum has N times the energy of the signal *)
Theorem C54_parseval : forall data N x, is_vector data N x -> (1 <= N)%nat -> exists r X, DFT_Forward Rtrig data = Ok r /\ is_vector r N X /\
  sumn Rnum N (fun k => Rsqr (fst (X k)) + Rsqr (snd (X k))) = INR N * sumn Rnum N (fun j => Rsqr (fst (x j)) + Rsqr (snd (x j))).
Proof.
  intros data N x HD HN. destruct (C54_forward data N x HD HN) as (r & E & H). exists r, (dft N x). split; auto. split; auto.
  assert (SQ : forall f : nat -> C, sumn Rnum N (fun k => Rsqr (fst (f k)) + Rsqr (snd (f k))) = fst (Csum N (fun k => Cmul (f k) (Cconj (f k))))).
  { intros f. rewrite Csum_fst. apply (sum_ext Rnum). intros i Hi. unfold Cmul, Cconj, Rsqr. cbn. ring. }
  rewrite !SQ. assert (EX : Csum N (fun k => Cmul (dft N x k) (Cconj (dft N x k))) = Cmul (RtoC (INR N)) (Csum N (fun j => Cmul (x j) (Cconj (x j))))).
  { transitivity (Csum N (fun k => Csum N (fun j => Csum N (fun l => Cmul (Cmul (x j) (Cconj (x l))) (Cmul (expi (-1 * (2 * PI * INR (j * k) / INR N))) (expi (- (-1 * (2 * PI * INR (l * k) / INR N))))))))).
    - apply Csum_ext. intros k Hk. unfold dft. rewrite Csum_conj, Csum_mul_r. apply Csum_ext. intros j Hj. rewrite Csum_mul_l. apply Csum_ext. intros l Hl.
      assert (CE : Cconj (expi (- (2 * PI * INR (l * k) / INR N))) = expi (- (-1 * (2 * PI * INR (l * k) / INR N)))).
      { rewrite <- expi_opp. f_equal. ring. }
      replace (-1 * (2 * PI * INR (j * k) / INR N)) with (- (2 * PI * INR (j * k) / INR N)) by ring. rewrite <- CE. apply C_eq; cbn; ring.
    - rewrite Csum_swap, Csum_mul_l. apply Csum_ext. intros j Hj. rewrite Csum_swap. rewrite (Csum_one N j _ Hj).
      + rewrite <- Csum_mul_l, ortho by (auto; lia). rewrite Nat.eqb_refl. apply C_eq; cbn; ring.
      + intros l Hl NE. rewrite <- Csum_mul_l, ortho by (auto; lia). destruct (Nat.eqb_spec j l); [congruence|]. apply C_eq; cbn; ring. }
  rewrite EX, Cscal. reflexivity.
Qed.
Print Assumptions C54_parseval.

(** ** C55: the FFT *)
Lemma dfts_dft : forall N x k, dfts 1 N x k = dft N x k.
Proof. intros. apply Csum_ext. intros j Hj. f_equal. unfold tw. f_equal. cbn [IZR IPR]. ring. Qed.
Lemma dfts_idft : forall N x k, Cmul (RtoC (/ INR N)) (dfts (-1) N x k) = idft N x k.
Proof. intros. unfold idft. f_equal. apply Csum_ext. intros j Hj. f_equal. unfold tw. f_equal. rewrite (Nat.mul_comm j k). cbn [IZR IPR]. ring. Qed.

(** for every power of two the fast transforms return exactly what the plain sums return *)
Theorem C55_fft_is_dft : forall data L, length data = (2 ^ L)%nat -> FFT_Forward Rtrig data = DFT_Forward Rtrig data /\ FFT_Inverse Rtrig data = DFT_Inverse Rtrig data.
Proof.
  intros data L HL. pose proof (is_vector_self data (0, 0)) as HD. rewrite HL in HD. set (f := fun i => nth i data (0, 0)) in *. pose proof (pow2_pos L) as PL.
  destruct (C54_forward data _ f HD ltac:(lia)) as (r & E & Hr). destruct (C54_inverse data _ f HD ltac:(lia)) as (y & Ey & Hy). rewrite E, Ey. split.
  - unfold FFT_Forward. apply wp_eq. eapply wp_conseq; [|apply (fft_ok 1 L data f eq_refl HD)]. intros d Hd. cbv beta in *. eapply is_vector_eq; [exact Hd|exact Hr|]. intros i Hi. apply dfts_dft.
  - unfold FFT_Inverse. apply wp_eq. apply wp_bind. eapply wp_conseq; [|apply (fft_ok (-1) L data f eq_refl HD)]. intros d Hd. cbv beta in *. rewrite (proj1 Hd). set (n := (2 ^ L)%nat) in *.
    eapply wp_conseq; [|apply (for_range_inv _ _ (fun i c => is_vector c n (fun k => if (k <? i)%nat then idft n f k else dfts (-1) n f k)))].
    + intros d' Hd'. eapply is_vector_eq; [exact Hd'|exact Hy|]. intros k Hk. cbv beta. destruct (Nat.ltb_spec k n); auto; lia.
    + lia.
    + exact Hd.
    + intros i c _ Hi Hc. rewrite (vec_get _ c n _ i Hc Hi). cbn [bind]. eapply vsetf_wp; [exact Hc|auto|]. intros c' Hc'. eapply is_vector_ext; [exact Hc'|]. intros k Hk. unfold vfset. cbv beta.
      destruct (Nat.ltb_spec i i); [lia|]. destruct (Nat.eqb_spec k i) as [->|NE].
      * destruct (Nat.ltb_spec i (i + 1)); [|lia]. rewrite <- dfts_idft. unfold cscale. tnum. rewrite <- INR_IZR_INZ. rewrite Cscal. f_equal; unfold Rdiv; ring.
      * destruct (Nat.ltb_spec k i), (Nat.ltb_spec k (i + 1)); auto; lia.
Qed.
Print Assumptions C55_fft_is_dft.
(** and they are inverse to each other *)
Theorem C55_round_trip : forall data L, length data = (2 ^ L)%nat -> exists X x,
  FFT_Forward Rtrig data = Ok X /\ FFT_Inverse Rtrig X = Ok data /\ FFT_Inverse Rtrig data = Ok x /\ FFT_Forward Rtrig x = Ok data.
Proof.
  intros data L HL. pose proof (pow2_pos L). destruct (C54_round_trip data) as (X & x & E1 & E2 & E3 & E4). { intros ->. cbn in HL. lia. }
  assert (LX : length X = (2 ^ L)%nat). { pose proof (is_vector_self data (0, 0)) as HD. destruct (C54_forward data _ _ HD ltac:(lia)) as (r & E & Hr). assert (r = X) by congruence. subst r. rewrite <- HL. apply (proj1 Hr). }
  assert (Lx : length x = (2 ^ L)%nat). { pose proof (is_vector_self data (0, 0)) as HD. destruct (C54_inverse data _ _ HD ltac:(lia)) as (r & E & Hr). assert (r = x) by congruence. subst r. rewrite <- HL. apply (proj1 Hr). }
  exists X, x. rewrite (proj1 (C55_fft_is_dft data L HL)), (proj2 (C55_fft_is_dft data L HL)), (proj2 (C55_fft_is_dft X L LX)), (proj1 (C55_fft_is_dft x L Lx)). auto.
Qed.
Print Assumptions C55_round_trip.
(** every other size is refused *)
Theorem C55_bad_size : forall T (A : trig T) (data : list (@cplx T)) isign, (forall L, length data <> (2 ^ L)%nat) -> FFT_Transform A data isign = Throw InvalidArgument.
Proof.
  intros T A data isign H. unfold FFT_Transform. destruct (Nat.eqb_spec (length data) 0); auto.
  destruct (IsPowerOfTwo (Z.of_nat (length data))) eqn:E; auto. apply is_pow2_nat in E. destruct E as [L E]. exfalso. exact (H L E).
Qed.
Print Assumptions C55_bad_size.

(** ** Helpers *)
Theorem C55_is_power_of_two : forall n, IsPowerOfTwo n = true <-> exists k, (0 <= k /\ n = 2 ^ k)%Z.
Proof. apply is_pow2_spec. Qed.
Print Assumptions C55_is_power_of_two.
(** up to 2^30 NextPowerOfTwo returns the least power of two not below n *)
Lemma next_loop : forall fuel e n, (0 <= e)%Z -> (n <= 2 ^ 30)%Z -> (31 - e < Z.of_nat fuel)%Z -> (e <= 30)%Z -> (e = 0 \/ 2 ^ (e - 1) < n)%Z ->
  exists k, (0 <= k /\ next_pow2_loop fuel (2 ^ e) n = Ok (2 ^ k) /\ n <= 2 ^ k /\ (k = 0 \/ 2 ^ (k - 1) < n))%Z.
Proof.
  induction fuel as [|fuel IH]; intros e n He Hn Hf H30 Hm; [lia|]. cbn [next_pow2_loop]. destruct (Z.ltb_spec (2 ^ e) n) as [L|L].
  - assert (E30 : (e < 30)%Z). { destruct (Z.eq_dec e 30) as [->|]; lia. } assert (D : (2 * 2 ^ e = 2 ^ (e + 1))%Z) by (rewrite Z.pow_add_r by lia; lia).
    assert (2 ^ (e + 1) <= 2 ^ 30)%Z by (apply Z.pow_le_mono_r; lia). destruct (Z.leb_spec (2 ^ 31) (2 * 2 ^ e)); [lia|]. rewrite D. apply IH; try lia. right. replace (e + 1 - 1)%Z with e by lia. auto.
  - exists e. auto.
Qed.
Theorem C55_next_power_of_two : forall n, (n <= 2 ^ 30)%Z -> exists k, (0 <= k /\ NextPowerOfTwo n = Ok (2 ^ k) /\ n <= 2 ^ k /\ forall j, 0 <= j -> n <= 2 ^ j -> 2 ^ k <= 2 ^ j)%Z.
Proof.
  intros n Hn. unfold NextPowerOfTwo. destruct (Z.leb_spec n 0).
  - exists 0%Z. split; [lia|]. split; auto. split; [cbn; lia|]. intros j Hj _. change (2 ^ 0)%Z with 1%Z. assert (0 < 2 ^ j)%Z by (apply Z.pow_pos_nonneg; lia). lia.
  - destruct (IsPowerOfTwo n) eqn:E.
    + apply is_pow2_spec in E. destruct E as (k & Hk & ->). exists k. split; auto. split; auto. split; [lia|]. auto.
    + destruct (next_loop 32 0 n) as (k & K0 & K1 & K2 & K3); try lia. exists k. split; auto. split; auto. split; auto. intros j Hj Hnj. destruct K3 as [->|K3].
      * change (2 ^ 0)%Z with 1%Z. assert (0 < 2 ^ j)%Z by (apply Z.pow_pos_nonneg; lia). lia.
      * apply Z.pow_le_mono_r; [lia|]. destruct (Z_le_gt_dec k j); auto. exfalso. assert (2 ^ j <= 2 ^ (k - 1))%Z by (apply Z.pow_le_mono_r; lia). lia.
Qed.
Print Assumptions C55_next_power_of_two.
(** above 2^30 the doubling leaves the range of int *)
Lemma next_overflow : forall m e n fuel, (Z.of_nat m = 30 - e)%Z -> (0 <= e)%Z -> (2 ^ 30 < n)%Z -> (m < fuel)%nat -> next_pow2_loop fuel (2 ^ e) n = UB.
Proof.
  induction m as [|m IH]; intros e n fuel Em He Hn Hf; (destruct fuel as [|fuel]; [lia|]); cbn [next_pow2_loop].
  - assert (e = 30)%Z by lia. subst e. destruct (Z.ltb_spec (2 ^ 30) n); [|lia]. reflexivity.
  - assert (2 ^ e <= 2 ^ 30)%Z by (apply Z.pow_le_mono_r; lia). destruct (Z.ltb_spec (2 ^ e) n); [|lia]. assert (D : (2 * 2 ^ e = 2 ^ (e + 1))%Z) by (rewrite Z.pow_add_r by lia; lia).
    assert (2 ^ (e + 1) <= 2 ^ 30)%Z by (apply Z.pow_le_mono_r; lia). destruct (Z.leb_spec (2 ^ 31) (2 * 2 ^ e)); [lia|]. rewrite D. apply IH; lia.
Qed.
(** For every int above 2^30 NextPowerOfTwo, and with it ZeroPad, runs into signed overflow. *)
Theorem C55_next_power_overflow_refuted : forall n, (2 ^ 30 < n < 2 ^ 31)%Z -> NextPowerOfTwo n = UB.
Proof.
  intros n Hn. unfold NextPowerOfTwo. destruct (Z.leb_spec n 0); [lia|]. destruct (IsPowerOfTwo n) eqn:E; [|apply (next_overflow 30 0); lia].
  apply is_pow2_spec in E. destruct E as (k & Hk & ->). exfalso. assert (30 < k)%Z by (apply (Z.pow_lt_mono_r_iff 2); lia). assert (k < 31)%Z by (apply (Z.pow_lt_mono_r_iff 2); lia). lia.
Qed.
Print Assumptions C55_next_power_overflow_refuted.
Theorem C55_log2 : forall n, (1 <= n < 2 ^ 31)%Z -> Log2 n = Ok (Z.log2 n).
Proof.
  intros n Hn. assert (G : forall fuel m l, (1 <= m)%Z -> (Z.log2 m < Z.of_nat fuel)%Z -> log2_loop fuel m l = Ok (l + Z.log2 m)%Z).
  { induction fuel as [|fuel IH]; intros m l Hm Hf; [pose proof (Z.log2_nonneg m); lia|]. cbn [log2_loop]. destruct (Z.ltb_spec 1 m).
    - rewrite Z.shiftr_div_pow2 by lia. change (2 ^ 1)%Z with 2%Z. assert (LG : Z.log2 m = Z.succ (Z.log2 (m / 2))).
      { replace (m / 2)%Z with (Z.shiftr m 1) by (rewrite Z.shiftr_div_pow2 by lia; reflexivity). rewrite Z.log2_shiftr by lia. pose proof (Z.log2_pos m ltac:(lia)). lia. }
      rewrite IH; [f_equal; lia| |lia]. apply Z.div_le_lower_bound; lia.
    - assert (m = 1)%Z by lia. subst m. cbn. f_equal. lia. }
  unfold Log2. rewrite G; auto; try lia. assert (Z.log2 n < 31)%Z by (apply Z.log2_lt_pow2; lia). lia.
Qed.
Print Assumptions C55_log2.
(** ZeroPad appends zeros up to the next power of two *)
Theorem C55_zero_pad : forall T (A : trig T) data, (Z.of_nat (length data) <= 2 ^ 30)%Z -> exists L, FFT_ZeroPad A data = Ok (data ++ repeat (czero A) (2 ^ L - length data)) /\
  (length data <= 2 ^ L)%nat /\ (forall j, (length data <= 2 ^ j)%nat -> (2 ^ L <= 2 ^ j)%nat).
Proof.
  intros T A data HB. destruct (C55_next_power_of_two _ HB) as (k & K0 & K1 & K2 & K3). set (n := length data) in *. exists (Z.to_nat k).
  assert (EK : Z.of_nat (2 ^ Z.to_nat k) = (2 ^ k)%Z) by (rewrite pow2_Z, Z2Nat.id; auto). assert (LE : (n <= 2 ^ Z.to_nat k)%nat) by lia. set (p := (2 ^ Z.to_nat k)%nat) in *. split; [|split; auto].
  2: { intros j Hj. specialize (K3 (Z.of_nat j) ltac:(lia)). rewrite <- pow2_Z in K3. lia. }
  unfold FFT_ZeroPad. fold n. rewrite K1. cbn [bind]. rewrite <- EK. destruct (Z.eqb_spec (Z.of_nat p) (Z.of_nat n)) as [E|NE].
  - replace (p - n)%nat with 0%nat by lia. cbn [repeat]. rewrite app_nil_r. reflexivity.
  - rewrite Nat2Z.id. apply wp_eq. set (df := nth 0 data (czero A)).
    pose proof (is_vector_self data (czero A)) as HD. fold n in HD.
    eapply wp_conseq; [|apply (for_range_inv _ _ (fun i c => is_vector c p (fun j => if (j <? i)%nat then nth j data (czero A) else czero A)))].
    + intros c Hc. eapply is_vector_eq; [exact Hc| |intros j Hj; reflexivity].
      split; [rewrite app_length, repeat_length; fold n; lia|]. intros j Hj. destruct (Nat.ltb_spec j n) as [L|L].
      * rewrite nth_error_app1 by auto. apply nth_error_nth'. auto.
      * rewrite nth_error_app2 by auto. fold n. rewrite (nth_error_nth' _ (czero A)) by (rewrite repeat_length; lia). rewrite nth_repeat. reflexivity.
    + lia.
    + eapply is_vector_ext; [apply is_vector_repeat|]. intros j Hj. reflexivity.
    + intros i c _ Hi Hc. rewrite (vec_get _ data n _ i HD Hi). cbn [bind]. eapply vsetf_wp; [exact Hc|lia|]. intros c' Hc'. eapply is_vector_ext; [exact Hc'|]. intros j Hj. unfold vfset. cbv beta.
      destruct (Nat.eqb_spec j i) as [->|]; [destruct (Nat.ltb_spec i (i + 1)); [reflexivity|lia]|]. destruct (Nat.ltb_spec j i), (Nat.ltb_spec j (i + 1)); auto; lia.
Qed.
Print Assumptions C55_zero_pad.
