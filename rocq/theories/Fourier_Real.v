(** * C56: the real-valued FFT *)

From Coq Require Import List Arith Bool Lia ZArith Reals Lra Ring.
From Verif Require Import Base Num Mat_Proofs RootFind_Model RootFind_Proofs Interp_Linear Fourier_Model Fourier_Spec Fourier_FFT Fourier_Props.
Import ListNotations.
Local Open Scope R_scope.

(** ** Filling loops *)
Lemma fill_range : forall T (v : list T) n g f lo hi (b : list T -> nat -> res (list T)) (Q : list T -> Prop), is_vector v n g -> (lo <= hi)%nat -> (hi <= n)%nat ->
  (forall v i, (lo <= i < hi)%nat -> b v i = vset v i (f i)) ->
  (forall v', is_vector v' n (fun i => if (lo <=? i)%nat && (i <? hi)%nat then f i else g i) -> Q v') -> wp (for_range lo hi b v) Q.
Proof.
  intros T v n g f lo hi b Q HV HL HH HB HQ.
  eapply wp_conseq; [|apply (for_range_inv _ _ (fun i v => is_vector v n (fun j => if (lo <=? j)%nat && (j <? i)%nat then f j else g j)))]; auto.
  - eapply is_vector_ext; [exact HV|]. intros j Hj. cbv beta. destruct (Nat.leb_spec lo j), (Nat.ltb_spec j lo); auto; lia.
  - intros i w H1 H2 HW. rewrite HB by lia. eapply vsetf_wp; [exact HW|lia|]. intros w' HW'. eapply is_vector_ext; [exact HW'|]. intros j Hj. unfold vfset. cbv beta.
    destruct (Nat.eqb_spec j i) as [->|NE].
    + destruct (Nat.leb_spec lo i), (Nat.ltb_spec i (i + 1)); try lia. reflexivity.
    + destruct (Nat.leb_spec lo j), (Nat.ltb_spec j i), (Nat.ltb_spec j (i + 1)); try lia; reflexivity.
Qed.
Lemma fill_pairs : forall T (v : list T) n g F lo hi (b : list T -> nat -> res (list T)) (Q : list T -> Prop), is_vector v n g -> (lo <= hi)%nat -> (2 * hi <= n)%nat ->
  (forall v i, (lo <= i < hi)%nat -> b v i = (v <- vset v (2 * i) (F (2 * i)%nat) ;; vset v (2 * i + 1) (F (2 * i + 1)%nat))) ->
  (forall v', is_vector v' n (fun i => if (2 * lo <=? i)%nat && (i <? 2 * hi)%nat then F i else g i) -> Q v') -> wp (for_range lo hi b v) Q.
Proof.
  intros T v n g F lo hi b Q HV HL HH HB HQ.
  eapply wp_conseq; [|apply (for_range_inv _ _ (fun i v => is_vector v n (fun j => if (2 * lo <=? j)%nat && (j <? 2 * i)%nat then F j else g j)))]; auto.
  - eapply is_vector_ext; [exact HV|]. intros j Hj. cbv beta. destruct (Nat.leb_spec (2 * lo) j), (Nat.ltb_spec j (2 * lo)); auto; lia.
  - intros i w H1 H2 HW. rewrite HB by lia. apply wp_bind. eapply vsetf_wp; [exact HW|lia|]. intros w1 HW1. eapply vsetf_wp; [exact HW1|lia|]. intros w' HW'. eapply is_vector_ext; [exact HW'|]. intros j Hj. unfold vfset. cbv beta.
    destruct (Nat.eqb_spec j (2 * i + 1)) as [->|N1]; [|destruct (Nat.eqb_spec j (2 * i)) as [->|N2]].
    + destruct (Nat.leb_spec (2 * lo) (2 * i + 1)), (Nat.ltb_spec (2 * i + 1) (2 * (i + 1))); try lia. reflexivity.
    + destruct (Nat.leb_spec (2 * lo) (2 * i)), (Nat.ltb_spec (2 * i) (2 * (i + 1))); try lia. reflexivity.
    + destruct (Nat.leb_spec (2 * lo) j), (Nat.ltb_spec j (2 * i)), (Nat.ltb_spec j (2 * (i + 1))); try lia; reflexivity.
Qed.

Lemma map_range : forall T (v : list T) n g (h : T -> T) (Q : list T -> Prop), is_vector v n g -> (forall v', is_vector v' n (fun i => h (g i)) -> Q v') ->
  wp (for_range 0 n (fun v i => x <- vget v i ;; vset v i (h x)) v) Q.
Proof.
  intros T v n g h Q HV HQ.
  eapply wp_conseq; [|apply (for_range_inv _ _ (fun i v => is_vector v n (fun j => if (j <? i)%nat then h (g j) else g j)))].
  - intros w Hw. apply HQ. eapply is_vector_ext; [exact Hw|]. intros j Hj. cbv beta. destruct (Nat.ltb_spec j n); auto; lia.
  - lia.
  - exact HV.
  - intros i w _ H2 HW. rewrite (vec_get _ w n _ i HW H2). cbn [bind]. destruct (Nat.ltb_spec i i); [lia|]. eapply vsetf_wp; [exact HW|lia|]. intros w' HW'. eapply is_vector_ext; [exact HW'|]. intros j Hj. unfold vfset. cbv beta.
    destruct (Nat.eqb_spec j i) as [->|NE]; [destruct (Nat.ltb_spec i (i + 1)); [reflexivity|lia]|]. destruct (Nat.ltb_spec j i), (Nat.ltb_spec j (i + 1)); auto; lia.
Qed.

(** ** Symmetry *)
Lemma tw_norm : forall s N k, Cmul (tw s N k) (Cconj (tw s N k)) = (1, 0).
Proof. intros. unfold tw. rewrite <- expi_opp. apply expi_norm. Qed.
Lemma tw_mirror : forall s N j k, (0 < N)%nat -> (k <= N)%nat -> Cconj (tw s N (j * (N - k))) = tw s N (j * k).
Proof.
  intros s N j k HN Hk. assert (E : Cmul (tw s N (j * (N - k))) (tw s N (j * k)) = (1, 0)).
  { rewrite <- tw_add. replace (j * (N - k) + j * k)%nat with (N * j)%nat by nia. apply tw_full. auto. }
  pose proof (tw_norm s N (j * (N - k))) as E2. set (a := tw s N (j * (N - k))) in *. set (b := tw s N (j * k)) in *.
  transitivity (Cmul (Cmul a b) (Cconj a)); [rewrite E; apply C_eq; cbn; ring|]. transitivity (Cmul b (Cmul a (Cconj a))); [apply C_eq; cbn; ring|]. rewrite E2. apply C_eq; cbn; ring.
Qed.
Lemma dfts_real_mirror : forall s N (x : nat -> R) k, (0 < N)%nat -> (k <= N)%nat -> Cconj (dfts s N (fun j => RtoC (x j)) (N - k)) = dfts s N (fun j => RtoC (x j)) k.
Proof.
  intros s N x k HN Hk. unfold dfts. rewrite Csum_conj. apply Csum_ext. intros j Hj. rewrite <- (tw_mirror s N j k) by auto. apply C_eq; cbn; ring.
Qed.
Definition Ci : C := (0, 1).
Lemma dfts_pair : forall s N (a b : nat -> R) k, dfts s N (fun j => (a j, b j)) k = Cadd (dfts s N (fun j => RtoC (a j)) k) (Cmul Ci (dfts s N (fun j => RtoC (b j)) k)).
Proof. intros. unfold dfts. rewrite Csum_mul_l, <- Csum_add. apply Csum_ext. intros j Hj. apply C_eq; cbn; ring. Qed.
Lemma dfts_0 : forall s N (a : nat -> R), snd (dfts s N (fun j => RtoC (a j)) 0) = 0.
Proof. intros. unfold dfts. rewrite Csum_snd. apply (sum_zero Rnum (F_R Rnum_field)). intros j Hj. rewrite Nat.mul_0_r, tw_0. cbn. ring. Qed.

Lemma split_fwd : forall M (x : nat -> R) k, (0 < M)%nat -> (k <= M)%nat ->
  let Z := dfts 1 M (fun j => (x (2 * j)%nat, x (2 * j + 1)%nat)) in
  real_split Rtrig (- lhalf Rtrig) (tw 1 (2 * M) k) (Z k) (conj Rtrig (Z (M - k)%nat)) = dft (2 * M) (fun j => RtoC (x j)) k.
Proof.
  intros M x k HM Hk Z. rewrite <- dfts_dft, dfts_split by auto.
  set (E := dfts 1 M (fun j => RtoC (x (2 * j)%nat))) in *. set (D := dfts 1 M (fun j => RtoC (x (2 * j + 1)%nat))) in *.
  assert (HZ : forall l, Z l = Cadd (E l) (Cmul Ci (D l))) by (intros; apply dfts_pair).
  pose proof (dfts_real_mirror 1 M (fun j => x (2 * j)%nat) k HM Hk) as ME. pose proof (dfts_real_mirror 1 M (fun j => x (2 * j + 1)%nat) k HM Hk) as MD. cbv beta in ME, MD. fold E in ME. fold D in MD.
  change (dfts 1 M (fun j => RtoC (x (2 * j)%nat)) k) with (E k). change (dfts 1 M (fun j => RtoC (x (2 * j + 1)%nat)) k) with (D k). rewrite !HZ.
  pose proof (f_equal fst ME) as M1. pose proof (f_equal snd ME) as M2. pose proof (f_equal fst MD) as M3. pose proof (f_equal snd MD) as M4. cbn [Cconj fst snd] in M1, M2, M3, M4. unfold real_split, conj, cadd, csub, cmul, cscale, lhalf, Ci, Cadd, Cmul. tnum. cbn [fst snd].
  rewrite M1, M3. replace (snd (E (M - k)%nat)) with (- snd (E k)) by lra. replace (snd (D (M - k)%nat)) with (- snd (D k)) by lra. f_equal; field.
Qed.
Lemma tw_1 : forall M k, (0 < M)%nat -> tw 1 (2 * M) k = cis Rtrig (INR k * (- PI / INR M)).
Proof. intros. unfold tw, cis, expi. tnum. assert (INR M <> 0) by (apply not_0_INR; lia). replace (- (1) * (2 * PI * INR k / INR (2 * M))) with (INR k * (- PI / INR M)); [reflexivity|]. rewrite mult_INR. cbn [INR]. field. auto. Qed.
Lemma tw_m1 : forall M k, (0 < M)%nat -> tw (-1) (2 * M) k = cis Rtrig (INR k * (PI / INR M)).
Proof. intros. unfold tw, cis, expi. tnum. assert (INR M <> 0) by (apply not_0_INR; lia). replace (- (-1) * (2 * PI * INR k / INR (2 * M))) with (INR k * (PI / INR M)); [reflexivity|]. rewrite mult_INR. cbn [INR]. field. auto. Qed.

(** ** Forward *)
Lemma div2 : forall M, (2 * M / 2 = M)%nat. Proof. intros. rewrite Nat.mul_comm. apply Nat.div_mul. lia. Qed.
Lemma real_pack_ok : forall (data : list R) M x, is_vector data (2 * M) x -> wp (real_pack Rtrig data M) (fun t => is_vector t M (fun j => (x (2 * j)%nat, x (2 * j + 1)%nat))).
Proof.
  intros data M x HD. unfold real_pack. eapply (fill_range _ _ M); [apply is_vector_repeat|lia|lia| |].
  - intros v i Hi. rewrite (vec_get _ data (2 * M) x) by (auto; lia). cbn [bind]. rewrite (vec_get _ data (2 * M) x) by (auto; lia). cbn [bind]. instantiate (1 := fun i => (x (2 * i)%nat, x (2 * i + 1)%nat)). reflexivity.
  - intros v Hv. eapply is_vector_ext; [exact Hv|]. intros i Hi. cbv beta. destruct (Nat.ltb_spec i M); [reflexivity|lia].
Qed.
Lemma valid_size : forall L, ((2 ^ S L <? 2) || negb (IsPowerOfTwo (Z.of_nat (2 ^ S L))))%nat = false.
Proof. intros L. pose proof (pow2_pos L). assert (E : IsPowerOfTwo (Z.of_nat (2 ^ S L)) = true) by (apply is_pow2_nat; eauto). rewrite E. destruct (Nat.ltb_spec (2 ^ S L) 2); auto. cbn [Nat.pow] in *. lia. Qed.
Lemma fwd_dc : forall M (x : nat -> R), (0 < M)%nat -> let Z := dfts 1 M (fun j => (x (2 * j)%nat, x (2 * j + 1)%nat)) in
  (fst (Z 0%nat) + snd (Z 0%nat), 0) = dft (2 * M) (fun j => RtoC (x j)) 0 /\ (fst (Z 0%nat) - snd (Z 0%nat), 0) = dft (2 * M) (fun j => RtoC (x j)) M.
Proof.
  intros M x HM Z. unfold Z. rewrite dfts_pair. pose proof (dfts_0 1 M (fun j => x (2 * j)%nat)) as E1. pose proof (dfts_0 1 M (fun j => x (2 * j + 1)%nat)) as E2. cbv beta in E1, E2.
  rewrite <- !dfts_dft. pose proof (dfts_split_hi 1 M (fun j => RtoC (x j)) 0 HM eq_refl) as EH. cbn [Nat.add] in EH. rewrite EH. rewrite (dfts_split 1 M _ 0) by auto. rewrite tw_0. clear EH.
  split; unfold Ci; apply C_eq; cbn [fst snd Cadd Cmul Csub]; rewrite ?E1, ?E2; ring.
Qed.

(** Forward returns the first n/2 + 1 bins of the discrete Fourier transform of the samples *)
Theorem C56_forward : forall L data x, is_vector data (2 * 2 ^ L) x -> exists r, RealFFT_Forward Rtrig data = Ok r /\ is_vector r (2 ^ L + 1) (dft (2 * 2 ^ L) (fun j => RtoC (x j))).
Proof.
  intros L data x HD. enough (W : wp (RealFFT_Forward Rtrig data) (fun r => is_vector r (2 ^ L + 1) (dft (2 * 2 ^ L) (fun j => RtoC (x j))))) by (destruct (wp_elim _ _ _ W); eauto).
  unfold RealFFT_Forward. rewrite (proj1 HD). change (2 * 2 ^ L)%nat with (2 ^ S L)%nat at 1 2. rewrite valid_size. rewrite div2. pose proof (pow2_pos L) as PM. set (M := (2 ^ L)%nat) in *. cbv zeta.
  apply wp_bind. eapply wp_conseq; [|apply (real_pack_ok data M x HD)]. intros t Ht. cbv beta in *. apply wp_bind. eapply wp_conseq; [|apply (fft_ok 1 L t _ eq_refl Ht)]. clear t Ht. intros t Ht. cbv beta in Ht. fold M in Ht.
  set (Z := dfts 1 M (fun j => (x (2 * j)%nat, x (2 * j + 1)%nat))) in *. destruct (fwd_dc M x PM) as (D0 & D1). fold Z in D0, D1. cbv zeta in D0, D1.
  rewrite (vec_get _ t M _ 0%nat Ht PM). cbn [bind]. apply wp_bind. eapply vsetf_wp; [apply is_vector_repeat|lia|]. intros r1 H1. apply wp_bind. eapply vsetf_wp; [exact H1|lia|]. intros r2 H2.
  eapply (fill_range _ _ (M + 1)%nat _ (dft (2 * M) (fun j => RtoC (x j)))); [exact H2|lia|lia| |].
  - intros v k Hk. rewrite (vec_get _ t M _ k Ht) by lia. cbn [bind]. rewrite (vec_get _ t M _ (M - k)%nat Ht) by lia. cbn [bind]. tnum. rewrite <- !INR_IZR_INZ, <- tw_1 by auto. f_equal. apply (split_fwd M x k PM). lia.
  - intros v Hv. eapply is_vector_ext; [exact Hv|]. intros k Hk. cbv beta. unfold vfset. destruct (Nat.leb_spec 1 k), (Nat.ltb_spec k M); cbn [andb]; auto.
    + assert (k = M) by lia. subst k. rewrite Nat.eqb_refl. tnum. exact D1.
    + assert (k = 0)%nat by lia. subst k. destruct (Nat.eqb_spec 0 M); [lia|]. cbn [Nat.eqb]. tnum. exact D0.
    + assert (k = 0)%nat by lia. subst k. lia.
Qed.
Print Assumptions C56_forward.

(** ** Inverse *)
(** the full spectrum of length 2M described by its first M+1 bins; bins 0 and M are taken to be real *)
Definition herm (M : nat) (S : nat -> C) (k : nat) : C :=
  if (k =? 0)%nat then RtoC (fst (S 0%nat)) else if (k <? M)%nat then S k else if (k =? M)%nat then RtoC (fst (S M)) else Cconj (S (2 * M - k)%nat).
Lemma herm_mirror : forall M S k, (0 < M)%nat -> (0 < k)%nat -> (k <= 2 * M)%nat -> herm M S (2 * M - k) = Cconj (herm M S (if (k =? 2 * M)%nat then 0 else k)).
Proof.
  intros M S k HM H0 Hk. unfold herm. destruct (Nat.eqb_spec k (2 * M)) as [->|NE].
  - rewrite Nat.sub_diag. cbn [Nat.eqb]. apply C_eq; cbn; ring.
  - destruct (Nat.eqb_spec (2 * M - k) 0), (Nat.eqb_spec k 0), (Nat.ltb_spec (2 * M - k) M), (Nat.ltb_spec k M), (Nat.eqb_spec (2 * M - k) M), (Nat.eqb_spec k M); try lia; subst.
    + replace (2 * M - k)%nat with (2 * M - k)%nat by lia. apply C_eq; cbn; ring.
    + f_equal. f_equal. lia.
    + apply C_eq; cbn; ring.
Qed.
Lemma Csum_rev : forall n f, Csum n (fun k => f (n - 1 - k)%nat) = Csum n f.
Proof.
  induction n as [|n IH]; intros f; auto. rewrite CsumS. transitivity (Cadd (f 0%nat) (Csum n (fun i => f (1 + i)%nat))).
  - rewrite <- (IH (fun i => f (1 + i)%nat)). replace (Nat.sub (Nat.sub (Datatypes.S n) 1) n) with 0%nat by lia.
    rewrite (Csum_ext n _ (fun k => f (1 + (n - 1 - k))%nat)) by (intros; f_equal; lia). apply C_eq; cbn [Cadd fst snd]; ring.
  - change (Datatypes.S n) with (1 + n)%nat. rewrite (Csum_app 1 n f). f_equal. apply C_eq; cbn; ring.
Qed.
Lemma Csum_mirror : forall n f, (0 < n)%nat -> Csum n (fun k => f (n - k)%nat) = Csub (Cadd (Csum n f) (f n)) (f 0%nat).
Proof.
  intros n f Hn. rewrite (Csum_ext n _ (fun k => (fun i => f (Datatypes.S i)) (n - 1 - k)%nat)) by (intros; f_equal; lia). rewrite (Csum_rev n (fun i => f (Datatypes.S i))).
  assert (E : Csum (Datatypes.S n) f = Cadd (f 0%nat) (Csum n (fun i => f (Datatypes.S i)))). { change (Datatypes.S n) with (1 + n)%nat. rewrite (Csum_app 1 n f). f_equal. apply C_eq; cbn; ring. }
  rewrite CsumS in E. rewrite E. apply C_eq; cbn; ring.
Qed.
Lemma herm_real : forall M S j, (0 < M)%nat -> snd (idft (2 * M) (herm M S) j) = 0.
Proof.
  intros M S j HM. rewrite <- dfts_idft. rewrite Cscal. cbn [snd]. enough (E : Cconj (dfts (-1) (2 * M) (herm M S) j) = dfts (-1) (2 * M) (herm M S) j).
  { apply (f_equal snd) in E. cbn [Cconj snd] in E. replace (snd (dfts (-1) (2 * M) (herm M S) j)) with 0 by lra. ring. }
  unfold dfts at 1. rewrite Csum_conj. set (n := (2 * M)%nat). set (F := fun k => Cmul (herm M S (if (k =? n)%nat then 0%nat else k)) (tw (-1) n (k * j))).
  transitivity (Csum n (fun k => F (n - k)%nat)).
  - apply Csum_ext. intros k Hk. unfold F. destruct (Nat.eq_dec k 0) as [->|NE].
    + rewrite Nat.sub_0_r, Nat.eqb_refl. cbn [Nat.mul]. rewrite tw_0, tw_full by lia. unfold herm. cbn [Nat.eqb]. apply C_eq; cbn; ring.
    + destruct (Nat.eqb_spec (n - k) n); [lia|]. pose proof (herm_mirror M S k HM ltac:(lia) ltac:(unfold n in *; lia)) as HMi. fold n in HMi. destruct (Nat.eqb_spec k n); [lia|]. rewrite HMi.
      rewrite (Nat.mul_comm (n - k) j). rewrite <- (tw_mirror (-1) n j (n - k)) by lia. replace (n - (n - k))%nat with k by lia. rewrite (Nat.mul_comm k j). apply C_eq; cbn; ring.
  - rewrite Csum_mirror by (unfold n; lia). assert (E0 : F n = F 0%nat). { unfold F. rewrite Nat.eqb_refl. destruct (Nat.eqb_spec 0 n); [lia|]. rewrite tw_full by lia. cbn [Nat.mul]. rewrite tw_0. reflexivity. }
    rewrite E0. transitivity (Csum n F); [apply C_eq; cbn; ring|]. apply Csum_ext. intros k Hk. unfold F. destruct (Nat.eqb_spec k n); [lia|reflexivity].
Qed.
(** the packed transform of the inverse *)
Definition half_spec (M : nat) (H : nat -> C) (k : nat) : C :=
  Cadd (Cmul (RtoC (1 / 2)) (Cadd (H k) (H (k + M)%nat))) (Cmul (tw (-1) (2 * M) k) (Cmul (0, 1 / 2) (Csub (H k) (H (k + M)%nat)))).
Lemma half_spec_ok : forall M H j, (0 < M)%nat -> Cmul (RtoC (/ INR M)) (dfts (-1) M (half_spec M H) j) = Cadd (idft (2 * M) H (2 * j)) (Cmul Ci (idft (2 * M) H (2 * j + 1))).
Proof.
  intros M H j HM. assert (NM : INR M <> 0) by (apply not_0_INR; lia). rewrite <- !dfts_idft. unfold dfts. replace (2 * M)%nat with (M + M)%nat by lia. rewrite !Csum_app. 
  rewrite <- !Csum_add. rewrite !Csum_mul_l, <- Csum_add. apply Csum_ext. intros k Hk. unfold half_spec. replace (M + M)%nat with (2 * M)%nat by lia.
  replace (k * (2 * j))%nat with (2 * (k * j))%nat by lia. replace ((M + k) * (2 * j))%nat with (2 * (k * j) + 2 * M * j)%nat by lia.
  replace (k * (2 * j + 1))%nat with (k + 2 * (k * j))%nat by lia. replace ((M + k) * (2 * j + 1))%nat with (k + 2 * (k * j) + (2 * M * j + M))%nat by lia.
  rewrite !tw_add, tw_full, tw_half, tw_double by (auto; lia). rewrite mult_INR. cbn [INR]. rewrite (Nat.add_comm M k).
  apply C_eq; cbn; field; auto.
Qed.
Lemma half_spec_at : forall M S k, (1 <= k < M)%nat -> half_spec M (herm M S) k = real_split Rtrig (lhalf Rtrig) (tw (-1) (2 * M) k) (S k) (conj Rtrig (S (M - k)%nat)).
Proof.
  intros M S k Hk. unfold half_spec, herm. destruct (Nat.eqb_spec k 0), (Nat.ltb_spec k M), (Nat.eqb_spec (k + M) 0), (Nat.ltb_spec (k + M) M), (Nat.eqb_spec (k + M) M); try lia.
  replace (2 * M - (k + M))%nat with (M - k)%nat by lia. unfold real_split, conj, cadd, csub, cmul, cscale, lhalf. tnum. apply C_eq; cbn; field.
Qed.
Lemma half_spec_0 : forall M S, (0 < M)%nat -> half_spec M (herm M S) 0 = (lhalf Rtrig * (fst (S 0%nat) + fst (S M)), lhalf Rtrig * (fst (S 0%nat) - fst (S M))).
Proof.
  intros M S HM. unfold half_spec, herm. rewrite tw_0. destruct (Nat.eqb_spec (0 + M) 0), (Nat.ltb_spec (0 + M) M), (Nat.eqb_spec (0 + M) M); try lia. cbn [Nat.eqb]. unfold lhalf. tnum. apply C_eq; cbn; field.
Qed.
Lemma Cadd_i : forall a b, Cadd a (Cmul Ci b) = (fst a - snd b, snd a + fst b).
Proof. intros. apply C_eq; cbn; ring. Qed.
Lemma inv_values : forall M S i, (0 < M)%nat -> let z := dfts (-1) M (half_spec M (herm M S)) i in
  fst z / INR M = fst (idft (2 * M) (herm M S) (2 * i)) /\ snd z / INR M = fst (idft (2 * M) (herm M S) (2 * i + 1)).
Proof.
  intros M S i HM z. pose proof (half_spec_ok M (herm M S) i HM) as E. fold z in E. rewrite Cscal in E. pose proof (herm_real M S (2 * i) HM) as R0. pose proof (herm_real M S (2 * i + 1) HM) as R1.
  rewrite Cadd_i in E. apply pair_equal_spec in E. destruct E as (E1 & E2). rewrite R0 in E2. rewrite R1 in E1. unfold Rdiv. split; rewrite Rmult_comm; [rewrite E1|rewrite E2]; ring.
Qed.
(** Inverse returns the real signal whose spectrum is the Hermitian extension of the given bins (imaginary parts of the first and last bin are ignored) *)
Theorem C56_inverse : forall L spectrum S, is_vector spectrum (2 ^ L + 1) S -> exists r x, RealFFT_Inverse Rtrig spectrum = Ok r /\ is_vector r (2 * 2 ^ L) x /\
  forall j, (j < 2 * 2 ^ L)%nat -> RtoC (x j) = idft (2 * 2 ^ L) (herm (2 ^ L) S) j.
Proof.
  intros L spectrum S HD. pose proof (pow2_pos L) as PM. set (X := fun j => fst (idft (2 * 2 ^ L) (herm (2 ^ L) S) j)).
  enough (W : wp (RealFFT_Inverse Rtrig spectrum) (fun r => is_vector r (2 * 2 ^ L) X)).
  { destruct (wp_elim _ _ _ W) as (r & E & Hr). exists r, X. split; auto. split; auto. intros j Hj. apply C_eq; [reflexivity|]. symmetry. apply herm_real. auto. }
  unfold RealFFT_Inverse. rewrite (proj1 HD). rewrite Nat.add_sub. set (M := (2 ^ L)%nat) in *. destruct (Nat.ltb_spec M 1); [lia|]. cbv zeta.
  rewrite (vec_get _ spectrum (M + 1)%nat S 0 HD) by lia. cbn [bind]. rewrite (vec_get _ spectrum (M + 1)%nat S M HD) by lia. cbn [bind].
  apply wp_bind. eapply vsetf_wp; [apply is_vector_repeat|lia|]. intros t Ht. apply wp_bind. eapply (fill_range _ _ M _ (half_spec M (herm M S))); [exact Ht|lia|lia| |].
  { intros v k Hk. rewrite (vec_get _ spectrum (M + 1)%nat S k HD) by lia. cbn [bind]. rewrite (vec_get _ spectrum (M + 1)%nat S (M - k)%nat HD) by lia. cbn [bind]. tnum. rewrite <- !INR_IZR_INZ, <- tw_m1 by auto. f_equal. symmetry. apply half_spec_at. lia. }
  clear t Ht. intros t Ht. assert (Ht' : is_vector t M (half_spec M (herm M S))).
  { eapply is_vector_ext; [exact Ht|]. intros k Hk. cbv beta. unfold vfset. destruct (Nat.leb_spec 1 k), (Nat.ltb_spec k M); cbn [andb]; auto; try lia. assert (k = 0)%nat by lia. subst k. cbn [Nat.eqb]. rewrite half_spec_0 by auto. reflexivity. }
  apply wp_bind. eapply wp_conseq; [|apply (fft_ok (-1) L t _ eq_refl Ht')]. clear t Ht Ht'. intros t Ht. cbv beta in Ht. fold M in Ht. set (z := dfts (-1) M (half_spec M (herm M S))) in *.
  apply wp_bind. eapply (fill_pairs _ _ (2 * M)%nat _ (fun j => if Nat.even j then fst (z (j / 2)%nat) else snd (z (j / 2)%nat))); [apply is_vector_repeat|lia|lia| |].
  { intros v i Hi. rewrite (vec_get _ t M z i Ht) by lia. cbn [bind]. rewrite Nat.even_mul. cbn [Nat.even orb]. rewrite Nat.even_add, Nat.even_mul. cbn [Nat.even orb Bool.eqb]. rewrite div2. rewrite (proj2 (half_odd i)). reflexivity. }
  intros r Hr. eapply (map_range _ r (2 * M)%nat); [exact Hr|]. intros v Hv. eapply is_vector_ext; [exact Hv|]. intros j Hj. cbv beta. destruct (Nat.ltb_spec j (2 * M)); [|lia]. cbn [Nat.leb Nat.mul andb].
  tnum. rewrite <- INR_IZR_INZ. destruct (even_or_odd j) as (i & [->| ->]); destruct (inv_values M S i PM) as (V0 & V1); fold z in V0, V1; cbv zeta in V0, V1.
  - rewrite Nat.even_mul, div2. exact V0.
  - rewrite Nat.even_add, Nat.even_mul. cbn [Nat.even orb Bool.eqb]. rewrite (proj2 (half_odd i)). exact V1.
Qed.
Print Assumptions C56_inverse.

(** ** Round trips and size checks *)
Theorem C56_round_trip : forall L data, length data = (2 * 2 ^ L)%nat -> exists X, RealFFT_Forward Rtrig data = Ok X /\ RealFFT_Inverse Rtrig X = Ok data.
Proof.
  intros L data HL. pose proof (is_vector_self data 0) as HD. rewrite HL in HD. set (x := fun i => nth i data 0) in *. pose proof (pow2_pos L) as PM. destruct (C56_forward L data x HD) as (X & E & HX). exists X. split; auto.
  destruct (C56_inverse L X _ HX) as (r & y & Er & Hr & Hy). rewrite Er. f_equal. eapply is_vector_eq; [exact Hr|exact HD|]. intros j Hj. enough (RtoC (y j) = RtoC (x j)) by (injection H; auto).
  rewrite (Hy j Hj). set (M := (2 ^ L)%nat) in *. rewrite <- (idft_dft (2 * M) (fun j => RtoC (x j)) j Hj). unfold idft. f_equal. apply Csum_ext. intros k Hk. f_equal.
  unfold herm. destruct (Nat.eqb_spec k 0) as [->|]; [|destruct (Nat.ltb_spec k M); auto; destruct (Nat.eqb_spec k M) as [->|]].
  - destruct (fwd_dc M x PM) as (D & _). rewrite <- D. reflexivity.
  - destruct (fwd_dc M x PM) as (_ & D). rewrite <- D. reflexivity.
  - rewrite <- !dfts_dft. apply dfts_real_mirror; lia.
Qed.
Print Assumptions C56_round_trip.
Theorem C56_round_trip_spectrum : forall L spectrum S, is_vector spectrum (2 ^ L + 1) S -> snd (S 0%nat) = 0 -> snd (S (2 ^ L)%nat) = 0 ->
  exists x, RealFFT_Inverse Rtrig spectrum = Ok x /\ RealFFT_Forward Rtrig x = Ok spectrum.
Proof.
  intros L spectrum S HS I0 I1. destruct (C56_inverse L spectrum S HS) as (r & x & Er & Hr & Hx). exists r. split; auto. destruct (C56_forward L r x Hr) as (X & E & HX). rewrite E. f_equal.
  eapply is_vector_eq; [exact HX|exact HS|]. intros k Hk. pose proof (pow2_pos L) as PM. set (M := (2 ^ L)%nat) in *. transitivity (dft (2 * M) (idft (2 * M) (herm M S)) k).
  - apply Csum_ext. intros j Hj. rewrite (Hx j Hj). reflexivity.
  - rewrite dft_idft by lia. unfold herm. destruct (Nat.eqb_spec k 0) as [->|]; [|destruct (Nat.ltb_spec k M); auto; destruct (Nat.eqb_spec k M) as [->|]; [|lia]]; apply C_eq; auto.
Qed.
Print Assumptions C56_round_trip_spectrum.
Theorem C56_bad_size : forall T (A : trig T),
  (forall data, (forall L, length data <> (2 * 2 ^ L)%nat) -> RealFFT_Forward A data = Throw InvalidArgument /\ forall s, RealFFT_Transform A data s = Throw InvalidArgument) /\
  (forall spectrum, (length spectrum <= 1)%nat -> RealFFT_Inverse A spectrum = Throw InvalidArgument).
Proof.
  intros T A. split.
  - intros data H. assert (E : ((length data <? 2) || negb (IsPowerOfTwo (Z.of_nat (length data))))%nat = true).
    { destruct (Nat.ltb_spec (length data) 2); auto. destruct (IsPowerOfTwo (Z.of_nat (length data))) eqn:E; auto. apply is_pow2_nat in E. destruct E as ([|L] & E); [cbn in E; lia|]. exfalso. apply (H L). rewrite E. reflexivity. }
    unfold RealFFT_Forward, RealFFT_Transform. rewrite E. auto.
  - intros sp H. unfold RealFFT_Inverse. destruct (Nat.ltb_spec (length sp - 1) 1); auto; lia.
Qed.
Print Assumptions C56_bad_size.
(** a spectrum whose length is not one more than a power of two is refused by the inner transform *)
Lemma real_split_bad : forall (spectrum : list C), (2 <= length spectrum)%nat -> (forall L, length spectrum <> (2 ^ L + 1)%nat) -> RealFFT_Inverse Rtrig spectrum = Throw InvalidArgument.
Proof.
  intros sp H2 H. pose proof (is_vector_self sp (0, 0)) as HD. set (M := (length sp - 1)%nat). assert (EL : length sp = (M + 1)%nat) by lia. rewrite EL in HD. set (S := fun i => nth i sp (0, 0)) in *.
  unfold RealFFT_Inverse. fold M. destruct (Nat.ltb_spec M 1); [lia|]. cbv zeta. rewrite (vec_get _ sp (M + 1)%nat S 0 HD) by lia. cbn [bind]. rewrite (vec_get _ sp (M + 1)%nat S M HD) by lia. cbn [bind].
  match goal with |- (t <- ?a ;; t' <- @?b t ;; _) = _ => assert (W : wp (t <- a ;; b t) (fun t => length t = M)) end.
  { apply wp_bind. eapply vsetf_wp; [apply is_vector_repeat|lia|]. intros t Ht. eapply (fill_range _ _ M _ (half_spec M (herm M S))); [exact Ht|lia|lia| |].
    - intros v k Hk. rewrite (vec_get _ sp (M + 1)%nat S k HD) by lia. cbn [bind]. rewrite (vec_get _ sp (M + 1)%nat S (M - k)%nat HD) by lia. cbn [bind]. tnum. rewrite <- !INR_IZR_INZ, <- tw_m1 by lia. f_equal. symmetry. apply half_spec_at. lia.
    - intros v Hv. apply (proj1 Hv). }
  destruct (wp_elim _ _ _ W) as (t & Et & Ht). 
  match goal with |- (t <- ?a ;; _) = _ => destruct a as [t1| | |] eqn:E1; try discriminate Et end. cbn [bind] in *. rewrite Et. cbn [bind]. rewrite C55_bad_size; auto. intros L EQ. apply (H L). lia.
Qed.
Theorem C56_bad_spectrum : forall spectrum : list C, (forall L, length spectrum <> (2 ^ L + 1)%nat) -> RealFFT_Inverse Rtrig spectrum = Throw InvalidArgument.
Proof. intros sp H. destruct (le_lt_dec 2 (length sp)); [apply real_split_bad; auto|]. apply C56_bad_size. lia. Qed.
Print Assumptions C56_bad_spectrum.

(** ** The in-place packed transform *)
(** 0: bin 0, 1: bin n/2, then real and imaginary parts of the bins between *)
Definition packed (M : nat) (X : nat -> C) (j : nat) : R :=
  if (j =? 0)%nat then fst (X 0%nat) else if (j =? 1)%nat then fst (X M) else if Nat.even j then fst (X (j / 2)%nat) else snd (X (j / 2)%nat).
Lemma packed_even : forall M X k, (1 <= k)%nat -> packed M X (2 * k) = fst (X k).
Proof. intros. unfold packed. destruct (Nat.eqb_spec (2 * k) 0), (Nat.eqb_spec (2 * k) 1); try lia. rewrite Nat.even_mul, div2. reflexivity. Qed.
Lemma packed_odd : forall M X k, (1 <= k)%nat -> packed M X (2 * k + 1) = snd (X k).
Proof. intros. unfold packed. destruct (Nat.eqb_spec (2 * k + 1) 0), (Nat.eqb_spec (2 * k + 1) 1); try lia. rewrite Nat.even_add, Nat.even_mul. cbn [Nat.even orb Bool.eqb]. rewrite (proj2 (half_odd k)). reflexivity. Qed.
(** Transform with isign = 1 writes the bins Forward returns in that order *)
Theorem C56_packed_forward : forall L data x, is_vector data (2 * 2 ^ L) x -> exists r, RealFFT_Transform Rtrig data 1 = Ok r /\ is_vector r (2 * 2 ^ L) (packed (2 ^ L) (dft (2 * 2 ^ L) (fun j => RtoC (x j)))).
Proof.
  intros L data x HD. set (X := dft (2 * 2 ^ L) (fun j => RtoC (x j))). enough (W : wp (RealFFT_Transform Rtrig data 1) (fun r => is_vector r (2 * 2 ^ L) (packed (2 ^ L) X))) by (destruct (wp_elim _ _ _ W); eauto).
  unfold RealFFT_Transform. rewrite (proj1 HD). change (2 * 2 ^ L)%nat with (2 ^ S L)%nat at 1 2. rewrite valid_size. rewrite div2. pose proof (pow2_pos L) as PM. set (M := (2 ^ L)%nat) in *. cbv zeta.
  apply wp_bind. eapply wp_conseq; [|apply (real_pack_ok data M x HD)]. intros t Ht. cbv beta in *. apply wp_bind. eapply wp_conseq; [|apply (fft_ok 1 L t _ eq_refl Ht)]. clear t Ht. intros t Ht. cbv beta in Ht. fold M in Ht.
  set (Z := dfts 1 M (fun j => (x (2 * j)%nat, x (2 * j + 1)%nat))) in *. destruct (fwd_dc M x PM) as (D0 & D1). fold Z in D0, D1. cbv zeta in D0, D1. cbn [Z.eqb Pos.eqb].
  rewrite (vec_get _ t M _ 0%nat Ht PM). cbn [bind]. apply wp_bind. eapply vsetf_wp; [exact HD|lia|]. intros r1 H1. apply wp_bind. eapply vsetf_wp; [exact H1|lia|]. intros r2 H2.
  eapply (fill_pairs _ _ (2 * M)%nat _ (packed M X)); [exact H2|lia|lia| |].
  - intros v k Hk. rewrite (vec_get _ t M _ k Ht) by lia. cbn [bind]. rewrite (vec_get _ t M _ (M - k)%nat Ht) by lia. cbn [bind]. tnum. rewrite <- !INR_IZR_INZ, <- tw_1 by auto. rewrite packed_even, packed_odd by lia.
    pose proof (split_fwd M x k PM ltac:(lia)) as SF. cbv zeta in SF. fold Z in SF. tnum. change (0 - 1 / 2) with (0 - 1 / 2) in SF. unfold X. rewrite <- SF. reflexivity.
  - intros v Hv. eapply is_vector_ext; [exact Hv|]. intros j Hj. cbv beta. unfold vfset. destruct (Nat.leb_spec (2 * 1) j), (Nat.ltb_spec j (2 * M)); cbn [andb]; auto; try lia. unfold packed, X.
    destruct (Nat.eqb_spec j 1) as [->|]; [cbn [Nat.eqb]; tnum; rewrite <- D1; reflexivity|]. assert (j = 0)%nat by lia. subst j. cbn [Nat.eqb]. tnum. rewrite <- D0. reflexivity.
Qed.
Print Assumptions C56_packed_forward.
(** with isign = -1 it undoes it *)
Theorem C56_packed_round_trip : forall L data, length data = (2 * 2 ^ L)%nat -> exists X, RealFFT_Transform Rtrig data 1 = Ok X /\ RealFFT_Transform Rtrig X (-1) = Ok data.
Proof.
  intros L data HL. pose proof (is_vector_self data 0) as HD. rewrite HL in HD. set (x := fun i => nth i data 0) in *. pose proof (pow2_pos L) as PM. destruct (C56_packed_forward L data x HD) as (p & E & HP). exists p. split; auto. set (M := (2 ^ L)%nat) in *.
  set (X := dft (2 * M) (fun j => RtoC (x j))) in *.
  assert (HX : forall k, (k < 2 * M)%nat -> herm M X k = X k).
  { intros k Hk. unfold herm. destruct (Nat.eqb_spec k 0) as [->|]; [|destruct (Nat.ltb_spec k M); auto; destruct (Nat.eqb_spec k M) as [->|]].
    - destruct (fwd_dc M x PM) as (D & _). unfold X. rewrite <- D. reflexivity.
    - destruct (fwd_dc M x PM) as (_ & D). unfold X. rewrite <- D. reflexivity.
    - unfold X. rewrite <- !dfts_dft. apply dfts_real_mirror; lia. }
  apply wp_eq. unfold RealFFT_Transform. rewrite (proj1 HP). change (2 * M)%nat with (2 ^ S L)%nat at 1 2. rewrite valid_size. rewrite div2. cbv zeta.
  apply wp_bind. eapply wp_conseq; [|apply (real_pack_ok p M _ HP)]. intros t Ht. cbv beta in *. apply wp_bind. eapply wp_conseq; [|apply (fft_ok (-1) L t _ eq_refl Ht)]. clear t Ht. intros t Ht. cbv beta in Ht. fold M in Ht. cbn [Z.eqb].
  rewrite (vec_get _ p (2 * M)%nat _ 0 HP) by lia. cbn [bind]. rewrite (vec_get _ p (2 * M)%nat _ 1 HP) by lia. cbn [bind]. apply wp_bind. eapply vsetf_wp; [exact Ht|lia|]. clear t Ht. intros t Ht. apply wp_bind.
  eapply (fill_range _ _ M _ (half_spec M (herm M X))); [exact Ht|lia|lia| |].
  { intros v k Hk. replace (2 * M - 2 * k)%nat with (2 * (M - k))%nat by lia. do 4 (rewrite (vec_get _ p (2 * M)%nat _ _ HP) by lia; cbn [bind]).
    rewrite !packed_even, !packed_odd by lia. tnum. rewrite <- !INR_IZR_INZ, <- tw_m1 by auto. rewrite half_spec_at by lia. unfold real_split, conj, cadd, csub, cmul, cscale. tnum. f_equal. }
  clear t Ht. intros t Ht. assert (Ht' : is_vector t M (half_spec M (herm M X))).
  { eapply is_vector_ext; [exact Ht|]. intros k Hk. cbv beta. unfold vfset. destruct (Nat.leb_spec 1 k), (Nat.ltb_spec k M); cbn [andb]; auto; try lia. assert (k = 0)%nat by lia. subst k. cbn [Nat.eqb]. rewrite half_spec_0 by auto. reflexivity. }
  apply wp_bind. eapply wp_conseq; [|apply (fft_ok (-1) L t _ eq_refl Ht')]. clear t Ht Ht'. intros t Ht. cbv beta in Ht. fold M in Ht. set (z := dfts (-1) M (half_spec M (herm M X))) in *.
  eapply (fill_pairs _ _ (2 * M)%nat _ x); [exact HP|lia|lia| |].
  - intros v i Hi. rewrite (vec_get _ t M z i Ht) by lia. cbn [bind]. destruct (inv_values M X i PM) as (V0 & V1). fold z in V0, V1. cbv zeta in V0, V1. tnum. rewrite <- INR_IZR_INZ, V0, V1.
    assert (EI : forall j, (j < 2 * M)%nat -> fst (idft (2 * M) (herm M X) j) = x j).
    { intros j Hj. transitivity (fst (idft (2 * M) X j)); [|unfold X; rewrite idft_dft by auto; reflexivity]. unfold idft. f_equal. f_equal. apply Csum_ext. intros k Hk. rewrite HX by auto. reflexivity. }
    rewrite !EI by lia. reflexivity.
  - intros v Hv. eapply is_vector_eq; [exact Hv|exact HD|]. intros j Hj. cbv beta. destruct (Nat.ltb_spec j (2 * M)); [reflexivity|lia].
Qed.
Print Assumptions C56_packed_round_trip.
