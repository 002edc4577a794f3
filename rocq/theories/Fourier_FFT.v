(** * The radix-2 transform: bit reversal and butterflies *)

From Coq Require Import List Arith Bool Lia ZArith Reals Lra Ring.
From Verif Require Import Base Num Mat_Proofs RootFind_Model RootFind_Proofs Interp_Linear Fourier_Model Fourier_Spec.
Import ListNotations.
Local Open Scope nat_scope.

(** ** Bit reversal *)
(** the t lowest bits of b in reverse order *)
Fixpoint rev (t b : nat) : nat := match t with 0 => 0 | S t => (b mod 2) * 2 ^ t + rev t (b / 2) end.

Lemma pow2_pos : forall t, 0 < 2 ^ t.
Proof. intros. pose proof (Nat.pow_nonzero 2 t). lia. Qed.
Lemma rev_lt : forall t b, rev t b < 2 ^ t.
Proof. induction t as [|t IH]; intros b; cbn [rev]; [cbn; lia|]. specialize (IH (b / 2)). pose proof (Nat.mod_upper_bound b 2 ltac:(lia)). cbn [Nat.pow]. nia. Qed.
Lemma half_even : forall i, (2 * i) mod 2 = 0 /\ (2 * i) / 2 = i.
Proof. intros i. rewrite (Nat.mul_comm 2 i), Nat.mod_mul, Nat.div_mul; lia. Qed.
Lemma half_odd : forall i, (2 * i + 1) mod 2 = 1 /\ (2 * i + 1) / 2 = i.
Proof. intros i. rewrite (Nat.mul_comm 2 i), Nat.add_comm, Nat.mod_add, Nat.div_add; cbn; lia. Qed.
Lemma rev_even : forall t i, rev (S t) (2 * i) = rev t i.
Proof. intros t i. cbn [rev]. destruct (half_even i) as [-> ->]. lia. Qed.
Lemma rev_odd : forall t i, rev (S t) (2 * i + 1) = 2 ^ t + rev t i.
Proof. intros t i. cbn [rev]. destruct (half_odd i) as [-> ->]. lia. Qed.
Lemma even_or_odd : forall i, exists q, i = 2 * q \/ i = 2 * q + 1.
Proof. intros i. exists (i / 2). pose proof (Nat.div_mod i 2 ltac:(lia)). pose proof (Nat.mod_upper_bound i 2 ltac:(lia)). lia. Qed.
Lemma rev_0 : forall t, rev t 0 = 0.
Proof. induction t as [|t IH]; [reflexivity|]. exact (eq_trans (rev_even t 0) IH). Qed.
(** the highest bit becomes the lowest *)
Lemma rev_high : forall t b c, b < 2 ^ t -> c < 2 -> rev (S t) (c * 2 ^ t + b) = 2 * rev t b + c.
Proof.
  induction t as [|t IH]; intros b c Hb Hc.
  - cbn in Hb. assert (b = 0) by lia. subst. destruct c as [|[|]]; [reflexivity|reflexivity|lia].
  - destruct (even_or_odd b) as [q [->| ->]].
    + replace (c * 2 ^ S t + 2 * q) with (2 * (c * 2 ^ t + q)) by (cbn [Nat.pow]; lia). rewrite rev_even, rev_even, IH; auto. cbn [Nat.pow] in Hb. lia.
    + replace (c * 2 ^ S t + (2 * q + 1)) with (2 * (c * 2 ^ t + q) + 1) by (cbn [Nat.pow]; lia). rewrite rev_odd, (rev_odd t q), IH; auto; [|cbn [Nat.pow] in Hb; lia]. cbn [Nat.pow]. lia.
Qed.
Lemma rev_rev : forall t b, b < 2 ^ t -> rev t (rev t b) = b.
Proof.
  induction t as [|t IH]; intros b Hb; [cbn in *; lia|]. cbn [Nat.pow] in Hb. destruct (even_or_odd b) as [q [->| ->]].
  - rewrite rev_even. rewrite <- (Nat.add_0_l (rev t q)), <- (Nat.mul_0_l (2 ^ t)), rev_high by (try apply rev_lt; lia). rewrite IH; lia.
  - rewrite rev_odd. rewrite <- (Nat.mul_1_l (2 ^ t)), rev_high by (try apply rev_lt; lia). rewrite IH; lia.
Qed.
Lemma pow_half : forall t, 2 ^ t / 2 = match t with 0 => 0 | S u => 2 ^ u end.
Proof. intros [|t]; [reflexivity|]. cbn [Nat.pow]. apply half_even. Qed.
(** the counter *)
Lemma bitrev_inc_ok : forall t i fuel, i + 1 < 2 ^ t -> t <= fuel -> bitrev_inc fuel (2 ^ t / 2) (rev t i) = Ok (rev t (i + 1)).
Proof.
  induction t as [|t IH]; intros i fuel Hi Hf; [cbn in Hi; lia|]. destruct fuel as [|fuel]; [lia|]. cbn [bitrev_inc]. rewrite pow_half. destruct (even_or_odd i) as [q [->| ->]].
  - rewrite rev_even, rev_odd. pose proof (rev_lt t q). destruct (Nat.leb_spec (2 ^ t) (rev t q)); [lia|]. f_equal. lia.
  - rewrite rev_odd. destruct (Nat.leb_spec (2 ^ t) (2 ^ t + rev t q)); [|lia]. replace (2 ^ t + rev t q - 2 ^ t) with (rev t q) by lia.
    replace (2 * q + 1 + 1) with (2 * (q + 1)) by lia. rewrite rev_even. apply IH; [cbn [Nat.pow] in Hi; lia|lia].
Qed.
Lemma pow2_gt : forall t, t < 2 ^ t.
Proof. intros. apply Nat.pow_gt_lin_r. lia. Qed.

Lemma vswap_wp : forall A (v : list A) n f i j (Q : list A -> Prop), is_vector v n f -> i < n -> j < n ->
  (forall v', is_vector v' n (fun p => if p =? j then f i else if p =? i then f j else f p) -> Q v') -> wp (vswap v i j) Q.
Proof.
  intros A v n f i j Q HV Hi Hj HQ. unfold vswap. rewrite !(vec_get _ v n f) by auto. cbn [bind]. apply wp_bind. eapply vsetf_wp; eauto. intros v1 H1. eapply vsetf_wp; eauto.
Qed.

Lemma bitrev_ok : forall A (data : list A) L x, is_vector data (2 ^ L) x -> wp (BitReversalPermute data) (fun d => is_vector d (2 ^ L) (fun p => x (rev L p))).
Proof.
  intros A data L x HV. unfold BitReversalPermute. rewrite (proj1 HV). set (n := 2 ^ L) in *. assert (PN : 0 < n) by apply pow2_pos.
  apply wp_bind. eapply wp_conseq; [|apply (for_range_inv _ _ (fun i s => fst s = rev L i /\ is_vector (snd s) n (fun p => if (p <? i) || (rev L p <? i) then x (rev L p) else x p)))].
  - intros [j d] [_ HD]. apply wp_Ok. cbn [snd] in HD. eapply is_vector_ext; [exact HD|]. intros p Hp. cbv beta.
    destruct (Nat.ltb_spec p (n - 1)); [reflexivity|]. cbn [orb]. destruct (Nat.ltb_spec (rev L p) (n - 1)) as [|Hr]; [reflexivity|]. f_equal. pose proof (rev_lt L p). fold n in H0. lia.
  - lia.
  - cbn [fst snd]. split. { symmetry. apply rev_0. }
    eapply is_vector_ext; [exact HV|]. intros p Hp. reflexivity.
  - intros i [j d] _ Hi [Ej HD]. cbn [fst snd] in *. subst j. pose proof (rev_lt L i) as RL. fold n in RL.
    assert (RI : forall p, p < n -> rev L (rev L p) = p) by (intros; apply rev_rev; auto).
    assert (RL' : forall p, rev L p < n) by (intros; apply rev_lt).
    assert (RJ : forall p q, p < n -> q < n -> rev L p = q -> p = rev L q). { intros p q Hp Hq E. rewrite <- E. symmetry. apply RI. auto. }
    apply wp_bind. apply (wp_conseq _ _ (fun d' => is_vector d' n (fun p => if (p <? i + 1) || (rev L p <? i + 1) then x (rev L p) else x p))).
    + intros d' HD'. cbv beta. pose proof (pow2_gt L) as PG. fold n in PG. unfold n at 2. rewrite (bitrev_inc_ok L i (S n)) by (fold n; lia). cbn [bind]. apply wp_Ok. cbn [fst snd]. auto.
    + destruct (Nat.ltb_spec i (rev L i)) as [Hlt|Hge].
      * eapply vswap_wp; [exact HD|lia|auto|]. intros d' HD'. eapply is_vector_ext; [exact HD'|]. intros p Hp. cbv beta.
        destruct (Nat.eqb_spec p (rev L i)) as [->|N1].
        -- rewrite RI by lia. destruct (Nat.ltb_spec i i); [lia|]. destruct (Nat.ltb_spec (rev L i) i); [lia|]. destruct (Nat.ltb_spec i (i + 1)); [|lia]. rewrite orb_true_r. reflexivity.
        -- destruct (Nat.eqb_spec p i) as [->|N2].
           ++ rewrite RI by lia. destruct (Nat.ltb_spec (rev L i) i); [lia|]. destruct (Nat.ltb_spec i i); [lia|]. destruct (Nat.ltb_spec i (i + 1)); [|lia]. reflexivity.
           ++ assert (E1 : (p <? i + 1) = (p <? i)) by (destruct (Nat.ltb_spec p (i + 1)), (Nat.ltb_spec p i); auto; lia).
              assert (E2 : (rev L p <? i + 1) = (rev L p <? i)). { destruct (Nat.ltb_spec (rev L p) (i + 1)), (Nat.ltb_spec (rev L p) i); auto; try lia. exfalso. apply N1. apply RJ; lia. }
              rewrite E1, E2. reflexivity.
      * apply wp_Ok. eapply is_vector_ext; [exact HD|]. intros p Hp. cbv beta. destruct (Nat.eq_dec p i) as [->|N2].
        -- destruct (Nat.ltb_spec i i); [lia|]. destruct (Nat.ltb_spec i (i + 1)); [|lia]. cbn [orb]. destruct (Nat.ltb_spec (rev L i) i); [reflexivity|]. f_equal. lia.
        -- assert (E1 : (p <? i + 1) = (p <? i)) by (destruct (Nat.ltb_spec p (i + 1)), (Nat.ltb_spec p i); auto; lia). rewrite E1.
           destruct (Nat.eq_dec (rev L p) i) as [E|N3].
           ++ pose proof (RJ p i Hp ltac:(lia) E) as EP. destruct (Nat.ltb_spec p i); [reflexivity|]. lia.
           ++ assert (E2 : (rev L p <? i + 1) = (rev L p <? i)) by (destruct (Nat.ltb_spec (rev L p) (i + 1)), (Nat.ltb_spec (rev L p) i); auto; lia). rewrite E2. reflexivity.
Qed.

(** ** One stage *)
Local Open Scope R_scope.
(** e^(-s 2 pi i k / N) and the transform with that sign *)
Definition tw (s : Z) (N k : nat) : C := expi (- IZR s * (2 * PI * INR k / INR N)).
Definition dfts (s : Z) (N : nat) (x : nat -> C) (k : nat) : C := Csum N (fun j => Cmul (x j) (tw s N (j * k))).

Lemma tw_0 : forall s N, tw s N 0 = (1, 0).
Proof. intros. unfold tw. cbn [INR]. replace (- IZR s * (2 * PI * 0 / INR N)) with 0 by (unfold Rdiv; ring). apply expi_0. Qed.
Lemma tw_add : forall s N a b, tw s N (a + b) = Cmul (tw s N a) (tw s N b).
Proof. intros. unfold tw. rewrite <- expi_add. f_equal. rewrite plus_INR. unfold Rdiv. ring. Qed.
Lemma tw_full : forall s N q, (0 < N)%nat -> tw s N (N * q) = (1, 0).
Proof.
  intros s N q HN. unfold tw. replace (- IZR s * (2 * PI * INR (N * q) / INR N)) with (2 * PI * IZR (- s * Z.of_nat q)); [apply expi_2piZ|].
  rewrite mult_IZR, opp_IZR, <- INR_IZR_INZ, mult_INR. field. apply not_0_INR. lia.
Qed.
Lemma tw_double : forall s N k, (0 < N)%nat -> tw s (2 * N) (2 * k) = tw s N k.
Proof. intros. unfold tw. f_equal. rewrite !mult_INR. cbn [INR]. field. apply not_0_INR. lia. Qed.
Lemma tw_half : forall s N, (0 < N)%nat -> Z.odd s = true -> tw s (2 * N) N = (-1, 0).
Proof.
  intros s N HN Hs. apply Z.odd_spec in Hs. destruct Hs as [z ->]. unfold tw. replace (- IZR (2 * z + 1) * (2 * PI * INR N / INR (2 * N))) with (2 * PI * IZR (- z - 1) + PI).
  - rewrite expi_add, expi_2piZ, expi_pi. apply C_eq; cbn; ring.
  - rewrite minus_IZR, opp_IZR, plus_IZR, mult_IZR, mult_INR. cbn [INR]. field. apply not_0_INR. lia.
Qed.
Lemma dfts_period : forall s N x k, (0 < N)%nat -> dfts s N x (k + N) = dfts s N x k.
Proof.
  intros s N x k HN. apply Csum_ext. intros j Hj. f_equal. rewrite Nat.mul_add_distr_l, tw_add. rewrite (Nat.mul_comm j N), tw_full by auto. apply C_eq; cbn; ring.
Qed.
Lemma dfts_split : forall s M x k, (0 < M)%nat ->
  dfts s (2 * M) x k = Cadd (dfts s M (fun j => x (2 * j)%nat) k) (Cmul (tw s (2 * M) k) (dfts s M (fun j => x (2 * j + 1)%nat) k)).
Proof.
  intros s M x k HM. unfold dfts. rewrite Csum_even_odd. f_equal.
  - apply Csum_ext. intros j Hj. f_equal. rewrite <- Nat.mul_assoc. apply tw_double. auto.
  - rewrite Csum_mul_l. apply Csum_ext. intros j Hj. replace ((2 * j + 1) * k)%nat with (2 * (j * k) + k)%nat by lia. rewrite tw_add, tw_double by auto. apply C_eq; cbn; ring.
Qed.
Lemma dfts_split_hi : forall s M x k, (0 < M)%nat -> Z.odd s = true ->
  dfts s (2 * M) x (k + M) = Csub (dfts s M (fun j => x (2 * j)%nat) k) (Cmul (tw s (2 * M) k) (dfts s M (fun j => x (2 * j + 1)%nat) k)).
Proof.
  intros s M x k HM Hs. rewrite dfts_split, !dfts_period by auto. rewrite tw_add, tw_half by auto. apply C_eq; cbn; ring.
Qed.

(** the contents after the stages up to block size 2^t, for input length 2^L *)
Definition block (s : Z) (L t : nat) (x : nat -> C) (p : nat) : C :=
  dfts s (2 ^ t) (fun j => x (rev (L - t) (p / 2 ^ t) + j * 2 ^ (L - t))%nat) (p mod 2 ^ t).

(** position p = a (2M) + b M + r *)
Local Open Scope nat_scope.
Lemma pos_split : forall M p, 0 < M -> exists a b r, p = a * (2 * M) + b * M + r /\ b < 2 /\ r < M.
Proof.
  intros M p HM. exists (p / (2 * M)), ((p mod (2 * M)) / M), ((p mod (2 * M)) mod M). pose proof (Nat.div_mod p (2 * M) ltac:(lia)). pose proof (Nat.div_mod (p mod (2 * M)) M ltac:(lia)).
  pose proof (Nat.mod_upper_bound p (2 * M) ltac:(lia)). pose proof (Nat.mod_upper_bound (p mod (2 * M)) M ltac:(lia)). split; [lia|]. split; [|auto]. apply Nat.div_lt_upper_bound; lia.
Qed.
Lemma pos_parts : forall M a b r, b < 2 -> r < M -> let p := a * (2 * M) + b * M + r in p mod M = r /\ p / M = 2 * a + b /\ p / (2 * M) = a /\ p mod (2 * M) = b * M + r.
Proof.
  intros M a b r Hb Hr p. assert (E : p = M * (2 * a + b) + r) by (unfold p; lia). assert (E2 : p = (2 * M) * a + (b * M + r)) by (unfold p; lia). assert (b * M + r < 2 * M) by (destruct b as [|[|]]; lia).
  pose proof (Nat.div_unique p M _ _ Hr E). pose proof (Nat.mod_unique p M _ _ Hr E). pose proof (Nat.div_unique p (2 * M) _ _ H E2). pose proof (Nat.mod_unique p (2 * M) _ _ H E2). auto.
Qed.
Lemma pos_inj : forall M a b r a' b' r', b < 2 -> r < M -> b' < 2 -> r' < M -> a * (2 * M) + b * M + r = a' * (2 * M) + b' * M + r' -> a = a' /\ b = b' /\ r = r'.
Proof.
  intros M a b r a' b' r' Hb Hr Hb' Hr' E. destruct (pos_parts M a b r Hb Hr) as (P1 & P2 & P3 & _). destruct (pos_parts M a' b' r' Hb' Hr') as (Q1 & Q2 & Q3 & _). rewrite E in P1, P2, P3. lia.
Qed.

Definition bfly (w : nat -> C) (M : nat) (D : nat -> C) (p : nat) : C :=
  let a := p / (2 * M) in let r := p mod M in let lo := D (a * (2 * M) + r) in let hi := D (a * (2 * M) + M + r) in
  if Nat.odd (p / M) then Csub lo (Cmul (w r) hi) else Cadd lo (Cmul (w r) hi).

Lemma odd_2a : forall a b, b < 2 -> Nat.odd (2 * a + b) = (b =? 1).
Proof. intros a b Hb. rewrite Nat.add_comm, Nat.odd_add_mul_2. destruct b as [|[|]]; [reflexivity|reflexivity|lia]. Qed.

Lemma stage_ok : forall isign M Q data D, 0 < M -> 0 < Q -> is_vector data (Q * (2 * M)) D ->
  wp (fft_stage Rtrig isign M data) (fun d => is_vector d (Q * (2 * M)) (bfly (tw isign (2 * M)) M D)).
Proof.
  intros s M Q data D HM HQ HD. set (n := Q * (2 * M)) in *. unfold fft_stage. rewrite (proj1 HD). set (theta := ndiv _ _ _). set (w := tw s (2 * M)).
  assert (HW : forall m, Cmul (w m) (cis Rtrig theta) = w (m + 1)).
  { intros m. unfold w. rewrite tw_add. f_equal. unfold cis, tw, expi. cbn [tcos tsin Rtrig].
    assert (E : theta = (- IZR s * (2 * PI * INR 1 / INR (2 * M)))%R). { unfold theta. cbn [Rtrig tar tpi]. rnum. rewrite opp_IZR, <- INR_IZR_INZ, mult_INR. cbn [INR]. field. apply not_0_INR. lia. } rewrite E. reflexivity. }
  set (F := fun m q p => if (p mod M <? m) || ((p mod M =? m) && (p / (2 * M) <? q)) then bfly w M D p else D p).
  apply wp_bind. eapply wp_conseq; [|apply (for_range_inv _ _ (fun m st => fst st = w m /\ is_vector (snd st) n (F m 0)))].
  - intros [w' d] [_ Hd]. apply wp_Ok. cbn [snd] in Hd. eapply is_vector_ext; [exact Hd|]. intros p Hp. unfold F. destruct (Nat.ltb_spec (p mod M) M) as [|HH]; [reflexivity|]. pose proof (Nat.mod_upper_bound p M ltac:(lia)). lia.
  - lia.
  - cbn [fst snd]. split; [unfold w; rewrite tw_0; unfold cone; cbn; reflexivity|]. eapply is_vector_ext; [exact HD|]. intros p Hp. unfold F. destruct (Nat.ltb_spec (p mod M) 0); [lia|]. destruct (Nat.ltb_spec (p / (2 * M)) 0); [lia|]. rewrite andb_false_r. reflexivity.
  - intros m [w' d] _ Hm [Ew Hd]. cbn [fst snd] in *. subst w'. apply wp_bind. unfold for_stride.
    replace ((n - m + 2 * M - 1) / (2 * M)) with Q.
    2: { apply (Nat.div_unique _ _ _ (2 * M - 1 - m)); [lia|]. unfold n. assert (2 * M <= Q * (2 * M)) by nia. lia. }
    eapply wp_conseq; [|apply (for_range_inv _ _ (fun q d => is_vector d n (F m q)))].
    + intros d' Hd'. cbv beta. apply wp_Ok. cbn [fst snd]. split; [exact (HW m)|]. eapply is_vector_ext; [exact Hd'|]. intros p Hp. unfold F.
      assert (PQ : p / (2 * M) < Q) by (apply Nat.div_lt_upper_bound; [lia|]; unfold n in Hp; lia).
      destruct (Nat.ltb_spec (p / (2 * M)) Q); [|lia]. destruct (Nat.ltb_spec (p / (2 * M)) 0); [lia|]. rewrite andb_true_r, andb_false_r, orb_false_r.
      destruct (Nat.ltb_spec (p mod M) m), (Nat.eqb_spec (p mod M) m), (Nat.ltb_spec (p mod M) (m + 1)); auto; lia.
    + lia.
    + exact Hd.
    + intros q d' _ Hq Hd'. unfold butterfly.
      assert (Bi : m + q * (2 * M) < n) by (unfold n; nia). assert (Bj : m + q * (2 * M) + M < n) by (unfold n; nia).
      assert (Ei : m + q * (2 * M) = q * (2 * M) + 0 * M + m) by lia. assert (Ej : m + q * (2 * M) + M = q * (2 * M) + 1 * M + m) by lia.
      destruct (pos_parts M q 0 m ltac:(lia) Hm) as (I1 & I2 & I3 & _). destruct (pos_parts M q 1 m ltac:(lia) Hm) as (J1 & J2 & J3 & _). rewrite <- Ei in I1, I2, I3. rewrite <- Ej in J1, J2, J3.
      assert (Fi : F m q (m + q * (2 * M)) = D (m + q * (2 * M))). { unfold F. rewrite I1, I3. destruct (Nat.ltb_spec m m); [lia|]. destruct (Nat.ltb_spec q q); [lia|]. rewrite andb_false_r. reflexivity. }
      assert (Fj : F m q (m + q * (2 * M) + M) = D (m + q * (2 * M) + M)). { unfold F. rewrite J1, J3. destruct (Nat.ltb_spec m m); [lia|]. destruct (Nat.ltb_spec q q); [lia|]. rewrite andb_false_r. reflexivity. }
      rewrite !(vec_get _ d' n (F m q)) by auto. cbn [bind]. rewrite Fi, Fj. apply wp_bind. eapply vsetf_wp; [exact Hd'|exact Bj|]. intros d1 H1. eapply vsetf_wp; [exact H1|exact Bi|]. intros d2 H2.
      eapply is_vector_ext; [exact H2|]. intros p Hp. unfold vfset. destruct (Nat.eqb_spec p (m + q * (2 * M))) as [->|N1].
      * unfold F. rewrite I1, I3. destruct (Nat.ltb_spec m m); [lia|]. rewrite Nat.eqb_refl. destruct (Nat.ltb_spec q (q + 1)); [|lia]. cbn [orb andb]. unfold bfly. rewrite I1, I2, I3. rewrite odd_2a by lia. cbn [Nat.eqb].
        replace (q * (2 * M) + m) with (m + q * (2 * M)) by lia. replace (q * (2 * M) + M + m) with (m + q * (2 * M) + M) by lia. reflexivity.
      * destruct (Nat.eqb_spec p (m + q * (2 * M) + M)) as [->|N2].
        -- unfold F. rewrite J1, J3. destruct (Nat.ltb_spec m m); [lia|]. rewrite Nat.eqb_refl. destruct (Nat.ltb_spec q (q + 1)); [|lia]. cbn [orb andb]. unfold bfly. rewrite J1, J2, J3. rewrite odd_2a by lia. cbn [Nat.eqb].
           replace (q * (2 * M) + m) with (m + q * (2 * M)) by lia. replace (q * (2 * M) + M + m) with (m + q * (2 * M) + M) by lia. reflexivity.
        -- unfold F. destruct (pos_split M p HM) as (a & b & r & Ep & Hb & Hr). destruct (pos_parts M a b r Hb Hr) as (P1 & P2 & P3 & _). rewrite <- Ep in P1, P2, P3. rewrite P1, P3.
           assert (EQ : (r =? m) && (a <? q + 1) = (r =? m) && (a <? q)). { destruct (Nat.eqb_spec r m) as [->|]; auto. cbn [andb]. destruct (Nat.ltb_spec a (q + 1)), (Nat.ltb_spec a q); auto; try lia. exfalso. assert (a = q) by lia. subst a. destruct b as [|[|]]; lia. }
           rewrite EQ. reflexivity.
Qed.

Lemma block_step : forall s L t x p, t < L -> p < 2 ^ L -> Z.odd s = true -> bfly (tw s (2 * 2 ^ t)) (2 ^ t) (block s L t x) p = block s L (S t) x p.
Proof.
  intros s L t x p Ht Hp Hs. set (M := 2 ^ t). assert (HM : 0 < M) by apply pow2_pos. destruct (pos_split M p HM) as (a & b & r & Ep & Hb & Hr).
  destruct (pos_parts M a b r Hb Hr) as (P1 & P2 & P3 & P4). rewrite <- Ep in P1, P2, P3, P4. unfold bfly. rewrite P1, P2, P3. rewrite odd_2a by auto.
  destruct (pos_parts M a 0 r ltac:(lia) Hr) as (A1 & A2 & _ & _). destruct (pos_parts M a 1 r ltac:(lia) Hr) as (B1 & B2 & _ & _).
  rewrite Nat.mul_0_l, Nat.add_0_r in A1, A2. rewrite Nat.mul_1_l in B1, B2.
  assert (EL : L - t = S (L - S t)) by lia. set (u := L - S t) in *.
  assert (Elo : block s L t x (a * (2 * M) + r) = dfts s M (fun j => x (rev u a + (2 * j) * 2 ^ u)) r).
  { unfold block. fold M. rewrite A1, A2, EL. replace (2 * a + 0) with (2 * a) by lia. rewrite rev_even. apply Csum_ext. intros j Hj. f_equal. f_equal. cbn [Nat.pow]. lia. }
  assert (Ehi : block s L t x (a * (2 * M) + M + r) = dfts s M (fun j => x (rev u a + (2 * j + 1) * 2 ^ u)) r).
  { unfold block. fold M. rewrite B1, B2, EL. rewrite rev_odd. apply Csum_ext. intros j Hj. f_equal. f_equal. cbn [Nat.pow]. lia. }
  rewrite Elo, Ehi. unfold block. replace (2 ^ S t) with (2 * M) by reflexivity. fold u. rewrite P3, P4. destruct b as [|[|]]; [| |lia]; cbn [Nat.eqb].
  - rewrite Nat.mul_0_l, Nat.add_0_l. rewrite dfts_split by auto. reflexivity.
  - rewrite Nat.mul_1_l. rewrite (Nat.add_comm M r), dfts_split_hi by auto. reflexivity.
Qed.

Lemma stages_ok : forall s L x, Z.odd s = true -> forall k t fuel data, t + k = L -> k < fuel -> is_vector data (2 ^ L) (block s L t x) ->
  wp (fft_stages Rtrig fuel s (2 ^ t) data) (fun d => is_vector d (2 ^ L) (block s L L x)).
Proof.
  intros s L x Hs. induction k as [|k IH]; intros t fuel data Ht Hf HD; (destruct fuel as [|fuel]; [lia|]); cbn [fft_stages].
  all: pose proof (proj1 HD) as LEN; rewrite LEN.
  - assert (t = L) by lia. subst t. rewrite Nat.ltb_irrefl. apply wp_Ok. exact HD.
  - assert (LT : 2 ^ t < 2 ^ L) by (apply Nat.pow_lt_mono_r; lia). destruct (Nat.ltb_spec (2 ^ t) (2 ^ L)); [|lia]. apply wp_bind.
    assert (EL : 2 ^ L = 2 ^ k * (2 * 2 ^ t)). { replace L with (k + S t) by lia. rewrite Nat.pow_add_r. reflexivity. }
    assert (HD' : is_vector data (2 ^ k * (2 * 2 ^ t)) (block s L t x)) by (rewrite <- EL; exact HD).
    eapply wp_conseq; [|apply (stage_ok s (2 ^ t) (2 ^ k) data _ (pow2_pos t) (pow2_pos k) HD')].
    intros d1 H1. cbv beta in *. rewrite <- EL in H1. replace (2 * 2 ^ t) with (2 ^ S t) by reflexivity. apply IH; [lia|lia|].
    eapply is_vector_ext; [exact H1|]. intros p Hp. apply block_step; auto. lia.
Qed.

(** ** Powers of two *)
Lemma pow2_Z : forall L, Z.of_nat (2 ^ L) = (2 ^ Z.of_nat L)%Z.
Proof. intros. rewrite Nat2Z.inj_pow. reflexivity. Qed.
Lemma land_pow2 : forall k, (0 <= k)%Z -> Z.land (2 ^ k) (2 ^ k - 1) = 0%Z.
Proof. intros k Hk. rewrite Z.sub_1_r, <- Z.ones_equiv, Z.land_ones by auto. apply Z_mod_same_full. Qed.
Lemma is_pow2_spec : forall n, IsPowerOfTwo n = true <-> exists k, (0 <= k)%Z /\ n = (2 ^ k)%Z.
Proof.
  intros n. unfold IsPowerOfTwo. split.
  - rewrite andb_true_iff, Z.ltb_lt, Z.eqb_eq. intros [P H]. pose proof (Z.log2_nonneg n) as LN. destruct (Z.log2_spec n P) as [L1 L2]. exists (Z.log2 n). split; auto.
    destruct (Z.eq_dec n (2 ^ Z.log2 n)) as [E|NE]; auto. exfalso.
    assert (B : Z.testbit (Z.land n (n - 1)) (Z.log2 n) = true).
    { rewrite Z.land_spec, Z.bit_log2 by auto. cbn. assert (E : Z.log2 (n - 1) = Z.log2 n). { apply Z.log2_unique; auto. rewrite Z.pow_succ_r in * by auto. lia. } rewrite <- E. apply Z.bit_log2. assert (0 < 2 ^ Z.log2 n)%Z by (apply Z.pow_pos_nonneg; lia). lia. }
    rewrite H, Z.bits_0 in B. discriminate.
  - intros (k & Hk & ->). rewrite land_pow2 by auto. rewrite andb_true_iff, Z.ltb_lt. split; [apply Z.pow_pos_nonneg; lia|reflexivity].
Qed.
Lemma is_pow2_nat : forall n, IsPowerOfTwo (Z.of_nat n) = true <-> exists L, n = 2 ^ L.
Proof.
  intros n. rewrite is_pow2_spec. split.
  - intros (k & Hk & E). exists (Z.to_nat k). apply Nat2Z.inj. rewrite pow2_Z, Z2Nat.id by auto. exact E.
  - intros (L & ->). exists (Z.of_nat L). split; [lia|apply pow2_Z].
Qed.

(** ** The transform *)
Lemma fft_ok : forall s L data x, Z.odd s = true -> is_vector data (2 ^ L) x -> wp (FFT_Transform Rtrig data s) (fun d => is_vector d (2 ^ L) (dfts s (2 ^ L) x)).
Proof.
  intros s L data x Hs HD. unfold FFT_Transform. rewrite (proj1 HD). pose proof (pow2_pos L) as PL. destruct (Nat.eqb_spec (2 ^ L) 0); [lia|].
  rewrite (proj2 (is_pow2_nat (2 ^ L)) (ex_intro _ L eq_refl)). cbn [negb]. apply wp_bind. eapply wp_conseq; [|apply (bitrev_ok _ data L x HD)]. intros d Hd. cbv beta in *.
  change (fft_stages Rtrig (S (2 ^ L)) s 1 d) with (fft_stages Rtrig (S (2 ^ L)) s (2 ^ 0) d). pose proof (pow2_gt L). eapply wp_conseq; [|apply (stages_ok s L x Hs L 0); [lia|lia|]].
  - intros d' Hd'. cbv beta. eapply is_vector_ext; [exact Hd'|]. intros p Hp. unfold block. rewrite Nat.sub_diag. cbn [rev Nat.pow]. rewrite Nat.mod_small by auto. apply Csum_ext. intros j Hj. f_equal. f_equal. lia.
  - eapply is_vector_ext; [exact Hd|]. intros p Hp. unfold block. rewrite Nat.sub_0_r. cbn [Nat.pow]. rewrite Nat.div_1_r. unfold dfts. cbn [Csum sumn]. rewrite Nat.mul_0_l, Nat.add_0_r, tw_0. cbn. unfold Cadd, Cmul. cbn. destruct (x (rev L p)). cbn. f_equal; ring.
Qed.
