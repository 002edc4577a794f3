(** * Romberg integration: extrapolation of the trapezoidal sums, and why it is exact for polynomials *)

From Coq Require Import List Bool Arith ZArith Lia Reals Lra Psatz.
From Verif Require Import Base Num Mat_Proofs RootFind_Model RootFind_Proofs Tri_Model Interp_Model Interp_Poly Interp_Bary Integ_Model Integ_Spec Integ_Trap.
Import ListNotations.
Local Open Scope R_scope.
Local Notation sum := (sumn Rnum).

Lemma brk_seq : forall S R (f : S -> nat -> res (S + R)) (I : nat -> S -> Prop) n lo s, I lo s ->
  (forall i s, (lo <= i < lo + n)%nat -> I i s -> wp (f s i) (fun r => match r with inl s' => I (i + 1)%nat s' | inr _ => False end)) ->
  wp (for_each_brk f (seq lo n) s) (fun r => match r with inl s' => I (lo + n)%nat s' | inr _ => False end).
Proof.
  intros S R f I. induction n as [|n IH]; intros lo s H0 HS; cbn [seq for_each_brk].
  - apply wp_Ok. rewrite Nat.add_0_r. auto.
  - apply wp_bind. eapply wp_conseq; [|apply HS; [lia|exact H0]]. intros [s'|r]; [|tauto]. intros H1.
    eapply wp_conseq; [|apply (IH (Datatypes.S lo) s')]. { intros [s2|r2]; auto. intros H2. replace (lo + Datatypes.S n)%nat with (Datatypes.S lo + n)%nat by lia. auto. }
    + replace (Datatypes.S lo) with (lo + 1)%nat by lia. auto.
    + intros i s2 Hi. apply HS. lia.
Qed.

(** ** The tableau *)
Section Extrap.
Context (X Y : nat -> R) (sl hl : list R) (n1 n2 : nat) (HY : is_vector sl n1 Y) (HX : is_vector hl n2 X).
Context (base K : nat) (HK : (2 <= K)%nat) (H1 : (base + K <= n1)%nat) (H2 : (base + K <= n2)%nat).
Context (HP : forall i, (base <= i < base + K)%nat -> 0 < X i) (HD : forall i j, (base <= i < j)%nat -> (j < base + K)%nat -> 1 / IZR (10 ^ 30) <= X i - X j).
Local Notation nv k i := (nev Rarith X Y k i 0).
Local Notation nc k i := (nevc Rarith X Y k i 0).
Local Notation nd k i := (nevd Rarith X Y k i 0).

Lemma thr_pos : 0 < 1 / IZR (10 ^ 30).
Proof. apply Rdiv_lt_0_compat; [lra|]. apply IZR_lt. reflexivity. Qed.
Lemma romb_init_ok : wp (romb_init Rarith sl hl base K) (fun r => fst r = (K - 1)%nat /\ is_vector (snd r) K (fun a => Y (base + a)%nat)).
Proof.
  unfold romb_init. apply wp_bind. eapply vgetf_wp; [exact HX|lia|]. apply wp_bind.
  eapply wp_conseq; [|apply (for_range_inv _ _ (fun i r => fst (fst r) = pred i /\ snd (fst r) = X (base + pred i)%nat /\ is_vector (snd r) K (fun a => if (a <? i)%nat then Y (base + a)%nat else 0)))].
  - intros [[ns dif] c] (E1 & E2 & HC). apply wp_Ok. cbn [fst snd] in *. split; [lia|]. eapply is_vector_ext; [exact HC|]. intros a Ha. cbv beta. destruct (Nat.ltb_spec a K); auto; lia.
  - lia.
  - cbn [fst snd pred]. split; auto. split. { rewrite Nat.add_0_r. rnum. apply Rabs_right. apply Rle_ge, Rlt_le, HP. lia. }
    eapply is_vector_ext; [apply is_vector_repeat|]. intros a Ha. reflexivity.
  - intros i [[ns dif] c] _ Hi (E1 & E2 & HC). cbn [fst snd] in *. apply wp_bind. eapply vgetf_wp; [exact HX|lia|]. apply wp_bind. eapply vgetf_wp; [exact HY|lia|].
    apply wp_bind. eapply vsetf_wp; [exact HC|lia|]. intros c' HC'.
    assert (G : is_vector c' K (fun a => if (a <? i + 1)%nat then Y (base + a)%nat else 0)).
    { eapply is_vector_ext; [exact HC'|]. intros a Ha. unfold vfset. cbv beta. destruct (Nat.eqb_spec a i), (Nat.ltb_spec a i), (Nat.ltb_spec a (i + 1)); subst; try lia; reflexivity. }
    rnum. rewrite (Rabs_right (X (base + i)%nat)) by (apply Rle_ge, Rlt_le, HP; lia). subst ns dif. apply wp_Ok.
    pose proof thr_pos. destruct (Rltb_spec (X (base + i)%nat) (X (base + pred i)%nat)) as [L|L].
    + cbn [fst snd]. replace (pred (i + 1)) with i by lia. auto.
    + destruct i as [|i]; [|exfalso; apply L; pose proof (HD (base + i) (base + S i) ltac:(lia) ltac:(lia)); cbn [pred]; lra]. cbn [fst snd pred Nat.add]. auto.
Qed.
Lemma romb_column_ok : forall k c d, (1 <= k < K)%nat ->
  is_vector c K (fun a => nc (Nat.min (k - 1) (K - 1 - a)) (base + a)) -> is_vector d K (fun a => nd (Nat.min (k - 1) (K - 1 - a)) (base + a)) ->
  wp (romb_column Rarith hl base K k c d) (fun r => match r with inr _ => False | inl r =>
     is_vector (fst r) K (fun a => nc (Nat.min k (K - 1 - a)) (base + a)) /\ is_vector (snd r) K (fun a => nd (Nat.min k (K - 1 - a)) (base + a)) end).
Proof.
  intros k c d Hk HC HDD. unfold romb_column.
  eapply wp_conseq; [|apply (brk_seq _ _ _ (fun i r =>
    is_vector (fst r) K (fun a => nc (if a <? i then k else Nat.min (k - 1) (K - 1 - a))%nat (base + a)) /\ is_vector (snd r) K (fun a => nd (if a <? i then k else Nat.min (k - 1) (K - 1 - a))%nat (base + a))))].
  - intros [[c' d']|]; auto. intros [G1 G2]. cbn [fst snd Nat.add] in *. split; eapply is_vector_ext; try eassumption; intros a Ha; cbv beta; destruct (Nat.ltb_spec a (K - k)); f_equal; lia.
  - cbn [fst snd]. split; eapply is_vector_ext; eauto.
  - intros i [c' d'] Hi [G1 G2]. cbn [fst snd Nat.add] in *.
    apply wp_bind. eapply vgetf_wp; [exact HX|lia|]. apply wp_bind. eapply vgetf_wp; [exact HX|lia|].
    apply wp_bind. eapply vgetf_wp; [exact G1|lia|]. apply wp_bind. eapply vgetf_wp; [exact G2|lia|].
    cbv beta. destruct (Nat.ltb_spec (i + 1) i); [lia|]. destruct (Nat.ltb_spec i i); [lia|].
    replace (Nat.min (k - 1) (K - 1 - (i + 1))) with (k - 1)%nat by lia. replace (Nat.min (k - 1) (K - 1 - i)) with (k - 1)%nat by lia.
    replace (base + (i + 1))%nat with (base + i + 1)%nat by lia. rewrite (nev_w Rarith Rnum_field). unfold DivisionSafetyThreshold. rnum.
    pose proof (HD (base + i) (base + i + k) ltac:(lia) ltac:(lia)) as N. pose proof thr_pos.
    rewrite (Rabs_right (X (base + i)%nat - X (base + i + k)%nat)) by lra. destruct (Rltb_spec (X (base + i)%nat - X (base + i + k)%nat) (1 / IZR (10 ^ 30))); [lra|].
    destruct k as [|k]; [lia|]. replace (S k - 1)%nat with k in * by lia.
    apply wp_bind. eapply vsetf_wp; [exact G2|lia|]. intros d2 HD2. apply wp_bind. eapply vsetf_wp; [exact G1|lia|]. intros c2 HC2. apply wp_Ok. cbn [fst snd].
    split; (eapply is_vector_ext; [eassumption|]); intros a Ha; unfold vfset; cbv beta; destruct (Nat.eqb_spec a i) as [EA|NA].
    + subst a. destruct (Nat.ltb_spec i (i + 1)); [|lia]. cbn [nevc nev]. rnum. field. lra.
    + destruct (Nat.ltb_spec a i), (Nat.ltb_spec a (i + 1)); try lia; reflexivity.
    + subst a. destruct (Nat.ltb_spec i (i + 1)); [|lia]. cbn [nevd nev]. rnum. field. lra.
    + destruct (Nat.ltb_spec a i), (Nat.ltb_spec a (i + 1)); try lia; reflexivity.
Qed.
Lemma romb_extrap_ok : forall dss, romb_extrap Rarith sl hl base K dss = Ok (inl (nv (K - 1) base, nv (K - 1) base - nv (K - 2) (base + 1))).
Proof.
  intros dss. enough (W : wp (romb_extrap Rarith sl hl base K dss) (fun r => r = inl (nv (K - 1) base, nv (K - 1) base - nv (K - 2) (base + 1)))). { destruct (wp_elim _ _ _ W) as (r & E & ->). exact E. }
  unfold romb_extrap. apply wp_bind. eapply wp_conseq; [|apply romb_init_ok]. intros [ns c] [EN HC]. cbn [fst snd] in *. subst ns.
  apply wp_bind. eapply vgetf_wp; [exact HY|lia|]. apply wp_bind.
  eapply wp_conseq; [|apply (brk_seq _ _ _ (fun k r =>
    is_vector (fst (fst (fst (fst r)))) K (fun a => nc (Nat.min (k - 1) (K - 1 - a)) (base + a)) /\ is_vector (snd (fst (fst (fst r)))) K (fun a => nd (Nat.min (k - 1) (K - 1 - a)) (base + a)) /\
    snd r = (Z.of_nat K - 1 - Z.of_nat k)%Z /\ snd (fst (fst r)) = nv (k - 1) (base + (K - k)) /\ ((2 <= k)%nat -> snd (fst r) = nv (k - 1) (base + (K - k)) - nv (k - 2) (base + (K - k) + 1))))].
  - intros [[[[[c' d'] y] dy] z]|]; [|tauto]. intros (_ & _ & _ & E1 & E2). cbn [fst snd] in *. apply wp_Ok. rewrite E1, E2 by lia.
    replace (1 + (K - 1))%nat with K by lia. replace (base + (K - K))%nat with base by lia. reflexivity.
  - cbn [fst snd]. split; [|split]; try (eapply is_vector_ext; [exact HC|intros; reflexivity]). split; [lia|]. split; [reflexivity|]. lia.
  - intros k [[[[c' d'] y] dy] z] Hk (G1 & G2 & EZ & E1 & E2). cbn [fst snd] in *. subst y z. clear E2.
    apply wp_bind. eapply wp_conseq; [|apply (romb_column_ok k); [lia|exact G1|exact G2]]. intros [[c2 d2]|]; [|tauto]. intros [C2 D2]. cbn [fst snd] in *.
    assert (ZG : forall (v : list R) m g i, is_vector v m g -> (i < m)%nat -> zget v (Z.of_nat i) = Ok (g i)).
    { intros v m g i [HL HV] HI. unfold zget. destruct (Z.ltb_spec (Z.of_nat i) 0); [lia|]. rewrite Nat2Z.id. unfold vget. rewrite HV by auto. reflexivity. }
    destruct (Z.ltb_spec (2 * (Z.of_nat K - 1 - Z.of_nat k + 1)) (Z.of_nat K - Z.of_nat k)); [lia|].
    replace (Z.of_nat K - 1 - Z.of_nat k)%Z with (Z.of_nat (K - 1 - k)) by lia. rewrite (ZG _ _ _ (K - 1 - k)%nat D2) by lia. cbn [bind]. apply wp_Ok. cbn [fst snd]. rnum.
    replace (k + 1 - 1)%nat with k by lia. split; auto. split; auto. split; [lia|]. replace (Nat.min k (K - 1 - (K - 1 - k))) with k by lia.
    destruct k as [|k]; [lia|]. cbn [nevd]. rnum. replace (K - (S k + 1))%nat with (K - 1 - S k)%nat by lia. replace (S k - 1)%nat with k by lia. replace (S k + 1 - 2)%nat with k by lia.
    replace (base + (K - S k))%nat with (base + (K - 1 - S k) + 1)%nat by lia. split; [ring|]. intros _. reflexivity.
Qed.
End Extrap.

(** ** The loop *)
Lemma quarter_pos : forall i, 0 < (1 / 4) ^ i. Proof. intros. apply pow_lt. lra. Qed.
Lemma quarter_S : forall i, (1 / 4) ^ S i = / 4 * (1 / 4) ^ i. Proof. intros. cbn. field. Qed.
Lemma quarter_mono : forall i k, (1 / 4) ^ (i + k) <= (1 / 4) ^ i.
Proof. intros i k. induction k as [|k IH]; [rewrite Nat.add_0_r; lra|]. rewrite Nat.add_succ_r, quarter_S. pose proof (quarter_pos (i + k)). lra. Qed.
Lemma quarter_gap : forall i j, (i < j)%nat -> 3 * (1 / 4) ^ j <= (1 / 4) ^ i - (1 / 4) ^ j.
Proof. intros i j H. destruct j as [|j]; [lia|]. rewrite quarter_S. replace j with (i + (j - i))%nat by lia. pose proof (quarter_mono i (j - i)). pose proof (quarter_pos (i + (j - i))). lra. Qed.
Lemma quarter_thr : forall j, (j <= 50)%nat -> 1 / IZR (10 ^ 30) <= 3 * (1 / 4) ^ j.
Proof.
  intros j H. apply Rle_trans with (3 * (1 / 4) ^ 50).
  - assert (E : (1 / 4) ^ 50 = / IZR (4 ^ 50)). { unfold Rdiv. rewrite Rmult_1_l, pow_inv. f_equal. rewrite (pow_IZR 4 50). reflexivity. }
    rewrite E. apply Rmult_le_reg_r with (IZR (10 ^ 30)); [apply IZR_lt; reflexivity|]. apply Rmult_le_reg_r with (IZR (4 ^ 50)); [apply IZR_lt; reflexivity|].
    replace (1 / IZR (10 ^ 30) * IZR (10 ^ 30) * IZR (4 ^ 50)) with (IZR (4 ^ 50)). 2: { field. apply not_0_IZR. discriminate. }
    replace (3 * / IZR (4 ^ 50) * IZR (10 ^ 30) * IZR (4 ^ 50)) with (IZR (3 * 10 ^ 30)). 2: { rewrite mult_IZR. field. apply not_0_IZR. discriminate. }
    apply IZR_le. vm_compute. discriminate.
  - replace 50%nat with (j + (50 - j))%nat by lia. pose proof (quarter_mono j (50 - j)). lra.
Qed.
Lemma quarter_inj : forall i j, (i < j)%nat -> (1 / 4) ^ i <> (1 / 4) ^ j.
Proof. intros i j H. pose proof (quarter_gap i j H). pose proof (quarter_pos j). lra. Qed.

Lemma extrapolation_unique : forall T k j v w, (k <= S j)%nat -> extrapolation T k j v -> extrapolation T k j w -> v = w.
Proof.
  intros T k j v w Hk (p & P1 & P2 & ->) (q & Q1 & Q2 & ->). apply (poly_unique Rnum Rnum_field k p q (fun i => (1 / 4) ^ (S j - k + i))); auto.
  - intros a b H. apply quarter_inj. lia.
  - intros i Hi. rewrite P2, Q2 by lia. reflexivity.
Qed.
Lemma nev_extrapolation : forall T X Y k base, (1 <= k)%nat -> (forall i, (base <= i < base + k)%nat -> X i = (1 / 4) ^ i /\ Y i = T i) ->
  extrapolation T k (base + k - 1) (nev Rarith X Y (k - 1) base 0).
Proof.
  intros T X Y k base Hk HXY.
  assert (D : forall a b, (base <= a < b)%nat -> (b <= base + (k - 1))%nat -> X a <> X b). { intros a b Ha Hb. rewrite (proj1 (HXY a ltac:(lia))), (proj1 (HXY b ltac:(lia))). apply quarter_inj. lia. }
  exists (nev Rarith X Y (k - 1) base). split; [|split; auto].
  - pose proof (nev_poly Rarith Rnum_field X Y (k - 1) base D) as P. replace (S (k - 1)) with k in P by lia. exact P.
  - intros i Hi. pose proof (nev_interp Rarith Rnum_field X Y (k - 1) base D (i - base)%nat ltac:(lia)) as E. replace (base + (i - base))%nat with i in E by lia.
    rewrite (proj1 (HXY i ltac:(lia))), (proj2 (HXY i ltac:(lia))) in E. exact E.
Qed.

Section Loop.
Context (f : R -> R) (a b eps : R) (K N : nat) (HK : (2 <= K)%nat) (HN : (N <= 51)%nat).
Local Notation T k := (trapezoid f a b (2 ^ k)).
Context (v w : nat -> R).
Context (HV : forall j, (K <= S j)%nat -> extrapolation (fun k => T k) K j (v j)) (HW : forall j, (K <= S j)%nat -> extrapolation (fun k => T k) (K - 1) j (w j)).

Lemma romb_loop_ok : forall n j st s h ss dss, (n + j = N)%nat ->
  (match j with 0%nat => fst st = 0%nat | S i => st = (S i, T i) end) ->
  is_vector s N (fun i => if (i <? j)%nat then T i else 0) -> is_vector h (S N) (fun i => if (i <=? j)%nat then (1 / 4) ^ i else 0) ->
  (if (K <=? j)%nat then ss = v (j - 1)%nat /\ dss = v (j - 1)%nat - w (j - 1)%nat else ss = 0 /\ dss = 0) ->
  (forall i, (K <= S i <= j)%nat -> ~ Rabs (v i - w i) <= eps * Rabs (v i) + eps * eps_machine) ->
  exists r, romb_loop Rarith f a b eps K n j st s h ss dss = Ok r /\ romberg_stops v w eps K N r.
Proof.
  induction n as [|n IH]; intros j st s h ss dss HJ HST HS HH HSS HB; cbn [romb_loop].
  - eexists. split; [reflexivity|]. unfold romberg_stops. cbn [ir_conv ir_iters ir_value ir_err]. cbn [Nat.add] in HJ. subst j. split; auto. split; auto. rnum.
    destruct (Nat.leb_spec K N); destruct HSS as [-> ->]; split; auto. apply Rabs_R0.
  - assert (E : trap_next Rarith f a b st = (S j, T j)).
    { destruct j as [|i]; [destruct st as [z u]; cbn [fst] in HST; subst z; apply next_first|]. subst st. apply next_ok. }
    rewrite E. cbn [snd].
    set (P := fun x => exists r, x = Ok r /\ romberg_stops v w eps K N r).
    assert (WP : forall (A : Type) (m : res A) (k : A -> res ires) (Q : A -> Prop), wp m Q -> (forall x, Q x -> P (k x)) -> P (bind m k)).
    { intros A m k Q W HQ. destruct (wp_elim _ _ _ W) as (x & -> & Hx). cbn [bind]. auto. }
    change (P (bind (vset s j (T j)) (fun s0 => let next ss dss := hj <- vget h j ;; h0 <- vset h (S j) (alit Rarith 1 / alit Rarith 4 * hj) ;; romb_loop Rarith f a b eps K n (S j) (S j, T j) s0 h0 ss dss in
      if (K <=? S j)%nat then
        r <- romb_extrap Rarith s0 h (S j - K) K dss ;;
        match r with
        | inr (ss, dss) => Ok (mkI ss (aabs Rarith dss) (S j) false)
        | inl (ss, dss) => if negb (altb Rarith (eps * aabs Rarith ss + eps * mach_eps Rarith) (aabs Rarith dss)) then Ok (mkI ss (aabs Rarith dss) (S j) true) else next ss dss
        end
      else next ss dss))).
    eapply WP. { apply (vsetf_wp s N (fun i => if (i <? j)%nat then T i else 0) j (T j) (fun s0 => is_vector s0 N (fun i => if (i <? S j)%nat then T i else 0))); [exact HS|lia|]. intros s0 H0. eapply is_vector_ext; [exact H0|].
      intros i Hi. unfold vfset. cbv beta. destruct (Nat.eqb_spec i j), (Nat.ltb_spec i j), (Nat.ltb_spec i (S j)); subst; try lia; reflexivity. }
    intros s0 HS0. cbv zeta.
    assert (NEXT : forall ss dss, (if (K <=? S j)%nat then ss = v j /\ dss = v j - w j else ss = 0 /\ dss = 0) ->
      ((K <= S j)%nat -> ~ Rabs (v j - w j) <= eps * Rabs (v j) + eps * eps_machine) ->
      P (hj <- vget h j ;; h0 <- vset h (S j) (alit Rarith 1 / alit Rarith 4 * hj) ;; romb_loop Rarith f a b eps K n (S j) (S j, T j) s0 h0 ss dss)).
    { intros ss' dss' H3 H4. eapply WP. { apply (vgetf_wp h (S N) (fun i => if (i <=? j)%nat then (1 / 4) ^ i else 0) j (fun x => x = (1 / 4) ^ j)); [exact HH|lia|]. cbv beta. rewrite Nat.leb_refl. reflexivity. }
      intros hj ->. eapply WP. { apply (vsetf_wp h (S N) (fun i => if (i <=? j)%nat then (1 / 4) ^ i else 0) (S j) (1 / 4 * (1 / 4) ^ j) (fun h0 => is_vector h0 (S N) (fun i => if (i <=? S j)%nat then (1 / 4) ^ i else 0))); [exact HH|lia|].
        intros h0 H0. eapply is_vector_ext; [exact H0|]. intros i Hi. unfold vfset. cbv beta. destruct (Nat.eqb_spec i (S j)), (Nat.leb_spec i j), (Nat.leb_spec i (S j)); subst; try lia; reflexivity. }
      intros h0 HH0. apply IH; auto; [lia| |].
      - replace (S j - 1)%nat with j by lia. auto.
      - intros i Hi. destruct (Nat.eq_dec i j) as [->|]; [apply H4; lia|apply HB; lia]. }
    destruct (Nat.leb_spec K (S j)) as [HKJ|HKJ].
    2: { destruct (Nat.leb_spec K j); [lia|]. apply NEXT; auto. lia. }
    assert (EX : romb_extrap Rarith s0 h (S j - K) K dss = Ok (inl (nev Rarith (fun i => if (i <=? j)%nat then (1 / 4) ^ i else 0) (fun i => if (i <? S j)%nat then T i else 0) (K - 1) (S j - K) 0,
      nev Rarith (fun i => if (i <=? j)%nat then (1 / 4) ^ i else 0) (fun i => if (i <? S j)%nat then T i else 0) (K - 1) (S j - K) 0 - nev Rarith (fun i => if (i <=? j)%nat then (1 / 4) ^ i else 0) (fun i => if (i <? S j)%nat then T i else 0) (K - 2) (S j - K + 1) 0))).
    { apply (romb_extrap_ok _ _ s0 h N (S N) HS0 HH); [lia|lia|lia| |].
      - intros i Hi. destruct (Nat.leb_spec i j); [apply quarter_pos|lia].
      - intros i i' Hi Hi'. destruct (Nat.leb_spec i j); [|lia]. destruct (Nat.leb_spec i' j); [|lia]. eapply Rle_trans; [apply (quarter_thr i'); lia|]. apply quarter_gap. lia. }
    rewrite EX.
    cbn [bind]. set (X' := fun i => if (i <=? j)%nat then (1 / 4) ^ i else 0). set (Y' := fun i => if (i <? S j)%nat then T i else 0).
    assert (E1 : nev Rarith X' Y' (K - 1) (S j - K) 0 = v j).
    { apply (extrapolation_unique (fun k => T k) K j); [lia| |apply HV; lia]. pose proof (nev_extrapolation (fun k => T k) X' Y' K (S j - K) ltac:(lia)) as Q. replace (S j - K + K - 1)%nat with j in Q by lia. apply Q.
      intros i Hi. unfold X', Y'. destruct (Nat.leb_spec i j); [|lia]. destruct (Nat.ltb_spec i (S j)); [|lia]. auto. }
    assert (E2 : nev Rarith X' Y' (K - 2) (S j - K + 1) 0 = w j).
    { apply (extrapolation_unique (fun k => T k) (K - 1) j); [lia| |apply HW; lia]. pose proof (nev_extrapolation (fun k => T k) X' Y' (K - 1) (S j - K + 1) ltac:(lia)) as Q. replace (S j - K + 1 + (K - 1) - 1)%nat with j in Q by lia.
      replace (K - 1 - 1)%nat with (K - 2)%nat in Q by lia. apply Q. intros i Hi. unfold X', Y'. destruct (Nat.leb_spec i j); [|lia]. destruct (Nat.ltb_spec i (S j)); [|lia]. auto. }
    rewrite E1, E2. replace (mach_eps Rarith) with eps_machine. 2: { unfold eps_machine, mach_eps. rnum. rewrite (pow_IZR 2 52). unfold Rdiv. rewrite Rmult_1_l. reflexivity. }
    rnum. destruct (Rltb_spec (eps * Rabs (v j) + eps * eps_machine) (Rabs (v j - w j))) as [L|L]; cbn [negb].
    + apply NEXT; auto. intros _. lra.
    + eexists. split; [reflexivity|]. unfold romberg_stops. cbn [ir_conv ir_iters ir_value ir_err]. replace (S j - 1)%nat with j by lia. split; [lia|]. split; auto. split; auto. split; [lra|]. intros i Hi. apply HB. lia.
Qed.
End Loop.
Lemma extrapolation_exists : forall T k j, (1 <= k <= S j)%nat -> exists v, extrapolation T k j v.
Proof.
  intros T k j H. pose proof (nev_extrapolation T (fun i => (1 / 4) ^ i) T k (S j - k) ltac:(lia) ltac:(auto)) as P. replace (S j - k + k - 1)%nat with j in P by lia. eexists. exact P.
Qed.

(** ** Trapezoidal sums of polynomials are polynomials in the square of the width *)
Section EM.
Definition Aq (q : nat) (m h : R) : R := ((m + h / 2) ^ q + (m - h / 2) ^ q) / 2.
Fixpoint Dq (q : nat) (m h : R) : R := match q with 0%nat => 0 | S q => m * Dq q m h + Aq q m h end.
Lemma Aq_S : forall q m h, Aq (S q) m h = m * Aq q m h + h ^ 2 / 4 * Dq q m h.
Proof.
  assert (G : forall q m h, h * Dq q m h = (m + h / 2) ^ q - (m - h / 2) ^ q).
  { induction q as [|q IH]; intros m h; [cbn; ring|]. cbn [Dq pow]. replace (h * (m * Dq q m h + Aq q m h)) with (m * (h * Dq q m h) + h * Aq q m h) by ring. rewrite IH. unfold Aq. field. }
  intros q m h. replace (h ^ 2 / 4 * Dq q m h) with (h / 4 * (h * Dq q m h)) by field. rewrite G. unfold Aq. cbn [pow]. field.
Qed.
Lemma Dq_diff : forall q m h, h * Dq q m h = (m + h / 2) ^ q - (m - h / 2) ^ q.
Proof. induction q as [|q IH]; intros m h; [cbn; ring|]. cbn [Dq pow]. replace (h * (m * Dq q m h + Aq q m h)) with (m * (h * Dq q m h) + h * Aq q m h) by ring. rewrite IH. unfold Aq. field. Qed.
(** combinations of weight [p]: sum of al_k h^(2k) D_(p+1-2k), with al_0 = c *)
Definition SP (p : nat) (c : R) (g : R -> R -> R) : Prop :=
  exists al : nat -> R, al 0%nat = c /\ forall m h, g m h = sum (p / 2 + 1) (fun k => al k * h ^ (2 * k) * Dq (p + 1 - 2 * k) m h).
Lemma SP_ext : forall p c c' g g', SP p c g -> c = c' -> (forall m h, g m h = g' m h) -> SP p c' g'.
Proof. intros p c c' g g' (al & E & H) <- HE. exists al. split; auto. intros. rewrite <- HE. auto. Qed.
Lemma SP_add : forall p c c' g g', SP p c g -> SP p c' g' -> SP p (c + c') (fun m h => g m h + g' m h).
Proof. intros p c c' g g' (al & E & H) (al' & E' & H'). exists (fun k => al k + al' k). split; [rewrite E, E'; auto|]. intros m h. rewrite H, H', <- sum_plus. apply sum_ext_R. intros. ring. Qed.
Lemma SP_scale : forall p c g x, SP p c g -> SP p (x * c) (fun m h => x * g m h).
Proof. intros p c g x (al & E & H). exists (fun k => x * al k). split; [rewrite E; auto|]. intros m h. rewrite H, sum_mul_R. apply sum_ext_R. intros. ring. Qed.
Lemma SP_zero : forall p, SP p 0 (fun _ _ => 0).
Proof. intros p. exists (fun _ => 0). split; auto. intros. symmetry. apply sum_zero_R. intros. ring. Qed.
Lemma SP_shift : forall p c g, SP p c g -> SP (p + 2) 0 (fun m h => h ^ 2 * g m h).
Proof.
  intros p c g (al & E & H). exists (fun k => match k with 0%nat => 0 | S k => al k end). split; auto. intros m h. rewrite H.
  replace ((p + 2) / 2 + 1)%nat with (S (p / 2 + 1)). 2: { replace (p + 2)%nat with (p + 1 * 2)%nat by lia. rewrite Nat.div_add by lia. lia. }
  rewrite sumS_l, sum_mul_R. rewrite Rmult_0_l, Rmult_0_l, Rplus_0_l. apply sum_ext_R. intros i Hi. replace (p + 2 + 1 - 2 * S i)%nat with (p + 1 - 2 * i)%nat by lia. replace (2 * S i)%nat with (2 + 2 * i)%nat by lia. rewrite pow_add. ring.
Qed.
Lemma SP_shifts : forall k p c g, SP p c g -> (1 <= k)%nat -> SP (p + 2 * k) 0 (fun m h => h ^ (2 * k) * g m h).
Proof.
  induction k as [|k IH]; intros p c g H Hk; [lia|]. destruct k as [|k].
  - eapply SP_ext; [apply (SP_shift p c g H)|reflexivity|]. intros. reflexivity.
  - specialize (IH p c g H ltac:(lia)). apply SP_shift in IH. replace (p + 2 * S (S k))%nat with (p + 2 * S k + 2)%nat by lia. eapply SP_ext; [exact IH|reflexivity|].
    intros m h. cbv beta. replace (2 * S (S k))%nat with (2 + 2 * S k)%nat by lia. rewrite pow_add. ring.
Qed.
Lemma SP_D : forall p, SP p 1 (Dq (p + 1)).
Proof.
  intros p. exists (fun k => match k with 0%nat => 1 | _ => 0 end). split; auto. intros m h. replace (p / 2 + 1)%nat with (S (p / 2)) by lia. rewrite sumS_l.
  rewrite (sum_zero_R (p / 2)) by (intros; ring). replace (p + 1 - 2 * 0)%nat with (p + 1)%nat by lia. replace (2 * 0)%nat with 0%nat by lia. rewrite pow_O. ring.
Qed.
Lemma SP_sum : forall n p (g : nat -> R -> R -> R), (forall k, (k < n)%nat -> SP p 0 (g k)) -> SP p 0 (fun m h => sum n (fun k => g k m h)).
Proof.
  induction n as [|n IH]; intros p g H; [apply SP_zero|]. eapply SP_ext; [apply (SP_add p 0 0 (fun m h => sum n (fun k => g k m h)) (g n)); [apply IH; auto|apply H; lia]|ring|]. intros. rewrite sumS. reflexivity.
Qed.
Lemma SP_A : forall q, SP q (/ INR (q + 1)) (Aq q).
Proof.
  induction q as [q IH] using lt_wf_ind. destruct q as [|q].
  - eapply SP_ext; [apply (SP_D 0)|cbn; field|]. intros. cbn [Dq Nat.add]. ring.
  - destruct (IH q ltac:(lia)) as (al & E0 & H).
    assert (HQ : 0 < INR (q + 1)) by (apply lt_0_INR; lia).
    set (rest := fun m h => sum (q / 2) (fun k => al (S k) * (h ^ (2 * S k) * (Dq (q + 2 - 2 * S k) m h + -1 * Aq (q + 1 - 2 * S k) m h)))).
    assert (HR : SP (S q) 0 rest).
    { apply SP_sum. intros k Hk. assert (2 * S k <= q)%nat. { pose proof (Nat.div_mod q 2 ltac:(lia)). lia. }
      replace 0 with (al (S k) * 0) by ring. apply (SP_scale (S q) 0 (fun m h => h ^ (2 * S k) * (Dq (q + 2 - 2 * S k) m h + -1 * Aq (q + 1 - 2 * S k) m h))).
      pose proof (IH (q + 1 - 2 * S k)%nat ltac:(lia)) as IA. pose proof (SP_D (q + 1 - 2 * S k)) as ID. replace (q + 1 - 2 * S k + 1)%nat with (q + 2 - 2 * S k)%nat in ID by lia.
      pose proof (SP_add _ _ _ _ _ ID (SP_scale _ _ _ (-1) IA)) as IS. pose proof (SP_shifts (S k) _ _ _ IS ltac:(lia)) as IT.
      replace (q + 1 - 2 * S k + 2 * S k)%nat with (S q) in IT by lia. exact IT. }
    assert (HD : SP (S q) 0 (fun m h => h ^ 2 / 4 * Dq q m h)).
    { destruct q as [|q]. { eapply SP_ext; [apply SP_zero|reflexivity|]. intros. cbn [Dq]. ring. }
      pose proof (SP_scale _ _ _ (/ 4) (SP_shift _ _ _ (SP_D q))) as Q. replace (q + 2)%nat with (S (S q)) in Q by lia. replace (q + 1)%nat with (S q) in Q by lia. eapply SP_ext; [exact Q|ring|]. intros. cbv beta. field. }
    pose proof (SP_D (S q)) as HT. replace (S q + 1)%nat with (q + 2)%nat in * by lia.
    assert (EQ : forall m h, Aq (S q) m h = INR (q + 1) / INR (q + 2) * (al 0%nat * Dq (q + 2) m h + (rest m h + h ^ 2 / 4 * Dq q m h))).
    { intros m h. assert (INR (q + 2) = INR (q + 1) + 1) as E2. { replace (q + 2)%nat with (S (q + 1)) by lia. apply S_INR. }
      assert (EM : m * Aq q m h = al 0%nat * (Dq (q + 2) m h - Aq (q + 1) m h) + rest m h).
      { rewrite H. replace (q / 2 + 1)%nat with (S (q / 2)) by lia. rewrite sumS_l. rewrite Rmult_plus_distr_l. replace (2 * 0)%nat with 0%nat by lia. rewrite pow_O. replace (q + 1 - 0)%nat with (q + 1)%nat by lia.
        f_equal. { replace (Dq (q + 2) m h) with (m * Dq (q + 1) m h + Aq (q + 1) m h). { ring. } replace (q + 2)%nat with (S (q + 1)) by lia. reflexivity. }
        unfold rest. rewrite sum_mul_R. apply sum_ext_R. intros k Hk. assert (2 * S k <= q)%nat. { pose proof (Nat.div_mod q 2 ltac:(lia)). lia. }
        replace (Dq (q + 2 - 2 * S k) m h) with (m * Dq (q + 1 - 2 * S k) m h + Aq (q + 1 - 2 * S k) m h). { ring. } replace (q + 2 - 2 * S k)%nat with (S (q + 1 - 2 * S k)) by lia. reflexivity. }
      pose proof (Aq_S q m h) as ES. rewrite EM in ES. replace (q + 1)%nat with (S q) in * by lia. rewrite E0 in *. rewrite E2. set (AA := Aq (S q) m h) in *. set (DD := Dq (q + 2) m h) in *. set (RR := rest m h) in *. set (Z := h ^ 2 / 4 * Dq q m h) in *.
      clearbody AA DD RR Z. apply Rmult_eq_reg_r with ((INR (S q) + 1) / INR (S q)). 2: { apply Rgt_not_eq. apply Rdiv_lt_0_compat; lra. }
      replace (INR (S q) / (INR (S q) + 1) * (/ INR (S q) * DD + (RR + Z)) * ((INR (S q) + 1) / INR (S q))) with (/ INR (S q) * DD + (RR + Z)) by (field; lra).
      replace (AA * ((INR (S q) + 1) / INR (S q))) with (AA + / INR (S q) * AA) by (field; lra). lra. }
    assert (HF : SP (S q) (INR (q + 1) / INR (q + 2) * (al 0%nat * 1 + (0 + 0))) (fun m h => INR (q + 1) / INR (q + 2) * (al 0%nat * Dq (q + 2) m h + (rest m h + h ^ 2 / 4 * Dq q m h)))).
    { apply (SP_scale (S q) _ (fun m h => al 0%nat * Dq (q + 2) m h + (rest m h + h ^ 2 / 4 * Dq q m h))). apply (SP_add (S q) _ _ (fun m h => al 0%nat * Dq (q + 2) m h) (fun m h => rest m h + h ^ 2 / 4 * Dq q m h)).
      - apply (SP_scale (S q) 1 (Dq (q + 2))). exact HT.
      - apply (SP_add (S q) 0 0 rest); auto. }
    eapply SP_ext; [exact HF| |intros; symmetry; apply EQ]. rewrite E0. assert (0 < INR (q + 2)) by (apply lt_0_INR; lia). field. lra.
Qed.
End EM.

Lemma is_poly_pow : forall k c, is_poly Rnum (S k) (fun x => c * x ^ k).
Proof.
  intros k c. exists (repeat 0 k ++ [c]). split; [rewrite app_length, repeat_length; cbn; lia|]. intros x. induction k as [|k IH]; [cbn; ring|].
  cbn [repeat app horner fold_right]. unfold horner in IH |- *. cbn [fold_right]. rewrite <- IH. cbn. ring.
Qed.
(** for a power of x the sums are a polynomial in (1/4)^i whose value at 0 is the integral *)
Lemma trap_power : forall a b p, exists P, is_poly Rnum (p / 2 + 1) P /\ (forall i, trapezoid (fun x => x ^ p) a b (2 ^ i) = P ((1 / 4) ^ i)) /\ P 0 = (b ^ (p + 1) - a ^ (p + 1)) / INR (p + 1).
Proof.
  intros a b p. destruct (SP_A p) as (al & E0 & H).
  exists (fun y => sum (p / 2 + 1) (fun k => al k * (b ^ (p + 1 - 2 * k) - a ^ (p + 1 - 2 * k)) * ((b - a) ^ 2) ^ k * y ^ k)). split; [|split].
  - apply is_poly_sum. intros k Hk. apply (is_poly_mono Rnum (S k)); [|lia]. apply is_poly_pow.
  - intros i. set (n := (2 ^ i)%nat). assert (Hn : (0 < n)%nat) by (apply Nat.neq_0_lt_0, Nat.pow_nonzero; lia). assert (HN : 0 < INR n) by (apply lt_0_INR; auto). set (h := (b - a) / INR n).
    unfold trapezoid. fold h.
    rewrite (sum_ext_R n _ (fun t => sum (p / 2 + 1) (fun k => al k * h ^ (2 * k) * (node a b n (S t) ^ (p + 1 - 2 * k) - node a b n t ^ (p + 1 - 2 * k))))).
    2: { intros t Ht. set (m := node a b n t + h / 2). assert (N1 : node a b n (S t) = m + h / 2) by (rewrite node_next; fold h; unfold m; field). assert (N2 : node a b n t = m - h / 2) by (unfold m; ring).
      rewrite N1, N2. transitivity (h * Aq p m h); [unfold Aq; field|]. rewrite H, sum_mul_R. apply sum_ext_R. intros k Hk. rewrite <- Dq_diff. ring. }
    rewrite sum_swap_R. apply sum_ext_R. intros k Hk. rewrite <- sum_mul_R, (sum_tele n (fun t => node a b n t ^ (p + 1 - 2 * k))). rewrite node_n, node_0 by auto.
    replace (h ^ (2 * k)) with (((b - a) ^ 2) ^ k * ((1 / 4) ^ i) ^ k). { ring. }
    rewrite pow_mult, <- Rpow_mult_distr. f_equal. unfold h, n. rewrite pow_INR. change (INR 2) with 2. assert (E2 : (2 ^ i) ^ 2 * (1 / 4) ^ i = 1). { rewrite <- pow_mult, Nat.mul_comm, pow_mult, <- Rpow_mult_distr. replace (2 ^ 2 * (1 / 4)) with 1 by field. apply pow1. }
    assert (0 < 2 ^ i) by (apply pow_lt; lra). replace ((1 / 4) ^ i) with (/ (2 ^ i) ^ 2). { field. lra. } apply Rmult_eq_reg_l with ((2 ^ i) ^ 2); [rewrite E2; field; lra|]. apply pow_nonzero. lra.
  - replace (p / 2 + 1)%nat with (S (p / 2)) by lia. rewrite sumS_l. rewrite (sum_zero_R (p / 2)) by (intros k Hk; cbn [pow]; ring). rewrite E0. replace (p + 1 - 2 * 0)%nat with (p + 1)%nat by lia. cbn [pow].
    assert (0 < INR (p + 1)) by (apply lt_0_INR; lia). field. lra.
Qed.
Lemma trapezoid_ext : forall f g a b n, (forall x, f x = g x) -> trapezoid f a b n = trapezoid g a b n.
Proof. intros. unfold trapezoid. apply sum_ext_R. intros. rewrite !H. reflexivity. Qed.
Lemma trapezoid_lin : forall f g c a b n, trapezoid (fun x => f x + c * g x) a b n = trapezoid f a b n + c * trapezoid g a b n.
Proof. intros. unfold trapezoid. rewrite sum_mul_R, <- sum_plus. apply sum_ext_R. intros. unfold Rdiv. ring. Qed.
Lemma horner_snoc : forall l c x, horner Rnum (l ++ [c]) x = horner Rnum l x + c * x ^ length l.
Proof.
  induction l as [|d l IH]; intros c x; unfold horner in *; cbn [app fold_right length pow]; cbn [Rnum nadd nmul n0] in *; [ring|]. rewrite IH. ring.
Qed.
(** the integral of a polynomial *)
Definition horner_integral (l : list R) (x : R) : R := sum (length l) (fun k => nth k l 0 * x ^ (k + 1) / INR (k + 1)).
Lemma horner_integral_snoc : forall l c x, horner_integral (l ++ [c]) x = horner_integral l x + c * x ^ (length l + 1) / INR (length l + 1).
Proof.
  intros. unfold horner_integral. rewrite app_length. cbn [length]. rewrite Nat.add_1_r, sumS. f_equal.
  - apply sum_ext_R. intros i Hi. rewrite app_nth1 by auto. reflexivity.
  - rewrite app_nth2, Nat.sub_diag by lia. cbn [nth]. rewrite Nat.add_1_r. reflexivity.
Qed.
Lemma trap_poly : forall a b K l, (length l <= 2 * K)%nat -> exists P, is_poly Rnum K P /\ (forall i, trapezoid (horner Rnum l) a b (2 ^ i) = P ((1 / 4) ^ i)) /\ P 0 = horner_integral l b - horner_integral l a.
Proof.
  intros a b K l. induction l as [|c l IH] using rev_ind; intros HL.
  - exists (fun _ => 0). split; [|split].
    + exists []. split; [cbn; lia|reflexivity].
    + intros i. unfold trapezoid. apply sum_zero_R. intros. cbn. unfold Rdiv. ring.
    + unfold horner_integral. cbn. ring.
  - rewrite app_length in HL. cbn [length] in HL. destruct (IH ltac:(lia)) as (P & P1 & P2 & P3). destruct (trap_power a b (length l)) as (Q & Q1 & Q2 & Q3).
    exists (fun y => P y + c * Q y). split; [|split].
    + apply (is_poly_add Rnum Rnum_field); auto. apply (is_poly_scale Rnum Rnum_field). apply (is_poly_mono Rnum (length l / 2 + 1)); auto. assert (length l / 2 < K)%nat by (apply Nat.div_lt_upper_bound; lia). lia.
    + intros i. rewrite (trapezoid_ext _ (fun x => horner Rnum l x + c * x ^ length l)) by (intros; apply horner_snoc). rewrite (trapezoid_lin (horner Rnum l) (fun x => x ^ length l)), P2, Q2. reflexivity.
    + rewrite P3, Q3, !horner_integral_snoc. assert (0 < INR (length l + 1)) by (apply lt_0_INR; lia). field. lra.
Qed.
Lemma horner_primitive : forall l a b, primitive (horner_integral l) (horner Rnum l) a b.
Proof.
  intros l a b x _. induction l as [|c l IH] using rev_ind.
  - apply (dl_ext (fun _ => 0) _ x 0); [reflexivity|reflexivity|apply derivable_pt_lim_const].
  - apply (dl_ext (fun x => horner_integral l x + c / INR (length l + 1) * x ^ (length l + 1)) _ x (horner Rnum l x + c / INR (length l + 1) * (INR (length l + 1) * x ^ pred (length l + 1)))).
    + intros y. rewrite horner_integral_snoc. unfold Rdiv. ring.
    + rewrite horner_snoc. replace (pred (length l + 1)) with (length l) by lia. assert (0 < INR (length l + 1)) by (apply lt_0_INR; lia). field. lra.
    + apply (derivable_pt_lim_plus (horner_integral l)); auto. apply dl_pow.
Qed.
(** two primitives differ by a constant *)
Lemma primitive_unique : forall F G f a b, primitive F f a b -> primitive G f a b -> F b - F a = G b - G a.
Proof.
  assert (L : forall F G f a b, a < b -> primitive F f a b -> primitive G f a b -> F b - F a = G b - G a).
  { intros F G f a b H HF HG. destruct (MVT_cor2 (fun x => F x - G x) (fun x => f x - f x) a b H) as (c & E & _); [|lra].
    intros x Hx. apply (derivable_pt_lim_minus F G); [apply HF|apply HG]; apply between_le; lra. }
  intros F G f a b HF HG. destruct (Rtotal_order a b) as [H|[->|H]]; [apply (L F G f); auto|lra|].
  assert (F a - F b = G a - G b); [|lra]. apply (L F G f); auto; intros x Hx; [apply HF|apply HG]; apply between_swap; auto.
Qed.
Lemma extrapolation_poly : forall F a b K l j v, primitive F (horner Rnum l) a b -> (length l <= 2 * K)%nat -> (K <= S j)%nat ->
  extrapolation (fun k => trapezoid (horner Rnum l) a b (2 ^ k)) K j v -> v = F b - F a.
Proof.
  intros F a b K l j v HF HL HK HV. destruct (trap_poly a b K l HL) as (P & P1 & P2 & P3).
  rewrite (primitive_unique F (horner_integral l) (horner Rnum l) a b HF (horner_primitive l a b)). rewrite <- P3.
  apply (extrapolation_unique _ K j _ _ HK HV). exists P. split; auto.
Qed.
