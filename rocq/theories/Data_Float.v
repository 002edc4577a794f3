(** * C48: the comparison with 0.9 * total in doubles *)

From Coq Require Import Arith ZArith Reals Lia Lra.
From Flocq Require Import Core.
From Verif Require Import Base Data_Model.
Local Open Scope R_scope.

Definition fexp64 := FLT_exp (-1074) 53.
Definition rnd64 (x : R) : R := round radix2 fexp64 ZnearestE x.

(** 0.9 as a double, and the conversions and the product of DataLoaderParsing.h:97-105 *)
Definition d09 : R := rnd64 (9 / 10).
Definition ninety_double (count total : nat) : Prop := rnd64 (d09 * rnd64 (INR total)) <= rnd64 (INR count).

Local Instance prec53 : Prec_gt_0 53. Proof. reflexivity. Qed.
Local Instance vexp64 : Valid_exp fexp64. Proof. exact (FLT_exp_valid (-1074) 53). Qed.

Lemma int_format : forall z, (Z.abs z <= 2 ^ 53)%Z -> generic_format radix2 fexp64 (IZR z).
Proof.
  intros z H. apply generic_format_FLT. destruct (Z.eq_dec (Z.abs z) (2 ^ 53)) as [E|NE].
  - exists (Float radix2 (Z.sgn z) 53); cbn [Fnum Fexp]; [|change (radix_val radix2 ^ 53)%Z with (2 ^ 53)%Z; lia|lia]. unfold F2R. cbn [Fnum Fexp]. change (bpow radix2 53) with (IZR (2 ^ 53)). rewrite <- mult_IZR. f_equal. lia.
  - exists (Float radix2 z 0); cbn [Fnum Fexp]; [|change (radix_val radix2 ^ 53)%Z with (2 ^ 53)%Z; lia|lia]. unfold F2R. cbn. ring.
Qed.
Lemma d09_val : d09 = IZR 8106479329266893 * bpow radix2 (-53).
Proof.
  unfold d09, rnd64, round, F2R, scaled_mantissa, cexp. assert (E : mag radix2 (9 / 10) = 0%Z :> Z).
  { apply mag_unique. rewrite Rabs_pos_eq by lra. cbn. lra. }
  rewrite E. change (fexp64 0) with (-53)%Z. cbn [Fnum Fexp Z.opp]. f_equal. f_equal. apply Znearest_imp.
  replace (9 / 10 * bpow radix2 53) with (IZR 8106479329266893 - 2 / 10) by (cbn; lra).
  replace (IZR 8106479329266893 - 2 / 10 - IZR 8106479329266893) with (- (2 / 10)) by lra. rewrite Rabs_Ropp, Rabs_pos_eq; lra.
Qed.
Lemma ulp0 : ulp radix2 fexp64 0 = bpow radix2 (-1074).
Proof. unfold fexp64. apply ulp_FLT_small; [reflexivity|]. rewrite Rabs_R0. apply bpow_gt_0. Qed.
Lemma ulp_int : forall z, (1 <= z < 2 ^ 50)%Z -> IZR z * bpow radix2 (-53) <= ulp radix2 fexp64 (IZR z) <= bpow radix2 (-3).
Proof.
  intros z H. assert (HZ : IZR z <> 0) by (apply not_0_IZR; lia). rewrite ulp_neq_0 by auto. unfold cexp. 
  assert (P : 1 <= IZR z) by (apply IZR_le; lia).
  assert (M : (mag radix2 (IZR z) <= 50)%Z). { apply mag_le_bpow; auto. rewrite Rabs_pos_eq by lra. change (bpow radix2 50) with (IZR (2 ^ 50)). apply IZR_lt. lia. }
  assert (M1 : (1 <= mag radix2 (IZR z))%Z). { apply mag_ge_bpow. cbn. rewrite Rabs_pos_eq; lra. }
  assert (F : fexp64 (mag radix2 (IZR z)) = (mag radix2 (IZR z) - 53)%Z) by (unfold fexp64, FLT_exp; lia). rewrite F. split.
  - unfold Z.sub. rewrite bpow_plus. apply Rmult_le_compat_r; [apply bpow_ge_0|]. apply Rle_trans with (1 := Rle_abs _). left. apply bpow_mag_gt.
  - apply bpow_le. lia.
Qed.
(** on counts below 2^50 the comparison in doubles is exact *)
Theorem C48_threshold_double : forall count total : nat, (Z.of_nat total < 2 ^ 50)%Z -> (count <= total)%nat ->
  (ninety_double count total <-> ninety count total = true).
Proof.
  intros c t HT HC. unfold ninety_double, ninety. rewrite Nat.leb_le. rewrite !INR_IZR_INZ. unfold rnd64 at 2 3. rewrite !round_generic by (auto with typeclass_instances; apply int_format; lia).
  set (C := Z.of_nat c) in *. set (T := Z.of_nat t) in *. assert (HC0 : (0 <= C <= T)%Z) by lia.
  assert (HE : d09 * IZR T = 9 / 10 * IZR T + 2 / 10 * bpow radix2 (-53) * IZR T) by (rewrite d09_val; cbn; lra).
  assert (BT : 0 <= IZR T <= IZR (2 ^ 50)) by (split; apply IZR_le; lia).
  assert (SM : 0 <= 2 / 10 * bpow radix2 (-53) * IZR T <= / 32). { split; [apply Rmult_le_pos; [apply Rmult_le_pos; [lra|apply bpow_ge_0]|lra]|]. cbn in *. lra. }
  split.
  - intros H. destruct (Z.le_gt_cases (9 * T) (10 * C)) as [G|G]; [lia|]. exfalso.
    assert (X : IZR C + / 10 <= 9 / 10 * IZR T). { assert (10 * IZR C + 1 <= 9 * IZR T) by (rewrite <- !mult_IZR, <- plus_IZR; apply IZR_le; lia). lra. }
    assert (FC : generic_format radix2 fexp64 (IZR C)) by (apply int_format; lia).
    assert (S1 : succ radix2 fexp64 (IZR C) <= rnd64 (d09 * IZR T)).
    { unfold rnd64. apply round_N_ge_midp; [auto with typeclass_instances|apply generic_format_succ; auto with typeclass_instances|].
      rewrite pred_succ by auto with typeclass_instances. rewrite succ_eq_pos by (apply IZR_le; lia). destruct (Z.eq_dec C 0) as [E0|N0].
      - rewrite E0. rewrite ulp0. assert (bpow radix2 (-1074) <= bpow radix2 (-10)) by (apply bpow_le; lia). rewrite E0 in X. change (bpow radix2 (-10)) with (/ 1024) in H0. rewrite HE. lra.
      - destruct (ulp_int C) as [_ U]; [lia|]. cbn in U. rewrite HE. lra. }
    assert (S2 : IZR C < succ radix2 fexp64 (IZR C) \/ IZR C = 0). { destruct (Z.eq_dec C 0) as [E0|N0]; [right; rewrite E0; reflexivity|left]. apply succ_gt_id. apply not_0_IZR. auto. }
    destruct S2 as [S2|S2]; [lra|]. rewrite S2 in *. assert (0 < succ radix2 fexp64 0) by (rewrite succ_0, ulp0; apply bpow_gt_0). lra.
  - intros H. assert (G : (9 * T <= 10 * C)%Z) by lia. destruct (Z.eq_dec (9 * T) (10 * C)) as [E|NE].
    + assert (EQ : 9 / 10 * IZR T = IZR C) by (assert (9 * IZR T = 10 * IZR C) by (rewrite <- !mult_IZR; congruence); lra).
      destruct (Z.eq_dec C 0) as [E0|N0].
      * assert (T = 0%Z) by lia. rewrite H0, E0. rewrite Rmult_0_r. unfold rnd64. rewrite round_0 by auto with typeclass_instances. lra.
      * unfold rnd64. apply round_N_le_midp; [auto with typeclass_instances|apply int_format; lia|]. rewrite succ_eq_pos by (apply IZR_le; lia). destruct (ulp_int C) as [U _]; [lia|]. rewrite HE, EQ.
        assert (IZR T = 10 / 9 * IZR C) by lra. rewrite H0. assert (0 < IZR C) by (apply IZR_lt; lia). assert (0 < bpow radix2 (-53)) by apply bpow_gt_0. assert (0 < IZR C * bpow radix2 (-53)) by (apply Rmult_lt_0_compat; auto). lra.
    + assert (X : 9 / 10 * IZR T + / 10 <= IZR C). { assert (9 * IZR T + 1 <= 10 * IZR C) by (rewrite <- !mult_IZR, <- plus_IZR; apply IZR_le; lia). lra. }
      unfold rnd64. rewrite <- (round_generic radix2 fexp64 ZnearestE (IZR C)) by (apply int_format; lia). apply round_le; auto with typeclass_instances. rewrite HE. lra.
Qed.
Print Assumptions C48_threshold_double.
