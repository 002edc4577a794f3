(** * IEEE binary64 satisfies the laws of the KD-tree

    Finite doubles as coordinates, all doubles except NaN as distances, round to nearest even, overflow to infinity.
    The queries are therefore exact with respect to the distances as the code computes them. *)

From Coq Require Import Reals ZArith Bool Lia Lra List.
From Flocq Require Import Core.Core IEEE754.BinarySingleNaN Plus_error.
From Verif Require Import Base GraphAlg_Float Kd_Model Kd_Proofs Kd_Props.
Import ListNotations.
Local Open Scope R_scope.

Definition fsub : f64 -> f64 -> f64 := @Bminus prec emax prec_gt_0 prec_lt_emax mode_NE.
Definition fmul : f64 -> f64 -> f64 := @Bmult prec emax prec_gt_0 prec_lt_emax mode_NE.
Definition fsqrt : f64 -> f64 := @Bsqrt prec emax prec_gt_0 prec_lt_emax mode_NE.
(** DBL_MAX = (2^53 - 1) 2^971 *)
Definition fmax : f64 := @B754_finite prec emax false 9007199254740991 971 eq_refl.
(** the operations the code performs on [double] *)
Definition Fkd : kdops f64 := mkKd f64 fsub fmul fadd (B754_zero false) Bltb fmax fsqrt.
Definition finite_f (x : f64) : Prop := is_finite x = true.
Definition not_nan (x : f64) : Prop := is_nan x = false.

(** the value, with the infinities at +-2^1024 *)
Notation big := (bpow radix2 emax).
Definition rv (x : f64) : R := match x with B754_infinity s => if s then - big else big | _ => B2R x end.
Definition clamp (z : R) : R := if Rle_bool big z then big else if Rle_bool z (- big) then - big else z.
Definition crnd (z : R) : R := clamp (rnd z).

Lemma big_pos : 0 < big.
Proof. apply bpow_gt_0. Qed.
Lemma clamp_le : forall x y, x <= y -> clamp x <= clamp y.
Proof.
  intros x y H. unfold clamp. pose proof big_pos.
  destruct (Rle_bool_spec big x), (Rle_bool_spec big y), (Rle_bool_spec x (- big)), (Rle_bool_spec y (- big)); lra.
Qed.
Lemma crnd_le : forall x y, x <= y -> crnd x <= crnd y.
Proof. intros x y H. apply clamp_le, rnd_le, H. Qed.
Lemma clamp_id : forall x, Rabs x <= big -> clamp x = x.
Proof.
  intros x H. unfold clamp. pose proof big_pos. assert (H2 : - big <= x <= big) by (apply Rabs_le_inv; auto).
  destruct (Rle_bool_spec big x), (Rle_bool_spec x (- big)); lra.
Qed.
Lemma rnd_0 : rnd 0 = 0.
Proof. unfold rnd. apply round_0. auto with typeclass_instances. Qed.
Lemma crnd_0 : crnd 0 = 0.
Proof. unfold crnd. rewrite rnd_0. apply clamp_id. rewrite Rabs_R0. pose proof big_pos; lra. Qed.
Lemma rnd_big : rnd big = big.
Proof. apply round_generic; auto with typeclass_instances. apply generic_format_bpow. vm_compute. discriminate. Qed.
Lemma rnd_opp : forall x, rnd (- x) = - rnd x.
Proof. intros x. unfold rnd. apply round_NE_opp. Qed.
Lemma crnd_opp : forall x, crnd (- x) = - crnd x.
Proof.
  intros x. unfold crnd. rewrite rnd_opp. unfold clamp. pose proof big_pos.
  destruct (Rle_bool_spec big (- rnd x)), (Rle_bool_spec big (rnd x)), (Rle_bool_spec (- rnd x) (- big)), (Rle_bool_spec (rnd x) (- big)); lra.
Qed.
Lemma fin_lt_big : forall x : f64, is_finite x = true -> Rabs (B2R x) < big.
Proof. intros x _. apply abs_B2R_lt_emax. Qed.
Lemma rv_fin : forall x, is_finite x = true -> rv x = B2R x.
Proof. intros [s|s| |s m e b] H; try reflexivity; discriminate. Qed.
Lemma rv_abs : forall x, Rabs (rv x) <= big.
Proof.
  intros x. pose proof big_pos. destruct x as [s|s| |s m e b]; unfold rv.
  - cbn. rewrite Rabs_R0. lra.
  - destruct s; [rewrite Rabs_Ropp|]; rewrite Rabs_pos_eq; lra.
  - cbn. rewrite Rabs_R0. lra.
  - left. apply fin_lt_big. reflexivity.
Qed.
Lemma crnd_rv : forall x, crnd (rv x) = rv x.
Proof.
  intros x. unfold crnd.
  assert (E : rnd (rv x) = rv x).
  { destruct x as [s|s| |s m e b]; unfold rv.
    - apply rnd_0.
    - destruct s; [rewrite rnd_opp|]; rewrite rnd_big; reflexivity.
    - apply rnd_0.
    - apply round_generic; auto with typeclass_instances. apply generic_format_B2R. }
  rewrite E. apply clamp_id, rv_abs.
Qed.

Lemma ltb_rv : forall x y, not_nan x -> not_nan y -> Bltb x y = Rlt_bool (rv x) (rv y).
Proof.
  intros x y Hx Hy. pose proof big_pos as HB.
  assert (F : forall z : f64, is_finite z = true -> - big < B2R z < big) by (intros z Hz; pose proof (Rabs_def2 _ _ (fin_lt_big z Hz)); lra).
  destruct (is_finite x) eqn:Fx; destruct (is_finite y) eqn:Fy.
  - rewrite (Bltb_correct prec emax x y Fx Fy), !rv_fin by auto. reflexivity.
  - rewrite (rv_fin x Fx). specialize (F x Fx). destruct y as [s|s| |s m e b]; try discriminate. cbn [rv].
    destruct s; unfold Bltb; destruct x as [sx|sx| |sx mx ex bx]; try discriminate; cbn;
      match goal with |- _ = Rlt_bool ?a ?b => destruct (Rlt_bool_spec a b); cbn in *; auto; try lra end.
    all: destruct sx; auto; try (exfalso; lra).
  - rewrite (rv_fin y Fy). specialize (F y Fy). destruct x as [s|s| |s m e b]; try discriminate. cbn [rv].
    destruct s; unfold Bltb; destruct y as [sx|sx| |sx mx ex bx]; try discriminate; cbn;
      match goal with |- _ = Rlt_bool ?a ?b => destruct (Rlt_bool_spec a b); cbn in *; auto; try lra end.
    all: destruct sx; auto; try (exfalso; lra).
  - destruct x as [s|s| |s m e b]; try discriminate. destruct y as [s'|s'| |s' m' e' b']; try discriminate.
    destruct s, s'; unfold Bltb; cbn; match goal with |- _ = Rlt_bool ?a ?b => destruct (Rlt_bool_spec a b); auto; lra end.
Qed.

(** an operation that rounds a real and overflows to an infinity of its sign *)
Lemma op_rv : forall (z : f64) r s, (s = true -> r <= 0) -> (s = false -> 0 <= r) ->
  (if Rlt_bool (Rabs (rnd r)) big then B2R z = rnd r /\ is_finite z = true else B2SF z = binary_overflow prec emax mode_NE s) ->
  not_nan z /\ rv z = crnd r.
Proof.
  intros z r s Hs1 Hs2 H. destruct (Rlt_bool_spec (Rabs (rnd r)) big) as [Hlt|Hge].
  - destruct H as [H1 H2]. split. { destruct z; try reflexivity; discriminate. } rewrite rv_fin, H1 by auto. unfold crnd. rewrite clamp_id; auto; lra.
  - assert (Hz : z = B754_infinity s).
    { destruct z as [sz|sz| |sz m e b]; cbn in H; destruct s; try discriminate; injection H as ->; reflexivity. }
    subst z. split; [reflexivity|]. unfold crnd, clamp, rv. pose proof big_pos.
    destruct s.
    + assert (Hr : rnd r <= 0) by (rewrite <- rnd_0; apply rnd_le; auto). rewrite Rabs_left1 in Hge by auto.
      destruct (Rle_bool_spec big (rnd r)), (Rle_bool_spec (rnd r) (- big)); auto; lra.
    + assert (Hr : 0 <= rnd r) by (rewrite <- rnd_0; apply rnd_le; auto). rewrite Rabs_pos_eq in Hge by auto.
      destruct (Rle_bool_spec big (rnd r)); auto; lra.
Qed.
Lemma sign_rv : forall x : f64, is_nan x = false -> (Bsign x = true -> rv x <= 0) /\ (Bsign x = false -> 0 <= rv x).
Proof.
  intros [s|s| |s m e b] H; try discriminate; cbn [Bsign rv]; pose proof big_pos.
  - cbn; split; intros; lra.
  - destruct s; split; intros; try discriminate; lra.
  - split; intros ->.
    + apply F2R_le_0. cbn. lia.
    + apply F2R_ge_0. cbn. lia.
Qed.
Lemma sub_rv : forall x y, finite_f x -> finite_f y -> not_nan (fsub x y) /\ rv (fsub x y) = crnd (rv x - rv y).
Proof.
  intros x y Fx Fy. pose proof (Bminus_correct prec emax prec_gt_0 prec_lt_emax mode_NE x y Fx Fy) as H.
  fold (fsub x y) in H. change (round_mode mode_NE) with ZnearestE in H. fold (rnd (B2R x - B2R y)) in H.
  rewrite (rv_fin x Fx), (rv_fin y Fy).
  destruct (Rlt_bool_spec (Rabs (rnd (B2R x - B2R y))) big) as [Hlt|Hge].
  - apply (op_rv _ _ (if Rle_bool 0 (B2R x - B2R y) then false else true)).
    + destruct (Rle_bool_spec 0 (B2R x - B2R y)); try discriminate; intros; lra.
    + destruct (Rle_bool_spec 0 (B2R x - B2R y)); try discriminate; intros; lra.
    + destruct (Rlt_bool_spec (Rabs (rnd (B2R x - B2R y))) big); [|lra]. tauto.
  - destruct H as [H1 H2]. apply (op_rv _ _ (Bsign x)).
    + intros E. rewrite E in H2. symmetry in H2. apply negb_true_iff in H2.
      destruct (sign_rv x ltac:(destruct x; auto; discriminate)) as [A _]. destruct (sign_rv y ltac:(destruct y; auto; discriminate)) as [_ B].
      rewrite ?(rv_fin x Fx), ?(rv_fin y Fy) in *. specialize (A E). specialize (B H2). lra.
    + intros E. rewrite E in H2. symmetry in H2. apply negb_false_iff in H2.
      destruct (sign_rv x ltac:(destruct x; auto; discriminate)) as [_ A]. destruct (sign_rv y ltac:(destruct y; auto; discriminate)) as [B _].
      rewrite ?(rv_fin x Fx), ?(rv_fin y Fy) in *. specialize (A E). specialize (B H2). lra.
    + destruct (Rlt_bool_spec (Rabs (rnd (B2R x - B2R y))) big); [lra|]. exact H1.
Qed.
Lemma crnd_ge_big : forall z, big <= z -> crnd z = big.
Proof.
  intros z H. unfold crnd, clamp. assert (big <= rnd z) by (rewrite <- rnd_big; apply rnd_le; auto).
  destruct (Rle_bool_spec big (rnd z)); auto; lra.
Qed.
Lemma big_ge1 : 1 <= big.
Proof. change 1 with (bpow radix2 0). apply bpow_le. vm_compute. discriminate. Qed.
Lemma sq_rv : forall x, not_nan x -> not_nan (fmul x x) /\ rv (fmul x x) = crnd (rv x * rv x).
Proof.
  intros x Hx. destruct (is_finite x) eqn:Fx.
  - rewrite (rv_fin x Fx). pose proof (Bmult_correct prec emax prec_gt_0 prec_lt_emax mode_NE x x) as H.
    fold (fmul x x) in H. change (round_mode mode_NE) with ZnearestE in H. fold (rnd (B2R x * B2R x)) in H. rewrite Fx in H.
    apply (op_rv _ _ false); [discriminate|intros _; apply Rle_0_sqr|].
    destruct (Rlt_bool (Rabs (rnd (B2R x * B2R x))) big); [tauto|]. rewrite xorb_nilpotent in H. exact H.
  - destruct x as [s|s| |s m e b]; try discriminate. split; [reflexivity|].
    unfold fmul. cbn [Bmult rv]. rewrite xorb_nilpotent. symmetry. apply crnd_ge_big. pose proof big_ge1. destruct s; nra.
Qed.
Lemma add_rv : forall x y, not_nan x -> not_nan y -> 0 <= rv x -> 0 <= rv y -> not_nan (fadd x y) /\ rv (fadd x y) = crnd (rv x + rv y).
Proof.
  intros x y Hx Hy Px Py. pose proof big_pos.
  destruct (is_finite x) eqn:Fx; [destruct (is_finite y) eqn:Fy|].
  - pose proof (Bplus_correct prec emax prec_gt_0 prec_lt_emax mode_NE x y Fx Fy) as HH.
    fold (fadd x y) in HH. change (round_mode mode_NE) with ZnearestE in HH. fold (rnd (B2R x + B2R y)) in HH.
    rewrite ?(rv_fin x Fx), ?(rv_fin y Fy) in *.
    destruct (Rlt_bool_spec (Rabs (rnd (B2R x + B2R y))) big) as [Hlt|Hge].
    + apply (op_rv _ _ false); [discriminate|intros; lra|]. destruct (Rlt_bool_spec (Rabs (rnd (B2R x + B2R y))) big); [tauto|lra].
    + destruct HH as [H1 H2]. apply (op_rv _ _ (Bsign x)); [| intros; lra |].
      * intros E. rewrite E in H2. symmetry in H2.
        destruct (sign_rv x ltac:(destruct x; auto; discriminate)) as [A _]. destruct (sign_rv y ltac:(destruct y; auto; discriminate)) as [B _].
        rewrite ?(rv_fin x Fx), ?(rv_fin y Fy) in *. specialize (A E). specialize (B H2). lra.
      * destruct (Rlt_bool_spec (Rabs (rnd (B2R x + B2R y))) big); [lra|]. exact H1.
  - destruct y as [s|s| |s m e b]; try discriminate. destruct s. { cbn [rv] in Py. lra. }
    assert (E : fadd x (B754_infinity false) = B754_infinity false) by (destruct x as [sx|sx| |sx mx ex bx]; try discriminate; reflexivity).
    rewrite E. split; [reflexivity|]. symmetry. cbn [rv]. apply crnd_ge_big. lra.
  - destruct x as [s|s| |s m e b]; try discriminate. destruct s. { cbn [rv] in Px. lra. }
    assert (E : fadd (B754_infinity false) y = B754_infinity false).
    { destruct y as [sx|sx| |sx mx ex bx]; try discriminate; try reflexivity. destruct sx; [cbn [rv] in Py; lra|reflexivity]. }
    rewrite E. split; [reflexivity|]. symmetry. cbn [rv] in *. apply crnd_ge_big. lra.
Qed.
(** a difference of doubles rounds to zero only if it is zero *)
Lemma sub_neg : forall x y, finite_f x -> finite_f y -> (crnd (rv x - rv y) < 0 <-> rv x < rv y).
Proof.
  intros x y Fx Fy. rewrite (rv_fin x Fx), (rv_fin y Fy). split.
  - intros H. destruct (Rlt_or_le (B2R x) (B2R y)); auto. exfalso.
    assert (0 <= crnd (B2R x - B2R y)) by (rewrite <- crnd_0; apply crnd_le; lra). lra.
  - intros H.
    assert (N : rnd (B2R x - B2R y) <> 0).
    { unfold rnd, Rminus. apply round_plus_neq_0; auto with typeclass_instances.
      - apply fexp_correct. reflexivity.
      - intros ex; unfold SpecFloat.fexp, SpecFloat.emin, prec, emax; lia.
      - apply generic_format_B2R.
      - apply generic_format_opp, generic_format_B2R.
      - lra. }
    assert (L : rnd (B2R x - B2R y) <= 0) by (rewrite <- rnd_0; apply rnd_le; lra).
    unfold crnd, clamp. pose proof big_pos. destruct (Rle_bool_spec big (rnd (B2R x - B2R y))), (Rle_bool_spec (rnd (B2R x - B2R y)) (- big)); lra.
Qed.

Theorem Fkd_laws : kd_laws Fkd finite_f not_nan.
Proof.
  assert (FN : forall x, finite_f x -> not_nan x) by (intros [s|s| |s m e b] H; reflexivity || discriminate).
  assert (Z0 : rv (B754_zero false) = 0) by reflexivity.
  assert (LT : forall x y, not_nan x -> not_nan y -> (Bltb x y = true <-> rv x < rv y)).
  { intros x y Hx Hy. rewrite ltb_rv by auto. destruct (Rlt_bool_spec (rv x) (rv y)); split; auto; try discriminate; lra. }
  assert (GE : forall x y, not_nan x -> not_nan y -> (Bltb x y = false <-> rv y <= rv x)).
  { intros x y Hx Hy. rewrite ltb_rv by auto. destruct (Rlt_bool_spec (rv x) (rv y)); split; auto; try discriminate; lra. }
  assert (NZ : not_nan (B754_zero false)) by reflexivity.
  assert (SQ : forall a b, finite_f a -> finite_f b -> not_nan (fmul (fsub a b) (fsub a b)) /\ rv (fmul (fsub a b) (fsub a b)) = crnd (crnd (rv a - rv b) * crnd (rv a - rv b))).
  { intros a b Fa Fb. destruct (sub_rv a b Fa Fb) as [N V]. destruct (sq_rv _ N) as [N2 V2]. rewrite V in V2. auto. }
  constructor; cbn.
  - exact FN.
  - exact NZ.
  - reflexivity.
  - intros a Ha. apply GE; auto. lra.
  - intros a b c Ha Hb Hc. rewrite !LT by auto. lra.
  - intros a b c Ha Hb Hc. rewrite !GE by auto. lra.
  - intros a b Fa Fb. destruct (SQ a b Fa Fb) as [N V]. split; auto. apply GE; auto. rewrite V, Z0, <- crnd_0. apply crnd_le. apply Rle_0_sqr.
  - intros a b Fa Fb. destruct (sub_rv a b Fa Fb) as [N V]. rewrite !ltb_rv by auto. rewrite V, Z0.
    pose proof (sub_neg a b Fa Fb). destruct (Rlt_bool_spec (crnd (rv a - rv b)) 0), (Rlt_bool_spec (rv a) (rv b)); auto; lra.
  - intros q s p Fq Fs Fp H1 H2. rewrite LT in H1 by auto. rewrite GE in H2 by auto.
    destruct (SQ q s Fq Fs) as [N1 V1]. destruct (SQ q p Fq Fp) as [N2 V2]. apply GE; auto. rewrite V1, V2. apply crnd_le.
    assert (crnd (rv q - rv p) <= crnd (rv q - rv s)) by (apply crnd_le; lra).
    assert (crnd (rv q - rv s) <= 0) by (rewrite <- crnd_0; apply crnd_le; lra). nra.
  - intros q s p Fq Fs Fp H1 H2. rewrite GE in H1, H2 by auto.
    destruct (SQ q s Fq Fs) as [N1 V1]. destruct (SQ q p Fq Fp) as [N2 V2]. apply GE; auto. rewrite V1, V2. apply crnd_le.
    assert (crnd (rv q - rv s) <= crnd (rv q - rv p)) by (apply crnd_le; lra).
    assert (0 <= crnd (rv q - rv s)) by (rewrite <- crnd_0; apply crnd_le; lra). nra.
  - intros r Hr _. apply sq_rv; auto.
  - intros a b Ha Hb. rewrite !GE by auto. rewrite Z0. intros Pa Pb. destruct (add_rv a b Ha Hb Pa Pb) as [N V]. split; auto.
    rewrite !GE by auto. rewrite V. split.
    + rewrite <- (crnd_rv a) at 1. apply crnd_le. lra.
    + rewrite <- (crnd_rv b) at 1. apply crnd_le. lra.
Qed.
Print Assumptions Fkd_laws.

(** *** findNearest on doubles: closest as far as the machine's squared distances tell *)
Theorem C41_double : forall Dim nth_el pts leafmax fuel t q, (0 < Dim)%nat -> nth_el_ok nth_el ->
  Forall (is_point Dim finite_f) pts -> is_point Dim finite_f q -> kd_build Fkd Dim nth_el fuel pts leafmax = Ok t ->
  exists r nv, find_nearest Fkd Dim t q = Ok (r, nv) /\
    match r with
    | Some (i, dist) => (i < length pts)%nat /\ dist = fsqrt (dto Fkd pts q i) /\ Bltb (dto Fkd pts q i) fmax = true /\
        (forall j, (j < length pts)%nat -> Bltb (dto Fkd pts q j) (dto Fkd pts q i) = false)
    | None => forall j, (j < length pts)%nat -> Bltb (dto Fkd pts q j) fmax = false
    end.
Proof.
  intros Dim nth_el pts leafmax fuel t q HD Hne Hp Hq Hb.
  exact (C41_nearest Fkd Dim finite_f not_nan Fkd_laws HD nth_el Hne pts leafmax fuel t q Hp Hb Hq).
Qed.
Print Assumptions C41_double.
