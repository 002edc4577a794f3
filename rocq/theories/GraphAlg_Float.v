(** * IEEE binary64 satisfies the distance laws

    The C++ code runs Dijkstra on [double].  Here non-negative doubles (with infinity, without NaN,
    round to nearest even, overflow to infinity) are shown to satisfy [DistLaws], so that the
    correctness of Dijkstra holds for the machine arithmetic and not only for exact numbers. *)

From Coq Require Import Reals ZArith Bool Lia Lra.
From Flocq Require Import Core.Core IEEE754.BinarySingleNaN.
From Verif Require Import Base Graph_Model GraphAlg_Model GraphAlg_Dijkstra.

Local Open Scope R_scope.

Definition prec : Z := 53.
Definition emax : Z := 1024.
Definition prec_gt_0 : Prec_gt_0 prec := eq_refl.
Definition prec_lt_emax : Prec_lt_emax prec emax := eq_refl.
Definition f64 := binary_float prec emax.
Definition fadd : f64 -> f64 -> f64 := @Bplus prec emax prec_gt_0 prec_lt_emax mode_NE.

(** zero, positive finite or +infinity *)
Definition nonneg_f (x : f64) : bool :=
  match x with
  | B754_zero _ => true
  | B754_infinity s => negb s
  | B754_finite s _ _ _ => negb s
  | B754_nan => false
  end.

(** value, [None] = infinity *)
Definition val (x : f64) : option R :=
  match x with B754_infinity _ => None | _ => Some (B2R x) end.

Notation fexp64 := (SpecFloat.fexp prec emax).
Definition rnd (x : R) : R := round radix2 fexp64 ZnearestE x.

Lemma nonneg_fin : forall x, nonneg_f x = true -> val x <> None -> is_finite x = true.
Proof. intros [s|s| |s m e b] H H'; simpl in *; auto; congruence. Qed.

Lemma nonneg_val : forall x r, nonneg_f x = true -> val x = Some r -> is_finite x = true /\ r = B2R x /\ 0 <= r.
Proof.
  intros [s|s| |s m e b] r H H'; simpl in *; inversion H'; subst; split; auto; split; auto; try lra.
  destruct s; [discriminate|]. apply F2R_ge_0. simpl. lia.
Qed.

Lemma nonneg_inf : forall x, nonneg_f x = true -> val x = None -> x = B754_infinity false.
Proof. intros [s|s| |s m e b] H H'; simpl in *; try discriminate. destruct s; [discriminate|auto]. Qed.

Definition vlt (a b : option R) : Prop :=
  match a, b with
  | Some x, Some y => x < y
  | Some _, None => True
  | None, _ => False
  end.

Lemma ltb_val : forall x y, nonneg_f x = true -> nonneg_f y = true ->
  (Bltb x y = true <-> vlt (val x) (val y)).
Proof.
  intros x y Hx Hy.
  destruct (val x) as [a|] eqn:Ea; destruct (val y) as [b|] eqn:Eb.
  - destruct (nonneg_val x a Hx Ea) as (Fx & -> & _). destruct (nonneg_val y b Hy Eb) as (Fy & -> & _).
    rewrite (Bltb_correct prec emax x y Fx Fy). simpl.
    destruct (Rlt_bool_spec (B2R x) (B2R y)); split; auto; try discriminate; lra.
  - rewrite (nonneg_inf y Hy Eb). destruct x as [s|s| |s m e bb]; simpl in *; try discriminate;
      destruct s; unfold Bltb; simpl; split; auto; discriminate.
  - rewrite (nonneg_inf x Hx Ea). simpl.
    destruct y as [s|s| |s m e bb]; simpl in *; try discriminate; unfold Bltb; simpl; split; try discriminate; try tauto.
  - rewrite (nonneg_inf x Hx Ea), (nonneg_inf y Hy Eb). simpl. unfold Bltb; simpl. split; [discriminate|tauto].
Qed.

Definition vadd (a b : option R) : option R :=
  match a, b with
  | Some x, Some y => if Rlt_bool (rnd (x + y)) (bpow radix2 emax) then Some (rnd (x + y)) else None
  | _, _ => None
  end.

Lemma rnd_ge_0 : forall x, 0 <= x -> 0 <= rnd x.
Proof.
  intros x Hx. unfold rnd. rewrite <- (round_0 radix2 fexp64 ZnearestE).
  apply round_le; auto with typeclass_instances. apply fexp_correct. reflexivity.
Qed.

Lemma add_val : forall x y, nonneg_f x = true -> nonneg_f y = true ->
  nonneg_f (fadd x y) = true /\ val (fadd x y) = vadd (val x) (val y).
Proof.
  intros x y Hx Hy.
  destruct (val x) as [a|] eqn:Ea; destruct (val y) as [b|] eqn:Eb.
  - destruct (nonneg_val x a Hx Ea) as (Fx & -> & Px). destruct (nonneg_val y b Hy Eb) as (Fy & -> & Py).
    pose proof (Bplus_correct prec emax prec_gt_0 prec_lt_emax mode_NE x y Fx Fy) as HB.
    fold (fadd x y) in HB. change (round_mode mode_NE) with ZnearestE in HB.
    fold (rnd (B2R x + B2R y)) in HB.
    assert (Hr : 0 <= rnd (B2R x + B2R y)) by (apply rnd_ge_0; lra).
    rewrite (Rabs_pos_eq _ Hr) in HB. unfold vadd.
    destruct (Rlt_bool_spec (rnd (B2R x + B2R y)) (bpow radix2 emax)) as [Hlt|Hge].
    + destruct HB as (HB1 & HB2 & HB3). split.
      * destruct (fadd x y) as [s|s| |s m e bb] eqn:Ef; simpl in *; auto; try discriminate.
        destruct s; auto. exfalso.
        assert (F2R (Float radix2 (Z.neg m) e) < 0) by (apply F2R_lt_0; simpl; lia).
        simpl in *. lra.
      * destruct (fadd x y) as [s|s| |s m e bb]; try (simpl in HB2; discriminate);
        unfold val; f_equal; exact HB1.
    + destruct HB as (HB1 & HB2).
      assert (Hsx : Bsign x = false).
      { destruct x as [s|s| |s m e bb]; simpl in *; try discriminate; try (destruct s; auto; discriminate).
        destruct s; auto. exfalso.
        destruct y as [s'|s'| |s' m' e' b']; simpl in *; try discriminate.
        rewrite Rplus_0_r in Hge. unfold rnd in Hge. rewrite round_0 in Hge by auto with typeclass_instances.
          pose proof (bpow_gt_0 radix2 emax). lra. }
      rewrite Hsx in HB1. simpl in HB1.
      destruct (fadd x y) as [s|s| |s m e bb]; simpl in HB1; try discriminate.
      inversion HB1; subst. simpl. auto.
  - rewrite (nonneg_inf y Hy Eb). destruct x as [s|s| |s m e bb]; simpl in *; try discriminate; auto.
  - rewrite (nonneg_inf x Hx Ea). destruct y as [s|s| |s m e bb]; simpl in *; try discriminate; auto.
  - rewrite (nonneg_inf x Hx Ea), (nonneg_inf y Hy Eb). simpl. auto.
Qed.

(** non-negative doubles as a type *)
Definition nnf := { x : f64 | nonneg_f x = true }.

Definition nn_add (a b : nnf) : nnf :=
  exist _ (fadd (proj1_sig a) (proj1_sig b)) (proj1 (add_val _ _ (proj2_sig a) (proj2_sig b))).
Definition nn_zero : nnf := exist (fun x => nonneg_f x = true) (B754_zero false) eq_refl.
Definition nn_inf : nnf := exist (fun x => nonneg_f x = true) (B754_infinity false) eq_refl.
Definition nn_ltb (a b : nnf) : bool := Bltb (proj1_sig a) (proj1_sig b).

(** the operations the code performs on [double] *)
Definition doubleOps : DistOps nnf :=
  mkDist nnf nnf nn_zero nn_inf nn_add nn_ltb
    (fun d => match proj1_sig d with B754_infinity false => true | _ => false end).

Lemma nn_ltb_false : forall a b, nn_ltb a b = false <-> ~ vlt (val (proj1_sig a)) (val (proj1_sig b)).
Proof.
  intros [a Ha] [b Hb]. unfold nn_ltb. simpl. rewrite <- (ltb_val a b Ha Hb).
  destruct (Bltb a b); split; auto; try discriminate. intros H. exfalso. auto.
Qed.
Lemma nn_ltb_true : forall a b, nn_ltb a b = true <-> vlt (val (proj1_sig a)) (val (proj1_sig b)).
Proof. intros [a Ha] [b Hb]. unfold nn_ltb. simpl. apply ltb_val; auto. Qed.

Lemma rnd_le : forall x y, x <= y -> rnd x <= rnd y.
Proof. intros x y H. apply round_le; auto with typeclass_instances. apply fexp_correct. reflexivity. Qed.

Theorem double_dist_laws : DistLaws doubleOps (fun _ => True).
Proof.
  constructor; simpl.
  - intros a. apply nn_ltb_false. destruct (val (proj1_sig a)); simpl; auto. lra.
  - intros a b c. rewrite !nn_ltb_true.
    destruct (val (proj1_sig a)), (val (proj1_sig b)), (val (proj1_sig c)); simpl; auto; try tauto. lra.
  - intros a b c. rewrite !nn_ltb_false.
    destruct (val (proj1_sig a)), (val (proj1_sig b)), (val (proj1_sig c)); simpl; auto; try tauto.
    intros H1 H2. apply Rnot_lt_le in H1, H2. apply Rle_not_lt. lra.
  - intros [a Ha] [b Hb] [w Hw] _. rewrite !nn_ltb_false. simpl.
    rewrite (proj2 (add_val a w Ha Hw)), (proj2 (add_val b w Hb Hw)).
    destruct (val a) as [ra|]; destruct (val b) as [rb|]; destruct (val w) as [rw|]; cbn [vadd vlt]; try tauto.
    + intros H. apply Rnot_lt_le in H. assert (Hle : rnd (ra + rw) <= rnd (rb + rw)) by (apply rnd_le; lra).
      destruct (Rlt_bool_spec (rnd (ra + rw)) (bpow radix2 emax));
      destruct (Rlt_bool_spec (rnd (rb + rw)) (bpow radix2 emax)); cbn [vlt]; try tauto; try lra.
  - intros [a Ha] [w Hw] _. apply nn_ltb_false. simpl. rewrite (proj2 (add_val a w Ha Hw)).
    destruct (val a) as [ra|] eqn:Ea; destruct (val w) as [rw|] eqn:Ew; cbn [vadd vlt]; try tauto.
    destruct (nonneg_val a ra Ha Ea) as (_ & -> & Pa). destruct (nonneg_val w rw Hw Ew) as (_ & -> & Pw).
    destruct (Rlt_bool_spec (rnd (B2R a + B2R w)) (bpow radix2 emax)); cbn [vlt]; try tauto.
    assert (B2R a <= rnd (B2R a + B2R w)); [|lra].
    unfold rnd at 1. rewrite <- (round_generic radix2 fexp64 ZnearestE (B2R a)) at 1.
    + apply rnd_le. lra.
    + apply generic_format_B2R.
  - intros a. apply nn_ltb_false. simpl. tauto.
  - reflexivity.
Qed.
Print Assumptions double_dist_laws.
