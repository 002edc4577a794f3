(** * C52: cubic splines *)

From Coq Require Import List Arith Bool Lia ZArith Reals Lra Psatz.
From Verif Require Import Base Num Mat_Proofs Tri_Model RootFind_Model RootFind_Proofs Interp_Model Interp_Linear.
Import ListNotations.
Local Open Scope R_scope.

(** ** Calculus *)
(** a function that agrees with two differentiable functions to the left and to the right of a point *)
Lemma glue : forall f g h x l d, 0 < d -> derivable_pt_lim g x l -> derivable_pt_lim h x l ->
  (forall y, x - d < y <= x -> f y = g y) -> (forall y, x <= y < x + d -> f y = h y) -> derivable_pt_lim f x l.
Proof.
  intros f g h x l d HD Hg Hh HL HR eps HE. destruct (Hg eps HE) as [dg Dg]. destruct (Hh eps HE) as [dh Dh].
  assert (HM : 0 < Rmin d (Rmin dg dh)). { destruct dg, dh. cbn in *. repeat apply Rmin_pos; auto. }
  exists (mkposreal _ HM). intros k K0 HK. cbn in HK. pose proof (Rmin_l d (Rmin dg dh)). pose proof (Rmin_r d (Rmin dg dh)). pose proof (Rmin_l dg dh). pose proof (Rmin_r dg dh).
  apply Rabs_def2 in HK. destruct (Rle_dec k 0) as [L|L].
  - rewrite (HL x), (HL (x + k)) by lra. apply Dg; auto. apply Rabs_def1; lra.
  - rewrite (HR x), (HR (x + k)) by lra. apply Dh; auto. apply Rabs_def1; lra.
Qed.
Lemma lim_ext : forall f g x l, (forall y, f y = g y) -> derivable_pt_lim f x l -> derivable_pt_lim g x l.
Proof. intros f g x l H D. apply (glue g f f x l 1); auto; try lra; intros; symmetry; apply H. Qed.
Lemma quartic_deriv : forall c0 c1 c2 c3 c4 r x, let t := x - r in
  derivable_pt_lim (fun x => c0 + c1 * (x - r) + c2 * ((x - r) * (x - r)) + c3 * ((x - r) * ((x - r) * (x - r))) + c4 * ((x - r) * ((x - r) * ((x - r) * (x - r))))) x
    (c1 + 2 * c2 * t + 3 * c3 * (t * t) + 4 * c4 * (t * (t * t))).
Proof.
  intros c0 c1 c2 c3 c4 r x t.
  assert (Dt : derivable_pt_lim (fun x => x - r) x 1). { replace 1 with (1 - 0) by ring. apply (derivable_pt_lim_minus id (fct_cte r)); [apply derivable_pt_lim_id|apply derivable_pt_lim_const]. }
  pose proof (derivable_pt_lim_mult _ _ _ _ _ Dt Dt) as D2. pose proof (derivable_pt_lim_mult _ _ _ _ _ Dt D2) as D3. pose proof (derivable_pt_lim_mult _ _ _ _ _ Dt D3) as D4.
  pose proof (derivable_pt_lim_const c0 x) as D0.
  pose proof (derivable_pt_lim_scal _ c1 _ _ Dt) as E1. pose proof (derivable_pt_lim_scal _ c2 _ _ D2) as E2. pose proof (derivable_pt_lim_scal _ c3 _ _ D3) as E3. pose proof (derivable_pt_lim_scal _ c4 _ _ D4) as E4.
  pose proof (derivable_pt_lim_plus _ _ _ _ _ (derivable_pt_lim_plus _ _ _ _ _ (derivable_pt_lim_plus _ _ _ _ _ (derivable_pt_lim_plus _ _ _ _ _ D0 E1) E2) E3) E4) as D.
  eapply lim_ext; [|eapply eq_rect; [exact D|]].
  - intros y. unfold plus_fct, mult_real_fct, mult_fct, fct_cte. ring.
  - unfold mult_fct, t. ring.
Qed.

(** ** The forward and backward sweeps *)
Section Sweep.
Context (n : nat) (X Y : nat -> R) (HN : (2 <= n)%nat) (HI : increasing n X) (yp1 ypn : R).
Definition left_natural := natural_mark Rarith < yp1.
Definition right_natural := natural_mark Rarith < ypn.
Definition sg (i : nat) : R := (X i - X (i - 1)%nat) / (X (i + 1)%nat - X (i - 1)%nat).
Definition dd (i : nat) : R := (Y (i + 1)%nat - Y i) / (X (i + 1)%nat - X i) - (Y i - Y (i - 1)%nat) / (X i - X (i - 1)%nat).
Fixpoint gam (i : nat) : R := match i with 0%nat => if Rltb (natural_mark Rarith) yp1 then 0 else - (1 / 2) | S i' => (sg i - 1) / (sg i * gam i' + 2) end.
Fixpoint uu (i : nat) : R := match i with 0%nat => if Rltb (natural_mark Rarith) yp1 then 0 else (3 / (X 1%nat - X 0%nat)) * ((Y 1%nat - Y 0%nat) / (X 1%nat - X 0%nat) - yp1)
  | S i' => (6 * dd i / (X (i + 1)%nat - X (i - 1)%nat) - sg i * uu i') / (sg i * gam i' + 2) end.

Lemma sg_range : forall i, (1 <= i)%nat -> (i + 1 < n)%nat -> 0 < sg i < 1.
Proof.
  intros i H1 H2. unfold sg. pose proof (HI (i - 1)%nat i ltac:(lia)). pose proof (HI i (i + 1)%nat ltac:(lia)).
  split; [apply Rdiv_lt_0_compat; lra|]. apply (Rmult_lt_reg_r (X (i + 1)%nat - X (i - 1)%nat)); [lra|]. unfold Rdiv. rewrite Rmult_assoc, Rinv_l by lra. lra.
Qed.
Lemma div_range : forall s g, 0 < s < 1 -> -1 < g <= 0 -> -1 < (s - 1) / (s * g + 2) <= 0.
Proof.
  intros s g Hs Hg. assert (1 < s * g + 2) by nra. split.
  - apply (Rmult_lt_reg_r (s * g + 2)); [lra|]. unfold Rdiv. rewrite Rmult_assoc, Rinv_l by lra. lra.
  - apply (Rmult_le_reg_r (s * g + 2)); [lra|]. unfold Rdiv. rewrite Rmult_assoc, Rinv_l by lra. lra.
Qed.
Lemma gam_range : forall i, (i + 1 < n)%nat -> -1 < gam i <= 0.
Proof.
  induction i as [|i IH]; intros H.
  - cbn [gam]. destruct (Rltb (natural_mark Rarith) yp1); lra.
  - cbn [gam]. apply div_range; [apply sg_range; lia|apply IH; lia].
Qed.
Lemma pivot_pos : forall i, (1 <= i)%nat -> (i + 1 < n)%nat -> 1 < sg i * gam (i - 1) + 2.
Proof. intros i H1 H2. pose proof (sg_range i H1 H2). pose proof (gam_range (i - 1) ltac:(lia)). nra. Qed.

(** the equations of the spline: continuity of the first derivative at the inner points, and the conditions at the ends *)
Definition slope (k : nat) : R := (Y (k + 1)%nat - Y k) / (X (k + 1)%nat - X k).
Definition spline_eqs (z : nat -> R) : Prop :=
  (forall i, (1 <= i)%nat -> (i + 1 < n)%nat ->
     (X i - X (i - 1)%nat) * z (i - 1)%nat + 2 * (X (i + 1)%nat - X (i - 1)%nat) * z i + (X (i + 1)%nat - X i) * z (i + 1)%nat = 6 * (slope i - slope (i - 1))) /\
  (left_natural -> z 0%nat = 0) /\
  (~ left_natural -> slope 0 - (X 1%nat - X 0%nat) * (2 * z 0%nat + z 1%nat) / 6 = yp1) /\
  (right_natural -> z (n - 1)%nat = 0) /\
  (~ right_natural -> slope (n - 2) + (X (n - 1)%nat - X (n - 2)%nat) * (z (n - 2)%nat + 2 * z (n - 1)%nat) / 6 = ypn).

Lemma sweep_eqs : forall z,
  (forall a, (a + 1 < n)%nat -> z a = gam a * z (a + 1)%nat + uu a) ->
  z (n - 1)%nat = (if Rltb (natural_mark Rarith) ypn then 0 else
     ((3 / (X (n - 1)%nat - X (n - 2)%nat)) * (ypn - (Y (n - 1)%nat - Y (n - 2)%nat) / (X (n - 1)%nat - X (n - 2)%nat)) - 1 / 2 * uu (n - 2)) / (1 / 2 * gam (n - 2) + 1)) ->
  spline_eqs z.
Proof.
  intros z HZ HE. split; [|split; [|split; [|split]]].
  - intros i H1 H2. pose proof (HZ (i - 1)%nat ltac:(lia)) as E1. pose proof (HZ i ltac:(lia)) as E2. replace (i - 1 + 1)%nat with i in E1 by lia.
    pose proof (pivot_pos i H1 H2) as P. destruct i as [|i]; [lia|]. cbn [gam uu] in E2. replace (S i - 1)%nat with i in * by lia.
    pose proof (HI i (S i) ltac:(lia)). pose proof (HI (S i) (S i + 1)%nat ltac:(lia)).
    set (p := sg (S i) * gam i + 2) in *.
    assert (E3 : p * z (S i) = (sg (S i) - 1) * z (S i + 1)%nat + (6 * dd (S i) / (X (S i + 1)%nat - X i) - sg (S i) * uu i)). { rewrite E2. field. lra. }
    assert (E4 : sg (S i) * z i = sg (S i) * gam i * z (S i) + sg (S i) * uu i) by (rewrite E1; ring).
    assert (E5 : 2 * z (S i) + sg (S i) * z i + (1 - sg (S i)) * z (S i + 1)%nat = 6 * dd (S i) / (X (S i + 1)%nat - X i)).
    { replace (sg (S i) * z i) with (sg (S i) * gam i * z (S i) + sg (S i) * uu i) by (symmetry; exact E4).
      transitivity (p * z (S i) + sg (S i) * uu i + (1 - sg (S i)) * z (S i + 1)%nat); [unfold p; ring|]. rewrite E3. ring. }
    assert (HH : sg (S i) = (X (S i) - X i) / (X (S i + 1)%nat - X i)). { unfold sg. replace (S i - 1)%nat with i by lia. reflexivity. }
    rewrite HH in E5. assert (HDD : dd (S i) = slope (S i) - slope i). { unfold dd, slope. replace (S i - 1)%nat with i by lia. replace (i + 1)%nat with (S i) by lia. reflexivity. }
    rewrite HDD in E5. clear - E5 H H0. apply (f_equal (Rmult (X (S i + 1)%nat - X i))) in E5.
    replace ((X (S i + 1)%nat - X i) * (6 * (slope (S i) - slope i) / (X (S i + 1)%nat - X i))) with (6 * (slope (S i) - slope i)) in E5 by (field; lra). rewrite <- E5. field. lra.
  - intros HL. rewrite (HZ 0%nat) by lia. unfold left_natural in HL. cbn [gam uu]. destruct (Rltb_spec (natural_mark Rarith) yp1); [ring|contradiction].
  - intros HL. pose proof (HZ 0%nat ltac:(lia)) as E. unfold left_natural in HL. cbn [gam uu Nat.add] in E. destruct (Rltb_spec (natural_mark Rarith) yp1); [contradiction|].
    pose proof (HI 0%nat 1%nat ltac:(lia)). unfold slope. cbn [Nat.add]. rewrite E. field. lra.
  - intros HL. rewrite HE. destruct (Rltb_spec (natural_mark Rarith) ypn); [auto|contradiction].
  - intros HL. destruct (Rltb_spec (natural_mark Rarith) ypn); [contradiction|]. pose proof (HZ (n - 2)%nat ltac:(lia)) as E. replace (n - 2 + 1)%nat with (n - 1)%nat in E by lia.
    pose proof (gam_range (n - 2) ltac:(lia)). pose proof (HI (n - 2)%nat (n - 1)%nat ltac:(lia)). unfold slope. replace (n - 2 + 1)%nat with (n - 1)%nat by lia.
    set (h := X (n - 1)%nat - X (n - 2)%nat) in *. set (dy := Y (n - 1)%nat - Y (n - 2)%nat) in *. assert (0 < h) by (unfold h; lra).
    assert (E2 : (1 / 2 * gam (n - 2) + 1) * z (n - 1)%nat = 3 / h * (ypn - dy / h) - 1 / 2 * uu (n - 2)). { rewrite HE. field. split; lra. }
    assert (E3 : 1 / 2 * z (n - 2)%nat + z (n - 1)%nat = 3 / h * (ypn - dy / h)). { rewrite E. lra. }
    replace (z (n - 2)%nat + 2 * z (n - 1)%nat) with (2 * (3 / h * (ypn - dy / h))) by lra. field. lra.
Qed.

Lemma spline_init_ok : forall xs ys, is_vector xs n X -> is_vector ys n Y ->
  exists zv z, spline_init Rarith xs ys yp1 ypn = Ok zv /\ is_vector zv n z /\ spline_eqs z.
Proof.
  intros xs ys HX HY.
  enough (W : wp (spline_init Rarith xs ys yp1 ypn) (fun zv => exists z, is_vector zv n z /\ spline_eqs z)).
  { destruct (wp_elim _ _ _ W) as (zv & E & z & H1 & H2). eauto. }
  unfold spline_init. rewrite (proj1 HX). rnum. change (lhalf Rarith) with (1 / 2).
  assert (HR2 : is_vector (repeat 0 n) n (fun _ => 0)) by apply is_vector_repeat.
  assert (HRU : is_vector (repeat 0 (n - 1)) (n - 1) (fun _ => 0)) by apply is_vector_repeat.
  apply wp_bind.
  eapply (wp_conseq _ _ (fun r => is_vector (fst r) n (fun a => if (a <? 1)%nat then gam a else 0) /\ is_vector (snd r) (n - 1) (fun a => if (a <? 1)%nat then uu a else 0))).
  2: { destruct (Rltb (natural_mark Rarith) yp1) eqn:EB.
    - apply wp_bind. eapply vsetf_wp; [exact HR2|lia|]. intros v1 V1. apply wp_bind. eapply vsetf_wp; [exact HRU|lia|]. intros v2 V2. apply wp_Ok. cbn [fst snd].
      split; (eapply is_vector_ext; [eassumption|]); intros [|a] Ha; unfold vfset; cbn [Nat.eqb Nat.ltb Nat.leb gam uu]; rewrite ?EB; reflexivity.
    - apply wp_bind. eapply vsetf_wp; [exact HR2|lia|]. intros v1 V1. rewrite !(vec_get _ xs n X), !(vec_get _ ys n Y) by (auto; lia). cbn [bind].
      apply wp_bind. eapply vsetf_wp; [exact HRU|lia|]. intros v2 V2. apply wp_Ok. cbn [fst snd].
      split; (eapply is_vector_ext; [eassumption|]); intros [|a] Ha; unfold vfset; cbn [Nat.eqb Nat.ltb Nat.leb gam uu]; rewrite ?EB; reflexivity. }
  intros [y2 u] [V1 V2]. cbn [fst snd] in *. apply wp_bind.
  eapply wp_conseq; [|apply (for_range_inv _ _ (fun i r => is_vector (fst r) n (fun a => if (a <? i)%nat then gam a else 0) /\ is_vector (snd r) (n - 1) (fun a => if (a <? i)%nat then uu a else 0)))].
  2: lia. 2: cbn [fst snd]; auto.
  2: { intros i [y2' u'] H1 H2 [V1' V2']. cbn [fst snd] in *. rewrite !(vec_get _ xs n X), !(vec_get _ ys n Y) by (auto; lia). cbn [bind].
    apply wp_bind. eapply vgetf_wp; [exact V1'|lia|]. apply wp_bind. eapply vsetf_wp; [exact V1'|lia|]. intros y3 W1.
    apply wp_bind. eapply vgetf_wp; [exact V2'|lia|]. apply wp_bind. eapply vsetf_wp; [exact V2'|lia|]. intros u3 W2. apply wp_Ok. cbn [fst snd].
    split; (eapply is_vector_ext; [eassumption|]); intros a Ha; unfold vfset; cbv beta; destruct (Nat.ltb_spec (i - 1) i); try lia; destruct (Nat.eqb_spec a i) as [EA|NA];
      try (destruct (Nat.ltb_spec a i), (Nat.ltb_spec a (i + 1)); try lia; reflexivity).
    - subst a. destruct (Nat.ltb_spec i (i + 1)); [|lia]. destruct i as [|i]; [lia|]. cbn [gam]. replace (S i - 1)%nat with i by lia. unfold sg. replace (S i - 1)%nat with i by lia. reflexivity.
    - subst a. destruct (Nat.ltb_spec i (i + 1)); [|lia]. destruct i as [|i]; [lia|]. cbn [uu]. unfold sg, dd. replace (S i - 1)%nat with i by lia. reflexivity. }
  intros [y2' u'] [V1' V2']. cbn [fst snd] in *.
  assert (V1g : is_vector y2' n (fun a => if (a <? n - 1)%nat then gam a else 0)) by exact V1'.
  assert (V2g : is_vector u' (n - 1) uu). { eapply is_vector_ext; [exact V2'|]. intros a Ha. cbv beta. destruct (Nat.ltb_spec a (n - 1)); [auto|lia]. }
  set (zn := if Rltb (natural_mark Rarith) ypn then 0 else
     ((3 / (X (n - 1)%nat - X (n - 2)%nat)) * (ypn - (Y (n - 1)%nat - Y (n - 2)%nat) / (X (n - 1)%nat - X (n - 2)%nat)) - 1 / 2 * uu (n - 2)) / (1 / 2 * gam (n - 2) + 1)).
  rewrite !(vec_get _ xs n X), !(vec_get _ ys n Y) by (auto; lia). cbn [bind]. apply wp_bind.
  eapply (wp_conseq _ _ (fun r => (snd r - fst r * uu (n - 2)) / (fst r * gam (n - 2) + 1) = zn)).
  2: { unfold zn. destruct (Rltb (natural_mark Rarith) ypn); apply wp_Ok; cbn [fst snd]; [field|reflexivity]. }
  intros [qn un] EQ. cbn [fst snd] in EQ. rewrite (vec_get _ u' (n - 1) uu) by (auto; lia). cbn [bind].
  apply wp_bind. eapply vgetf_wp; [exact V1g|lia|]. cbv beta. destruct (Nat.ltb_spec (n - 2) (n - 1)); [|lia]. rewrite EQ.
  apply wp_bind. eapply vsetf_wp; [exact V1g|lia|]. intros y3 W3.
  eapply wp_conseq; [|apply (for_down_inv _ _ (fun i y => exists z, is_vector y n (fun a => if (a <? i)%nat then gam a else z a) /\ (forall a, (i <= a)%nat -> (a + 1 < n)%nat -> z a = gam a * z (a + 1)%nat + uu a) /\ z (n - 1)%nat = zn))].
  - intros y (z & H1 & H2 & H3). exists z. split; [eapply is_vector_ext; [exact H1|]; intros; reflexivity|]. apply sweep_eqs; [|exact H3]. intros a Ha. apply H2; lia.
  - lia.
  - exists (fun _ => zn). split; [|split; [intros; lia|reflexivity]]. eapply is_vector_ext; [exact W3|]. intros a Ha. unfold vfset. cbv beta. destruct (Nat.eqb_spec a (n - 1)), (Nat.ltb_spec a (n - 1)); try lia; reflexivity.
  - intros i y _ H2 (z & Z1 & Z2 & Z3).
    apply wp_bind. eapply vgetf_wp; [exact Z1|lia|]. apply wp_bind. eapply vgetf_wp; [exact Z1|lia|]. rewrite (vec_get _ u' (n - 1) uu) by (auto; lia). cbn [bind].
    cbv beta. destruct (Nat.ltb_spec i (i + 1)); [|lia]. destruct (Nat.ltb_spec (i + 1) (i + 1)); [lia|].
    eapply vsetf_wp; [exact Z1|lia|]. intros y4 W4. exists (fun a => if (a =? i)%nat then gam i * z (i + 1)%nat + uu i else z a). split; [|split].
    + eapply is_vector_ext; [exact W4|]. intros a Ha. unfold vfset. cbv beta. destruct (Nat.eqb_spec a i), (Nat.ltb_spec a i), (Nat.ltb_spec a (i + 1)); try lia; reflexivity.
    + intros a Ha Hn. destruct (Nat.eqb_spec a i), (Nat.eqb_spec (a + 1) i); try lia; [subst a; reflexivity|]. apply Z2; lia.
    + destruct (Nat.eqb_spec (n - 1) i); [lia|]. exact Z3.
Qed.

(** ** The pieces *)
Context (z : nat -> R) (HZ : spline_eqs z).
Definition hh (k : nat) : R := X (k + 1)%nat - X k.
(** Taylor coefficients of piece k at X k *)
Definition t1 (k : nat) : R := slope k - hh k * (2 * z k + z (k + 1)%nat) / 6.
Definition t3 (k : nat) : R := (z (k + 1)%nat - z k) / (6 * hh k).
Definition seg (k : nat) (x : R) : R := let t := x - X k in Y k + t1 k * t + z k / 2 * (t * t) + t3 k * (t * (t * t)).
Definition seg1 (k : nat) (x : R) : R := let t := x - X k in t1 k + z k * t + 3 * t3 k * (t * t).
Definition seg2 (k : nat) (x : R) : R := let t := x - X k in z k + 6 * t3 k * t.
Definition segF (k : nat) (x : R) : R := let t := x - X k in Y k * t + t1 k / 2 * (t * t) + z k / 6 * (t * (t * t)) + t3 k / 4 * (t * (t * (t * t))).
Lemma seg_deriv : forall k x, derivable_pt_lim (seg k) x (seg1 k x).
Proof.
  intros k x. pose proof (quartic_deriv (Y k) (t1 k) (z k / 2) (t3 k) 0 (X k) x) as D. eapply lim_ext; [|eapply eq_rect; [exact D|]].
  - intros y. unfold seg. cbv zeta. ring.
  - unfold seg1. cbv zeta. field.
Qed.
Lemma seg1_deriv : forall k x, derivable_pt_lim (seg1 k) x (seg2 k x).
Proof.
  intros k x. pose proof (quartic_deriv (t1 k) (z k) (3 * t3 k) 0 0 (X k) x) as D. eapply lim_ext; [|eapply eq_rect; [exact D|]].
  - intros y. unfold seg1. cbv zeta. ring.
  - unfold seg2. cbv zeta. field.
Qed.
Lemma segF_deriv : forall k x c, derivable_pt_lim (fun x => c + segF k x) x (seg k x).
Proof.
  intros k x c. pose proof (quartic_deriv c (Y k) (t1 k / 2) (z k / 6) (t3 k / 4) (X k) x) as D. eapply lim_ext; [|eapply eq_rect; [exact D|]].
  - intros y. unfold segF. cbv zeta. ring.
  - unfold seg. cbv zeta. field.
Qed.
(** neighbouring pieces agree at the common point, with two derivatives *)
Lemma seg_right : forall k, (k + 1 < n)%nat -> seg k (X (k + 1)%nat) = Y (k + 1)%nat.
Proof. intros k HK. pose proof (HI k (k + 1)%nat ltac:(lia)). unfold seg, t1, t3, slope, hh. field. lra. Qed.
Lemma seg_left : forall k, seg k (X k) = Y k.
Proof. intros k. unfold seg. ring. Qed.
Lemma seg1_join : forall k, (k + 2 < n)%nat -> seg1 k (X (k + 1)%nat) = seg1 (k + 1) (X (k + 1)%nat).
Proof.
  intros k HK. destruct HZ as [HC _]. specialize (HC (k + 1)%nat ltac:(lia) ltac:(lia)). replace (k + 1 - 1)%nat with k in HC by lia.
  pose proof (HI k (k + 1)%nat ltac:(lia)). pose proof (HI (k + 1)%nat (k + 1 + 1)%nat ltac:(lia)).
  unfold seg1. cbv zeta. replace (X (k + 1)%nat - X (k + 1)%nat) with 0 by ring. fold (hh k).
  assert (E : t3 k * (hh k * hh k) = hh k * (z (k + 1)%nat - z k) / 6). { unfold t3. field. unfold hh. lra. }
  replace (3 * t3 k * (hh k * hh k)) with (3 * (hh k * (z (k + 1)%nat - z k) / 6)) by (rewrite <- E; ring).
  unfold t1. fold (hh k) in HC. fold (hh (k + 1)) in HC. replace (X (k + 1 + 1)%nat - X k) with (hh k + hh (k + 1)) in HC by (unfold hh; ring). lra.
Qed.
Lemma seg2_right : forall k, (k + 1 < n)%nat -> seg2 k (X (k + 1)%nat) = z (k + 1)%nat.
Proof. intros k HK. pose proof (HI k (k + 1)%nat ltac:(lia)). unfold seg2, t3, hh. field. lra. Qed.
Lemma seg2_left : forall k, seg2 k (X k) = z k.
Proof. intros k. unfold seg2. ring. Qed.

(** x belongs to (the closure of) piece k *)
Definition in_piece (k : nat) (x : R) : Prop := (k + 1 < n)%nat /\ (k = 0%nat \/ X k <= x) /\ ((k + 2)%nat = n \/ x <= X (k + 1)%nat).
Lemma bracket_piece : forall x k, bracket_asc (ageb Rarith) n X x k -> in_piece k x.
Proof.
  intros x k (H1 & H2 & H3). split; auto. split.
  - destruct H2; auto. right. destruct (Rageb x (X k)); [lra|discriminate].
  - destruct H3; auto. right. destruct (Rageb x (X (k + 1)%nat)); [discriminate|lra].
Qed.
Lemma pieces_agree : forall f : nat -> R -> R, (forall k, (k + 2 < n)%nat -> f k (X (k + 1)%nat) = f (k + 1)%nat (X (k + 1)%nat)) ->
  forall x k k', in_piece k x -> in_piece k' x -> f k x = f k' x.
Proof.
  intros f HJ. assert (W : forall x k k', (k < k')%nat -> in_piece k x -> in_piece k' x -> f k x = f k' x).
  { intros x k k' L (H1 & _ & H3) (G1 & G2 & _). destruct G2 as [?|G2]; [lia|]. destruct H3 as [?|H3]; [lia|].
    assert (k' = (k + 1)%nat). { destruct (Nat.eq_dec k' (k + 1)); auto. pose proof (HI (k + 1)%nat k' ltac:(lia)). lra. }
    subst k'. assert (x = X (k + 1)%nat) by lra. subst x. apply HJ. lia. }
  intros x k k' H H'. destruct (Nat.lt_trichotomy k k') as [L|[->|L]]; auto. symmetry. auto.
Qed.
Lemma piece_exists : forall x, exists k, in_piece k x.
Proof.
  intros x. destruct (C50_locate (ageb Rarith) (map X (seq 0 n)) [] 2 n X x) as [H _].
  - split; [rewrite map_length, seq_length; auto|]. intros i Hi. rewrite nth_error_map. assert (E : nth_error (seq 0 n) i = Some i).
    { rewrite (nth_error_nth' _ 0%nat) by (rewrite seq_length; auto). rewrite seq_nth by auto. auto. }
    rewrite E. reflexivity.
  - lia.
  - destruct (H (increasing_asc _ _ HI)) as (k & HB & _). exists k. apply bracket_piece. auto.
Qed.
(** near x there is one piece on the left and one on the right *)
Lemma piece_near : forall x, exists kl kr d, 0 < d /\ (forall y, x - d < y <= x -> in_piece kl y) /\ (forall y, x <= y < x + d -> in_piece kr y).
Proof.
  intros x. destruct (piece_exists x) as (k & H1 & H2 & H3).
  assert (L : exists kl d, 0 < d /\ (forall y, x - d < y <= x -> in_piece kl y)).
  { destruct (Nat.eq_dec k 0) as [K0|K0]. { exists k, 1. split; [lra|]. intros y Hy. split; auto. split; auto. destruct H3 as [H3|H3]; auto. right. lra. }
    destruct H2 as [?|H2]; [lia|]. destruct (Req_dec x (X k)) as [E|E].
    - exists (k - 1)%nat. pose proof (HI (k - 1)%nat k ltac:(lia)). exists (X k - X (k - 1)%nat). split; [lra|]. intros y Hy. split; [lia|]. split; [right; lra|]. right. replace (k - 1 + 1)%nat with k by lia. lra.
    - exists k, (x - X k). split; [lra|]. intros y Hy. split; auto. split; [right; lra|]. destruct H3 as [H3|H3]; auto. right. lra. }
  assert (Rr : exists kr d, 0 < d /\ (forall y, x <= y < x + d -> in_piece kr y)).
  { destruct (Nat.eq_dec (k + 2) n) as [K0|K0]. { exists k, 1. split; [lra|]. intros y Hy. split; auto. split; auto. destruct H2 as [H2|H2]; auto. right. lra. }
    destruct H3 as [?|H3]; [lia|]. destruct (Req_dec x (X (k + 1)%nat)) as [E|E].
    - exists (k + 1)%nat. pose proof (HI (k + 1)%nat (k + 1 + 1)%nat ltac:(lia)). exists (X (k + 1 + 1)%nat - X (k + 1)%nat). split; [lra|]. intros y Hy. split; [lia|]. split; [right; lra|]. right. lra.
    - exists k, (X (k + 1)%nat - x). split; [lra|]. intros y Hy. split; auto. split; [destruct H2 as [H2|H2]; auto; right; lra|]. right. lra. }
  destruct L as (kl & dl & L1 & L2). destruct Rr as (kr & dr & R1 & R2). exists kl, kr, (Rmin dl dr).
  pose proof (Rmin_l dl dr). pose proof (Rmin_r dl dr). split; [apply Rmin_pos; auto|]. split; intros y Hy; [apply L2|apply R2]; lra.
Qed.
(** a function glued from the pieces has the derivative glued from the derivatives *)
Lemma pieces_deriv : forall (f f' : nat -> R -> R) (F F' : R -> R),
  (forall k x, in_piece k x -> F x = f k x) -> (forall k x, in_piece k x -> F' x = f' k x) -> (forall k x, derivable_pt_lim (f k) x (f' k x)) ->
  forall x, derivable_pt_lim F x (F' x).
Proof.
  intros f f' F F' H1 H2 HD x. destruct (piece_near x) as (kl & kr & d & D0 & DL & DR).
  apply (glue F (f kl) (f kr) x (F' x) d); auto.
  - rewrite (H2 kl x) by (apply DL; lra). apply HD.
  - rewrite (H2 kr x) by (apply DR; lra). apply HD.
Qed.
End Sweep.

Lemma glue_cont : forall f g h x d, 0 < d -> continuity_pt g x -> continuity_pt h x ->
  (forall y, x - d < y <= x -> f y = g y) -> (forall y, x <= y < x + d -> f y = h y) -> continuity_pt f x.
Proof.
  intros f g h x d HD Hg Hh HL HR eps HE. destruct (Hg eps HE) as (dg & Dg0 & Dg). destruct (Hh eps HE) as (dh & Dh0 & Dh).
  exists (Rmin d (Rmin dg dh)). split; [repeat apply Rmin_pos; auto|]. intros y [Hy1 Hy2]. cbn in *. unfold R_dist in *.
  pose proof (Rmin_l d (Rmin dg dh)). pose proof (Rmin_r d (Rmin dg dh)). pose proof (Rmin_l dg dh). pose proof (Rmin_r dg dh).
  apply Rabs_def2 in Hy2. destruct (Rle_dec y x) as [L|L].
  - rewrite (HL x), (HL y) by lra. apply Dg. split; auto. apply Rabs_def1; lra.
  - rewrite (HR x), (HR y) by lra. apply Dh. split; auto. apply Rabs_def1; lra.
Qed.

Section Table.
Context (n : nat) (X Y : nat -> R) (HN : (2 <= n)%nat) (HI : increasing n X) (yp1 ypn : R) (z : nat -> R) (HZ : spline_eqs n X Y yp1 ypn z).
Context (xs ys zv : list R) (HX : is_vector xs n X) (HY : is_vector ys n Y) (HV : is_vector zv n z).
Local Notation ip := (mkInterp xs ys 2).
Local Notation seg := (seg X Y z). Local Notation seg1 := (seg1 X Y z). Local Notation seg2 := (seg2 X z). Local Notation segF := (segF X Y z).
Local Notation in_piece := (in_piece n X).

Lemma eval_at : forall x k, in_piece k x -> spline_eval Rarith ip zv x = Ok (seg k x) /\ spline_deriv Rarith ip zv x = Ok (seg1 k x) /\ spline_second Rarith ip zv x = Ok (seg2 k x).
Proof.
  intros x k HP. destruct (locate2 xs ys n X x HX HN HI) as (k' & HB & E). pose proof (bracket_piece n X x k' HB) as HP'.
  rewrite (pieces_agree n X HN HI seg ltac:(intros j Hj; rewrite (seg_right n X Y HN HI z), (seg_left X Y z) by lia; reflexivity) x k k' HP HP').
  rewrite (pieces_agree n X HN HI seg1 ltac:(intros j Hj; apply (seg1_join n X Y HN HI yp1 ypn z HZ); lia) x k k' HP HP').
  rewrite (pieces_agree n X HN HI seg2 ltac:(intros j Hj; rewrite (seg2_right n X HN HI z), (seg2_left X z) by lia; reflexivity) x k k' HP HP').
  destruct HP' as [HK _]. pose proof (HI k' (k' + 1)%nat ltac:(lia)).
  unfold spline_eval, spline_deriv, spline_second. rewrite E. cbn [bind]. unfold spline_value, spline_at. cbn [ip_x ip_y].
  rewrite !(vec_get _ xs n X), !(vec_get _ ys n Y), !(vec_get _ zv n z) by (auto; lia). cbn [bind]. rnum.
  destruct (Raeqb (X (k' + 1)%nat - X k') 0); [lra|].
  unfold Interp_Spline.seg, Interp_Spline.seg1, Interp_Spline.seg2, t1, t3, slope, hh. cbv zeta. repeat split; f_equal; field; lra.
Qed.

Fixpoint base (k : nat) : R := match k with 0%nat => 0 | S k' => base k' + segF k' (X (k' + 1)%nat) end.
Definition FF (x : R) : R := match locate (ageb Rarith) ip x with Ok k => base k + segF k x | _ => 0 end.
Lemma FF_at : forall x k, in_piece k x -> FF x = base k + segF k x.
Proof.
  intros x k HP. destruct (locate2 xs ys n X x HX HN HI) as (k' & HB & E). pose proof (bracket_piece n X x k' HB) as HP'. unfold FF. rewrite E. symmetry.
  apply (pieces_agree n X HN HI (fun k x => base k + segF k x)); auto. intros j Hj. replace (j + 1)%nat with (S j) by lia. cbn [base]. replace (j + 1)%nat with (S j) by lia. unfold Interp_Spline.segF. cbv zeta. ring.
Qed.
Lemma segment_ok : forall i x0 x1, (i + 1 < n)%nat -> segment Rarith ip zv i x0 x1 = Ok (segF i x1 - segF i x0).
Proof.
  intros i x0 x1 Hi. pose proof (HI i (i + 1)%nat ltac:(lia)). unfold segment. cbn [ip_x ip_y].
  rewrite !(vec_get _ xs n X), !(vec_get _ ys n Y), !(vec_get _ zv n z) by (auto; lia). cbn [bind]. rnum. change (lhalf Rarith) with (1 / 2).
  destruct (Raeqb (X (i + 1)%nat - X i) 0); [lra|]. unfold Interp_Spline.segF, t1, t3, slope, hh. cbv zeta. f_equal. field. lra.
Qed.
Lemma segF_0 : forall i, segF i (X i) = 0.
Proof. intros i. unfold Interp_Spline.segF. cbv zeta. ring. Qed.
Lemma integrate_up_ok : forall a b, X 0%nat <= a -> a <= b -> b <= X (n - 1)%nat -> integrate_up Rarith ip zv a b = Ok (FF b - FF a).
Proof.
  intros a b Ha Hab Hb. unfold integrate_up. cbn [ip_x]. rewrite (proj1 HX). rewrite !(vec_get _ xs n X) by (auto; lia). cbn [bind]. rnum.
  destruct (Rltb_spec a (X 0%nat)); [lra|]. destruct (Rltb_spec (X (n - 1)%nat) b); [lra|]. cbn [orb].
  destruct (locate2 xs ys n X a HX HN HI) as (ka & BA & EA). destruct (locate2 xs ys n X b HX HN HI) as (kb & BB & EB). rewrite EA, EB. cbn [bind].
  rewrite (FF_at a ka (bracket_piece n X a ka BA)), (FF_at b kb (bracket_piece n X b kb BB)).
  pose proof (proj1 BA). pose proof (proj1 BB).
  destruct (Nat.eqb_spec ka kb) as [->|NE]. { rewrite segment_ok by lia. f_equal. ring. }
  assert (L : (ka < kb)%nat).
  { destruct (Nat.lt_trichotomy ka kb) as [|[|L]]; auto; [lia|]. exfalso. destruct (bracket_piece n X a ka BA) as (_ & [A|A] & _); [lia|].
    destruct BB as (_ & _ & [B|B]); [lia|]. destruct (Rageb b (X (kb + 1)%nat)); [discriminate|]. pose proof (increasing_le n X (kb + 1) ka HI ltac:(lia)). lra. }
  rewrite (vec_get _ xs n X) by (auto; lia). cbn [bind]. rewrite segment_ok by lia. cbn [bind].
  enough (W : wp (for_range (ka + 1) kb (fun s i => xi <- vget xs i ;; xj <- vget xs (i + 1) ;; t <- segment Rarith ip zv i xi xj ;; Ok (s + t)) (0 + (segF ka (X (ka + 1)%nat) - segF ka a))) (fun s => s = base kb - base ka - segF ka a)).
  { destruct (wp_elim _ _ _ W) as (s & E & ->). rewrite E. cbn [bind]. rewrite (vec_get _ xs n X) by (auto; lia). cbn [bind]. rewrite segment_ok by lia. cbn [bind]. f_equal. rewrite segF_0. ring. }
  eapply wp_conseq; [|apply (for_range_inv _ _ (fun i s => s = base i - base ka - segF ka a))].
  - auto.
  - lia.
  - replace (ka + 1)%nat with (S ka) by lia. cbn [base]. replace (ka + 1)%nat with (S ka) by lia. ring.
  - intros i s Hi1 Hi2 ->. rewrite !(vec_get _ xs n X) by (auto; lia). cbn [bind]. rewrite segment_ok by lia. cbn [bind]. apply wp_Ok. replace (i + 1)%nat with (S i) by lia. cbn [base]. replace (i + 1)%nat with (S i) by lia. rewrite segF_0. ring.
Qed.
End Table.

(** ** The property *)
(** end derivatives above this number ask for a natural end *)
Definition natural_limit : R := IZR (99 * 10 ^ 97).
(** The constructed object is a twice continuously differentiable function on the whole line that is cubic on each table
    interval (the first and last cubic continue outside), takes the tabulated values, and has the required ends; Derivative and
    SecondDerivative are its derivatives and the stored numbers are its second derivatives at the data points. *)
Theorem C52_spline : forall xs ys n X Y yp1 ypn, is_vector xs n X -> is_vector ys n Y -> (2 <= n)%nat -> increasing n X ->
  exists ip zv (s s1 s2 : R -> R), spline_new Rarith xs ys yp1 ypn = Ok (ip, zv) /\
    (forall x, spline_eval Rarith ip zv x = Ok (s x)) /\ (forall x, spline_deriv Rarith ip zv x = Ok (s1 x)) /\ (forall x, spline_second Rarith ip zv x = Ok (s2 x)) /\
    (forall k, (k < n)%nat -> s (X k) = Y k) /\
    (forall x, derivable_pt_lim s x (s1 x)) /\ (forall x, derivable_pt_lim s1 x (s2 x)) /\ continuity s2 /\
    (forall k, (k + 1 < n)%nat -> exists c0 c1 c2 c3, forall x, (k = 0%nat \/ X k <= x) -> ((k + 2)%nat = n \/ x <= X (k + 1)%nat) -> s x = c0 + c1 * x + c2 * x ^ 2 + c3 * x ^ 3) /\
    (if Rlt_dec natural_limit yp1 then s2 (X 0%nat) = 0 else s1 (X 0%nat) = yp1) /\
    (if Rlt_dec natural_limit ypn then s2 (X (n - 1)%nat) = 0 else s1 (X (n - 1)%nat) = ypn) /\
    (forall k, (k < n)%nat -> nth_error zv k = Some (s2 (X k))).
Proof.
  intros xs ys n X Y yp1 ypn HX HY HN HI. destruct (spline_init_ok n X Y HN HI yp1 ypn xs ys HX HY) as (zv & z & EI & HV & HZ).
  set (ip := mkInterp xs ys 2). set (get := fun r : res R => match r with Ok v => v | _ => 0 end).
  exists ip, zv, (fun x => get (spline_eval Rarith ip zv x)), (fun x => get (spline_deriv Rarith ip zv x)), (fun x => get (spline_second Rarith ip zv x)).
  assert (EV := eval_at n X Y HN HI yp1 ypn z HZ xs ys zv HX HY HV). fold ip in EV.
  assert (G0 : forall k x, in_piece n X k x -> get (spline_eval Rarith ip zv x) = seg X Y z k x). { intros k x HP. destruct (EV x k HP) as (-> & _). reflexivity. }
  assert (G1 : forall k x, in_piece n X k x -> get (spline_deriv Rarith ip zv x) = seg1 X Y z k x). { intros k x HP. destruct (EV x k HP) as (_ & -> & _). reflexivity. }
  assert (G2 : forall k x, in_piece n X k x -> get (spline_second Rarith ip zv x) = seg2 X z k x). { intros k x HP. destruct (EV x k HP) as (_ & _ & ->). reflexivity. }
  assert (PL : forall k, (k + 1 < n)%nat -> in_piece n X k (X k)). { intros k Hk. split; auto. split; [right; lra|]. right. pose proof (HI k (k + 1)%nat ltac:(lia)). lra. }
  assert (PR : in_piece n X (n - 2) (X (n - 1)%nat)). { split; [lia|]. split; [right; apply (increasing_le n); auto; lia|]. left. lia. }
  assert (N2 : (n - 2 + 1)%nat = (n - 1)%nat) by lia.
  split. { unfold spline_new. destruct (C50_new Rarith ltac:(intros a b; destruct (Raeqb a b); split; auto; discriminate) xs ys 2) as [EN _]. rewrite EN.
    - cbn [bind]. rewrite EI. reflexivity.
    - pose proof (proj1 HX). split; [lia|]. rewrite NoDup_nth_error. intros i j Hi E. destruct (Nat.lt_trichotomy i j) as [L|[L|L]]; auto; exfalso.
      + assert (j < length xs)%nat. { apply nth_error_Some. rewrite <- E. apply nth_error_Some. auto. }
        rewrite !(proj2 HX) in E by lia. injection E as E. pose proof (HI i j ltac:(lia)). lra.
      + rewrite !(proj2 HX) in E by lia. injection E as E. pose proof (HI j i ltac:(lia)). lra. }
  split; [intros x; destruct (piece_exists n X HN HI x) as (k & HP); destruct (EV x k HP) as (-> & _); reflexivity|].
  split; [intros x; destruct (piece_exists n X HN HI x) as (k & HP); destruct (EV x k HP) as (_ & -> & _); reflexivity|].
  split; [intros x; destruct (piece_exists n X HN HI x) as (k & HP); destruct (EV x k HP) as (_ & _ & ->); reflexivity|].
  split. { intros k Hk. destruct (Nat.eq_dec k (n - 1)) as [->|NE].
    - rewrite (G0 (n - 2)%nat) by exact PR. rewrite <- N2 at 1. rewrite (seg_right n X Y HN HI z) by lia. f_equal. lia.
    - rewrite (G0 k) by (apply PL; lia). apply seg_left. }
  split. { apply (pieces_deriv n X HN HI (seg X Y z) (seg1 X Y z)); auto. apply seg_deriv. }
  split. { apply (pieces_deriv n X HN HI (seg1 X Y z) (seg2 X z)); auto. apply seg1_deriv. }
  split. { intros x. destruct (piece_near n X HN HI x) as (kl & kr & d & D0 & DL & DR).
    assert (C : forall k y, continuity_pt (seg2 X z k) y).
    { intros k y. apply derivable_continuous_pt. exists (6 * t3 X z k). eapply lim_ext; [|eapply eq_rect; [apply (quartic_deriv (z k) (6 * t3 X z k) 0 0 0 (X k) y)|]].
      - intros w. unfold seg2. cbv zeta. ring.
      - ring. }
    apply (glue_cont _ (seg2 X z kl) (seg2 X z kr) x d); auto. }
  split. { intros k Hk. set (r := X k).
    exists (Y k - t1 X Y z k * r + z k / 2 * (r * r) - t3 X z k * (r * (r * r))), (t1 X Y z k - z k * r + 3 * t3 X z k * (r * r)), (z k / 2 - 3 * t3 X z k * r), (t3 X z k).
    intros x H1 H2. rewrite (G0 k) by (split; auto). unfold seg. fold r. cbv zeta. field. }
  destruct HZ as (_ & ZL & ZL' & ZR & ZR'). unfold left_natural, right_natural in *. change (natural_mark Rarith) with natural_limit in *.
  split. { destruct (Rlt_dec natural_limit yp1) as [L|L].
    - rewrite (G2 0%nat) by (apply PL; lia). rewrite seg2_left. auto.
    - rewrite (G1 0%nat) by (apply PL; lia). rewrite <- (ZL' L). unfold seg1, t1, hh. cbn [Nat.add]. cbv zeta. field. }
  split. { destruct (Rlt_dec natural_limit ypn) as [L|L].
    - rewrite (G2 (n - 2)%nat) by exact PR. rewrite <- N2 at 1. rewrite (seg2_right n X HN HI z) by lia. rewrite N2. auto.
    - rewrite (G1 (n - 2)%nat) by exact PR. rewrite <- (ZR' L). unfold seg1, t1, t3, hh. rewrite N2. pose proof (HI (n - 2)%nat (n - 1)%nat ltac:(lia)). cbv zeta. field. lra. }
  intros k Hk. rewrite (proj2 HV) by auto. f_equal. destruct (Nat.eq_dec k (n - 1)) as [->|NE].
  - rewrite (G2 (n - 2)%nat) by exact PR. rewrite <- N2 at 2. rewrite (seg2_right n X HN HI z) by lia. f_equal. lia.
  - rewrite (G2 k) by (apply PL; lia). symmetry. apply seg2_left.
Qed.
Print Assumptions C52_spline.

(** Integrate is the difference of an antiderivative, in both directions; bounds outside the table are refused *)
Theorem C52_integrate : forall xs ys n X Y yp1 ypn ip zv s, is_vector xs n X -> is_vector ys n Y -> (2 <= n)%nat -> increasing n X ->
  spline_new Rarith xs ys yp1 ypn = Ok (ip, zv) -> (forall x, spline_eval Rarith ip zv x = Ok (s x)) ->
  (exists F, (forall x, derivable_pt_lim F x (s x)) /\
     forall a b, X 0%nat <= a <= X (n - 1)%nat -> X 0%nat <= b <= X (n - 1)%nat -> integrate Rarith ip zv a b = Ok (F b - F a)) /\
  (forall a b, ~ (X 0%nat <= a <= X (n - 1)%nat /\ X 0%nat <= b <= X (n - 1)%nat) -> integrate Rarith ip zv a b = Throw DomainError).
Proof.
  intros xs ys n X Y yp1 ypn ip zv s HX HY HN HI EN ES. destruct (spline_init_ok n X Y HN HI yp1 ypn xs ys HX HY) as (zv' & z & EI & HV & HZ).
  unfold spline_new in EN. destruct (interp_new Rarith xs ys 2) as [ip0| | |] eqn:E0; try discriminate. cbn [bind] in EN. rewrite EI in EN. cbn [bind] in EN. injection EN as <- <-.
  assert (ip0 = mkInterp xs ys 2).
  { unfold interp_new in E0. destruct ((Z.of_nat (length xs) <? 2) || (2 <? 2) || (Z.of_nat (length xs) <? 2))%Z; [discriminate|]. destruct (has_dup Rarith xs); [discriminate|]. injection E0 as <-. reflexivity. }
  subst ip0. split.
  - exists (FF X Y z xs ys). split.
    + apply (pieces_deriv n X HN HI (fun k x => base X Y z k + segF X Y z k x) (seg X Y z)).
      * intros k x HP. apply (FF_at n X Y HN HI z xs ys HX); auto.
      * intros k x HP. destruct (eval_at n X Y HN HI yp1 ypn z HZ xs ys zv' HX HY HV x k HP) as (E & _). rewrite ES in E. injection E as E. exact E.
      * intros k x. apply segF_deriv.
    + intros a b Ha Hb. unfold integrate. rnum. destruct (Rltb_spec b a).
      * rewrite (integrate_up_ok n X Y HN HI z xs ys zv' HX HY HV) by lra. cbn [bind]. f_equal. ring.
      * rewrite (integrate_up_ok n X Y HN HI z xs ys zv' HX HY HV) by lra. reflexivity.
  - intros a b HO. unfold integrate, integrate_up. cbn [ip_x]. rewrite (proj1 HX). rewrite !(vec_get _ xs n X) by (auto; lia). cbn [bind]. rnum.
    destruct (Rltb_spec b a), (Rltb_spec b (X 0%nat)), (Rltb_spec (X (n - 1)%nat) a), (Rltb_spec a (X 0%nat)), (Rltb_spec (X (n - 1)%nat) b); cbn [orb bind]; try reflexivity; exfalso; apply HO; lra.
Qed.
Print Assumptions C52_integrate.

(** a table that meets the hypotheses: natural ends, three points *)
Example C52_example : exists ip zv, spline_new Rarith [0; 1; 3] [5; 7; 1] (10 ^ 99) (10 ^ 99) = Ok (ip, zv) /\ spline_eval Rarith ip zv 1 = Ok 7.
Proof.
  destruct (C52_spline [0; 1; 3] [5; 7; 1] 3 (fun i => nth i [0; 1; 3] 0) (fun i => nth i [5; 7; 1] 0) (10 ^ 99) (10 ^ 99)) as (ip & zv & s & s1 & s2 & E & H1 & _ & _ & HS & _).
  - apply is_vector_self.
  - apply is_vector_self.
  - lia.
  - intros i j HI. destruct i as [|[|[|]]], j as [|[|[|]]]; cbn [nth]; try lia; lra.
  - exists ip, zv. split; auto. rewrite H1. f_equal. apply (HS 1%nat). lia.
Qed.
(** a descending table is accepted, but then Integrate refuses every interval *)
Theorem C52_descending_refuted : forall z a b, integrate Rarith (mkInterp [2; 1; 0] [10; 20; 30] 2) z a b = Throw DomainError.
Proof.
  intros z a b. unfold integrate, integrate_up. cbn [ip_x length Nat.sub vget nth_error bind]. rnum.
  destruct (Rltb_spec b a), (Rltb_spec b 2), (Rltb_spec 0 a), (Rltb_spec a 2), (Rltb_spec 0 b); cbn [orb bind]; try reflexivity; exfalso; lra.
Qed.
Print Assumptions C52_descending_refuted.
