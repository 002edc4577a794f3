(** * C84: numerical differentiation of real functions *)

From Coq Require Import Reals Lra List Arith ZArith QArith Qcanon Lia Bool.
From Verif Require Import Base Num QR_Math Deriv_Math RootFind_Model RootFind_Proofs RootFind_Props Deriv_Model Deriv_Spec Deriv_Proofs.
Import ListNotations.
Local Open Scope nat_scope.
Local Open Scope R_scope.

(** ** Accuracy of every rule, for every sufficiently differentiable function *)

Theorem C84_accuracy : forall m eps f fs x h err M, 0 < h ->
  derivatives f fs (what m + acc m) (x - reach m * h) (x + reach m * h) ->
  (forall t, x - reach m * h <= t <= x + reach m * h -> Rabs (fs (what m + acc m)%nat t) <= M) ->
  exists v e, NDer Rarith eps m f x h err = Ok (v, e) /\ Rabs (v - fs (what m) x) <= bound m * M * h ^ acc m.
Proof.
  intros m eps f fs x h err M Hh D HB. rewrite NDer_ok by auto. eexists _, _. split; [reflexivity|]. rewrite value_stencil by lra.
  pose proof (reach_pos m) as RP. assert (Hx : x - reach m * h <= x <= x + reach m * h) by nra.
  assert (HM : 0 <= M). { specialize (HB x Hx). pose proof (Rabs_pos (fs (what m + acc m)%nat x)). lra. }
  eapply Rle_trans; [apply (sten_error (stencil m) fs f (what m) (what m + acc m) M (x - reach m * h) (x + reach m * h) x h); auto; [apply stencil_order|apply what_lt|intros s w HI; apply (stencil_reach m s w); auto]|].
  rewrite stencil_bound. replace (what m + acc m - what m)%nat with (acc m) by lia. right. ring.
Qed.
Print Assumptions C84_accuracy.

(** exact on polynomials, whatever the step, the point and the coefficients *)
Theorem C84_polynomial_exact : forall m eps a x h err, 0 < h -> (length a <= what m + acc m)%nat ->
  exists e, NDer Rarith eps m (pev a) x h err = Ok (pev (Nat.iter (what m) pder a) x, e).
Proof.
  intros m eps a x h err Hh HL.
  destruct (C84_accuracy m eps (pev a) (fun k => pev (pd k a)) x h err 0 Hh (pd_chain a _ _ _)) as (v & e & H1 & H2).
  - intros t _. rewrite pd_zero, Rabs_R0 by auto. lra.
  - exists e. rewrite H1. do 2 f_equal. replace (bound m * 0 * h ^ acc m) with 0 in H2 by ring. pose proof (Rabs_pos (v - pev (pd (what m) a) x)) as P. change (Nat.iter (what m) pder a) with (pd (what m) a).
    revert H2 P. unfold Rabs. destruct (Rcase_abs _); lra.
Qed.
Print Assumptions C84_polynomial_exact.

(** one degree further the error is the leading term, so the order is not higher than documented either *)
Theorem C84_leading_error : forall m eps a x h err, 0 < h -> (length a <= S (what m + acc m))%nat ->
  exists e, NDer Rarith eps m (pev a) x h err =
    Ok (pev (Nat.iter (what m) pder a) x + lead m * pev (Nat.iter (what m + acc m) pder a) x * h ^ acc m, e).
Proof.
  intros m eps a x h err Hh HL. rewrite NDer_ok by auto. eexists. do 2 f_equal. rewrite value_stencil by lra.
  pose proof (sten_lead (stencil m) (fun k => pev (pd k a)) (pev a) (what m) (what m + acc m) (x - reach m * h) (x + reach m * h) x h (stencil_order m) (what_lt m) (pd_chain a _ _ _)) as Q.
  pose proof (reach_pos m) as RP.
  rewrite stencil_lead in Q. replace (what m + acc m - what m)%nat with (acc m) in Q by lia. change (Nat.iter (what m) pder a) with (pd (what m) a). change (Nat.iter (what m + acc m) pder a) with (pd (what m + acc m) a).
  assert (sten (stencil m) (pev a) x h / h ^ what m - pev (pd (what m) a) x = pev (pd (what m + acc m) a) x * h ^ acc m * lead m); [|lra].
  apply Q; [nra|lra|intros t _; apply pd_zero; auto|intros s w HI; apply (stencil_reach m s w); auto].
Qed.
Print Assumptions C84_leading_error.

(** non-vacuity: a quintic, all nine rules, at x = 1 with step 1/2; f' (1) = 15, f'' (1) = 40, f''' (1) = 90 *)
Definition quintic (t : Qc) : Qc := (t * t * t * t * t + q 2 1 * t * t * t * t + q 2 1 * t)%Qc.
(** numerator and denominator *)
Definition showz (a : Qc) : Z * Z := (fst (showq a), Zpos (snd (showq a))).
Definition vals := map (fun m => match NDer Qarith (q 0 1) m quintic (q 1 1) (q 1 2) true with Ok (v, e) => (showz v, showz e) | _ => (showz (q 0 1), showz (q 0 1)) end)
  [NDer1; NDer2; NDer4; NDer6; NDer8; NSecDer2; NSecDer4; NThirdDer2; NThirdDer4].
Example C84_computed : vals =
  [((503, 16), (95, 8)); ((313, 16), (77, 16)); ((59, 4), (1, 4)); ((15, 1), (0, 1)); ((15, 1), (0, 1));
   ((95, 2), (7, 8)); ((44, 1), (0, 1)); ((231, 2), (151, 4)); ((108, 1), (229, 1280))]%Z.
Proof. vm_compute. reflexivity. Qed.

(** ** The error estimate of the first-derivative rules *)

(** on polynomials up to one degree beyond exactness the reported error is an upper bound of the true error, and
    when the rounding allowance is taken away (eps = 0) it is the true error *)
Theorem C84_error_estimate : forall m eps a x h, 0 < h -> 0 <= eps -> what m = 1%nat -> (length a <= S (S (acc m)))%nat ->
  exists v e, NDer Rarith eps m (pev a) x h true = Ok (v, e) /\
    Rabs (v - pev (pder a) x) <= e /\ (eps = 0 -> e = Rabs (v - pev (pder a) x)).
Proof.
  intros m eps a x h Hh He Hm HL.
  destruct (C84_leading_error m eps a x h true Hh) as (e & HE); [rewrite Hm; exact HL|]. rewrite Hm in HE. change (Nat.iter 1 pder a) with (pder a) in HE. change (Nat.iter (1 + acc m) pder a) with (pder (Nat.iter (acc m) pder a)) in HE.
  eexists _, _. split; [exact HE|]. rewrite NDer_ok in HE by auto. injection HE as HV HE.
  destruct (error_stencil eps m (pev a) x h Hh Hm) as (r & Hr & ER). rewrite ER in HE.
  set (lt := lead m * pev (pder (Nat.iter (acc m) pder a)) x * h ^ acc m) in *.
  assert (K : Rabs (sten (estencil m) (pev a) x h / h) = Rabs lt).
  { rewrite (sten_poly (estencil m) (fun k => pev (pd k a)) (pev a) (S (acc m))); [|intros; apply pd_chain|intros; apply pd_zero; auto].
    cbn [sumn]. rewrite rsum_zero by (intros i Hi; rewrite estencil_moments by auto; ring). cbn [Rnum nadd]. rewrite (estencil_moments m (acc m)) by auto.
    pose proof (estencil_lead m Hm) as L. pose proof (fact_pos (S (acc m))) as FP.
    replace ((0 + pev (pd (acc m) a) x / INR (fact (acc m)) * h ^ acc m * 0 + pev (pd (S (acc m)) a) x / INR (fact (S (acc m))) * h ^ S (acc m) * moment (estencil m) (S (acc m))) / h)
      with (pev (pd (S (acc m)) a) x * h ^ acc m * (moment (estencil m) (S (acc m)) / INR (fact (S (acc m))))) by (pose proof (fact_pos (acc m)); cbn [pow]; field; repeat split; lra).
    rewrite L. unfold lt. change (pd (S (acc m)) a) with (pder (Nat.iter (acc m) pder a)). rewrite !Rabs_mult, Rabs_Rabsolu. ring. }
  rewrite K in HE. replace (pev (pder a) x + lt - pev (pder a) x) with lt by ring. split; [nra|]. intros ->. rewrite <- HE. ring.
Qed.
Print Assumptions C84_error_estimate.

(** ** One-sided variants *)

(** NDerKLeft only looks at points not right of x; NDerKRight only at points not left of x, as long as no error
    estimate is asked of NDer1Right *)
Theorem C84_one_sided_samples : forall m eps f g x h err, 0 < h -> what m = 1%nat ->
  ((forall t, t <= x -> f t = g t) -> NDerLeft Rarith eps m f x h err = NDerLeft Rarith eps m g x h err) /\
  ((forall t, x <= t -> f t = g t) -> m <> NDer1 \/ err = false -> NDerRight Rarith eps m f x h err = NDerRight Rarith eps m g x h err).
Proof.
  intros m eps f g x h err Hh Hm. unfold NDerLeft, NDerRight. rewrite !NDer_ok by auto. split; intros H.
  - assert (E : compute Rarith eps f (nsub (aops Rarith) x (nmul (aops Rarith) (alit Rarith (shiftL m)) h)) h m = compute Rarith eps g (nsub (aops Rarith) x (nmul (aops Rarith) (alit Rarith (shiftL m)) h)) h m).
    { destruct m; try (discriminate Hm); cbn [compute shiftL]; unfold der1, der2, der4, der6, der8; cbv zeta; cbn [Rarith aops altb alit asqrt Rnum nadd nmul nsub nopp ndiv n0 n1]; rewrite ?Rabs_aabs; rewrite !H by lra; reflexivity. }
    rewrite E. reflexivity.
  - intros HE. destruct m; try (discriminate Hm); cbn [compute shiftR]; unfold der1, der2, der4, der6, der8; cbv zeta; cbn [fst snd]; cbn [Rarith aops altb alit asqrt Rnum nadd nmul nsub nopp ndiv n0 n1]; rewrite ?Rabs_aabs;
    first [destruct HE as [HE|HE]; [congruence|subst err]; rewrite !H by lra; reflexivity | rewrite !H by lra; reflexivity].
Qed.
Print Assumptions C84_one_sided_samples.

(** the result is within first order of the derivative at x *)
Theorem C84_one_sided_accuracy : forall m eps f fs x h err M M2 side, 0 < h -> what m = 1%nat ->
  (side = -1 \/ side = 1) ->
  derivatives f fs (1 + acc m) (x - 10 * h) (x + 10 * h) ->
  (forall t, x - 10 * h <= t <= x + 10 * h -> Rabs (fs (1 + acc m)%nat t) <= M) ->
  (forall t, x - 10 * h <= t <= x + 10 * h -> Rabs (fs 2%nat t) <= M2) ->
  exists v e, (if Rltb side 0 then NDerLeft Rarith eps m f x h err else NDerRight Rarith eps m f x h err) = Ok (v, e) /\
    Rabs (v - fs 1%nat x) <= bound m * M * h ^ acc m + 6 * M2 * h.
Proof.
  intros m eps f fs x h err M M2 side Hh Hm Hs D HB HB2. unfold NDerLeft, NDerRight.
  set (s := if Rltb side 0 then - IZR (shiftL m) else IZR (shiftR m)).
  assert (S6 : Rabs s <= 6). { unfold s. destruct (Rltb side 0); [rewrite Rabs_Ropp|]; destruct m; try (discriminate Hm); cbn; rewrite Rabs_pos_eq; lra. }
  assert (RB : reach m <= 4) by (destruct m; cbn; lra). pose proof (reach_pos m) as RP.
  assert (SB : - 6 <= s <= 6) by (revert S6; unfold Rabs; destruct (Rcase_abs s); lra).
  assert (A2 : 0 <= M2). { specialize (HB2 x ltac:(lra)). pose proof (Rabs_pos (fs 2%nat x)). lra. }
  destruct (C84_accuracy m eps f fs (x + s * h) h err M Hh) as (v & e & H1 & H2).
  - rewrite Hm. destruct D as [D0 D1]. split; intros; [apply D0|apply D1; auto]; nra.
  - rewrite Hm. intros t Ht. apply HB. nra.
  - exists v, e. split.
    + rewrite <- H1. unfold s. destruct (Rltb side 0); cbn [Rarith aops alit Rnum nadd nsub nmul]; f_equal; ring.
    + rewrite Hm in H2.
      assert (T : Rabs (fs 1%nat (x + s * h) - fs 1%nat x) <= M2 * (6 * h)).
      { pose proof (taylor 1 (fun k => fs (S k)) (fs 1%nat) M2 (x - 10 * h) (x + 10 * h) x (s * h)) as Q. unfold tay in Q. cbn [sumn Rnum nadd n0 fact pow INR] in Q.
        replace (0 + fs 1%nat x / 1 * 1) with (fs 1%nat x) in Q by field. eapply Rle_trans; [apply Q; auto; try nra|].
        - split; [reflexivity|]. intros k t Hk Ht. apply (proj2 D); auto. destruct m; cbn; try lia.
          (* NDer1 has 1 + acc m = 2 derivatives, all others more *)
        - rewrite Rabs_mult, (Rabs_pos_eq h) by lra. change (INR (1 * 1)) with 1. unfold Rdiv. rewrite Rinv_1. assert (Rabs s * h <= 6 * h) by (apply Rmult_le_compat_r; lra). assert (M2 * (Rabs s * h) <= M2 * (6 * h)) by (apply Rmult_le_compat_l; lra). lra. }
      replace (v - fs 1%nat x) with ((v - fs 1%nat (x + s * h)) + (fs 1%nat (x + s * h) - fs 1%nat x)) by ring.
      eapply Rle_trans; [apply Rabs_triang|]. lra.
Qed.
Print Assumptions C84_one_sided_accuracy.

Definition square (t : R) : R := t * t.
Lemma square_value : forall m eps x h, 0 < h -> what m = 1%nat -> m <> NDer1 -> fst (compute Rarith eps square x h m) = 2 * x.
Proof.
  intros m eps x h Hh Hm H1. rewrite value_stencil by lra. destruct m; try (discriminate Hm); try congruence; cbn [stencil sten what pow]; unfold square; field; lra.
Qed.

(** The rules NDer2Left ... NDer8Right are documented by the order of the central rule they call, but they return the
    derivative at a point moved by several steps, so they are only first order at x: for f(t) = t^2, differentiated
    exactly by all the central rules, NDerKLeft(f, x, h) is 2x - 2sh with s = 3, 4, 5, 6. *)
Theorem C84_one_sided_order_refuted : forall m eps x h err, 0 < h -> what m = 1%nat -> m <> NDer1 ->
  exists e e', NDerLeft Rarith eps m square x h err = Ok (2 * x - 2 * IZR (shiftL m) * h, e) /\
    NDerRight Rarith eps m square x h err = Ok (2 * x + 2 * IZR (shiftR m) * h, e') /\ 3 <= IZR (shiftL m) /\ 3 <= IZR (shiftR m).
Proof.
  intros m eps x h err Hh Hm H1. unfold NDerLeft, NDerRight. rewrite !NDer_ok, !square_value by auto. cbn [Rarith aops alit Rnum nadd nsub nmul]. eexists _, _. split; [do 2 f_equal; ring|]. split; [do 2 f_equal; ring|].
  destruct m; try (discriminate Hm); try congruence; cbn; split; lra.
Qed.
Print Assumptions C84_one_sided_order_refuted.

(** NDer2Left with the default step moves the point by two steps, NDer2Left with the same step given explicitly by
    three: the two overloads return different numbers for the same step. *)
Theorem C84_default_step_refuted : forall eps h0 x err, 0 < h0 ->
  let h := ScaleStep Rarith h0 x in
  exists v e v' e', NDerLeftDefault Rarith eps h0 NDer2 square x err = Ok (v, e) /\ NDerLeft Rarith eps NDer2 square x h err = Ok (v', e') /\ v - v' = 2 * h /\ 0 < h.
Proof.
  intros eps h0 x err H0 h.
  assert (Hh : 0 < h). { unfold h, ScaleStep. cbn [Rarith aops alit altb Rnum nmul]. change (mkArith R Rnum Rltb IZR sqrt) with Rarith. rewrite Rabs_aabs. destruct (Rltb_spec 1 (Rabs x)); nra. }
  unfold NDerLeftDefault, NDerLeft. fold h. rewrite !NDer_ok, !square_value by (auto; congruence). cbn [shiftL0 shiftL Rarith aops alit Rnum nadd nsub nmul]. eexists _, _, _, _. split; [reflexivity|]. split; [reflexivity|]. split; [ring|auto].
Qed.
Print Assumptions C84_default_step_refuted.

(** NDer1Right with an error estimate also evaluates the function to the left of x: two functions that agree from x
    on get different error estimates (a function defined only from x on is called outside its domain). *)
Theorem C84_right_estimate_refuted : forall h x, 0 < h -> exists f g, (forall t, x <= t -> f t = g t) /\
  exists v e e', NDerRight Rarith 0 NDer1 f x h true = Ok (v, e) /\ NDerRight Rarith 0 NDer1 g x h true = Ok (v, e') /\ e <> e'.
Proof.
  intros h x Hh. exists (fun _ => 0), (fun t => if Rlt_dec t x then 1 else 0). split; [intros t Ht; destruct (Rlt_dec t x); lra|].
  unfold NDerRight. rewrite !NDer_ok by auto. cbn [compute der1 shiftR fst snd Rarith aops alit altb Rnum nadd nsub nmul ndiv]. change (mkArith R Rnum Rltb IZR sqrt) with Rarith. rewrite !Rabs_aabs.
  destruct (Rlt_dec (x + 0 * h + h) x); [lra|]. destruct (Rlt_dec (x + 0 * h) x); [lra|]. destruct (Rlt_dec (x + 0 * h - h) x); [|lra].
  eexists _, _, _. split; [reflexivity|]. split; [reflexivity|]. replace (0 - 2 * 0 + 0) with 0 by ring. replace (0 - 2 * 0 + 1) with 1 by ring. rewrite Rabs_R0, Rabs_R1.
  replace (0 / h / 2 + (0 + 0) * 0 / h) with 0 by (field; lra). replace (1 / h / 2 + (0 + 0) * 0 / h) with (/ h / 2) by (field; lra). assert (0 < / h) by (apply Rinv_0_lt_compat; auto). lra.
Qed.
Print Assumptions C84_right_estimate_refuted.

(** The error estimates of the second- and third-derivative rules divide the difference by too small a power of h:
    on t^(d+p), whose error is the leading term alone, they report less than the true error for every h <= 1/10. *)
Theorem C84_higher_estimate_refuted : forall m eps h, (2 <= what m)%nat -> 0 < h <= 1/10 -> 0 <= eps <= 1/100 ->
  exists v e, NDer Rarith eps m (fun t => t ^ (what m + acc m)) 0 h true = Ok (v, e) /\ e < Rabs (v - 0).
Proof.
  intros m eps h Hm Hh He. rewrite NDer_ok by lra. eexists _, _. split; [reflexivity|]. rewrite value_stencil by lra.
  assert (H2 : 0 < h ^ 2) by nra. assert (H3 : 0 < h ^ 3) by (apply pow_lt; lra). assert (H4 : 0 < h ^ 4) by (apply pow_lt; lra). assert (H5 : 0 < h ^ 5) by (apply pow_lt; lra). assert (H6 : 0 < h ^ 6) by (apply pow_lt; lra). assert (H7 : 0 < h ^ 7) by (apply pow_lt; lra).
  assert (S2 : h ^ 2 <= 1/100) by nra. assert (S4 : h ^ 4 <= 1/10000) by (replace (h ^ 4) with (h ^ 2 * h ^ 2) by ring; nra).
  destruct m; cbn [what acc plus] in *; try lia.
  - replace (sten (stencil NSecDer2) (fun t => t ^ 4) 0 h / h ^ 2 - 0) with (2 * h ^ 2) by (cbn [stencil sten]; field; lra).
    cbn [compute secder2 snd Rarith aops alit altb Rnum nadd nsub nmul ndiv nopp]. change (mkArith R Rnum Rltb IZR sqrt) with Rarith. rewrite !Rabs_aabs.
    replace ((0 - 2 * h) ^ 4 - 4 * (0 - h) ^ 4 + 6 * 0 ^ 4 - 4 * (0 + h) ^ 4 + (0 + 2 * h) ^ 4) with (24 * h ^ 4) by ring. replace ((0 - h) ^ 4) with (h ^ 4) by ring. replace ((0 + h) ^ 4) with (h ^ 4) by ring. replace (0 ^ 4) with 0 by ring. rewrite Rabs_R0, !Rabs_pos_eq by lra.
    replace (24 * h ^ 4 / (h * h) * (h * h) / 12 + eps * (h ^ 4 + 2 * 0 + h ^ 4) / (h * h)) with (h ^ 2 * (2 * h ^ 2 + 2 * eps)) by (field; lra). nra.
  - replace (sten (stencil NSecDer4) (fun t => t ^ 6) 0 h / h ^ 2 - 0) with (- (8 * h ^ 4)) by (cbn [stencil sten]; field; lra). rewrite Rabs_Ropp, (Rabs_pos_eq (8 * h ^ 4)) by lra.
    cbn [compute secder4 snd Rarith aops alit altb Rnum nadd nsub nmul ndiv nopp]. change (mkArith R Rnum Rltb IZR sqrt) with Rarith. rewrite !Rabs_aabs.
    replace ((0 - 3 * h) ^ 6 - 6 * (0 - 2 * h) ^ 6 + 15 * (0 - h) ^ 6 - 20 * 0 ^ 6 + 15 * (0 + h) ^ 6 - 6 * (0 + 2 * h) ^ 6 + (0 + 3 * h) ^ 6) with (720 * h ^ 6) by ring.
    replace ((0 - 2 * h) ^ 6) with (64 * h ^ 6) by ring. replace ((0 + 2 * h) ^ 6) with (64 * h ^ 6) by ring. replace ((0 - h) ^ 6) with (h ^ 6) by ring. replace ((0 + h) ^ 6) with (h ^ 6) by ring. replace (0 ^ 6) with 0 by ring. rewrite Rabs_R0, !Rabs_pos_eq by lra.
    match goal with |- ?L < _ => replace L with (h ^ 4 * (8 * h ^ 4 + 40 / 3 * eps)) by (field; lra) end. nra.
  - replace (sten (stencil NThirdDer2) (fun t => t ^ 5) 0 h / h ^ 3 - 0) with (30 * h ^ 2) by (cbn [stencil sten]; field; lra). rewrite (Rabs_pos_eq (30 * h ^ 2)) by lra.
    cbn [compute thirdder2 snd Rarith aops alit altb Rnum nadd nsub nmul ndiv nopp]. change (mkArith R Rnum Rltb IZR sqrt) with Rarith. rewrite !Rabs_aabs.
    replace ((0 - 3 * h) ^ 5 - 3 * (0 - 2 * h) ^ 5 + 5 * (0 - h) ^ 5 - 5 * (0 + h) ^ 5 + 3 * (0 + 2 * h) ^ 5 - (0 + 3 * h) ^ 5) with (- (304 * h ^ 5)) by ring.
    replace ((0 - 2 * h) ^ 5) with (- (32 * h ^ 5)) by ring. replace ((0 + 2 * h) ^ 5) with (32 * h ^ 5) by ring. replace ((0 - h) ^ 5) with (- (h ^ 5)) by ring. replace ((0 + h) ^ 5) with (h ^ 5) by ring. rewrite !Rabs_Ropp, !Rabs_pos_eq by lra.
    match goal with |- ?L < _ => replace L with (h ^ 2 * (76 * h ^ 2 + 34 * eps)) by (field; lra) end. nra.
  - replace (sten (stencil NThirdDer4) (fun t => t ^ 7) 0 h / h ^ 3 - 0) with (- (294 * h ^ 4)) by (cbn [stencil sten]; field; lra). rewrite Rabs_Ropp, (Rabs_pos_eq (294 * h ^ 4)) by lra.
    cbn [compute thirdder4 snd Rarith aops alit altb Rnum nadd nsub nmul ndiv nopp]. change (mkArith R Rnum Rltb IZR sqrt) with Rarith. rewrite !Rabs_aabs.
    replace ((0 - 4 * h) ^ 7 - 4 * (0 - 3 * h) ^ 7 + 9 * (0 - 2 * h) ^ 7 - 13 * (0 - h) ^ 7 + 13 * (0 + h) ^ 7 - 9 * (0 + 2 * h) ^ 7 + 4 * (0 + 3 * h) ^ 7 - (0 + 4 * h) ^ 7) with (- (17550 * h ^ 7)) by ring.
    replace ((0 - 3 * h) ^ 7) with (- (2187 * h ^ 7)) by ring. replace ((0 + 3 * h) ^ 7) with (2187 * h ^ 7) by ring. replace ((0 - 2 * h) ^ 7) with (- (128 * h ^ 7)) by ring. replace ((0 + 2 * h) ^ 7) with (128 * h ^ 7) by ring. replace ((0 - h) ^ 7) with (- (h ^ 7)) by ring. replace ((0 + h) ^ 7) with (h ^ 7) by ring. rewrite !Rabs_Ropp, !Rabs_pos_eq by lra.
    match goal with |- ?L < _ => replace L with (h ^ 4 * (585 / 4 * h ^ 4 + 806 * eps)) by (field; lra) end. nra.
Qed.
Print Assumptions C84_higher_estimate_refuted.

(** The difference behind the error estimate of NThirdDer2 is not a fifth difference (weights 3 where 4 is meant): on
    f(t) = t, whose third derivative 0 is computed exactly, the reported error is at least 1 for every step. *)
Theorem C84_third_estimate_refuted : forall eps x h, 0 < h -> 0 <= eps ->
  exists e, NDer Rarith eps NThirdDer2 (fun t => t) x h true = Ok (0, e) /\ 1 <= e.
Proof.
  intros eps x h Hh He. rewrite NDer_ok by auto. eexists. split; [do 2 f_equal; rewrite value_stencil by lra; cbn [stencil sten what pow]; field; lra|].
  cbn [compute thirdder2 snd Rarith aops alit altb Rnum nadd nsub nmul ndiv nopp]. change (mkArith R Rnum Rltb IZR sqrt) with Rarith. rewrite !Rabs_aabs.
  replace (x - 3 * h - 3 * (x - 2 * h) + 5 * (x - h) - 5 * (x + h) + 3 * (x + 2 * h) - (x + 3 * h)) with (- (4 * h)) by ring. rewrite Rabs_Ropp, (Rabs_pos_eq (4 * h)) by lra.
  replace (4 * h / (h * h * h) * h * h / 4) with 1 by (field; lra).
  assert (0 < h * h * h) by (apply Rmult_lt_0_compat; nra). assert (0 <= eps * (Rabs (x - 2 * h) + 2 * Rabs (x - h) + 2 * Rabs (x + h) + Rabs (x + 2 * h)) / (2 * (h * h * h))); [|lra].
  pose proof (Rabs_pos (x - 2 * h)). pose proof (Rabs_pos (x - h)). pose proof (Rabs_pos (x + h)). pose proof (Rabs_pos (x + 2 * h)).
  apply Rmult_le_pos; [apply Rmult_le_pos; lra|]. left. apply Rinv_0_lt_compat. lra.
Qed.
Print Assumptions C84_third_estimate_refuted.

(** ** Step sizes and error reporting *)

Theorem C84_steps : forall m eps f x h err c h0,
  (h <= 0 -> NDer Rarith eps m f x h err = Throw InvalidArgument) /\
  (h <= 0 -> dc_propagate c = false -> exists r, Detailed Rarith eps m f x h c = Ok r /\ dr_ok r = false /\ dr_step r = h) /\
  (0 < h -> exists v e, NDer Rarith eps m f x h (dc_estimate c) = Ok (v, e) /\ Detailed Rarith eps m f x h c = Ok (mkDR v e h true)) /\
  (dc_step c <> 0 -> DetailedAuto Rarith eps h0 m f x c = Detailed Rarith eps m f x (dc_step c) c) /\
  (dc_step c = 0 -> DetailedAuto Rarith eps h0 m f x c = Detailed Rarith eps m f x (h0 * Rmax 1 (Rabs x)) c) /\
  NDerDefault Rarith eps h0 m f x err = NDer Rarith eps m f x (h0 * Rmax 1 (Rabs x)) err.
Proof.
  intros m eps f x h err c h0.
  assert (SS : ScaleStep Rarith h0 x = h0 * Rmax 1 (Rabs x)).
  { unfold ScaleStep. cbn [Rarith aops alit altb Rnum nmul]. change (mkArith R Rnum Rltb IZR sqrt) with Rarith. rewrite Rabs_aabs. unfold Rmax. destruct (Rltb_spec 1 (Rabs x)), (Rle_dec 1 (Rabs x)); f_equal; lra. }
  assert (Z : aeqb Rarith (dc_step c) (alit Rarith 0) = true <-> dc_step c = 0).
  { unfold aeqb. cbn [Rarith altb alit]. destruct (Rltb_spec (dc_step c) 0), (Rltb_spec 0 (dc_step c)); cbn; split; intros; try discriminate; lra. }
  split; [|split; [|split; [|split; [|split]]]].
  - intros Hh. unfold NDer, Detailed. change (altb Rarith (alit Rarith 0) h) with (Rltb 0 h). destruct (Rltb_spec 0 h); [lra|]. reflexivity.
  - intros Hh Hp. unfold Detailed. change (altb Rarith (alit Rarith 0) h) with (Rltb 0 h). destruct (Rltb_spec 0 h); [lra|]. cbn [negb]. rewrite Hp. eexists. split; [reflexivity|]. auto.
  - intros Hh. rewrite NDer_ok by auto. unfold Detailed. change (altb Rarith (alit Rarith 0) h) with (Rltb 0 h). destruct (Rltb_spec 0 h); [|lra]. cbn [negb]. destruct (compute Rarith eps f x h m) as [v e]. eexists _, _. split; reflexivity.
  - intros Hc. unfold DetailedAuto. destruct (aeqb Rarith (dc_step c) (alit Rarith 0)); [exfalso; apply Hc; apply Z; auto|reflexivity].
  - intros Hc. unfold DetailedAuto. rewrite (proj2 Z Hc), SS. reflexivity.
  - unfold NDerDefault. rewrite SS. reflexivity.
Qed.
Print Assumptions C84_steps.

(** ** Richardson extrapolation *)

(** whatever columns the loop goes through, the result is second-order accurate in the initial step, of either sign *)
Theorem C84_richardson_bound : forall k f fs x h M con n, h <> 0 -> 1 < con -> (1 <= n)%nat ->
  derivatives f fs (rwhat k + 2) (x - rreach k * Rabs h) (x + rreach k * Rabs h) ->
  (forall t, x - rreach k * Rabs h <= t <= x + rreach k * Rabs h -> Rabs (fs (rwhat k + 2)%nat t) <= M) ->
  exists v e, Richardson Rarith k f x h (Z.of_nat n) con = Ok (v, e) /\
    Rabs (v - fs (rwhat k) x) <= rbound k * M * h ^ 2 * amplification con (n - 1).
Proof.
  intros k f fs x h M con n Hh Hc Hn D HB. unfold Richardson.
  assert (Z0 : aeqb Rarith h (alit Rarith 0) = false). { unfold aeqb. cbn [Rarith altb alit]. destruct (Rltb_spec h 0), (Rltb_spec 0 h); cbn; auto; lra. }
  rewrite Z0. destruct (Z.ltb_spec (Z.of_nat n) 0); [lia|]. destruct (Z.eqb_spec (Z.of_nat n) 0); [lia|]. rewrite Nat2Z.id.
  assert (RR : 1 <= rreach k) by (destruct k; cbn; lra). pose proof (Rabs_pos_lt h Hh) as PA.
  assert (HM : 0 <= M). { specialize (HB x ltac:(nra)). pose proof (Rabs_pos (fs (rwhat k + 2)%nat x)). lra. }
  assert (RB : 0 < rbound k) by (destruct k; cbn; lra).
  assert (Q : forall h', h' <> 0 -> Rabs h' <= Rabs h -> Rabs (quotient Rarith k f x h' - fs (rwhat k) x) <= rbound k * M * h ^ 2).
  { intros h' H1 H2. assert (HR : rreach k * Rabs h' <= rreach k * Rabs h) by (apply Rmult_le_compat_l; lra). eapply Rle_trans; [apply (quotient_error k f fs x h' M); auto|].
    - destruct D as [D0 D1]. split; intros; [apply D0|apply D1; auto]; lra.
    - intros t Ht. apply HB. lra.
    - apply Rmult_le_compat_l; [apply Rmult_le_pos; lra|]. rewrite <- (pow2_abs h'), <- (pow2_abs h). apply pow_incr. split; [apply Rabs_pos|auto]. }
  match goal with |- context [rich_loop ?A ?D ?c ?m ?hh ?p ?e ?a] => destruct (rich_loop A D c m hh p e a) as [v e0] eqn:ER end.
  exists v, e0. split; [reflexivity|].
  eapply (rich_loop_close (fs (rwhat k) x) (rbound k * M * h ^ 2) con Hc) with (N := (n - 1)%nat) in ER; auto.
  - apply Rmult_le_pos; [apply Rmult_le_pos; lra|nra].
  - intros i Hi. cbn [length] in Hi. assert (i = 0)%nat by lia. subst i. cbn [nth plus amplification]. rewrite Rmult_1_r. apply Q; auto. lra.
  - pose proof (amp_pos con Hc (n - 1)) as AP. specialize (Q h Hh ltac:(lra)). assert (0 <= rbound k * M * h ^ 2) by (apply Rmult_le_pos; [apply Rmult_le_pos; lra|nra]). nra.
  - intros i Hi. assert (PC : 1 < con ^ i) by (apply Rlt_pow_R1; auto). assert (IC : 0 < / con ^ i < 1) by (split; [apply Rinv_0_lt_compat; lra|rewrite <- Rinv_1; apply Rinv_lt_contravar; lra]). apply Q.
    + unfold Rdiv. apply Rmult_integral_contrapositive_currified; lra.
    + unfold Rdiv. rewrite Rabs_mult, (Rabs_pos_eq (/ con ^ i)) by lra. nra.
Qed.
Print Assumptions C84_richardson_bound.

(** exact on polynomials two degrees beyond the central rule from two columns on; from three columns on the
    reported error is 0 *)
Theorem C84_richardson_exact : forall k a x h con n, h <> 0 -> 1 < con -> (2 <= n)%nat -> (length a <= rwhat k + 4)%nat ->
  exists e, Richardson Rarith k (pev a) x h (Z.of_nat n) con = Ok (pev (Nat.iter (rwhat k) pder a) x, e) /\
    ((3 <= n)%nat -> e = Some 0).
Proof.
  intros k a x h con n Hh Hc Hn HL. unfold Richardson.
  assert (Z0 : aeqb Rarith h (alit Rarith 0) = false). { unfold aeqb. cbn [Rarith altb alit]. destruct (Rltb_spec h 0), (Rltb_spec 0 h); cbn; auto; lra. }
  rewrite Z0. destruct (Z.ltb_spec (Z.of_nat n) 0); [lia|]. destruct (Z.eqb_spec (Z.of_nat n) 0); [lia|]. rewrite Nat2Z.id.
  set (F := pev (Nat.iter (rwhat k) pder a) x).
  assert (Q : exists c, forall h', h' <> 0 -> quotient Rarith k (pev a) x h' = F + c * h' ^ 2).
  { set (m := rrule k). exists (pev (pd (rwhat k + 2) a) x / INR (fact (rwhat k + 2)) * moment (stencil m) (rwhat k + 2)). intros h' Hh'.
    rewrite quotient_stencil by auto. fold m. rewrite (sten_poly (stencil m) (fun j => pev (pd j a)) (pev a) (rwhat k + 3)); [|intros; apply pd_chain|intros; apply pd_zero; lia].
    replace (S (rwhat k + 3)) with (S (S (S (S (rwhat k))))) by lia. cbn [sumn]. cbn [Rnum nadd].
    pose proof (stencil_order m) as SO. assert (W : what m = rwhat k /\ acc m = 2%nat) by (unfold m; destruct k; auto). destruct W as [W1 W2]. rewrite W1, W2 in SO.
    rewrite rsum_zero by (intros i Hi; rewrite SO by lia; destruct (Nat.eqb_spec i (rwhat k)); [lia|ring]).
    rewrite (SO (rwhat k)), (SO (S (rwhat k))) by lia. rewrite Nat.eqb_refl. destruct (Nat.eqb_spec (S (rwhat k)) (rwhat k)); [lia|].
    assert (M3 : moment (stencil m) (S (S (S (rwhat k)))) = 0) by (unfold m; destruct k; cbn; lra). rewrite M3.
    replace (rwhat k + 2)%nat with (S (S (rwhat k))) by lia. unfold F. change (Nat.iter (rwhat k) pder a) with (pd (rwhat k) a). cbn [pow]. pose proof (fact_pos (rwhat k)) as F1. pose proof (fact_pos (S (S (rwhat k)))) as F2. assert (h' ^ rwhat k <> 0) by (apply pow_nonzero; auto).
    match goal with |- context [0 + _ + ?z * 0 + _ + ?w * 0] => generalize z w; intros end. field. repeat split; auto; lra. }
  destruct Q as (c & Q). destruct n as [|[|n]]; try lia. replace (S (S n) - 1)%nat with (S n) by lia.
  match goal with |- context [rich_loop ?A ?D ?c ?m ?hh ?p ?e ?a] => destruct (rich_loop A D c m hh p e a) as [v e0] eqn:ER end.
  eapply (rich_loop_flat F con Hc) with (c := c) in ER; auto.
  - destruct ER as [-> E]. exists e0. split; auto. intros H3. apply E. cbn [length]. lia.
  - eexists _, _. split; [reflexivity|]. split; [reflexivity|]. contradiction.
Qed.
Print Assumptions C84_richardson_exact.

(** max_iter = 0 reads a[0][0] of an empty tableau, although the parameter is an unchecked int. *)
Theorem C84_richardson_depth_refuted : forall k f x h con, h <> 0 -> Richardson Rarith k f x h 0 con = UB.
Proof.
  intros k f x h con Hh. unfold Richardson.
  assert (Z0 : aeqb Rarith h (alit Rarith 0) = false). { unfold aeqb. cbn [Rarith altb alit]. destruct (Rltb_spec h 0), (Rltb_spec 0 h); cbn; auto; lra. }
  rewrite Z0. reflexivity.
Qed.
Print Assumptions C84_richardson_depth_refuted.

(** non-vacuity of the accuracy theorem on a function that is no polynomial: the exponential *)
Example C84_ex_exp : forall h, 0 < h <= 1/4 -> exists v e, NDer Rarith 0 NDer8 exp 0 h true = Ok (v, e) /\ Rabs (v - 1) <= 1957/198450 * exp 1 * h ^ 8.
Proof.
  intros h Hh. destruct (C84_accuracy NDer8 0 exp (fun _ => exp) 0 h true (exp 1)) as (v & e & H1 & H2); [lra| | |].
  - split; [reflexivity|]. intros. apply derivable_pt_lim_exp.
  - cbn [reach]. intros t Ht. rewrite Rabs_pos_eq by (left; apply exp_pos). destruct (Rle_lt_or_eq_dec t 1) as [L| ->]; [lra| |lra]. left. apply exp_increasing. auto.
  - exists v, e. split; auto. rewrite exp_0 in H2. exact H2.
Qed.
(** Richardson on t^6, first derivative at 1, h = 1, con = 2, four columns: exact value 6 from the third column on *)
Definition rq (k : dkind) (n : Z) := match Richardson Qarith k (fun t => t * t * t * t * t * t)%Qc (q 1 1) (q 1 1) n (q 2 1) with Ok (v, Some e) => (showz v, showz e) | Ok (v, None) => (showz v, showz (q (-1) 1)) | _ => (showz (q 0 1), showz (q 0 1)) end.
Example C84_richardson_computed :
  map (rq First) [1; 2; 3; 4]%Z = [((32, 1), (-1, 1)); ((9, 2), (55, 2)); ((6, 1), (3, 2)); ((6, 1), (0, 1))]%Z /\
  map (rq Second) [1; 2; 3; 4]%Z = [((62, 1), (-1, 1)); ((59, 2), (65, 2)); ((30, 1), (1, 2)); ((30, 1), (0, 1))]%Z.
Proof. vm_compute. auto. Qed.
