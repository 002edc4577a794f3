(** * C69-C73: integration in one dimension *)

From Coq Require Import List Bool Arith ZArith Lia Reals Lra Psatz QArith Qcanon.
From Verif Require Import Base Num Mat_Proofs RootFind_Model RootFind_Proofs RootFind_Props Tri_Model Interp_Model Interp_Poly Interp_Bary Integ_Model Integ_Spec Integ_Trap Integ_Romberg Integ_Gauss.
Import ListNotations.
Local Open Scope nat_scope.
Local Open Scope R_scope.
Local Notation sum := (sumn Rnum).

Definition showi (r : res (@ires Qc)) := match r with Ok i => Some (showq (ir_value i), showq (ir_err i), ir_iters i, ir_conv i) | _ => None end.
Definition qv (n : Z) (d : positive) := (n, d).
Definition qsq (x : Qc) : Qc := Qcmult x x.
Lemma primitive_const : forall c a b, primitive (fun _ => c) (fun _ => 0) a b.
Proof. intros c a b x _. apply derivable_pt_lim_const. Qed.
Lemma primitive_pow : forall c n a b, primitive (fun x => c * x ^ n) (fun x => c * (INR n * x ^ pred n)) a b.
Proof. intros c n a b x _. apply dl_pow. Qed.

(** ** C69: trapezoidal rule *)
(** the estimates are the composite trapezoidal rules with 1, 2, 4, ... panels; the loop stops at the first of index at least 6 that
    is settled, and otherwise returns the last one with error estimate 0 *)
Theorem C69_loop : forall f a b eps maxSteps, (1 <= maxSteps)%Z ->
  exists r, IntegrateTrap Rarith maxSteps f a b eps = Ok r /\ stops (fun k => trapezoid f a b (2 ^ k)) eps (Z.to_nat maxSteps) r.
Proof.
  intros f a b eps maxSteps H. pose proof (trap_loop_ok f a b eps (Z.to_nat maxSteps) 0 (0%nat, 0) None 0) as P. rewrite Nat.add_0_r in P. apply P; [lia|auto|intros; lia].
Qed.
Print Assumptions C69_loop.
(** x^2 on [0, 1]: settled after 64 panels; with five steps the last value, not converged, error estimate 0 *)
Example C69_ex_loop : showi (IntegrateTrap Qarith 20 qsq (q 0 1) (q 1 1) (q 1 1000)) = Some (qv (2731) 8192, qv (1) 8192, 6%nat, true) /\
  showi (IntegrateTrap Qarith 5 qsq (q 0 1) (q 1 1) (q 1 1000)) = Some (qv (171) 512, qv (0) 1, 5%nat, false).
Proof. split; vm_compute; reflexivity. Qed.

(** the index of the rule whose value is returned *)
Definition level (r : @ires R) : nat := if ir_conv r then ir_iters r else (ir_iters r - 1)%nat.
Lemma stops_level : forall v eps n r, (1 <= n)%nat -> stops v eps n r -> ir_value r = v (level r) /\ (level r < n)%nat /\ (ir_conv r = true -> (6 <= level r)%nat) /\ (ir_conv r = false -> level r = (n - 1)%nat).
Proof.
  intros v eps n r Hn H. unfold stops, level in *. destruct (ir_conv r).
  - destruct H as (H1 & H2 & _). split; auto. split; [lia|]. split; [lia|discriminate].
  - destruct H as (-> & H2 & _). split; auto. split; [lia|]. split; [discriminate|auto].
Qed.
(** error at most M |b - a|^3 / (12 n^2) for n = 2^level panels when the derivative of the integrand is M-Lipschitz *)
Theorem C69_accuracy : forall F f f' M a b eps maxSteps r, primitive F f a b -> primitive f f' a b -> lipschitz M f' a b ->
  (1 <= maxSteps)%Z -> IntegrateTrap Rarith maxSteps f a b eps = Ok r ->
  Rabs (ir_value r - (F b - F a)) <= M * Rabs (b - a) ^ 3 / (12 * 4 ^ level r).
Proof.
  intros F f f' M a b eps maxSteps r HF Hf HL Hm E. destruct (C69_loop f a b eps maxSteps Hm) as (r' & E' & HS). rewrite E in E'. injection E' as <-.
  destruct (stops_level _ _ (Z.to_nat maxSteps) r ltac:(lia) HS) as [-> _]. eapply Rle_trans; [apply (trapezoid_error F f f' a b M); auto; apply Nat.neq_0_lt_0, Nat.pow_nonzero; lia|]. apply Req_le. f_equal. f_equal.
  rewrite pow_INR. change (INR 2) with 2. rewrite <- pow_mult, Nat.mul_comm, pow_mult. f_equal. ring.
Qed.
Print Assumptions C69_accuracy.
(** x^2 on [0, 1], whose derivative is 2-Lipschitz: the error after 64 panels is 1/24576 *)
Example C69_ex_accuracy : primitive (fun x => / 3 * x ^ 3) (fun x => / 3 * (INR 3 * x ^ 2)) 0 1 /\ lipschitz 2 (fun x => 2 * x) 0 1 /\ 2731 / 8192 - 1 / 3 = 2 * 1 ^ 3 / (12 * 4 ^ 6).
Proof. split; [apply (primitive_pow (/ 3) 3)|]. split; [|field]. intros x y _ _. replace (2 * x - 2 * y) with (2 * (x - y)) by ring. rewrite Rabs_mult, (Rabs_right 2) by lra. lra. Qed.
(** straight lines are integrated exactly *)
Theorem C69_affine : forall p s a b eps maxSteps r, (1 <= maxSteps)%Z -> IntegrateTrap Rarith maxSteps (fun x => p + s * x) a b eps = Ok r ->
  ir_value r = p * (b - a) + s * (b ^ 2 - a ^ 2) / 2.
Proof.
  intros p s a b eps maxSteps r Hm E.
  assert (D1 : forall x, derivable_pt_lim (fun x => p * x + s / 2 * x ^ 2) x (p + s * x)).
  { intros x. apply (dl_ext (fun x => p * x ^ 1 + s / 2 * x ^ 2) _ x (p * (INR 1 * x ^ 0) + s / 2 * (INR 2 * x ^ 1))); [intros; ring|cbn; field|].
    apply (derivable_pt_lim_plus (fun x => p * x ^ 1)); apply dl_pow. }
  assert (D2 : forall x, derivable_pt_lim (fun x => p + s * x) x s).
  { intros x. apply (dl_ext (fun x => p + s * x ^ 1) _ x (0 + s * (INR 1 * x ^ 0))); [intros; ring|cbn; ring|]. apply (derivable_pt_lim_plus (fun _ => p)); [apply derivable_pt_lim_const|apply dl_pow]. }
  pose proof (C69_accuracy (fun x => p * x + s / 2 * x ^ 2) (fun x => p + s * x) (fun _ => s) 0 a b eps maxSteps r (fun x _ => D1 x) (fun x _ => D2 x) ltac:(intros x y _ _; replace (s - s) with 0 by ring; rewrite Rabs_R0; lra) Hm E) as P.
  replace (0 * Rabs (b - a) ^ 3 / (12 * 4 ^ level r)) with 0 in P by (unfold Rdiv; ring).
  assert (Z : ir_value r - (p * b + s / 2 * b ^ 2 - (p * a + s / 2 * a ^ 2)) = 0). { apply Rabs_eq_0_compat || (destruct (Req_dec (ir_value r - (p * b + s / 2 * b ^ 2 - (p * a + s / 2 * a ^ 2))) 0); auto; pose proof (Rabs_pos_lt _ H); lra). }
  lra.
Qed.
Print Assumptions C69_affine.
Example C69_ex_affine : showi (IntegrateTrap Qarith 20 (fun x => Qcplus (q 1 1) (Qcmult (q 2 1) x)) (q 1 1) (q 4 1) (q 1 1000)) = Some (qv (18) 1, qv (0) 1, 6%nat, true).
Proof. vm_compute. reflexivity. Qed.
(** exchanging the bounds negates the value and changes nothing else *)
Theorem C69_reversed : forall f a b eps maxSteps r, IntegrateTrap Rarith maxSteps f a b eps = Ok r ->
  IntegrateTrap Rarith maxSteps f b a eps = Ok (mkI (- ir_value r) (ir_err r) (ir_iters r) (ir_conv r)).
Proof.
  intros f a b eps maxSteps r E. destruct (Z_le_gt_dec 1 maxSteps) as [H|H].
  2: { unfold IntegrateTrap in E. replace (Z.to_nat maxSteps) with 0%nat in E by lia. discriminate. }
  destruct (C69_loop f a b eps maxSteps H) as (r1 & E1 & S1). rewrite E in E1. injection E1 as <-. destruct (C69_loop f b a eps maxSteps H) as (r2 & E2 & S2). rewrite E2. f_equal.
  assert (RV : forall k, trapezoid f b a (2 ^ k) = - trapezoid f a b (2 ^ k)). { intros k. apply trapezoid_rev. apply Nat.neq_0_lt_0, Nat.pow_nonzero. lia. }
  assert (RS : forall j k, settled eps (trapezoid f b a (2 ^ j)) (trapezoid f b a (2 ^ k)) <-> settled eps (trapezoid f a b (2 ^ j)) (trapezoid f a b (2 ^ k))).
  { intros j k. unfold settled. rewrite !RV. replace (- trapezoid f a b (2 ^ k) - - trapezoid f a b (2 ^ j)) with (- (trapezoid f a b (2 ^ k) - trapezoid f a b (2 ^ j))) by ring. rewrite !Rabs_Ropp. tauto. }
  destruct r as [v1 e1 i1 c1], r2 as [v2 e2 i2 c2]. unfold stops in *. cbn [ir_value ir_err ir_iters ir_conv] in *. destruct c1, c2.
  - destruct S1 as (A1 & A2 & A3 & A4 & A5), S2 as (B1 & B2 & B3 & B4 & B5). assert (i1 = i2).
    { destruct (Nat.lt_trichotomy i1 i2) as [L|[L|L]]; auto; exfalso. { apply (B5 i1 ltac:(lia)). apply RS. auto. } { apply (A5 i2 ltac:(lia)). apply RS. auto. } }
    subst i2 v1 v2 e1 e2. rewrite !RV. f_equal. rewrite <- Rabs_Ropp. f_equal. ring.
  - exfalso. destruct S1 as (A1 & A2 & A3 & A4 & A5), S2 as (B1 & B2 & B3 & B4). apply (B4 i1 ltac:(lia)). apply RS. auto.
  - exfalso. destruct S2 as (A1 & A2 & A3 & A4 & A5), S1 as (B1 & B2 & B3 & B4). apply (B4 i2 ltac:(lia)). apply RS. auto.
  - destruct S1 as (A1 & A2 & A3 & A4), S2 as (B1 & B2 & B3 & B4). subst. rewrite RV. reflexivity.
Qed.
Print Assumptions C69_reversed.
Example C69_ex_reversed : showi (IntegrateTrap Qarith 20 qsq (q 1 1) (q 0 1) (q 1 1000)) = Some (qv (-2731) 8192, qv (1) 8192, 6%nat, true).
Proof. vm_compute. reflexivity. Qed.
(** "converged with error estimate e means that the integral is within e (or any fixed tolerance) of the value": false.  For
    sin^2(128 pi x) on [0, 1] every rule up to 64 panels gives 0, so the loop reports convergence to 0 with error estimate 0 for every
    positive tolerance, while the integral is 1/2. *)
Theorem C69_converged_means_close_refuted : exists F f, primitive F f 0 1 /\ F 1 - F 0 = 1 / 2 /\
  forall eps maxSteps, 0 < eps -> (7 <= maxSteps)%Z -> IntegrateTrap Rarith maxSteps f 0 1 eps = Ok (mkI 0 0 6 true).
Proof.
  exists (fun x => x / 2 - sin (256 * PI * x) / (512 * PI)), (fun x => (sin (128 * PI * x)) ^ 2). pose proof PI_RGT_0 as HPI. split; [|split].
  - intros x _. apply (dl_ext (fun x => / 2 * x ^ 1 - / (512 * PI) * sin (256 * PI * x)) _ x (/ 2 * (INR 1 * x ^ 0) - / (512 * PI) * (cos (256 * PI * x) * (256 * PI * 1)))).
    + intros y. field. lra.
    + replace (256 * PI * x) with (2 * (128 * PI * x)) by ring. rewrite cos_2a_sin. cbn [INR pow]. field. lra.
    + apply (derivable_pt_lim_minus (fun x => / 2 * x ^ 1) (fun x => / (512 * PI) * sin (256 * PI * x))); [apply dl_pow|]. apply (derivable_pt_lim_scal (fun x => sin (256 * PI * x))).
      apply (derivable_pt_lim_comp (fun x => 256 * PI * x) sin); [apply (derivable_pt_lim_scal (fun x => x)), derivable_pt_lim_id|apply derivable_pt_lim_sin].
  - replace (256 * PI * 1) with (0 + 2 * INR 128 * PI) by (rewrite INR_IZR_INZ; cbn [Z.of_nat]; change (IZR (Z.of_nat 128)) with 128; ring). rewrite sin_period. rewrite Rmult_0_r, sin_0. field. lra.
  - intros eps maxSteps He Hm. destruct (C69_loop (fun x => sin (128 * PI * x) ^ 2) 0 1 eps maxSteps ltac:(lia)) as (r & -> & HS). f_equal.
    assert (T0 : forall k, (k <= 6)%nat -> trapezoid (fun x => sin (128 * PI * x) ^ 2) 0 1 (2 ^ k) = 0).
    { intros k Hk. unfold trapezoid. apply sum_zero_R. intros i _.
      assert (N0 : forall i, sin (128 * PI * node 0 1 (2 ^ k) i) = 0).
      { intros i'. unfold node. replace (128 * PI * (0 + INR i' * ((1 - 0) / INR (2 ^ k)))) with (0 + 2 * INR (i' * 2 ^ (6 - k)) * PI). { rewrite sin_period. apply sin_0. }
        rewrite mult_INR. assert (E : INR (2 ^ (6 - k)) * INR (2 ^ k) = 64). { rewrite <- mult_INR, <- Nat.pow_add_r. replace (6 - k + k)%nat with 6%nat by lia. cbn. ring. }
        pose proof (INR_pow2 k). apply Rmult_eq_reg_r with (INR (2 ^ k)); [|lra]. replace ((0 + 2 * (INR i' * INR (2 ^ (6 - k))) * PI) * INR (2 ^ k)) with (2 * INR i' * (INR (2 ^ (6 - k)) * INR (2 ^ k)) * PI) by ring. rewrite E. field. lra. }
      rewrite !N0. unfold Rdiv. ring. }
    assert (S6 : settled eps (trapezoid (fun x => sin (128 * PI * x) ^ 2) 0 1 (2 ^ (6 - 1))) (trapezoid (fun x => sin (128 * PI * x) ^ 2) 0 1 (2 ^ 6))).
    { unfold settled. rewrite !T0 by lia. replace (0 - 0) with 0 by ring. rewrite Rabs_R0. unfold eps_machine. assert (0 < / 2 ^ 52) by (apply Rinv_0_lt_compat, pow_lt; lra). assert (0 < eps * / 2 ^ 52) by (apply Rmult_lt_0_compat; auto). lra. }
    destruct r as [v e i c]. unfold stops in HS. cbn [ir_value ir_err ir_iters ir_conv] in HS. destruct c.
    + destruct HS as (A1 & A2 & A3 & A4 & A5). assert (i = 6)%nat as ->. { destruct (Nat.eq_dec i 6); auto. exfalso. apply (A5 6%nat); [lia|exact S6]. }
      subst v e. rewrite !T0 by lia. f_equal. replace (0 - 0) with 0 by ring. apply Rabs_R0.
    + exfalso. destruct HS as (A1 & A2 & A3 & A4). apply (A4 6%nat); [lia|exact S6].
Qed.
Print Assumptions C69_converged_means_close_refuted.
Lemma square_sums : forall m, sum m (fun i => (INR i ^ 2 + INR (S i) ^ 2) / 2) = INR m ^ 3 / 3 + INR m / 6.
Proof. induction m as [|m IH]; [cbn; field|]. rewrite sumS, IH, S_INR. field. Qed.
(** "the error estimate of a result that did not converge measures its error": false.  The two values compared after the loop are the
    same, so the estimate is always 0; here the value is not the integral. *)
Theorem C69_unconverged_estimate_refuted : exists F f, primitive F f 0 1 /\
  forall maxSteps, (1 <= maxSteps)%Z -> exists r, IntegrateTrap Rarith maxSteps f 0 1 0 = Ok r /\ ir_conv r = false /\ ir_err r = 0 /\ ir_value r <> F 1 - F 0.
Proof.
  exists (fun x => / 3 * x ^ 3), (fun x => / 3 * (INR 3 * x ^ 2)). split; [apply (primitive_pow (/ 3) 3)|]. intros maxSteps Hm. destruct (C69_loop (fun x => / 3 * (INR 3 * x ^ 2)) 0 1 0 maxSteps Hm) as (r & E & HS). exists r. split; auto.
  unfold stops in HS. destruct (ir_conv r) eqn:EC.
  - exfalso. destruct HS as (_ & _ & A3 & _). unfold settled in A3. pose proof (Rabs_pos (trapezoid (fun x => / 3 * (INR 3 * x ^ 2)) 0 1 (2 ^ ir_iters r) - trapezoid (fun x => / 3 * (INR 3 * x ^ 2)) 0 1 (2 ^ (ir_iters r - 1)))). lra.
  - destruct HS as (_ & A2 & A3 & _). split; auto. split; auto. rewrite A2. set (n := (2 ^ (Z.to_nat maxSteps - 1))%nat). assert (Hn : 0 < INR n) by apply INR_pow2. clearbody n.
    assert (E1 : trapezoid (fun x => / 3 * (INR 3 * x ^ 2)) 0 1 n = / INR n ^ 3 * sum n (fun i => (INR i ^ 2 + INR (S i) ^ 2) / 2)).
    { unfold trapezoid. rewrite sum_mul_R. apply sum_ext_R. intros i _. unfold node. change (INR 3) with (1 + 1 + 1). field. lra. }
    rewrite E1, square_sums. replace (/ INR n ^ 3 * (INR n ^ 3 / 3 + INR n / 6)) with (1 / 3 + / (6 * INR n ^ 2)) by (field; lra).
    assert (0 < / (6 * INR n ^ 2)) by (apply Rinv_0_lt_compat; nra). lra.
Qed.
Print Assumptions C69_unconverged_estimate_refuted.
(** "with no steps allowed the call fails in a defined way": false, an uninitialised variable is returned *)
Theorem C69_no_steps_refuted : forall T (A : arith T) f a b eps maxSteps, (maxSteps <= 0)%Z -> IntegrateTrap A maxSteps f a b eps = UB /\ IntegrateSimpson A maxSteps f a b eps = UB.
Proof. intros T A f a b eps maxSteps H. unfold IntegrateTrap, IntegrateSimpson. replace (Z.to_nat maxSteps) with 0%nat by lia. auto. Qed.
Print Assumptions C69_no_steps_refuted.

(** ** C70: rule of Simpson *)
Theorem C70_loop : forall f a b eps maxSteps, (1 <= maxSteps)%Z ->
  exists r, IntegrateSimpson Rarith maxSteps f a b eps = Ok r /\ stops (simpson_seq f a b) eps (Z.to_nat maxSteps) r.
Proof.
  intros f a b eps maxSteps H. pose proof (simp_loop_ok f a b eps (Z.to_nat maxSteps) 0 (0%nat, 0) None 0 0) as P. rewrite Nat.add_0_r in P. apply P; [lia|auto|intros; lia].
Qed.
Print Assumptions C70_loop.
Definition qq4 (x : Qc) : Qc := qsq (qsq x).
Example C70_ex_loop : showi (IntegrateSimpson Qarith 20 qq4 (q 0 1) (q 1 1) (q 1 1000)) = Some (qv 5033165 25165824, qv (1) 8388608, 6%nat, true) /\
  showi (IntegrateSimpson Qarith 3 qq4 (q 0 1) (q 1 1) (q 1 1000)) = Some (qv (77) 384, qv (0) 1, 3%nat, false).
Proof. split; vm_compute; reflexivity. Qed.
(** error at most M |b - a|^5 / (2880 n^4) with n = 2^(level - 1) panels when the third derivative is M-Lipschitz *)
Theorem C70_accuracy : forall F f f1 f2 f3 M a b eps maxSteps r, primitive F f a b -> primitive f f1 a b -> primitive f1 f2 a b -> primitive f2 f3 a b -> lipschitz M f3 a b ->
  (2 <= maxSteps)%Z -> IntegrateSimpson Rarith maxSteps f a b eps = Ok r ->
  Rabs (ir_value r - (F b - F a)) <= M * Rabs (b - a) ^ 5 / (2880 * 16 ^ (level r - 1)).
Proof.
  intros F f f1 f2 f3 M a b eps maxSteps r HF Hf Hf1 Hf2 HL Hm E. destruct (C70_loop f a b eps maxSteps ltac:(lia)) as (r' & E' & HS). rewrite E in E'. injection E' as <-.
  destruct (stops_level _ _ (Z.to_nat maxSteps) r ltac:(lia) HS) as (-> & _ & C1 & C2). assert (HL1 : (1 <= level r)%nat) by (destruct (ir_conv r); [specialize (C1 eq_refl)|specialize (C2 eq_refl)]; lia).
  destruct (level r) as [|k]; [lia|]. cbn [simpson_seq]. replace (S k - 1)%nat with k by lia.
  eapply Rle_trans; [apply (simpson_error F f f1 f2 f3 a b M); auto; apply Nat.neq_0_lt_0, Nat.pow_nonzero; lia|]. apply Req_le. f_equal. f_equal.
  rewrite pow_INR. change (INR 2) with 2. rewrite <- pow_mult, Nat.mul_comm, pow_mult. f_equal. ring.
Qed.
Print Assumptions C70_accuracy.
(** x^4 on [0, 1], whose third derivative is 24-Lipschitz: the error with 32 panels is the bound *)
Example C70_ex_accuracy : 5033165 / 25165824 - 1 / 5 = 24 * 1 ^ 5 / (2880 * 16 ^ (6 - 1)) /\ lipschitz 24 (fun x => 24 * x) 0 1.
Proof. split; [cbn [Nat.sub]; field|]. intros x y _ _. replace (24 * x - 24 * y) with (24 * (x - y)) by ring. rewrite Rabs_mult, (Rabs_right 24) by lra. lra. Qed.
(** cubics are integrated exactly *)
Theorem C70_cubic : forall p s u w a b eps maxSteps r, (2 <= maxSteps)%Z -> IntegrateSimpson Rarith maxSteps (fun x => p + s * x + u * x ^ 2 + w * x ^ 3) a b eps = Ok r ->
  ir_value r = p * (b - a) + s * (b ^ 2 - a ^ 2) / 2 + u * (b ^ 3 - a ^ 3) / 3 + w * (b ^ 4 - a ^ 4) / 4.
Proof.
  intros p s u w a b eps maxSteps r Hm E.
  assert (D : forall c0 c1 c2 c3 c4 x, derivable_pt_lim (fun x => c0 + c1 * x + c2 * x ^ 2 + c3 * x ^ 3 + c4 * x ^ 4) x (c1 + 2 * c2 * x + 3 * c3 * x ^ 2 + 4 * c4 * x ^ 3)).
  { intros c0 c1 c2 c3 c4 x. apply (dl_ext (fun x => c0 + c1 * x ^ 1 + c2 * x ^ 2 + c3 * x ^ 3 + c4 * x ^ 4) _ x (0 + c1 * (INR 1 * x ^ 0) + c2 * (INR 2 * x ^ 1) + c3 * (INR 3 * x ^ 2) + c4 * (INR 4 * x ^ 3))); [intros; ring|cbn; ring|].
    repeat (apply (derivable_pt_lim_plus (fun x => _)); [|apply dl_pow]). apply derivable_pt_lim_const. }
  assert (DD : forall (g g' : R -> R) c0 c1 c2 c3 c4 x, (forall x, g x = c0 + c1 * x + c2 * x ^ 2 + c3 * x ^ 3 + c4 * x ^ 4) -> (forall x, g' x = c1 + 2 * c2 * x + 3 * c3 * x ^ 2 + 4 * c4 * x ^ 3) -> derivable_pt_lim g x (g' x)).
  { intros g g' c0 c1 c2 c3 c4 x E1 E2. rewrite E2. eapply dl_ext; [|reflexivity|apply (D c0)]. intros. symmetry. apply E1. }
  pose proof (C70_accuracy (fun x => p * x + s / 2 * x ^ 2 + u / 3 * x ^ 3 + w / 4 * x ^ 4) (fun x => p + s * x + u * x ^ 2 + w * x ^ 3) (fun x => s + 2 * u * x + 3 * w * x ^ 2) (fun x => 2 * u + 6 * w * x) (fun _ => 6 * w) 0 a b eps maxSteps r) as P.
  assert (Z : Rabs (ir_value r - (p * b + s / 2 * b ^ 2 + u / 3 * b ^ 3 + w / 4 * b ^ 4 - (p * a + s / 2 * a ^ 2 + u / 3 * a ^ 3 + w / 4 * a ^ 4))) <= 0).
  { replace 0 with (0 * Rabs (b - a) ^ 5 / (2880 * 16 ^ (level r - 1))) at 1 by (unfold Rdiv; ring). apply P; auto.
    - intros x _. apply (DD _ (fun x => p + s * x + u * x ^ 2 + w * x ^ 3) 0 p (s / 2) (u / 3) (w / 4)); intros; field.
    - intros x _. apply (DD _ (fun x => s + 2 * u * x + 3 * w * x ^ 2) p s u w 0); intros; ring.
    - intros x _. apply (DD _ (fun x => 2 * u + 6 * w * x) s (2 * u) (3 * w) 0 0); intros; ring.
    - intros x _. apply (DD _ (fun _ => 6 * w) (2 * u) (6 * w) 0 0 0); intros; ring.
    - intros x y _ _. replace (6 * w - 6 * w) with 0 by ring. rewrite Rabs_R0. lra. }
  set (e := ir_value r - _) in Z. assert (e = 0). { destruct (Req_dec e 0) as [|N]; auto. pose proof (Rabs_pos_lt _ N). lra. } unfold e in H. lra.
Qed.
Print Assumptions C70_cubic.
Example C70_ex_cubic : showi (IntegrateSimpson Qarith 2 (fun x => Qcmult x (qsq x)) (q 0 1) (q 2 1) (q 1 1000)) = Some (qv (4) 1, qv (0) 1, 2%nat, false).
Proof. vm_compute. reflexivity. Qed.
(** "one step gives at least the trapezoidal value": false.  With a single step the value is 4/3 of the trapezoidal sum, wrong even for
    a constant. *)
Theorem C70_single_step_refuted : forall c a b eps, IntegrateSimpson Rarith 1 (fun _ => c) a b eps = Ok (mkI (4 / 3 * (c * (b - a))) 0 1 false).
Proof.
  intros c a b eps. destruct (C70_loop (fun _ => c) a b eps 1 ltac:(lia)) as (r & -> & HS). f_equal. destruct r as [v e i cv]. unfold stops in HS. cbn [ir_value ir_err ir_iters ir_conv] in HS. change (Z.to_nat 1) with 1%nat in HS. destruct cv; [lia|].
  destruct HS as (-> & -> & -> & _). f_equal. cbn [Nat.sub simpson_seq]. unfold trapezoid. cbn. field.
Qed.
Print Assumptions C70_single_step_refuted.
Example C70_ex_single : showi (IntegrateSimpson Qarith 1 (fun _ => q 3 1) (q 0 1) (q 1 1) (q 1 1000)) = Some (qv (4) 1, qv (0) 1, 1%nat, false).
Proof. vm_compute. reflexivity. Qed.

(** ** C71: Romberg *)
(** [v j]: extrapolation of the last K trapezoidal sums, [w j]: of the last K - 1 *)
Theorem C71_loop : forall f a b eps K maxSteps, (2 <= K)%nat -> (0 <= maxSteps <= 51)%Z ->
  exists v w r, (forall j, (K <= S j)%nat -> extrapolation (fun k => trapezoid f a b (2 ^ k)) K j (v j) /\ extrapolation (fun k => trapezoid f a b (2 ^ k)) (K - 1) j (w j)) /\
    IntegrateRomberg Rarith maxSteps K f a b eps = Ok r /\ romberg_stops v w eps K (Z.to_nat maxSteps) r.
Proof.
  intros f a b eps K maxSteps HK Hm.
  set (v := fun j => nev Rarith (fun i => (1 / 4) ^ i) (fun k => trapezoid f a b (2 ^ k)) (K - 1) (S j - K) 0). set (w := fun j => nev Rarith (fun i => (1 / 4) ^ i) (fun k => trapezoid f a b (2 ^ k)) (K - 1 - 1) (S j - (K - 1)) 0).
  assert (HV : forall j, (K <= S j)%nat -> extrapolation (fun k => trapezoid f a b (2 ^ k)) K j (v j)).
  { intros j Hj. pose proof (nev_extrapolation (fun k => trapezoid f a b (2 ^ k)) (fun i => (1 / 4) ^ i) (fun k => trapezoid f a b (2 ^ k)) K (S j - K) ltac:(lia) ltac:(auto)) as P. replace (S j - K + K - 1)%nat with j in P by lia. exact P. }
  assert (HW : forall j, (K <= S j)%nat -> extrapolation (fun k => trapezoid f a b (2 ^ k)) (K - 1) j (w j)).
  { intros j Hj. pose proof (nev_extrapolation (fun k => trapezoid f a b (2 ^ k)) (fun i => (1 / 4) ^ i) (fun k => trapezoid f a b (2 ^ k)) (K - 1) (S j - (K - 1)) ltac:(lia) ltac:(auto)) as P. replace (S j - (K - 1) + (K - 1) - 1)%nat with j in P by lia. exact P. }
  assert (EX : exists r, IntegrateRomberg Rarith maxSteps K f a b eps = Ok r /\ romberg_stops v w eps K (Z.to_nat maxSteps) r).
  { unfold IntegrateRomberg. destruct (Z.ltb_spec maxSteps 0); [lia|]. set (N := Z.to_nat maxSteps).
    assert (W : wp (vset (repeat (alit Rarith 0) (S N)) 0 (alit Rarith 1)) (fun h => is_vector h (S N) (fun i => if (i <=? 0)%nat then (1 / 4) ^ i else 0))).
    { apply (vsetf_wp _ (S N) (fun _ => 0)); [apply is_vector_repeat|lia|]. intros h Hh. eapply is_vector_ext; [exact Hh|]. intros i Hi. unfold vfset. destruct i; reflexivity. }
    destruct (wp_elim _ _ _ W) as (h & -> & Hh). cbn [bind]. assert (HN : (N <= 51)%nat) by (unfold N; lia). apply (romb_loop_ok f a b eps K N HK HN v w HV HW); auto.
    - eapply is_vector_ext; [apply is_vector_repeat|]. intros i Hi. reflexivity.
    - destruct (Nat.leb_spec K 0); [lia|]. auto.
    - intros i Hi. lia. }
  destruct EX as (r & E & HR). exists v, w, r. auto.
Qed.
Print Assumptions C71_loop.
(** the two extrapolations are determined by these conditions *)
Theorem C71_determined : forall T k j v w, (k <= S j)%nat -> extrapolation T k j v -> extrapolation T k j w -> v = w.
Proof. exact extrapolation_unique. Qed.
Print Assumptions C71_determined.
(** 1/(1+x) with K = 3 and four steps *)
Example C71_ex_loop : showi (IntegrateRomberg Qarith 4 3 (fun x => Qcdiv (q 1 1) (Qcplus (q 1 1) x)) (q 0 1) (q 1 1) (q 1 10000)) = Some (qv 449609 648648, qv 43 6486480, 4%nat, true).
Proof. vm_compute. reflexivity. Qed.
(** polynomials of degree below 2K are integrated exactly *)
Theorem C71_exact : forall F c a b eps K maxSteps r, primitive F (horner Rnum c) a b -> (length c <= 2 * K)%nat -> (2 <= K)%nat -> (Z.of_nat K <= maxSteps <= 51)%Z ->
  IntegrateRomberg Rarith maxSteps K (horner Rnum c) a b eps = Ok r -> ir_value r = F b - F a.
Proof.
  intros F c a b eps K maxSteps r HF HL HK Hm E. destruct (C71_loop (horner Rnum c) a b eps K maxSteps HK ltac:(lia)) as (v & w & r' & HVW & E' & HS). rewrite E in E'. injection E' as <-.
  assert (HV : forall j, (K <= S j)%nat -> v j = F b - F a). { intros j Hj. apply (extrapolation_poly F a b K c j); auto. apply HVW. auto. }
  unfold romberg_stops in HS. destruct (ir_conv r).
  - destruct HS as (A1 & -> & _). apply HV. lia.
  - destruct HS as (_ & A2 & _). destruct (Nat.leb_spec K (Z.to_nat maxSteps)); [|lia]. destruct A2 as [-> _]. apply HV. lia.
Qed.
Print Assumptions C71_exact.
(** x^9 with the default K = 5; with K = 2 the same integrand is not exact *)
Example C71_ex_exact : showi (IntegrateRomberg Qarith 20 5 (fun x => Qcmult x (qsq (qq4 x))) (q 0 1) (q 1 1) (q 1 10)) = Some (qv (1) 10, qv 3 20971520, 5%nat, true).
Proof. vm_compute. reflexivity. Qed.
(** "fewer steps than points still give an estimate": false, the value 0 is returned (not converged, error estimate 0) *)
Theorem C71_few_steps_refuted : forall f a b eps K maxSteps, (2 <= K)%nat -> (0 <= maxSteps <= 51)%Z -> (maxSteps < Z.of_nat K)%Z -> IntegrateRomberg Rarith maxSteps K f a b eps = Ok (mkI 0 0 (Z.to_nat maxSteps) false).
Proof.
  intros f a b eps K maxSteps HK Hm HL. destruct (C71_loop f a b eps K maxSteps HK Hm) as (v & w & r & _ & -> & HS). f_equal. destruct r as [vv e i c]. unfold romberg_stops in HS. cbn [ir_value ir_err ir_iters ir_conv] in HS. destruct c; [lia|].
  destruct HS as (-> & A & _). destruct (Nat.leb_spec K (Z.to_nat maxSteps)); [lia|]. destruct A as [-> ->]. reflexivity.
Qed.
Print Assumptions C71_few_steps_refuted.
Example C71_ex_few : showi (IntegrateRomberg Qarith 4 5 (fun _ => q 3 1) (q 0 1) (q 1 1) (q 1 1000)) = Some (qv (0) 1, qv (0) 1, 4%nat, false).
Proof. vm_compute. reflexivity. Qed.

(** ** C72: Gauss-Legendre and Gauss-Kronrod rules *)
(** degrees up to which the Kronrod rule and the embedded Gauss rule are exact, and the accuracy of the printed tables *)
Definition kronrod_degree (r : gkrule) : nat := match r with GK15 => 23 | GK21 => 31 | GK31 => 47 end.
Definition gauss_degree (r : gkrule) : nat := match r with GK15 => 13 | GK21 => 19 | GK31 => 29 end.
Definition gk_tol (r : gkrule) : R := match r with GK15 => 4 / 10 ^ 35 | _ => 4 / 10 ^ 33 end.
Definition gk_count (r : gkrule) : nat := match r with GK15 => 15 | GK21 => 21 | GK31 => 31 end.
(** the integrand as a polynomial with coefficients [c] in the variable t that runs from -1 to 1 over the interval *)
Definition poly_on (f : R -> R) (a b : R) (c : list R) : Prop := forall t, f ((a + b) / 2 + (b - a) / 2 * t) = horner Rnum c t.
Lemma tol10 : forall d, IZR (10 ^ Z.of_nat d) = 10 ^ d.
Proof. intros d. rewrite <- pow_IZR. reflexivity. Qed.
Lemma tab_bound : forall t tol n F f a b c, (0 <= tol)%Z -> forallb (mom_ok t tol) (seq 0 n) = true -> primitive F f a b -> poly_on f a b c -> (length c <= n)%nat ->
  Rabs ((b - a) / 2 * tab_rule t (scaled f a b) - (F b - F a)) <= IZR tol / 10 ^ tb_d t * (Rabs (b - a) / 2) * norm1 c.
Proof.
  intros t tol n F f a b c Ht HM HF HC HL. rewrite (integral_scaled F f a b c HF HC). rewrite <- Rmult_minus_distr_l, Rabs_mult.
  replace (tab_rule t (scaled f a b)) with (tab_rule t (horner Rnum c)) by (apply qrule_ext; intros; symmetry; apply HC).
  pose proof (tab_poly t tol c Ht (forallb_seq_le _ _ _ HL HM)) as P. rewrite tol10 in P. replace (Rabs ((b - a) / 2)) with (Rabs (b - a) / 2). 2: { unfold Rdiv. rewrite Rabs_mult, (Rabs_right (/ 2)) by lra. reflexivity. }
  replace (IZR tol / 10 ^ tb_d t * (Rabs (b - a) / 2) * norm1 c) with (Rabs (b - a) / 2 * (IZR tol / 10 ^ tb_d t * norm1 c)) by ring. apply Rmult_le_compat_l; auto. pose proof (Rabs_pos (b - a)). lra.
Qed.
(** value and error estimate on polynomials *)
Theorem C72_kronrod : forall rule F f a b c, primitive F f a b -> poly_on f a b c -> (length c <= S (kronrod_degree rule))%nat ->
  let r := gk_rule Rarith rule f a b in
  Rabs (ir_value r - (F b - F a)) <= gk_tol rule * (Rabs (b - a) / 2) * norm1 c /\
  ((length c <= S (gauss_degree rule))%nat -> ir_err r <= 2 * gk_tol rule * (Rabs (b - a) / 2) * norm1 c) /\
  ir_iters r = gk_count rule /\ ir_conv r = true.
Proof.
  intros rule F f a b c HF HC HL. cbv zeta. destruct (gk_ok rule f a b) as (E1 & E2 & E3 & E4). rewrite E1, E2, E3, E4.
  assert (K : mom_all (ktab rule) 4 (kronrod_degree rule / 2 + 1) = true) by (destruct rule; vm_compute; reflexivity).
  assert (G : mom_all (gtab rule) 4 (gauss_degree rule / 2 + 1) = true) by (destruct rule; vm_compute; reflexivity).
  apply mom_all_ok in K, G. replace (2 * (kronrod_degree rule / 2 + 1))%nat with (S (kronrod_degree rule)) in K by (destruct rule; reflexivity). replace (2 * (gauss_degree rule / 2 + 1))%nat with (S (gauss_degree rule)) in G by (destruct rule; reflexivity).
  assert (TK : IZR 4 / 10 ^ tb_d (ktab rule) = gk_tol rule) by (destruct rule; reflexivity). assert (TG : IZR 4 / 10 ^ tb_d (gtab rule) = gk_tol rule) by (destruct rule; reflexivity).
  pose proof (tab_bound (ktab rule) 4 _ F f a b c ltac:(lia) K HF HC HL) as B. rewrite TK in B. split; [exact B|]. split; [|split; [destruct rule; reflexivity|reflexivity]].
  intros HL'. pose proof (tab_bound (gtab rule) 4 _ F f a b c ltac:(lia) G HF HC HL') as B'. rewrite TG in B'.
  set (kk := (b - a) / 2 * tab_rule (ktab rule) (scaled f a b)) in *. set (gg := (b - a) / 2 * tab_rule (gtab rule) (scaled f a b)) in *.
  replace (kk - gg) with ((kk - (F b - F a)) - (gg - (F b - F a))) by ring. eapply Rle_trans; [apply Rabs_triang|]. rewrite Rabs_Ropp. lra.
Qed.
Print Assumptions C72_kronrod.
Theorem C72_gauss10 : forall F f a b c, primitive F f a b -> poly_on f a b c -> (length c <= 20)%nat ->
  let r := IntegrateGauss10 Rarith f a b in
  Rabs (ir_value r - (F b - F a)) <= / 10 ^ 16 * (Rabs (b - a) / 2) * norm1 c /\ ir_err r = 0 /\ ir_iters r = 1%nat /\ ir_conv r = true.
Proof.
  intros F f a b c HF HC HL. cbv zeta. destruct (gauss10_ok f a b) as (E1 & E2 & E3 & E4). rewrite E1, E2, E3, E4. split; auto.
  assert (G : mom_all g10s 1 10 = true) by (vm_compute; reflexivity).
  apply mom_all_ok in G.
  pose proof (tab_bound g10s 1 (2 * 10) F f a b c ltac:(lia) G HF HC HL) as B. replace (1 / 10 ^ tb_d g10s) with (/ 10 ^ 16) in B. { exact B. } unfold Rdiv. rewrite Rmult_1_l. reflexivity.
Qed.
Print Assumptions C72_gauss10.
(** x^4 on [0, 2] is (1 + t)^4 *)
Example C72_ex_poly : poly_on (fun x => x ^ 4) 0 2 [1; 4; 6; 4; 1] /\ primitive (fun x => / 5 * x ^ 5) (fun x => / 5 * (INR 5 * x ^ 4)) 0 2 /\ norm1 [1; 4; 6; 4; 1] = 16.
Proof. split; [intros t; cbn; field|]. split; [apply (primitive_pow (/ 5) 5)|]. cbn. rewrite !Rabs_right by lra. ring. Qed.
Lemma moment_gap : forall m D E : Z, (0 < D)%Z -> (0 < E)%Z -> (21 * D < E * (2 * D - 21 * m))%Z -> / IZR E < Rabs (IZR m / IZR D - 2 / 21).
Proof.
  intros m D E HD HE H. apply IZR_lt in HD, HE, H. rewrite !mult_IZR, minus_IZR, !mult_IZR in H. set (d := IZR D) in *. set (e := IZR E) in *. set (x := IZR m) in *. clearbody d e x.
  eapply Rlt_le_trans; [|rewrite Rabs_minus_sym; apply Rle_abs]. apply Rmult_lt_reg_r with (e * 21 * d). { repeat apply Rmult_lt_0_compat; auto; lra. }
  replace (/ e * (e * 21 * d)) with (21 * d) by (field; lra). replace ((2 / 21 - x / d) * (e * 21 * d)) with (e * (2 * d - 21 * x)) by (field; lra). lra.
Qed.
(** the degrees cannot be raised: one even degree more is off by more than 10^-12 (Gauss with ten points: degree 20) *)
Theorem C72_gauss10_degree : exists F f, primitive F f (-1) 1 /\ poly_on f (-1) 1 (repeat 0 20 ++ [1]) /\ / 10 ^ 12 < Rabs (ir_value (IntegrateGauss10 Rarith f (-1) 1) - (F 1 - F (-1))).
Proof.
  exists (fun x => / 21 * x ^ 21), (fun x => x ^ 20). split; [|split].
  - intros x Hx. apply (dl_ext (fun x => / 21 * x ^ 21) _ x (/ 21 * (INR 21 * x ^ 20))); [reflexivity| |apply dl_pow]. rewrite INR_IZR_INZ. change (IZR (Z.of_nat 21)) with 21. field.
  - intros t. rewrite horner_snoc, repeat_length. replace ((-1 + 1) / 2 + (1 - -1) / 2 * t) with t by field. assert (horner Rnum (repeat 0 20) t = 0) as -> by (cbn; ring). ring.
  - destruct (gauss10_ok (fun x => x ^ 20) (-1) 1) as [-> _]. replace ((1 - -1) / 2) with 1 by field.
    replace (tab_rule g10s (scaled (fun x => x ^ 20) (-1) 1)) with (tab_rule g10s (fun s => s ^ 20)) by (apply qrule_ext; intros; unfold scaled; f_equal; field).
    rewrite tab_moment_even by reflexivity. replace (/ 21 * 1 ^ 21 - / 21 * (-1) ^ 21) with (2 / 21). 2: { rewrite pow1. assert ((-1) ^ 21 = -1) as -> by (change 21%nat with (2 * 10 + 1)%nat; rewrite pow_add, pow_mult; replace ((-1) ^ 2) with 1 by ring; rewrite pow1; ring). field. }
    rewrite Rmult_1_l, <- (tol10 12), (pow_IZR _ (20 + 1)). apply moment_gap; vm_compute; reflexivity.
Qed.
Print Assumptions C72_gauss10_degree.
(** linear in the integrand *)
Theorem C72_linear : forall rule f g k a b,
  ir_value (gk_rule Rarith rule (fun x => f x + k * g x) a b) = ir_value (gk_rule Rarith rule f a b) + k * ir_value (gk_rule Rarith rule g a b) /\
  ir_value (IntegrateGauss10 Rarith (fun x => f x + k * g x) a b) = ir_value (IntegrateGauss10 Rarith f a b) + k * ir_value (IntegrateGauss10 Rarith g a b).
Proof.
  intros rule f g k a b. destruct (gk_ok rule (fun x => f x + k * g x) a b) as [-> _]. destruct (gk_ok rule f a b) as [-> _]. destruct (gk_ok rule g a b) as [-> _].
  destruct (gauss10_ok (fun x => f x + k * g x) a b) as [-> _]. destruct (gauss10_ok f a b) as [-> _]. destruct (gauss10_ok g a b) as [-> _].
  assert (L : forall t, tab_rule t (scaled (fun x => f x + k * g x) a b) = tab_rule t (scaled f a b) + k * tab_rule t (scaled g a b)). { intros t. unfold tab_rule. rewrite <- qrule_lin. reflexivity. }
  rewrite !L. split; ring.
Qed.
Print Assumptions C72_linear.
(** monotone: an integrand that is nowhere larger on the interval gives a value that is not larger; in particular the integrand is only
    used between a and b *)
Theorem C72_monotone : forall rule f g a b, a <= b -> (forall x, a <= x <= b -> f x <= g x) ->
  ir_value (gk_rule Rarith rule f a b) <= ir_value (gk_rule Rarith rule g a b) /\ ir_value (IntegrateGauss10 Rarith f a b) <= ir_value (IntegrateGauss10 Rarith g a b).
Proof.
  intros rule f g a b H HL. destruct (gk_ok rule f a b) as [-> _]. destruct (gk_ok rule g a b) as [-> _]. destruct (gauss10_ok f a b) as [-> _]. destruct (gauss10_ok g a b) as [-> _].
  assert (S1 : forall s, -1 <= s <= 1 -> scaled f a b s <= scaled g a b s). { intros s Hs. apply HL. split; nra. }
  split; (apply Rmult_le_compat_l; [lra|]; apply tab_mono; [|exact S1]); try (destruct rule); vm_compute; reflexivity.
Qed.
Print Assumptions C72_monotone.
(** an integrand that is odd about the middle gives 0 with error estimate 0 *)
Theorem C72_odd : forall rule f a b, (forall t, f ((a + b) / 2 - t) = - f ((a + b) / 2 + t)) ->
  ir_value (gk_rule Rarith rule f a b) = 0 /\ ir_err (gk_rule Rarith rule f a b) = 0 /\ ir_value (IntegrateGauss10 Rarith f a b) = 0.
Proof.
  intros rule f a b H. destruct (gk_ok rule f a b) as (-> & -> & _). destruct (gauss10_ok f a b) as [-> _].
  assert (O : forall t, tab_rule t (scaled f a b) = 0). { intros t. apply qrule_odd. intros s. unfold scaled. rewrite <- H. f_equal. ring. }
  rewrite !O, !Rmult_0_r. split; auto. split; auto. replace (0 - 0) with 0 by ring. apply Rabs_R0.
Qed.
Print Assumptions C72_odd.
Definition rounded (x : Qc) (d : Z) : Z := (2 * QArith_base.Qnum (this x) * d + Zpos (QArith_base.Qden (this x))) / (2 * Zpos (QArith_base.Qden (this x))).
(** x^2 on [1, 4] with the Kronrod points and x on [1, 4] with the Gauss points: 21 and 7.5 up to the last digits of the tables *)
Example C72_ex_compute : rounded (ir_value (gk_rule Qarith GK15 qsq (q 1 1) (q 4 1))) 1000000000000 = 21000000000000%Z /\
  rounded (ir_value (IntegrateGauss10 Qarith (fun x => x) (q 1 1) (q 4 1))) 1000000000000 = 7500000000000%Z.
Proof. vm_compute. split; reflexivity. Qed.

(** ** C73: adaptive Gauss-Kronrod integration *)
(** the rule on one piece *)
Definition on_piece (rule : gkrule) (f : R -> R) (p : R * R * nat) : ires := gk_rule Rarith rule f (fst (fst p)) (snd (fst p)).
(** [l] cuts the interval into pieces that follow each other, piece d halvings deep with width (b - a) / 2^d; value, error estimate and
    number of evaluations are the sums over the pieces; converged if and only if the estimate of every piece is within
    max(tol_abs / 2^d, tol_rel |value of the piece|); a piece that is not within it lies at the maximal depth *)
Theorem C73_partition : forall rule f a b tol_abs tol_rel depth, let r := IntegrateGKAdaptive Rarith f a b tol_abs tol_rel depth rule in
  exists l, partition a b l /\ ir_value r = total (fun p => ir_value (on_piece rule f p)) l /\ ir_err r = total (fun p => ir_err (on_piece rule f p)) l /\
    ir_iters r = (gk_count rule * length l)%nat /\
    (forall x y d, In (x, y, d) l -> (d <= depth)%nat /\ y - x = (b - a) / 2 ^ d /\ between a b x /\ between a b y /\
       ((d < depth)%nat -> ir_err (gk_rule Rarith rule f x y) <= Rmax (tol_abs / 2 ^ d) (tol_rel * Rabs (ir_value (gk_rule Rarith rule f x y))))) /\
    (ir_conv r = true <-> forall x y d, In (x, y, d) l -> ir_err (gk_rule Rarith rule f x y) <= Rmax (tol_abs / 2 ^ d) (tol_rel * Rabs (ir_value (gk_rule Rarith rule f x y)))).
Proof.
  intros rule f a b tol_abs tol_rel depth. cbv zeta. destruct (adaptive_ok f tol_rel rule depth a b tol_abs) as (l & H1 & H2 & H3 & H4 & H5 & H6 & H7). exists l. split; auto. split; auto. split; auto.
  split; [rewrite H4; destruct rule; reflexivity|]. split.
  - intros x y d Hp. exact (H6 _ Hp).
  - rewrite H7. split; [intros H x y d Hp; exact (H _ Hp)|intros H [[x y] d] Hp; exact (H _ _ _ Hp)].
Qed.
Print Assumptions C73_partition.
(** a converged result: error estimate at most tol_abs + tol_rel times the sum of the absolute values of the pieces *)
Theorem C73_tolerance : forall rule f a b tol_abs tol_rel depth, 0 <= tol_abs -> 0 <= tol_rel -> let r := IntegrateGKAdaptive Rarith f a b tol_abs tol_rel depth rule in ir_conv r = true ->
  exists l, partition a b l /\ ir_value r = total (fun p => ir_value (on_piece rule f p)) l /\ ir_err r <= tol_abs + tol_rel * total (fun p => Rabs (ir_value (on_piece rule f p))) l.
Proof.
  intros rule f a b tol_abs tol_rel depth Ha Hr. cbv zeta. intros HC. destruct (adaptive_ok f tol_rel rule depth a b tol_abs) as (l & H1 & H2 & H3 & H4 & H5 & H6 & H7). exists l. split; auto. split; auto. rewrite H3.
  apply Rle_trans with (total (fun p => tol_abs * / 2 ^ snd p + tol_rel * Rabs (ir_value (piece f rule p))) l).
  - apply total_le. intros p Hp. pose proof (proj1 H7 HC p Hp) as A. unfold accepted in A. eapply Rle_trans; [exact A|].
    assert (0 <= tol_abs * / 2 ^ snd p). { apply Rmult_le_pos; auto. apply Rlt_le, Rinv_0_lt_compat, pow_lt. lra. }
    assert (0 <= tol_rel * Rabs (ir_value (piece f rule p))) by (apply Rmult_le_pos; auto; apply Rabs_pos). unfold Rdiv, Rmax. destruct (Rle_dec _ _); lra.
  - rewrite (total_lin _ (fun p => tol_abs * / 2 ^ snd p) (fun p => Rabs (ir_value (piece f rule p)))). apply Rplus_le_compat; [|apply Req_le; reflexivity].
    apply Req_le. transitivity (total (fun p : R * R * nat => 0 + tol_abs * / 2 ^ snd p) l); [apply total_ext; intros; ring|]. rewrite (total_lin _ (fun _ => 0) (fun p => / 2 ^ snd p)), H5.
    assert (Z : forall l : list (R * R * nat), total (fun _ => 0) l = 0). { induction l0; unfold total in *; cbn [fold_right]; lra. } rewrite Z. ring.
Qed.
Print Assumptions C73_tolerance.
(** if the estimate of the rule bounds its error on every piece of the interval, then the error estimate returned bounds the error *)
Theorem C73_sound : forall rule F f a b tol_abs tol_rel depth, (forall x y, between a b x -> between a b y -> Rabs (ir_value (gk_rule Rarith rule f x y) - (F y - F x)) <= ir_err (gk_rule Rarith rule f x y)) ->
  let r := IntegrateGKAdaptive Rarith f a b tol_abs tol_rel depth rule in Rabs (ir_value r - (F b - F a)) <= ir_err r.
Proof.
  intros rule F f a b tol_abs tol_rel depth H. cbv zeta. destruct (adaptive_ok f tol_rel rule depth a b tol_abs) as (l & H1 & H2 & H3 & _ & _ & H6 & _). rewrite H2, H3, <- (partition_tele F a b l H1).
  replace (total (fun p => ir_value (piece f rule p)) l - total (fun p => F (snd (fst p)) - F (fst (fst p))) l) with (total (fun p => ir_value (piece f rule p) + -1 * (F (snd (fst p)) - F (fst (fst p)))) l).
  2: { rewrite (total_lin _ (fun p => ir_value (piece f rule p)) (fun p => F (snd (fst p)) - F (fst (fst p)))). ring. }
  eapply Rle_trans; [apply total_abs|]. apply total_le. intros p Hp. destruct (H6 p Hp) as (_ & _ & B1 & B2 & _). replace (ir_value (piece f rule p) + -1 * (F (snd (fst p)) - F (fst (fst p)))) with (ir_value (piece f rule p) - (F (snd (fst p)) - F (fst (fst p)))) by ring.
  apply (H _ _ B1 B2).
Qed.
Print Assumptions C73_sound.
(** constants with the 21-point rule meet the hypothesis: the tables of both rules sum to slightly less than 2 *)
Example C73_ex_sound : forall c x y, Rabs (ir_value (gk_rule Rarith GK21 (fun _ => c) x y) - (c * y - c * x)) <= ir_err (gk_rule Rarith GK21 (fun _ => c) x y).
Proof.
  intros c x y. destruct (gk_ok GK21 (fun _ => c) x y) as (-> & -> & _). cbn [ktab gtab].
  assert (M : forall t, tab_rule t (scaled (fun _ => c) x y) = c * tab_rule t (fun s => s ^ 0)).
  { intros t. transitivity (tab_rule t (fun s => 0 + c * s ^ 0)). { apply qrule_ext. intros. unfold scaled. cbn. ring. } unfold tab_rule. rewrite (qrule_lin _ _ (fun _ => 0) (fun s => s ^ 0)). rewrite (qrule_odd _ _ (fun _ => 0)) by (intros; ring). ring. }
  rewrite !M, !tab_moment_even by reflexivity. cbn [Nat.add]. rewrite !pow_1.
  assert (E1 : momZ k21 0 = (2 * 10 ^ 33 - 1)%Z) by (vm_compute; reflexivity). assert (E2 : momZ g10 0 = (2 * 10 ^ 33 - 2)%Z) by (vm_compute; reflexivity). rewrite E1, E2, !minus_IZR, !mult_IZR.
  change (10 ^ Z.of_nat (tb_d k21))%Z with (10 ^ 33)%Z. change (10 ^ Z.of_nat (tb_d g10))%Z with (10 ^ 33)%Z. assert (P : 0 < IZR (10 ^ 33)) by (apply IZR_lt; vm_compute; reflexivity). set (D := IZR (10 ^ 33)) in *. clearbody D.
  replace ((y - x) / 2 * (c * ((2 * D - 1) / D)) - (c * y - c * x)) with (- ((y - x) / 2 * c / D)) by (field; lra).
  replace ((y - x) / 2 * (c * ((2 * D - 1) / D)) - (y - x) / 2 * (c * ((2 * D - 2) / D))) with ((y - x) / 2 * c / D) by (field; lra). rewrite Rabs_Ropp. lra.
Qed.
(** a hat function: bisected until the kink is an end point, two pieces, 30 evaluations counted (45 made) *)
Definition hat (x : Qc) : Qc := if altb Qarith x (q 1 2) then x else Qcminus (q 1 1) x.
Example C73_ex_compute : let r := IntegrateGKAdaptive Qarith hat (q 0 1) (q 1 1) (q 1 1000000) (q 1 1000000) 10 GK15 in
  (rounded (ir_value r) 1000000, rounded (ir_err r) 1000000, ir_iters r, ir_conv r) = (250000, 0, 30%nat, true)%Z /\
  (let r := IntegrateGKAdaptive Qarith hat (q 0 1) (q 1 1) (q 1 1000000) (q 1 1000000) 0 GK15 in (ir_iters r, ir_conv r)) = (15%nat, false).
Proof. vm_compute. split; reflexivity. Qed.

(** ** All methods of Integrate agree on straight lines (up to the digits of the tables) *)
Theorem C72_methods : forall maxT maxS maxR K method p s a b eps r, (1 <= maxT)%Z -> (2 <= maxS)%Z -> (2 <= K)%nat -> (Z.of_nat K <= maxR <= 51)%Z ->
  Integrate Rarith maxT maxS maxR K (fun x => p + s * x) a b method eps = Ok r ->
  Rabs (ir_value r - (p * (b - a) + s * (b ^ 2 - a ^ 2) / 2)) <= / 10 ^ 16 * (Rabs (b - a) / 2) * (Rabs (p + s * ((a + b) / 2)) + Rabs (s * ((b - a) / 2))).
Proof.
  intros maxT maxS maxR K method p s a b eps r HT HS HK HR E.
  assert (B0 : 0 <= / 10 ^ 16 * (Rabs (b - a) / 2) * (Rabs (p + s * ((a + b) / 2)) + Rabs (s * ((b - a) / 2)))).
  { pose proof (Rabs_pos (b - a)). pose proof (Rabs_pos (p + s * ((a + b) / 2))). pose proof (Rabs_pos (s * ((b - a) / 2))). apply Rmult_le_pos; [apply Rmult_le_pos; [apply Rlt_le, Rinv_0_lt_compat, pow_lt|]|]; lra. }
  assert (HF : primitive (fun x => p * x + s / 2 * x ^ 2) (fun x => p + s * x) a b).
  { intros x _. apply (dl_ext (fun x => p * x ^ 1 + s / 2 * x ^ 2) _ x (p * (INR 1 * x ^ 0) + s / 2 * (INR 2 * x ^ 1))); [intros; ring|cbn; field|].
    apply (derivable_pt_lim_plus (fun x => p * x ^ 1)); apply dl_pow. }
  assert (HC : poly_on (fun x => p + s * x) a b [p + s * ((a + b) / 2); s * ((b - a) / 2)]) by (intros t; cbn; ring).
  assert (EX : forall v, v = p * (b - a) + s * (b ^ 2 - a ^ 2) / 2 -> Rabs (v - (p * (b - a) + s * (b ^ 2 - a ^ 2) / 2)) <= / 10 ^ 16 * (Rabs (b - a) / 2) * (Rabs (p + s * ((a + b) / 2)) + Rabs (s * ((b - a) / 2)))).
  { intros v ->. rewrite Rminus_eq_0, Rabs_R0. exact B0. }
  destruct method; cbn [Integrate] in E.
  - apply EX. apply (C69_affine p s a b eps maxT r HT E).
  - apply EX. assert (EQ : IntegrateSimpson Rarith maxS (fun x => p + s * x + 0 * x ^ 2 + 0 * x ^ 3) a b eps = Ok r). { rewrite <- E. f_equal. apply FunctionalExtensionality.functional_extensionality. intros x. ring. }
    rewrite (C70_cubic p s 0 0 a b eps maxS r HS EQ). field.
  - apply EX. assert (EQ : (fun x => p + s * x) = horner Rnum [p; s]). { apply FunctionalExtensionality.functional_extensionality. intros x. cbn. ring. }
    rewrite EQ in E, HF. rewrite (C71_exact _ [p; s] a b eps K maxR r HF ltac:(cbn; lia) HK HR E). field.
  - injection E as <-. destruct (C72_gauss10 _ _ a b _ HF HC ltac:(cbn; lia)) as [P _]. cbn [norm1 fold_right] in P. rewrite Rplus_0_r in P.
    replace (p * (b - a) + s * (b ^ 2 - a ^ 2) / 2) with (p * b + s / 2 * b ^ 2 - (p * a + s / 2 * a ^ 2)) by field. exact P.
  - injection E as <-. destruct (C72_kronrod GK21 _ _ a b _ HF HC ltac:(cbn; lia)) as [P _]. cbn [norm1 fold_right gk_tol gk_rule] in P. rewrite Rplus_0_r in P.
    replace (p * (b - a) + s * (b ^ 2 - a ^ 2) / 2) with (p * b + s / 2 * b ^ 2 - (p * a + s / 2 * a ^ 2)) by field. eapply Rle_trans; [exact P|].
    apply Rmult_le_compat_r; [pose proof (Rabs_pos (p + s * ((a + b) / 2))); pose proof (Rabs_pos (s * ((b - a) / 2))); lra|]. apply Rmult_le_compat_r; [pose proof (Rabs_pos (b - a)); lra|].
    apply Rmult_le_reg_r with (10 ^ 33); [apply pow_lt; lra|]. assert (P17 : 10 ^ 33 = 10 ^ 16 * 10 ^ 17) by (rewrite <- pow_add; reflexivity). assert (4 <= 10 ^ 17). { rewrite <- (tol10 17). apply IZR_le. vm_compute. discriminate. }
    assert (P0 : 0 < 10 ^ 16) by (apply pow_lt; lra). assert (P1 : 0 < 10 ^ 17) by (apply pow_lt; lra). rewrite P17. set (u := 10 ^ 16) in *. set (v := 10 ^ 17) in *. clearbody u v. replace (4 / (u * v) * (u * v)) with 4 by (field; lra). replace (/ u * (u * v)) with v by (field; lra). auto.
Qed.
Print Assumptions C72_methods.
Example C72_ex_methods : map (fun m => match Integrate Qarith 20 20 20 5 (fun x => Qcplus (q 1 1) (Qcmult (q 2 1) x)) (q 1 1) (q 4 1) m (q 1 1000) with Ok r => Some (rounded (ir_value r) 1000000) | _ => None end)
  [TRAP; SIMPSON; ROMBERG; GAUSS10; GAUSS10KRONROD21] = repeat (Some 18000000%Z) 5.
Proof. vm_compute. reflexivity. Qed.
