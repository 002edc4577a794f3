(** * C79, C80: adaptive solvers of ordinary differential equations; consequences, assumptions, examples, findings *)
From Coq Require Import List Bool Arith ZArith Lia Reals Lra QArith Qround Qcanon.
From Verif Require Import Base Num Mat_Model Mat_Proofs Mat_Props RootFind_Model RootFind_Proofs RootFind_Props ODE_Model ODE_Spec ODE_Solution ODE_RK ODE_Fixed ODE_Props ODEA_Model ODEA_Spec ODEA_Step ODEA_Integ.
Import ListNotations.
Local Open Scope nat_scope.
Local Open Scope R_scope.

(** ** C79 *)
Print Assumptions C79_dormand_prince.
Print Assumptions C79_cash_karp.
Print Assumptions C79_controllers.
(** the interpolant of a step is the only cubic with the values and slopes at both ends *)
Theorem C79_interpolant : forall n t h x0 d0 x1 d1, length x0 = n -> length d0 = n -> length x1 = n -> length d1 = n -> h <> 0 ->
  exists p, hermite n t h x0 d0 x1 d1 p /\ (forall s, hermite_at Rarith n s t h x0 d0 x1 d1 = Ok (p s)) /\
    p t = x0 /\ p (t + h) = x1 /\ (forall i, (i < n)%nat -> derivable_pt_lim (fun s => nth i (p s) 0) t (nth i d0 0) /\ derivable_pt_lim (fun s => nth i (p s) 0) (t + h) (nth i d1 0)) /\
    forall p', hermite n t h x0 d0 x1 d1 p' -> forall s, p' s = p s.
Proof.
  intros n t h x0 d0 x1 d1 L1 L2 L3 L4 Hh. destruct (hermite_ok n t h x0 d0 x1 d1 L1 L2 L3 L4 Hh) as (p & HP & HE). exists p. split; [exact HP|]. split; [exact HE|]. pose proof HP as [HL HC]. split; [|split; [|split]].
  - apply (vec_eq n); auto. intros i Hi. destruct (HC i Hi) as (c2 & c3 & A & _). rewrite A. ring.
  - apply (vec_eq n); auto. intros i Hi. destruct (HC i Hi) as (c2 & c3 & _ & A & _). exact A.
  - intros i Hi. destruct (HC i Hi) as (c2 & c3 & A & _ & B).
    assert (D : forall s, derivable_pt_lim (fun s => nth i (p s) 0) s (nth i d0 0 + 2 * c2 * (s - t) + 3 * c3 * (s - t) ^ 2)).
    { intros s. apply (derivable_pt_lim_ext (fun s => nth i x0 0 + nth i d0 0 * (s - t) + c2 * (s - t) ^ 2 + c3 * (s - t) ^ 3)); [intros; symmetry; apply A|].
      assert (D1 : derivable_pt_lim (fun s => s - t) s 1). { replace 1 with (1 - 0) by ring. apply derivable_pt_lim_minus; [apply derivable_pt_lim_id|apply derivable_pt_lim_const]. }
      assert (DP : forall m, derivable_pt_lim (fun s => (s - t) ^ m) s (INR m * (s - t) ^ pred m * 1)). { intros m. apply (derivable_pt_lim_comp (fun s => s - t) (fun u => u ^ m) s 1 _ D1). apply derivable_pt_lim_pow. }
      replace (nth i d0 0 + 2 * c2 * (s - t) + 3 * c3 * (s - t) ^ 2) with (0 + nth i d0 0 * 1 + c2 * (INR 2 * (s - t) ^ 1 * 1) + c3 * (INR 3 * (s - t) ^ 2 * 1)) by (cbn [INR]; ring).
      apply derivable_pt_lim_plus; [apply derivable_pt_lim_plus; [apply derivable_pt_lim_plus|]|]; [apply derivable_pt_lim_const|apply derivable_pt_lim_scal; exact D1|apply derivable_pt_lim_scal; apply (DP 2%nat)|apply derivable_pt_lim_scal; apply (DP 3%nat)]. }
    split; [replace (nth i d0 0) with (nth i d0 0 + 2 * c2 * (t - t) + 3 * c3 * (t - t) ^ 2) by ring; apply D|]. rewrite <- B. replace (2 * c2 * h) with (2 * c2 * (t + h - t)) by ring. replace (3 * c3 * h ^ 2) with (3 * c3 * (t + h - t) ^ 2) by ring. apply D.
  - intros p' HP' s. eapply hermite_unique; eauto.
Qed.
Print Assumptions C79_interpolant.
(** before the first step, and after a reset, there is nothing to interpolate: both steppers throw, at every time and in every state *)
Theorem C79_no_step_yet : forall n (d : dp5) (c : ck) (t : R),
  dp5_interpolate Rarith n (dp5_new Rarith n) t = Throw OtherError /\ dp5_interpolate Rarith n (dp5_reset Rarith d) t = Throw OtherError /\
  ck_interpolate Rarith n (ck_new Rarith n) t = Throw OtherError /\ ck_interpolate Rarith n (ck_reset c) t = Throw OtherError.
Proof. intros. repeat split; reflexivity. Qed.
Print Assumptions C79_no_step_yet.

(** ** C80 *)
Print Assumptions C80_initial_step.
Print Assumptions C80_integrate.
Print Assumptions C80_integrate_at.
(** integrateAt needs a start and at least one more time *)
Theorem C80_too_few_times : forall pw St (sp : stepper St) f n fuel fs st x0 times eps h0 hmin, (length times < 2)%nat ->
  integrateAt Rarith pw sp f n fuel fs st x0 times eps h0 hmin = Throw OtherError.
Proof. intros. unfold integrateAt. destruct (Nat.ltb_spec (length times) 2); [reflexivity|lia]. Qed.
Print Assumptions C80_too_few_times.
Lemma sorted_seq : forall m js lo, (forall a b, (a < b < length js)%nat -> (nth a js 0 < nth b js 0)%nat) -> (forall j, In j js <-> (lo <= j < lo + m)%nat) -> js = seq lo m.
Proof.
  induction m as [|m IH]; intros js lo HS HI.
  - destruct js as [|a js]; auto. exfalso. pose proof (proj1 (HI a) (or_introl eq_refl)). lia.
  - destruct js as [|a js]; [exfalso; apply (proj2 (HI lo)); lia|].
    assert (HA : forall j, In j js -> (a < j)%nat). { intros j Hj. destruct (In_nth js j 0%nat Hj) as (k & Hk & <-). apply (HS 0%nat (S k)). cbn [length]. lia. }
    assert (a = lo). { destruct (proj2 (HI lo) ltac:(lia)) as [E|E]; auto. pose proof (HA _ E). pose proof (proj1 (HI a) (or_introl eq_refl)). lia. } subst a.
    cbn [seq]. f_equal. apply IH.
    + intros u v H. apply (HS (S u) (S v)). cbn [length]. lia.
    + intros j. split; intros H.
      * pose proof (HA j H). pose proof (proj1 (HI j) (or_intror H)). lia.
      * destruct (proj2 (HI j) ltac:(lia)) as [E|E]; auto. lia.
Qed.
(** if the integration ends exactly at tEnd and no output time is a near miss, the saved times are t0, t0 + dt, ... and tEnd, all of them *)
Theorem C80_all_points : forall n f step t0 x0 L tm xm dt tEnd ceil js outs, path step t0 x0 L tm xm -> is_ceil ceil -> t0 < tEnd -> 0 < dt -> tm = tEnd ->
  let N := Z.to_nat (ceil ((tEnd - t0) / dt)) in
  outputs_ok n f L t0 dt tm js outs -> (forall j, (1 <= j)%nat -> ~ near_miss L (t0 + INR j * dt)) ->
  map fst ((t0, x0) :: outs ++ if (length outs <? N)%nat then [(tEnd, xm)] else []) = map (fun k => t0 + INR k * dt) (seq 0 N) ++ [tEnd].
Proof.
  intros n f step t0 x0 L tm xm dt tEnd ceil js outs HP HC Ht Hdt -> N (O1 & O2 & O3 & O4) HNM. destruct (path_incl _ _ _ _ _ _ HP) as [_ HL].
  assert (HE : map fst outs = map (fun k => t0 + INR k * dt) js). { clear - O1. induction O1 as [|j p js outs [H _] _ IH]; cbn [map]; [reflexivity|]. rewrite H, IH. reflexivity. }
  assert (HB : forall j, In j js -> t0 + INR j * dt <= tEnd).
  { clear - O1 HL. induction O1 as [|j p js outs [H (l & Hl & H1 & _)] _ IH]; intros i [].
    - subst i. destruct (HL l Hl) as (_ & _ & A & _). rewrite <- H. lra.
    - apply IH; auto. }
  assert (HI : forall j, In j js <-> (1 <= j)%nat /\ t0 + INR j * dt <= tEnd). { intros j. split; [auto|]. intros [A B]. destruct (O4 j A B) as [H|H]; auto. exfalso. apply (HNM j A H). }
  set (c := ceil ((tEnd - t0) / dt)) in *. destruct (HC ((tEnd - t0) / dt)) as [C1 C2]. fold c in C1, C2.
  assert (P : 0 < (tEnd - t0) / dt) by (apply Rmult_lt_0_compat; [lra|apply Rinv_0_lt_compat; lra]).
  assert (c0 : (1 <= c)%Z) by (assert (0 < c)%Z by (apply lt_IZR; lra); lia).
  assert (EN : IZR c = INR N) by (unfold N; rewrite INR_IZR_INZ, Z2Nat.id by lia; reflexivity). rewrite EN in C1, C2.
  assert (ET : tEnd - t0 = (tEnd - t0) / dt * dt) by (field; lra). assert (N1 : (1 <= N)%nat) by (unfold N; lia). clearbody N. clear EN c0. set (r := (tEnd - t0) / dt) in *. clearbody r.
  assert (HN : forall j, t0 + INR j * dt <= tEnd -> (j <= N)%nat). { intros j H. apply INR_le. assert (INR j <= r) by (apply Rmult_le_reg_r with dt; lra). lra. }
  assert (HM : forall j, (j < N)%nat -> t0 + INR j * dt <= tEnd). { intros j H. assert (INR j + 1 <= INR N) by (rewrite <- S_INR; apply le_INR; lia). assert (INR j * dt <= r * dt) by (apply Rmult_le_compat_r; lra). lra. }
  assert (LO : length js = length outs) by (clear - O1; induction O1; cbn [length]; congruence). cbn [map fst]. rewrite map_app, HE.
  destruct (Rle_dec (t0 + INR N * dt) tEnd) as [HX|HX].
  - assert (js = seq 1 N). { apply sorted_seq; auto. intros j. rewrite HI. split; [intros [A B]; specialize (HN j B); lia|]. intros H. split; [lia|]. destruct (Nat.eq_dec j N) as [->|]; [exact HX|]. apply HM. lia. } subst js.
    rewrite seq_length in LO. rewrite <- LO. rewrite Nat.ltb_irrefl. cbn [map]. rewrite app_nil_r.
    assert (EQ : t0 + INR N * dt = tEnd). { apply Rle_antisym; [exact HX|]. assert (r * dt <= INR N * dt) by (apply Rmult_le_compat_r; lra). lra. }
    replace (t0 :: map (fun k => t0 + INR k * dt) (seq 1 N)) with (map (fun k => t0 + INR k * dt) (seq 0 (S N))); [|cbn [seq map]; f_equal; cbn [INR]; ring].
    rewrite seq_S, map_app. cbn [map]. rewrite Nat.add_0_l, EQ. reflexivity.
  - assert (js = seq 1 (N - 1)). { apply sorted_seq; auto. intros j. rewrite HI. split; [intros [A B]; pose proof (HN j B); destruct (Nat.eq_dec j N) as [->|]; [contradiction|lia]|]. intros H. split; [lia|]. apply HM. lia. } subst js.
    rewrite seq_length in LO. rewrite <- LO. rewrite (proj2 (Nat.ltb_lt _ _)) by lia. cbn [map fst]. destruct N as [|N]; [lia|]. replace (S N - 1)%nat with N by lia. cbn [seq map app]. f_equal. cbn [INR]. ring.
Qed.
Print Assumptions C80_all_points.

(** ** Examples *)
(** the two steppers meet the hypothesis of the integrator theorems, for the system x' = x, and there is a ceiling function *)
Definition grow : sys := fun _ x => x.
Lemma grow_system : forall n, system n grow. Proof. intros n t x H. exact H. Qed.
Lemma ceil_exists : is_ceil (fun r => (1 - up (- r))%Z).
Proof. intros r. destruct (archimed (- r)). rewrite minus_IZR. lra. Qed.
Example C80_ex_instances : forall st x0 eps, length x0 = 2%nat -> 0 < eps ->
  (exists F, forall fuel fs fo, (F <= fuel)%nat -> (F <= fs)%nat -> (F <= fo)%nat -> let r := integrate_adaptive Rarith Rpower (fun r => (1 - up (- r))%Z) (dp5_stepper Rarith Rpower grow 2) grow 2 fuel fs fo st x0 0 1 (1 / 10) eps 0 (1 / 10 ^ 10) in r <> UB /\ r <> NoFuel) /\
  (exists F, forall fuel fs, (F <= fuel)%nat -> (F <= fs)%nat -> let r := integrateAt Rarith Rpower (ck_stepper Rarith Rpower grow 2) grow 2 fuel fs (ck_new Rarith 2) x0 [0; 1; 5 / 2] eps 0 (1 / 10 ^ 10) in r <> UB /\ r <> NoFuel).
Proof.
  intros st x0 eps HX HE. split.
  - assert (EN : Z.to_nat ((fun r => (1 - up (- r))%Z) ((1 - 0) / (1 / 10))) = 10%nat).
    { cbv beta. assert (up (- ((1 - 0) / (1 / 10))) = -9)%Z as ->; [|reflexivity]. symmetry. apply tech_up; lra. }
    destruct (C80_integrate 2 grow _ (dp5_stepper Rarith Rpower grow 2) _ _ _ _ _ _ (grow_system 2) ltac:(lia) (C79_dormand_prince 2 grow (grow_system 2)) _ x0 0 1 (1 / 10) eps 0 (1 / 10 ^ 10) st ceil_exists HX ltac:(lra) ltac:(lra) HE ltac:(lra)) as [F HF].
    + rewrite EN. unfold dims_fit. lia.
    + exists F. intros fuel fs fo H1 H2 H3. specialize (HF fuel fs fo H1 H2 H3). cbv zeta in HF |- *. destruct HF as [[-> _]|(st' & S & L & tm & xm & js & outs & ev & -> & _)]; split; discriminate.
  - destruct (C80_integrate_at 2 grow _ (ck_stepper Rarith Rpower grow 2) _ _ _ _ _ _ (grow_system 2) ltac:(lia) (C79_cash_karp 2 grow (grow_system 2)) x0 [0; 1; 5 / 2] eps 0 (1 / 10 ^ 10) (ck_new Rarith 2) HX) as [F HF]; try lra.
    + intros a b H. cbn [length] in H. destruct a as [|[|[|a]]], b as [|[|[|b]]]; try lia; cbn [nth]; lra.
    + cbn [length]. lia.
    + unfold dims_fit. cbn [length]. lia.
    + exists F. intros fuel fs H1 H2. specialize (HF fuel fs H1 H2). cbv zeta in HF |- *. destruct HF as [[-> _]|(st' & S & L & tm & xm & outs & ev & -> & _)]; split; discriminate.
Qed.

(** *** Executions over the rationals (the power function is only reached when the error estimate is not zero) *)
Definition pwq : Qc -> Qc -> Qc := fun _ _ => q 1 1.
Definition ceilq (r : Qc) : Z := Qceiling (this r).
Definition run_dp (f : Qc -> list Qc -> list Qc) x0 t0 tEnd dt eps h0 hmin :=
  integrate_adaptive Qarith pwq ceilq (dp5_stepper Qarith pwq f 1) f 1 50 50 50 (dp5_new Qarith 1) [x0] t0 tEnd dt eps h0 hmin.
Definition seen {St} (r : res (St * @sol Qc * nat * nat)) : option (option (list (Z * positive * list (Z * positive))) * nat * nat) :=
  match r with Ok (_, Sl, acc, ev) => Some (shown (Ok Sl), acc, ev) | _ => None end.
Definition still : Qc -> list Qc -> list Qc := fun _ _ => [q 0 1].
Definition cube' : Qc -> list Qc -> list Qc := fun t _ => [Qcmult (q 3 1) (Qcmult t t)].
(** x' = 3t² from 0 to 2 with an output every 1/2: two accepted steps (1/4 and 7/4), 7 + 6 evaluations, and t³ at every output *)
Example C80_ex_compute : seen (run_dp cube' (q 0 1) (q 0 1) (q 2 1) (q 1 2) (q 1 1000) (q 1 4) (q 1 10000)) =
  Some (Some [((0, 1%positive), [(0, 1%positive)]); ((1, 2%positive), [(1, 8%positive)]); ((1, 1%positive), [(1, 1%positive)]); ((3, 2%positive), [(27, 8%positive)]); ((2, 1%positive), [(8, 1%positive)])]%Z, 2%nat, 13%nat).
Proof. vm_compute. reflexivity. Qed.
Example C80_ex_compute_at : seen (integrateAt Qarith pwq (ck_stepper Qarith pwq cube' 1) cube' 1 50 50 (ck_new Qarith 1) [q 0 1] [q 0 1; q 1 2; q 3 1] (q 1 1000) (q 2 1) (q 1 10000)) =
  Some (Some [((0, 1%positive), [(0, 1%positive)]); ((1, 2%positive), [(1, 8%positive)]); ((3, 1%positive), [(27, 1%positive)])]%Z, 2%nat, 14%nat).
Proof. vm_compute. reflexivity. Qed.

(** ** Findings *)
(** "every multiple of the output interval up to the end is saved": an output time that falls just after the end of a step (by at most 2^-52) is counted
    but neither saved with this step nor with the next; it is missing from the solution and the end point is saved twice *)
Theorem C80_skip_refuted : let dt := Qcplus (q 1 1) (Qcdiv (q 1 1) (q (2 ^ 53) 1)) in
  match run_dp still (q 5 1) (q 0 1) (Qcmult (q 3 1) dt) dt (q 1 1000) (q 1 1) (q 1 10000) with
  | Ok (_, Sl, _, _) => map showq (s_tval Sl) = map (fun k => showq (Qcmult (q k 1) dt)) [0; 2; 3; 3]%Z
  | _ => False
  end.
Proof. vm_compute. reflexivity. Qed.
Print Assumptions C80_skip_refuted.
(** "a solution returned is a solution of the equation": a backward integration (tEnd < t0, negative interval) takes no step at all
    and returns the initial state at the end time; here x' = 3t² from x(1) = 1 back to 0 gives x(0) = 1 instead of 0 *)
Theorem C80_backward_refuted : seen (run_dp cube' (q 1 1) (q 1 1) (q 0 1) (q (-1) 1) (q 1 1000) (q 1 4) (q 1 10000)) =
  Some (Some [((1, 1%positive), [(1, 1%positive)]); ((0, 1%positive), [(1, 1%positive)])]%Z, 0%nat, 0%nat).
Proof. vm_compute. reflexivity. Qed.
Print Assumptions C80_backward_refuted.
(** "the step-size failure is raised only when the accuracy demands too small a step": the last step is cut to reach the end; the size proposed after it
    is compared with the minimum although no further step is needed, so that an error-free integration (x' = 0, every step accepted) throws *)
Theorem C80_short_last_step_refuted : run_dp still (q 5 1) (q 0 1) (q 10001 10000) (q 10001 10000) (q 1 1000) (q 1 1) (q 1 100) = Throw OtherError /\
  seen (run_dp still (q 5 1) (q 0 1) (q 10001 10000) (q 10001 10000) (q 1 1000) (q 1 1) (q 1 10000)) <> None.
Proof. split; [vm_compute; reflexivity|]. vm_compute. discriminate. Qed.
Print Assumptions C80_short_last_step_refuted.
(** "output times may be given in any non-decreasing list": a repeated time stops the integration with an error (the step to it has size 0) *)
Theorem C80_repeated_time_refuted : integrateAt Qarith pwq (dp5_stepper Qarith pwq still 1) still 1 50 50 (dp5_new Qarith 1) [q 5 1] [q 0 1; q 0 1; q 1 1] (q 1 1000) (q 1 1) (q 1 10000) = Throw OtherError.
Proof. vm_compute. reflexivity. Qed.
Print Assumptions C80_repeated_time_refuted.
(** "a step depends only on the time, the state, the derivative and the size passed": after an accepted step the Dormand-Prince stepper ignores the derivative passed
    and uses its stored last stage, so that a second step from a different state is wrong unless resetFSAL is called (here x' = 3t² from 0 to 1, taken twice: the second time the slope at 0 is taken to be the one at 1) *)
Theorem C79_stale_derivative_refuted :
  match dp5_doStep Qarith pwq cube' 1 50 (dp5_new Qarith 1) (q 0 1) [q 0 1] [q 0 1] (q 1 1) (q 1 1000) with
  | Ok (s, _, _, _) =>
    match dp5_doStep Qarith pwq cube' 1 50 s (q 0 1) [q 0 1] [q 0 1] (q 1 1) (q 1000 1), dp5_doStep Qarith pwq cube' 1 50 (dp5_reset Qarith s) (q 0 1) [q 0 1] [q 0 1] (q 1 1) (q 1000 1) with
    | Ok (_, y, _, _), Ok (_, y', _, _) => map showq y' = [(1, 1%positive)]%Z /\ map showq y <> map showq y'
    | _, _ => False
    end
  | _ => False
  end.
Proof. vm_compute. split; [reflexivity|discriminate]. Qed.
Print Assumptions C79_stale_derivative_refuted.
