(** * C74-C78: the fixed-step solver of ordinary differential equations; assumptions, examples, findings *)

From Coq Require Import List Bool Arith ZArith Lia Reals Lra Psatz QArith Qcanon.
From Verif Require Import Base Num Mat_Model Mat_Proofs Mat_Props RootFind_Model RootFind_Proofs RootFind_Props ODE_Model ODE_Spec ODE_Solution ODE_RK ODE_Order ODE_Conseq ODE_Fixed ODE_Converge ODE_Verlet.
Import ListNotations.
Local Open Scope nat_scope.
Local Open Scope R_scope.

Definition showv (r : res (list Qc)) := match r with Ok v => Some (map showq v) | _ => None end.
Definition show1 (r : res (list Qc * list Qc)) := match r with Ok (v, e) => Some (map showq v, map showq e) | _ => None end.
(** the saved points of a solution *)
Definition shown (r : res (@sol Qc)) : option (list (Z * positive * list (Z * positive))) :=
  match r with
  | Ok Sl => Some (map (fun k => (match getTValue Sl (Z.of_nat k) with Ok t => showq t | _ => (0%Z, 1%positive) end,
      map (fun i => match getXValue Sl (Z.of_nat k) (Z.of_nat i) with Ok v => showq v | _ => (0%Z, 1%positive) end) (seq 0 (Z.to_nat (s_dim Sl))))) (seq 0 (Z.to_nat (s_count Sl))))
  | _ => None
  end.

(** ** C74: the container of the solution *)
Print Assumptions C74_new.
Print Assumptions C74_reserve.
Print Assumptions C74_final.
Print Assumptions C74_fill.
Print Assumptions C74_set.
Print Assumptions C74_errors.
Print Assumptions C74_get.
Print Assumptions C74_sequence.
(** room for 2 points, 4 are stored one after the other: the container grows on the way *)
Definition pts4 : list (Qc * list Qc) := [(q 0 1, [q 1 1; q 2 1]); (q 1 2, [q 3 1; q 4 1]); (q 1 1, [q 5 1; q 6 1]); (q 3 2, [q 7 1; q 8 1])].
Example C74_ex_compute :
  match sol_new Qarith (q 0 1) (q 2 1) 2 1 with
  | Ok S0 => match fill_from Qarith 0 pts4 S0 with
      | Ok Sl => (s_cap Sl, s_count Sl, shown (Ok Sl), showv (getXValuesAtEnd Qarith Sl), getTValue Sl 4, getTValue Sl (-1)) =
                (4, 4, Some [((0, 1%positive), [(1, 1%positive); (2, 1%positive)]); ((1, 2%positive), [(3, 1%positive); (4, 1%positive)]); ((1, 1%positive), [(5, 1%positive); (6, 1%positive)]); ((3, 2%positive), [(7, 1%positive); (8, 1%positive)])],
                 Some [(7, 1%positive); (8, 1%positive)], Throw IndexError, Throw IndexError)%Z
      | _ => False
      end
  | _ => False
  end.
Proof. vm_compute. reflexivity. Qed.
Example C74_ex_sequence : exists S0 S, sol_new Rarith 0 2 (Z.of_nat 2) (Z.of_nat 1) = Ok S0 /\ fill_from Rarith 0 [(0, [1; 2]); (1, [3; 4]); (2, [5; 6])] S0 = Ok S /\
  shows Rarith S [(0, [1; 2]); (1, [3; 4]); (2, [5; 6])] /\ s_t1 S = 0 /\ s_t2 S = 2.
Proof.
  apply C74_sequence; [lia| |unfold dims_fit; cbn; lia|unfold dims_fit; cbn; lia]. intros t x [E|[E|[E|[]]]]; injection E as <- <-; reflexivity.
Qed.
(** An index two or more past the room of the container is not an error: the container grows once, by half, and the value is then stored outside it (undefined behaviour). *)
Theorem C74_fill_refuted : exists S, sol_new Qarith (q 0 1) (q 1 1) 1 1 = Ok S /\ fillValues Qarith S 4 (q 1 1) [q 1 1] = UB /\ setTVal Qarith S 4 (q 1 1) = UB /\ setXVal Qarith S 4 0 (q 1 1) = UB /\
  exists S', fillValues Qarith S 3 (q 1 1) [q 1 1] = Ok S'.
Proof. eexists. split; [vm_compute; reflexivity|]. split; [vm_compute; reflexivity|]. split; [vm_compute; reflexivity|]. split; [vm_compute; reflexivity|]. eexists. vm_compute. reflexivity. Qed.
Print Assumptions C74_fill_refuted.
(** getXValues(component) and getTValues return the whole room of the container, not the saved points: after 2 points in a container for 4 the list ends with two zeros that were never saved. *)
Theorem C74_values_refuted : exists S0 S, sol_new Qarith (q 0 1) (q 1 1) 1 3 = Ok S0 /\ fill_from Qarith 0 [(q 0 1, [q 5 1]); (q 1 1, [q 6 1])] S0 = Ok S /\ s_count S = 2%Z /\
  showv (getXValues Qarith S 0) = Some [(5, 1%positive); (6, 1%positive); (0, 1%positive); (0, 1%positive)]%Z /\ map showq (s_tval S) = [(0, 1%positive); (1, 1%positive); (0, 1%positive); (0, 1%positive)]%Z.
Proof. eexists. eexists. split; [vm_compute; reflexivity|]. split; [vm_compute; reflexivity|]. split; [vm_compute; reflexivity|]. split; vm_compute; reflexivity. Qed.
Print Assumptions C74_values_refuted.

(** ** C75: the fixed-step integration *)
Print Assumptions C75_integrate.
Print Assumptions C75_end.
Print Assumptions C75_errors.
Print Assumptions C75_calculators.
Definition growth_q : Qc -> list Qc -> list Qc := fun _ x => x.
Example C75_ex_compute : shown (integrate Qarith (EulerStep Qarith) growth_q 1 [q 1 1] (q 0 1) (q 1 1) 3) =
  Some [((0, 1%positive), [(1, 1%positive)]); ((1, 3%positive), [(4, 3%positive)]); ((2, 3%positive), [(16, 9%positive)]); ((1, 1%positive), [(64, 27%positive)])]%Z.
Proof. vm_compute. reflexivity. Qed.
Definition osc_r : sys := fun _ x => [nth 1 x 0; - nth 0 x 0].
Lemma osc_system : system 2 osc_r.
Proof. intros t x _. reflexivity. Qed.
Example C75_ex_integrate : exists S, integrate Rarith (RungeKutta4Step Rarith) osc_r 2 [1; 0] 0 1 (Z.of_nat 10) = Ok S /\ exists xs,
  chain (fun t x y => rk_step rk4_tab osc_r t x ((1 - 0) / INR 10) y) [1; 0] 0 ((1 - 0) / INR 10) 10 xs /\ (forall k, (k <= 10)%nat -> length (xs k) = 2%nat) /\
  shows Rarith S (points 0 ((1 - 0) / INR 10) xs 10) /\ s_t1 S = 0 /\ s_t2 S = 1.
Proof.
  apply (C75_integrate _ 2 osc_r (fun t x y => rk_step rk4_tab osc_r t x ((1 - 0) / INR 10) y) [1; 0] 0 1 10); [lia|unfold dims_fit; cbn; lia|reflexivity|]. apply (C75_calculators 2 osc_r _ osc_system).
Qed.
(** A hundred thousand steps are refused: the matrix of saved states must not have more than 100000 columns. *)
Theorem C75_steps_refuted : forall step f x0 t1 t2, integrate Rarith step f 1 x0 t1 t2 100000 = Throw DimensionError \/ integrate Rarith step f 1 x0 t1 t2 100000 = Throw BadAlloc.
Proof.
  intros step f x0 t1 t2. change 100000%Z with (Z.of_nat (Z.to_nat 100000)). apply (C75_errors step 1 f x0 t1 t2 (Z.to_nat 100000)); [lia|]. unfold dims_fit. lia.
Qed.
Print Assumptions C75_steps_refuted.

(** ** C76: Runge-Kutta steps, their order *)
Print Assumptions C76_euler.
Print Assumptions C76_heun.
Print Assumptions C76_midpoint.
Print Assumptions C76_rk4.
Print Assumptions C76_cash_karp.
Print Assumptions C76_dormand_prince5.
Print Assumptions C76_dormand_prince8.
Print Assumptions C76_euler_order.
Print Assumptions C76_heun_order.
Print Assumptions C76_midpoint_order.
Print Assumptions C76_rk4_order.
Print Assumptions C76_ck_order.
Print Assumptions C76_dp5_order.
Print Assumptions C76_dp8_order.
Print Assumptions C76_dp8_row_sums.
Print Assumptions C76_quadrature.
Print Assumptions C76_linear.
Print Assumptions C76_explicit.
Print Assumptions C76_row_sums.
Print Assumptions C76_fsal.
(** x' = x, h = 1/2, from 1: 1 + h + h^2/2 + ... up to the order *)
Example C76_ex_compute : map (fun s : calc (T := Qc) => option_map fst (show1 (s growth_q 1%nat (q 0 1) [q 1 1] [q 1 1] (q 1 2) [q 9 1] [q 9 1]))) [EulerStep Qarith; EulerCromerStep Qarith; MidpointStep Qarith; RungeKutta4Step Qarith] =
  [Some [(3, 2%positive)]; Some [(13, 8%positive)]; Some [(13, 8%positive)]; Some [(211, 128%positive)]]%Z.
Proof. vm_compute. reflexivity. Qed.
(** x' = 5 t^4 from t = 1: the fifth-order methods give 2^5 - 1 exactly *)
Example C76_ex_quadrature : map (fun s : calc (T := Qc) => option_map fst (show1 (s (fun t _ => [Qcmult (q 5 1) (Qcmult (Qcmult t t) (Qcmult t t))]) 1%nat (q 1 1) [q 0 1] [q 5 1] (q 1 1) [q 9 1] [q 9 1]))) [CashKarpStep Qarith; DormandPrince5Step Qarith] =
  [Some [(31, 1%positive)]; Some [(31, 1%positive)]]%Z.
Proof. vm_compute. reflexivity. Qed.
Example C76_ex_step : exists y, RungeKutta4Step Rarith osc_r 2%nat 0 [1; 0] (osc_r 0 [1; 0]) (1 / 2) [7; 7] [7; 7] = Ok (y, repeat 0 2) /\ rk_step rk4_tab osc_r 0 [1; 0] (1 / 2) y.
Proof. apply C76_rk4; try reflexivity. apply osc_system. Qed.

(** ** C77: convergence *)
Print Assumptions C77_convergence.
Print Assumptions C77_methods.
(** x' = x - t^2/2, x = 1 + t + t^2/2, by RK4 *)
Definition fall : sys := fun t x => [nth 0 x 0 - t * t / 2].
Example C77_ex : exists C, 0 <= C /\ forall N, (0 < N)%nat -> dims_fit 1 (N + 1) -> exists S, integrate Rarith (RungeKutta4Step Rarith) fall 1 [1 + 0 + 0 * 0 / 2] 0 1 (Z.of_nat N) = Ok S /\
    forall k i, (k <= N)%nat -> (i < 1)%nat -> exists v, getTValue S (Z.of_nat k) = Ok (0 + INR k * ((1 - 0) / INR N)) /\ getXValue S (Z.of_nat k) (Z.of_nat i) = Ok v /\
      Rabs (v - nth i ((fun t => [1 + t + t * t / 2]) (0 + INR k * ((1 - 0) / INR N))) 0) <= C / INR N.
Proof.
  assert (SF : system 1 fall) by (intros t x _; reflexivity).
  apply (C77_convergence rk4_tab (RungeKutta4Step Rarith) 1 fall 1 1 0 1 (fun t => [1 + t + t * t / 2])); try lra; try lia.
  - apply C77_methods.
  - exact SF.
  - intros t x y e _ HX HY HC i Hi. assert (i = 0)%nat as -> by lia. specialize (HC 0%nat ltac:(lia)). cbn [fall nth]. replace (nth 0 x 0 - t * t / 2 - (nth 0 y 0 - t * t / 2)) with (nth 0 x 0 - nth 0 y 0) by ring. lra.
  - intros t _. split; [reflexivity|]. intros i Hi. assert (i = 0)%nat as -> by lia. cbn [fall nth]. replace (1 + t + t * t / 2 - t * t / 2) with (0 + 1 + / 2 * (1 * t + t * 1)) by field.
    apply (derivable_pt_lim_ext (fun s => 1 + s + / 2 * (s * s))); [intros s; field|]. apply (derivable_pt_lim_plus (fun s => 1 + s)).
    + apply (derivable_pt_lim_plus (fun _ => 1) (fun s => s)); [apply derivable_pt_lim_const|apply derivable_pt_lim_id].
    + apply (derivable_pt_lim_scal (fun s => s * s)). apply (derivable_pt_lim_mult (fun s => s) (fun s => s)); apply derivable_pt_lim_id.
  - intros s t _ _ i Hi. assert (i = 0)%nat as -> by lia. cbn [fall nth]. replace (_ - _) with (s - t) by field. lra.
  - intros h. apply (C75_calculators 1 fall h SF).
Qed.

(** ** C78: Velocity Verlet and leapfrog *)
Print Assumptions C78_verlet.
Print Assumptions C78_leapfrog.
Print Assumptions C78_same.
Print Assumptions C78_reversible.
Print Assumptions C78_energy.
Print Assumptions C78_area.
Print Assumptions C78_euler_cromer_energy.
Lemma osc_mechanical : mechanical 1 (oscillators (fun _ => 1)) osc_r.
Proof. intros t x HX. split; [reflexivity|]. intros i Hi. assert (i = 0)%nat as -> by lia. unfold oscillators, osc_r. rewrite firstn_nth' by lia. cbn [nth Nat.add]. split; [reflexivity|ring]. Qed.
Definition osc_q : Qc -> list Qc -> list Qc := fun _ x => [nth 1 x (q 0 1); Qcopp (nth 0 x (q 0 1))].
Example C78_ex_compute : let r := Some ([(7, 8%positive); (-15, 32%positive)], [(0, 1%positive); (0, 1%positive)])%Z in
  show1 (VelocityVerletStep Qarith osc_q 2%nat (q 0 1) [q 1 1; q 0 1] [q 0 1; q (-1) 1] (q 1 2) [q 9 1; q 9 1] [q 9 1; q 9 1]) = r /\
  show1 (LeapfrogStep Qarith osc_q 2%nat (q 0 1) [q 1 1; q 0 1] [q 0 1; q (-1) 1] (q 1 2) [q 9 1; q 9 1] [q 9 1; q 9 1]) = r.
Proof. vm_compute. split; reflexivity. Qed.
Example C78_ex_energy : let h := (10 - 0) / INR 20 in exists S, integrate Rarith (LeapfrogStep Rarith) osc_r (1 + 1) [1; 0] 0 10 (Z.of_nat 20) = Ok S /\ forall k i, (k <= 20)%nat -> (i < 1)%nat -> exists q v, getXValue S (Z.of_nat k) (Z.of_nat i) = Ok q /\ getXValue S (Z.of_nat k) (Z.of_nat (1 + i)) = Ok v /\
    v * v + 1 * 1 * (1 - h * h * (1 * 1) / 4) * (q * q) = modified 1 (fun _ => 1) h [1; 0] i /\
    (h * h * (1 * 1) < 4 -> (1 - h * h * (1 * 1) / 4) * energy 1 (fun _ => 1) [1; 0] i <= v * v + 1 * 1 * (q * q) <= energy 1 (fun _ => 1) [1; 0] i / (1 - h * h * (1 * 1) / 4)).
Proof. apply (C78_energy (LeapfrogStep Rarith) 1 (fun _ => 1) osc_r [1; 0] 0 10 20); [auto|lia|unfold dims_fit; cbn; lia|reflexivity|apply osc_mechanical]. Qed.
(** The calculator called Euler-Cromer is not the semi-implicit Euler method (v' = v + h a(q), q' = q + h v'), which keeps the energy of an oscillator bounded: it is Heun's method, and the energy grows without end. *)
Theorem C78_euler_cromer_refuted :
  show1 (EulerCromerStep Qarith osc_q 2%nat (q 0 1) [q 1 1; q 0 1] [q 0 1; q (-1) 1] (q 1 2) [q 9 1; q 9 1] [q 9 1; q 9 1]) = Some ([(7, 8%positive); (-1, 2%positive)], [(-1, 8%positive); (0, 1%positive)])%Z /\
  map showq (let v := Qcminus (q 0 1) (Qcmult (q 1 2) (q 1 1)) in [Qcplus (q 1 1) (Qcmult (q 1 2) v); v]) = [(3, 4%positive); (-1, 2%positive)]%Z /\
  forall m w f t h x out err, mechanical m (oscillators w) f -> length x = (m + m)%nat -> length out = (m + m)%nat -> length err = (m + m)%nat -> h <> 0 ->
    exists y e, EulerCromerStep Rarith f (m + m)%nat t x (f t x) h out err = Ok (y, e) /\ forall i, (i < m)%nat -> w i <> 0 -> 0 < energy m w x i -> energy m w x i < energy m w y i.
Proof.
  split; [vm_compute; reflexivity|]. split; [vm_compute; reflexivity|]. intros m w f t h x out err HF HX HO HE Hh. destruct (C78_euler_cromer_energy m w f t h x out err HF HX HO HE) as (y & e & E & H). exists y, e. split; [exact E|]. intros i Hi Hw HP. rewrite (H i Hi).
  assert (HW : 0 < (h * w i) ^ 4). { replace ((h * w i) ^ 4) with (Rsqr (Rsqr (h * w i))) by (unfold Rsqr; ring). apply Rsqr_pos_lt. unfold Rsqr. assert (h * w i <> 0) by (apply Rmult_integral_contrapositive; auto). nra. } nra.
Qed.
Print Assumptions C78_euler_cromer_refuted.
(** With an odd number of variables Velocity Verlet and leapfrog never compute the last one: it keeps what the output vector held before, and in an integration it becomes 0 after the first step. *)
Theorem C78_odd_refuted :
  show1 (VelocityVerletStep Qarith (fun _ _ => [q 1 1; q 1 1; q 1 1]) 3%nat (q 0 1) [q 0 1; q 1 1; q 5 1] [q 1 1; q 1 1; q 1 1] (q 1 1) [q 9 1; q 9 1; q 9 1] [q 9 1; q 9 1; q 9 1]) =
    Some ([(3, 2%positive); (2, 1%positive); (9, 1%positive)], [(0, 1%positive); (0, 1%positive); (0, 1%positive)])%Z /\
  shown (integrate Qarith (LeapfrogStep Qarith) (fun _ _ => [q 1 1; q 1 1; q 1 1]) 3 [q 0 1; q 1 1; q 5 1] (q 0 1) (q 1 1) 1) =
    Some [((0, 1%positive), [(0, 1%positive); (1, 1%positive); (5, 1%positive)]); ((1, 1%positive), [(3, 2%positive); (2, 1%positive); (0, 1%positive)])]%Z.
Proof. vm_compute. split; reflexivity. Qed.
Print Assumptions C78_odd_refuted.
