(** * Model of the adaptive solvers of ordinary differential equations
      (mml/algorithms/ODESolvers/ODESteppers.h: DormandPrince5_Stepper, CashKarp_Stepper; ODESolverAdaptive.h: ODEAdaptiveIntegrator)

    Exact arithmetic; [pw] is std::pow on positive arguments and [ceil] is std::ceil followed by the conversion to int (no overflow).
    The power of an error ratio of 0 with a negative exponent is infinite in the code and is written as a case of its own here.
    The loops that retry a step, that advance and that output have fuel ([NoFuel] when it runs out).  Not modelled: NaN, timing,
    the smallest and largest step and the messages of the statistics, the detailed (non-throwing) variants. *)

From Coq Require Import List Bool Arith ZArith.
From Verif Require Import Base Num Mat_Model RootFind_Model ODE_Model.
Import ListNotations.

Section Adaptive.
Context {T : Type} (A : arith T) (pw : T -> T -> T) (ceil : T -> Z).
Local Notation "a + b" := (nadd (aops A) a b).
Local Notation "a - b" := (nsub (aops A) a b).
Local Notation "a * b" := (nmul (aops A) a b).
Local Notation "a / b" := (ndiv (aops A) a b).
Local Notation "a <? b" := (altb A a b).
Local Notation lit := (alit A).
Local Notation abs := (aabs A).
Local Notation vec := (list T).
Local Notation "p // q" := (lit p / lit q) (at level 40).
(** std::max(a, b), std::min(a, b) *)
Definition amax (a b : T) : T := if a <? b then b else a.
Definition amin (a b : T) : T := if b <? a then b else a.
(** Constants::Eps (MMLBase.h:129), Precision::DivisionSafetyThreshold (MMLPrecision.h:154), for double *)
Definition eps52 : T := 1 // (2 ^ 52).
Definition tiny : T := 1 // (10 ^ 30).

(** ODESteppers.h:26-39 StepResult; returned only when accepted *)
Record step_result := mkSR { hDone : T; hNext : T; errMax : T; funcEvals : nat }.

Section Stepper.
Variables (f : T -> vec -> vec) (n : nat).
(** the largest |h (e_1 k_1[i] + ...)| / (|x[i]| + |h k_1[i]| + tiny) over the components, divided by eps *)
Definition err_ratio (x k1 : vec) (h eps : T) (es : vec) (ks : list vec) : res T :=
  m <- for_range 0 n (fun m i => s <- wsum A es ks i ;; xi <- vget x i ;; ki <- vget k1 i ;; Ok (amax m (abs (h * s) / (abs xi + abs (h * ki) + tiny)))) (lit 0) ;;
  Ok (m / eps).
(** cubic Hermite interpolation (ODESteppers.h:281-305, 484-503) *)
Definition hermite_at (t tOld h : T) (xOld d0 xNew d1 : vec) : res vec :=
  let th := (t - tOld) / h in let th2 := th * th in let th3 := th2 * th in
  let h00 := lit 2 * th3 - lit 3 * th2 + lit 1 in let h10 := th3 - lit 2 * th2 + th in
  let h01 := lit (-2) * th3 + lit 3 * th2 in let h11 := th3 - th2 in
  fill n (fun i => x0 <- vget xOld i ;; k0 <- vget d0 i ;; x1 <- vget xNew i ;; k1 <- vget d1 i ;;
    Ok (h00 * x0 + h10 * (h * k0) + h01 * x1 + h11 * (h * k1))) (zeros A n).

(** ** DormandPrince5_Stepper (ODESteppers.h:100-318) *)
(** the stages, the data of the last accepted step, the stored derivative flag and the previous error ratio *)
Record dp5 := mkDP { d_ks : list vec; d_t : T; d_h : T; d_x : vec; d_ready : bool; d_fsal : bool; d_err : T }.
(** ODESteppers.h:147-164 *)
Definition dp5_new : dp5 := mkDP (repeat (zeros A n) 7) (lit 0) (lit 0) (zeros A n) false false (lit 1).
(** ODESteppers.h:313-317 resetFSAL *)
Definition dp5_reset (s : dp5) : dp5 := mkDP (d_ks s) (d_t s) (d_h s) (d_x s) false false (lit 1).
(** ODESteppers.h:166-275 doStep: the loop; [ev] counts the evaluations *)
Fixpoint dp5_loop (fuel : nat) (s : dp5) (t : T) (x dxdt : vec) (h eps : T) (ev : nat) : res (dp5 * vec * vec * step_result) :=
  match fuel with
  | O => NoFuel
  | S fuel =>
    let k1 := if d_fsal s then nth 6 (d_ks s) [] else dxdt in
    let ev := if d_fsal s then ev else Nat.add ev 1 in
    ks <- stages A f n t x h (firstn 5 (dp5_c A)) (firstn 5 (dp5_a A)) [k1] (zeros A n) ;;
    xNew <- lin A n x h (map (fun j => nth j (dp5_b A) (lit 0)) [0; 2; 3; 4; 5]) (sel ks [0; 2; 3; 4; 5]) (zeros A n) ;;
    let ks := ks ++ [f (t + h) xNew] in
    let ev := Nat.add ev 6 in
    e <- err_ratio x k1 h eps (map (fun j => nth j (diff_w A (dp5_b A) (dp5_bstar A)) (lit 0)) [0; 2; 3; 4; 5; 6]) (sel ks [0; 2; 3; 4; 5; 6]) ;;
    if negb (lit 1 <? e) then
      let k7 := nth 6 ks [] in
      let factor := if aeqb A e (lit 0) then lit 10 else amax (1 // 5) (amin (lit 10) (9 // 10 * pw e ((-17) // 100) * pw (d_err s) (4 // 100))) in
      Ok (mkDP ks t h x true true (amax e (1 // 10000)), xNew, k7, mkSR h (h * factor) e ev)
    else
      let h := h * amax (1 // 5) (9 // 10 * pw e ((-17) // 100)) in
      let s := mkDP ks (d_t s) (d_h s) (d_x s) (d_ready s) false (d_err s) in
      if abs h <? eps52 then Throw OtherError else dp5_loop fuel s t x dxdt h eps ev
  end.
Definition dp5_doStep (fuel : nat) (s : dp5) (t : T) (x dxdt : vec) (htry eps : T) := dp5_loop fuel s t x dxdt htry eps 0.
(** ODESteppers.h:277-305 interpolate: the end of the step is computed from the stages again *)
Definition dp5_interpolate (s : dp5) (t : T) : res vec :=
  if negb (d_ready s) then Throw OtherError else
  xEnd <- lin A n (d_x s) (d_h s) (map (fun j => nth j (dp5_b A) (lit 0)) [0; 2; 3; 4; 5]) (sel (d_ks s) [0; 2; 3; 4; 5]) (zeros A n) ;;
  hermite_at t (d_t s) (d_h s) (d_x s) (nth 0 (d_ks s) []) xEnd (nth 6 (d_ks s) []).

(** ** CashKarp_Stepper (ODESteppers.h:330-517) *)
Record ck := mkCK { c_ks : list vec; c_t : T; c_h : T; c_x : vec; c_xnew : vec; c_dxnew : vec; c_ready : bool }.
Definition ck_new : ck := mkCK (repeat (zeros A n) 6) (lit 0) (lit 0) (zeros A n) (zeros A n) (zeros A n) false.
(** ODESteppers.h:514-516 *)
Definition ck_reset (s : ck) : ck := mkCK (c_ks s) (c_t s) (c_h s) (c_x s) (c_xnew s) (c_dxnew s) false.
(** ODESteppers.h:396-477 doStep; the evaluations are those of the last attempt *)
Fixpoint ck_loop (fuel : nat) (s : ck) (t : T) (x dxdt : vec) (h eps : T) : res (ck * vec * vec * step_result) :=
  match fuel with
  | O => NoFuel
  | S fuel =>
    ks <- stages A f n t x h (ck_c A) (ck_a A) [dxdt] (zeros A n) ;;
    xNew <- lin A n x h (map (fun j => nth j (ck_b A) (lit 0)) [0; 2; 3; 5]) (sel ks [0; 2; 3; 5]) (zeros A n) ;;
    e <- err_ratio x dxdt h eps (map (fun j => nth j (diff_w A (ck_b A) (ck_bstar A)) (lit 0)) [0; 2; 3; 4; 5]) (sel ks [0; 2; 3; 4; 5]) ;;
    if negb (lit 1 <? e) then
      let d := f (t + h) xNew in
      let hn := if 189 // 1000000 <? e then 9 // 10 * h * pw e ((-1) // 5) else lit 5 * h in
      Ok (mkCK ks t h x xNew d true, xNew, d, mkSR h hn e 7)
    else
      let htemp := 9 // 10 * h * pw e ((-1) // 4) in
      let h := if negb (h <? lit 0) then amax htemp (1 // 10 * h) else amin htemp (1 // 10 * h) in
      let s := mkCK ks (c_t s) (c_h s) (c_x s) xNew (c_dxnew s) (c_ready s) in
      if abs h <? eps52 then Throw OtherError else ck_loop fuel s t x dxdt h eps
  end.
(** ODESteppers.h:479-503 *)
Definition ck_interpolate (s : ck) (t : T) : res vec :=
  if negb (c_ready s) then Throw OtherError else hermite_at t (c_t s) (c_h s) (c_x s) (nth 0 (c_ks s) []) (c_xnew s) (c_dxnew s).
End Stepper.

(** ** IAdaptiveStepper (ODESteppers.h:52-88): what the integrator uses *)
Record stepper (St : Type) := mkStepper { sp_reset : St -> St;
  sp_step : nat -> St -> T -> vec -> vec -> T -> T -> res (St * vec * vec * step_result); sp_interp : St -> T -> res vec }.
Arguments sp_reset {St} _ _. Arguments sp_step {St} _ _ _ _ _ _ _ _. Arguments sp_interp {St} _ _ _.
Definition dp5_stepper (f : T -> vec -> vec) (n : nat) : stepper dp5 := mkStepper dp5 dp5_reset (dp5_doStep f n) (dp5_interpolate n).
Definition ck_stepper (f : T -> vec -> vec) (n : nat) : stepper ck := mkStepper ck ck_reset (ck_loop f n) (ck_interpolate n).

(** ** ODEAdaptiveIntegrator *)
Section Integrator.
Context {St : Type} (sp : stepper St) (f : T -> vec -> vec) (n : nat).
(** ODESolverAdaptive.h:168-211 estimateInitialStep *)
Definition estimateInitialStep (t0 : T) (x0 : vec) (tEnd : T) : res T :=
  let f0 := f t0 x0 in
  '(d0, d1) <- for_range 0 n (fun '(d0, d1) i => xi <- vget x0 i ;; fi <- vget f0 i ;; let scale := abs xi + 1 // (10 ^ 10) in
    Ok (amax d0 (abs xi / scale), amax d1 (abs fi / scale))) (lit 0, lit 0) ;;
  let h0 := if (d0 <? 1 // 100000) || (d1 <? 1 // 100000) then 1 // 1000000 else 1 // 100 * d0 / d1 in
  let h0 := amin h0 (abs (tEnd - t0)) in
  x1 <- lin A n x0 h0 [lit 1] [f0] (zeros A n) ;;
  let f1 := f (t0 + h0) x1 in
  d2 <- for_range 0 n (fun d2 i => xi <- vget x0 i ;; a <- vget f1 i ;; b <- vget f0 i ;; let scale := abs xi + 1 // (10 ^ 10) in
    Ok (amax d2 (abs (a - b) / scale / h0))) (lit 0) ;;
  let m := amax d1 d2 in
  let h1 := if negb (1 // (10 ^ 15) <? m) then amax (1 // 1000000) (h0 * (1 // 1000)) else pw (1 // 100 / m) (1 // 5) in
  Ok (amin (amin (lit 100 * h0) h1) (abs (tEnd - t0))).

(** ODESolverAdaptive.h:267-274: the outputs inside one step; [num] is the number of output points *)
Fixpoint outputs (fuel : nat) (st : St) (S : sol) (tNext : T) (idx : nat) (tNew dt : T) (num : Z) : res (sol * T * nat) :=
  if negb (tNew + eps52 <? tNext) && (Z.of_nat idx <? num)%Z then
    match fuel with
    | O => NoFuel
    | S fuel =>
      '(S, idx) <- (if negb (tNew <? tNext) then v <- sp_interp sp st tNext ;; S <- fillValues A S (Z.of_nat idx) tNext v ;; Ok (S, Nat.add idx 1) else Ok (S, idx)) ;;
      outputs fuel st S (tNext + dt) idx tNew dt num
    end
  else Ok (S, tNext, idx).
(** ODESolverAdaptive.h:252-290: the main loop; [fs], [fo] fuel of the inner loops; the count of accepted steps and of evaluations *)
Fixpoint advance (fuel fs fo : nat) (st : St) (S : sol) (t : T) (x dxdt : vec) (h tNext : T) (idx : nat) (acc ev : nat) (tEnd dt eps hmin : T) (num : Z)
  : res (St * sol * T * vec * nat * nat * nat) :=
  if t <? tEnd - eps52 then
    match fuel with
    | O => NoFuel
    | S fuel =>
      let h := if tEnd <? t + h then tEnd - t else h in
      '(st, x, dxdt, r) <- sp_step sp fs st t x dxdt h eps ;;
      let tNew := t + hDone r in
      '(S, tNext, idx) <- outputs fo st S tNext idx tNew dt num ;;
      if hNext r <? hmin then Throw OtherError
      else advance fuel fs fo st S tNew x dxdt (hNext r) tNext idx (Nat.add acc 1) (Nat.add ev (funcEvals r)) tEnd dt eps hmin num
    end
  else Ok (st, S, t, x, idx, acc, ev).
(** ODESolverAdaptive.h:222-298 integrate *)
Definition integrate_adaptive (fuel fs fo : nat) (st : St) (x0 : vec) (t0 tEnd dt eps h0 hmin : T) : res (St * sol * nat * nat) :=
  let num := Z.add (ceil ((tEnd - t0) / dt)) 1 in
  S <- sol_new A t0 tEnd (Z.of_nat n) (num - 1)%Z ;;
  let st := sp_reset sp st in
  let dxdt := f t0 x0 in
  h <- (if lit 0 <? h0 then Ok h0 else estimateInitialStep t0 x0 tEnd) ;;
  let h := amin h (tEnd - t0) in
  S <- fillValues A S 0 t0 x0 ;;
  '(st, S, t, x, idx, acc, ev) <- advance fuel fs fo st S t0 x0 dxdt h (t0 + dt) 1 0 0 tEnd dt eps hmin num ;;
  S <- (if (Z.of_nat idx <? num)%Z then fillValues A S (Z.of_nat idx) tEnd x else Ok S) ;;
  Ok (st, S, acc, ev).

(** ODESolverAdaptive.h:346-356: the outputs at given times that the step has reached *)
Fixpoint outputs_at (fuel : nat) (st : St) (S : sol) (idx : nat) (times : vec) (tNew : T) (x : vec) : res (sol * nat) :=
  if Nat.ltb idx (length times) then
    tOut <- vget times idx ;;
    if negb (tNew + eps52 <? tOut) then
      match fuel with
      | O => NoFuel
      | S fuel =>
        S <- (if abs (tOut - tNew) <? eps52 then fillValues A S (Z.of_nat idx) tNew x
              else v <- sp_interp sp st tOut ;; fillValues A S (Z.of_nat idx) tOut v) ;;
        outputs_at fuel st S (Nat.add idx 1) times tNew x
      end
    else Ok (S, idx)
  else Ok (S, idx).
(** ODESolverAdaptive.h:334-367 *)
Fixpoint advance_at (fuel fs : nat) (st : St) (S : sol) (t : T) (x dxdt : vec) (h : T) (idx : nat) (times : vec) (tEnd eps hmin : T) (acc ev : nat)
  : res (St * sol * nat * nat) :=
  if Nat.ltb idx (length times) then
    match fuel with
    | O => NoFuel
    | S fuel =>
      tTarget <- vget times idx ;;
      let h := if tTarget <? t + h then tTarget - t else h in
      '(st, x, dxdt, r) <- sp_step sp fs st t x dxdt h eps ;;
      let tNew := t + hDone r in
      '(S, idx) <- outputs_at (length times) st S idx times tNew x ;;
      if (hNext r <? hmin) && (tNew <? tEnd - eps52) then Throw OtherError
      else advance_at fuel fs st S tNew x dxdt (hNext r) idx times tEnd eps hmin (Nat.add acc 1) (Nat.add ev (funcEvals r))
    end
  else Ok (st, S, acc, ev).
(** ODESolverAdaptive.h:306-370 integrateAt *)
Definition integrateAt (fuel fs : nat) (st : St) (x0 times : vec) (eps h0 hmin : T) : res (St * sol * nat * nat) :=
  if Nat.ltb (length times) 2 then Throw OtherError else
  t0 <- vget times 0 ;;
  tEnd <- vget times (Nat.sub (length times) 1) ;;
  S <- sol_new A t0 tEnd (Z.of_nat n) (Z.of_nat (length times) - 1)%Z ;;
  let st := sp_reset sp st in
  let dxdt := f t0 x0 in
  h <- (if lit 0 <? h0 then Ok h0 else estimateInitialStep t0 x0 tEnd) ;;
  S <- fillValues A S 0 t0 x0 ;;
  advance_at fuel fs st S t0 x0 dxdt h 1 times tEnd eps hmin 0 0.
End Integrator.
End Adaptive.
Arguments hDone {T} _. Arguments hNext {T} _. Arguments errMax {T} _. Arguments funcEvals {T} _.
Arguments d_ks {T} _. Arguments d_t {T} _. Arguments d_h {T} _. Arguments d_x {T} _. Arguments d_ready {T} _. Arguments d_fsal {T} _. Arguments d_err {T} _.
Arguments c_ks {T} _. Arguments c_t {T} _. Arguments c_h {T} _. Arguments c_x {T} _. Arguments c_xnew {T} _. Arguments c_dxnew {T} _. Arguments c_ready {T} _.
Arguments sp_reset {T St} _ _. Arguments sp_step {T St} _ _ _ _ _ _ _ _. Arguments sp_interp {T St} _ _ _.
