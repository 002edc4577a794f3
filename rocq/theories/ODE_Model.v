(** * Model of the fixed-step solver of ordinary differential equations
      (mml/algorithms/ODESolvers/ODEStepCalculators.h, ODERKCoefficients.h, ODESolverFixedStep.h, mml/base/ODESystemSolution.h)

    Arithmetic is exact ([arith T] of RootFind_Model.v); the association of products and the sum that starts without 0 are not
    distinguished from the expressions of the code.  A system is a dimension [n] and a total function [f]: the derivatives at
    time t and state x (IODESystem.h:79; the code passes the vector to be filled).  Vectors are lists, indexing is unchecked ([UB]). *)

From Coq Require Import List Bool Arith ZArith.
From Verif Require Import Base Num Mat_Model RootFind_Model.
Import ListNotations.

Section ODE.
Context {T : Type} (A : arith T).
Local Notation "a + b" := (nadd (aops A) a b).
Local Notation "a - b" := (nsub (aops A) a b).
Local Notation "a * b" := (nmul (aops A) a b).
Local Notation "a / b" := (ndiv (aops A) a b).
Local Notation lit := (alit A).
Local Notation half := (lit 1 / lit 2).
Local Notation vec := (list T).

(** ** Loops over the components *)
(** for (i = 0; i < n; i++) v[i] = g(i) *)
Definition fill (n : nat) (g : nat -> res T) (v : vec) : res vec := for_range 0 n (fun v i => e <- g i ;; vset v i e) v.
(** the sum w_1 k_1[i] + ... + w_m k_m[i] *)
Definition wsum (ws : vec) (ks : list vec) (i : nat) : res T := for_each (fun s '(w, k) => ki <- vget k i ;; Ok (s + w * ki)) (combine ws ks) (lit 0).
(** v[i] = x[i] + h * (w_1 k_1[i] + ... + w_m k_m[i]) *)
Definition lin (n : nat) (x : vec) (h : T) (ws : vec) (ks : list vec) (v : vec) : res vec :=
  fill n (fun i => xi <- vget x i ;; s <- wsum ws ks i ;; Ok (xi + h * s)) v.
Definition zeros (n : nat) : vec := repeat (n0 (aops A)) n.
Definition sel (ks : list vec) (js : list nat) : list vec := map (fun j => nth j ks []) js.

(** ** Step calculators: f, n, t, x_start, dxdt, h, x_out, x_err_out; the new x_out and x_err_out *)
Definition calc := (T -> vec -> vec) -> nat -> T -> vec -> vec -> T -> vec -> vec -> res (vec * vec).
(** ODEStepCalculators.h:59-73 EulerStep_Calculator *)
Definition EulerStep : calc := fun f n t x dxdt h x_out x_err =>
  x_out <- lin n x h [lit 1] [dxdt] x_out ;;
  x_err <- fill n (fun _ => Ok (lit 0)) x_err ;;
  Ok (x_out, x_err).
(** ODEStepCalculators.h:78-102 EulerCromer_StepCalculator *)
Definition EulerCromerStep : calc := fun f n t x dxdt h x_out x_err =>
  x_new <- lin n x h [lit 1] [dxdt] (zeros n) ;;
  let dxdt_end := f (t + h) x_new in
  x_out <- lin n x (half * h) [lit 1; lit 1] [dxdt; dxdt_end] x_out ;;
  x_err <- fill n (fun i => a <- vget x_out i ;; b <- vget x_new i ;; Ok (a - b)) x_err ;;
  Ok (x_out, x_err).
(** ODEStepCalculators.h:106-141 VelocityVerlet_StepCalculator *)
Definition VelocityVerletStep : calc := fun f n t x dxdt h x_out x_err =>
  let half_n := Nat.div n 2 in
  x_out <- fill half_n (fun i => xi <- vget x i ;; v <- vget x (Nat.add half_n i) ;; a <- vget dxdt (Nat.add half_n i) ;; Ok (xi + v * h + half * a * h * h)) x_out ;;
  x_temp <- for_range 0 half_n (fun xt i => v <- vget x (Nat.add half_n i) ;; vset xt (Nat.add half_n i) v) x_out ;;
  let dxdt_temp := f (t + h) x_temp in
  x_out <- for_range 0 half_n (fun xo i => v <- vget x (Nat.add half_n i) ;; a <- vget dxdt (Nat.add half_n i) ;; b <- vget dxdt_temp (Nat.add half_n i) ;;
    vset xo (Nat.add half_n i) (v + half * (a + b) * h)) x_out ;;
  x_err <- fill n (fun _ => Ok (lit 0)) x_err ;;
  Ok (x_out, x_err).
(** ODEStepCalculators.h:145-186 Leapfrog_StepCalculator *)
Definition LeapfrogStep : calc := fun f n t x dxdt h x_out x_err =>
  let half_n := Nat.div n 2 in
  v_half <- fill half_n (fun i => v <- vget x (Nat.add half_n i) ;; a <- vget dxdt (Nat.add half_n i) ;; Ok (v + half * h * a)) (zeros half_n) ;;
  x_out <- fill half_n (fun i => xi <- vget x i ;; v <- vget v_half i ;; Ok (xi + h * v)) x_out ;;
  x_next <- for_range 0 half_n (fun xn i => v <- vget v_half i ;; vset xn (Nat.add half_n i) v) x_out ;;
  let dxdt_next := f (t + h) x_next in
  x_out <- for_range 0 half_n (fun xo i => v <- vget v_half i ;; a <- vget dxdt_next (Nat.add half_n i) ;; vset xo (Nat.add half_n i) (v + half * h * a)) x_out ;;
  x_err <- fill n (fun _ => Ok (lit 0)) x_err ;;
  Ok (x_out, x_err).
(** ODEStepCalculators.h:192-214 Midpoint_StepCalculator *)
Definition MidpointStep : calc := fun f n t x dxdt h x_out x_err =>
  x_mid <- lin n x (half * h) [lit 1] [dxdt] (zeros n) ;;
  let dx_mid := f (t + half * h) x_mid in
  x_out <- lin n x h [lit 1] [dx_mid] x_out ;;
  x_err <- fill n (fun _ => Ok (lit 0)) x_err ;;
  Ok (x_out, x_err).
(** ODEStepCalculators.h:218-256 RungeKutta4_StepCalculator *)
Definition RungeKutta4Step : calc := fun f n t x dxdt h x_out x_err =>
  let hh := h * half in
  let h6 := h / lit 6 in
  let xh := t + hh in
  x_temp <- lin n x hh [lit 1] [dxdt] (zeros n) ;;
  let dx_temp := f xh x_temp in
  x_temp <- lin n x hh [lit 1] [dx_temp] x_temp ;;
  let dx_mid := f xh x_temp in
  '(x_temp, dx_mid) <- for_range 0 n (fun '(xt, dm) i =>
    xi <- vget x i ;; mi <- vget dm i ;; ti <- vget dx_temp i ;;
    xt <- vset xt i (xi + h * mi) ;; dm <- vset dm i (mi + ti) ;; Ok (xt, dm)) (x_temp, dx_mid) ;;
  let dx_temp := f (t + h) x_temp in
  x_out <- lin n x h6 [lit 1; lit 1; lit 2] [dxdt; dx_temp; dx_mid] x_out ;;
  x_err <- fill n (fun _ => Ok (lit 0)) x_err ;;
  Ok (x_out, x_err).

(** the stages after the first: k_i = f(t + c_i h, x + h (a_i1 k_1 + ...)); [ks] are the stages so far, [xtemp] the scratch vector *)
Fixpoint stages (f : T -> vec -> vec) (n : nat) (t : T) (x : vec) (h : T) (cs : vec) (rows : list vec) (ks : list vec) (xtemp : vec) : res (list vec) :=
  match cs, rows with
  | c :: cs, a :: rows => xtemp <- lin n x h a ks xtemp ;; stages f n t x h cs rows (ks ++ [f (t + c * h) xtemp]) xtemp
  | _, _ => Ok ks
  end.
Local Notation "p // q" := (lit p / lit q) (at level 40).
(** ODERKCoefficients.h:46-89 CashKarp5: c2.., rows a2.., b, b* *)
Definition ck_c : vec := [1 // 5; 3 // 10; 3 // 5; lit 1; 7 // 8]%Z.
Definition ck_a : list vec := [[1 // 5]; [3 // 40; 9 // 40]; [3 // 10; (-9) // 10; 6 // 5]; [(-11) // 54; 5 // 2; (-70) // 27; 35 // 27];
  [1631 // 55296; 175 // 512; 575 // 13824; 44275 // 110592; 253 // 4096]]%Z.
Definition ck_b : vec := [37 // 378; lit 0; 250 // 621; 125 // 594; lit 0; 512 // 1771]%Z.
Definition ck_bstar : vec := [2825 // 27648; lit 0; 18575 // 48384; 13525 // 55296; 277 // 14336; 1 // 4]%Z.
(** ODERKCoefficients.h:112-171 DormandPrince5 *)
Definition dp5_c : vec := [1 // 5; 3 // 10; 4 // 5; 8 // 9; lit 1; lit 1]%Z.
Definition dp5_a : list vec := [[1 // 5]; [3 // 40; 9 // 40]; [44 // 45; (-56) // 15; 32 // 9]; [19372 // 6561; (-25360) // 2187; 64448 // 6561; (-212) // 729];
  [9017 // 3168; (-355) // 33; 46732 // 5247; 49 // 176; (-5103) // 18656]; [35 // 384; lit 0; 500 // 1113; 125 // 192; (-2187) // 6784; 11 // 84]]%Z.
Definition dp5_b : vec := [35 // 384; lit 0; 500 // 1113; 125 // 192; (-2187) // 6784; 11 // 84; lit 0]%Z.
Definition dp5_bstar : vec := [5179 // 57600; lit 0; 7571 // 16695; 393 // 640; (-92097) // 339200; 187 // 2100; 1 // 40]%Z.
(** ODERKCoefficients.h:190-257 DormandPrince8; the node of the first stage (0) is left out *)
Definition dp8_c : vec := [1 // 18; 1 // 12; 1 // 8; 5 // 16; 3 // 8; 59 // 400; 93 // 200; 5490023248 // 9719169821; 13 // 20; 1201146811 // 1299019798; lit 1; lit 1]%Z.
Definition dp8_a : list vec := [[1 // 18]; [1 // 48; 1 // 16]; [1 // 32; lit 0; 3 // 32]; [5 // 16; lit 0; (-75) // 64; 75 // 64]; [3 // 80; lit 0; lit 0; 3 // 16; 3 // 20];
  [29443841 // 614563906; lit 0; lit 0; 77736538 // 692538347; (-28693883) // 1125000000; 23124283 // 1800000000];
  [16016141 // 946692911; lit 0; lit 0; 61564180 // 158732637; 22789713 // 633445777; 545815736 // 2771057229; (-180193667) // 1043307555];
  [39632708 // 573591083; lit 0; lit 0; (-433636366) // 683701615; (-421739975) // 2616292301; 100302831 // 723423059; 790204164 // 839813087; 800635310 // 3783071287];
  [246121993 // 1340847787; lit 0; lit 0; (-37695042795) // 15268766246; (-309121744) // 1061227803; (-12992083) // 490766935; 6005943493 // 2108947869; 393006217 // 1396673457; 123872331 // 1001029789];
  [(-1028468189) // 846180014; lit 0; lit 0; 8478235783 // 508512852; 1311729495 // 1432422823; (-10304129995) // 1701304382; (-48777925059) // 3047939560; 15336726248 // 1032824649; (-45442868181) // 3398467696; 3065993473 // 597172653];
  [185892177 // 718116043; lit 0; lit 0; (-3185094517) // 667107341; (-477755414) // 1098053517; (-703635378) // 230739211; 5731566787 // 1027545527; 5232866602 // 850066563; (-4093664535) // 808688257; 3962137247 // 1805957418; 65686358 // 487910083];
  [403863854 // 491063109; lit 0; lit 0; (-5068492393) // 434740067; (-411421997) // 543043805; 652783627 // 914296604; 11173962825 // 925320556; (-13158990841) // 6184727034; 3936647629 // 1978049680; (-160528059) // 685178525; 248638103 // 1413531060; lit 0]]%Z.
Definition dp8_b8 : vec := [14005451 // 335480064; lit 0; lit 0; lit 0; lit 0; (-59238493) // 1068277825; 181606767 // 758867731; 561292985 // 797845732; (-1041891430) // 1371343529;
  760417239 // 1151165299; 118820643 // 751138087; (-528747749) // 2220607170; 1 // 4]%Z.
Definition dp8_b7 : vec := [13451932 // 455176623; lit 0; lit 0; lit 0; lit 0; (-808719846) // 976000145; 1757004468 // 5645159321; 656045339 // 265891186; (-3867574721) // 1518517206;
  465885868 // 322736535; 53011238 // 667516719; 2 // 45; lit 0]%Z.
(** ODERKCoefficients.h:84-89, 165-171: b - b*; ODEStepCalculators.h:483 *)
Definition diff_w (b bstar : vec) : vec := map (fun '(u, v) => u - v) (combine b bstar).
(** x_err[i] = h * (e_1 k_1[i] + ...) *)
Definition err_lin (n : nat) (h : T) (es : vec) (ks : list vec) (v : vec) : res vec := fill n (fun i => s <- wsum es ks i ;; Ok (h * s)) v.
(** ODEStepCalculators.h:271-309 RK5_CashKarp_Calculator: b2 and b5 are left out of the solution, e2 of the error *)
Definition CashKarpStep : calc := fun f _ t x dxdt h x_out x_err =>
  let n := length x in
  ks <- stages f n t x h ck_c ck_a [dxdt] (zeros n) ;;
  x_out <- lin n x h (map (fun j => nth j ck_b (lit 0)) [0; 2; 3; 5]) (sel ks [0; 2; 3; 5]) x_out ;;
  x_err <- err_lin n h (map (fun j => nth j (diff_w ck_b ck_bstar) (lit 0)) [0; 2; 3; 4; 5]) (sel ks [0; 2; 3; 4; 5]) x_err ;;
  Ok (x_out, x_err).
(** ODEStepCalculators.h:325-387 DormandPrince5_StepCalculator *)
Definition DormandPrince5Step : calc := fun f _ t x dxdt h x_out x_err =>
  let n := length x in
  k1 <- fill n (fun i => vget dxdt i) (zeros n) ;;
  ks <- stages f n t x h dp5_c dp5_a [k1] (zeros n) ;;
  x_out <- lin n x h dp5_b ks x_out ;;
  x_err <- err_lin n h (diff_w dp5_b dp5_bstar) ks x_err ;;
  Ok (x_out, x_err).
(** ODEStepCalculators.h:397-490 DormandPrince8_StepCalculator *)
Definition DormandPrince8Step : calc := fun f _ t x dxdt h x_out x_err =>
  let n := length x in
  k1 <- fill n (fun i => vget dxdt i) (zeros n) ;;
  ks <- stages f n t x h dp8_c dp8_a [k1] (zeros n) ;;
  x_out <- lin n x h dp8_b8 ks x_out ;;
  x_err <- err_lin n h (diff_w dp8_b8 dp8_b7) ks x_err ;;
  Ok (x_out, x_err).

(** ** ODESystemSolution *)
(** ODESystemSolution.h:27-36: _numStepsOK, _numStepsBad, _sysDim, _totalSavedSteps, _count, _t1, _t2, _tval, _xval *)
Record sol := mkSol { s_ok : nat; s_bad : nat; s_dim : Z; s_cap : Z; s_count : Z; s_t1 : T; s_t2 : T; s_tval : vec; s_xval : matrix T }.
(** Vector.h:163-166 Resize of a Vector: std::vector::resize; a negative length converts to an enormous one *)
Definition vec_resize (v : vec) (n : Z) : res vec :=
  if (n <? 0)%Z then Throw LengthError else Ok (firstn (Z.to_nat n) v ++ repeat (n0 (aops A)) (Nat.sub (Z.to_nat n) (length v))).
(** ODESystemSolution.h:56-62 *)
Definition sol_new (x1 x2 : T) (dim maxSteps : Z) : res sol :=
  tv <- vec_resize [] (maxSteps + 1)%Z ;;
  xv <- mat_resize (aops A) (mat_empty (T := T)) dim (maxSteps + 1)%Z false ;;
  Ok (mkSol 0 0 dim (maxSteps + 1)%Z 0 x1 x2 tv xv).
Definition with_cap (S : sol) (cap : Z) : res sol :=
  tv <- vec_resize (s_tval S) cap ;;
  xv <- mat_resize (aops A) (s_xval S) (s_dim S) cap true ;;
  Ok (mkSol (s_ok S) (s_bad S) (s_dim S) cap (s_count S) (s_t1 S) (s_t2 S) tv xv).
(** ODESystemSolution.h:39-46 ExtendSavedSteps: static_cast<int>(c * 1.5) + 1 (truncation towards zero) *)
Definition ExtendSavedSteps (S : sol) : res sol := with_cap S (Z.quot (s_cap S * 3) 2 + 1)%Z.
(** ODESystemSolution.h:68-70 *)
Definition incrementSuccessfulSteps (S : sol) : sol := mkSol (Nat.add (s_ok S) 1) (s_bad S) (s_dim S) (s_cap S) (s_count S) (s_t1 S) (s_t2 S) (s_tval S) (s_xval S).
Definition incrementRejectedSteps (S : sol) : sol := mkSol (s_ok S) (Nat.add (s_bad S) 1) (s_dim S) (s_cap S) (s_count S) (s_t1 S) (s_t2 S) (s_tval S) (s_xval S).
(** ODESystemSolution.h:80-96: getTotalNumSteps, getNumSteps, isEmpty, size, capacity *)
Definition getTotalNumSteps (S : sol) : nat := Nat.add (s_ok S) (s_bad S).
Definition getNumSteps (S : sol) : Z := if (0 <? s_count S)%Z then (s_count S - 1)%Z else 0%Z.
Definition isEmpty (S : sol) : bool := (s_count S =? 0)%Z.
(** ODESystemSolution.h:101-107 *)
Definition reserve (S : sol) (n : Z) : res sol := if (s_cap S <? n)%Z then with_cap S n else Ok S.
(** ODESystemSolution.h:118-122 *)
Definition getTValue (S : sol) (ind : Z) : res T :=
  if (ind <? 0)%Z || (s_count S <=? ind)%Z then Throw IndexError else vget (s_tval S) (Z.to_nat ind).
(** ODESystemSolution.h:128-134 *)
Definition getXValue (S : sol) (ind component : Z) : res T :=
  if (ind <? 0)%Z || (s_count S <=? ind)%Z then Throw IndexError
  else if (component <? 0)%Z || (s_dim S <=? component)%Z then Throw IndexError
  else mget (s_xval S) (Z.to_nat component) (Z.to_nat ind).
(** ODESystemSolution.h:139-145; Matrix.h:461-470 VectorFromRow *)
Definition getXValues (S : sol) (component : Z) : res vec :=
  if (component <? 0)%Z || (s_dim S <=? component)%Z then Throw IndexError
  else if (Z.of_nat (m_rows (s_xval S)) <=? component)%Z then Throw IndexError
  else fill (m_cols (s_xval S)) (fun j => mget (s_xval S) (Z.to_nat component) j) (zeros (m_cols (s_xval S))).
(** ODESystemSolution.h:149-157 *)
Definition getXValuesAtEnd (S : sol) : res vec :=
  if (s_count S =? 0)%Z then Throw IndexError
  else fill (Z.to_nat (s_dim S)) (fun i => mget (s_xval S) i (Z.to_nat (s_count S - 1))) (zeros (Z.to_nat (s_dim S))).
Definition set_count (S : sol) (ind : Z) (tv : vec) (xv : matrix T) : sol :=
  mkSol (s_ok S) (s_bad S) (s_dim S) (s_cap S) (if (s_count S <? ind + 1)%Z then ind + 1 else s_count S)%Z (s_t1 S) (s_t2 S) tv xv.
(** ODESystemSolution.h:163-173 *)
Definition setTVal (S : sol) (ind : Z) (x : T) : res sol :=
  if (ind <? 0)%Z then Throw IndexError else
  S <- (if (s_cap S <=? ind)%Z then ExtendSavedSteps S else Ok S) ;;
  tv <- vset (s_tval S) (Z.to_nat ind) x ;;
  Ok (set_count S ind tv (s_xval S)).
(** ODESystemSolution.h:179-192 *)
Definition setXVal (S : sol) (ind component : Z) (x : T) : res sol :=
  if (ind <? 0)%Z then Throw IndexError else
  if (component <? 0)%Z || (s_dim S <=? component)%Z then Throw IndexError else
  S <- (if (s_cap S <=? ind)%Z then ExtendSavedSteps S else Ok S) ;;
  xv <- mset (s_xval S) (Z.to_nat component) (Z.to_nat ind) x ;;
  Ok (set_count S ind (s_tval S) xv).
(** ODESystemSolution.h:200-215 *)
Definition fillValues (S : sol) (ind : Z) (x : T) (y : vec) : res sol :=
  if (ind <? 0)%Z then Throw IndexError else
  if negb (Z.of_nat (length y) =? s_dim S)%Z then Throw InvalidArgument else
  S <- (if (s_cap S <=? ind)%Z then ExtendSavedSteps S else Ok S) ;;
  tv <- vset (s_tval S) (Z.to_nat ind) x ;;
  xv <- for_range 0 (Z.to_nat (s_dim S)) (fun M i => yi <- vget y i ;; mset M i (Z.to_nat ind) yi) (s_xval S) ;;
  Ok (set_count S ind tv xv).
(** ODESystemSolution.h:219-226 *)
Definition setFinalSize (S : sol) (numDoneSteps : Z) : res sol :=
  S <- with_cap S (numDoneSteps + 1)%Z ;;
  Ok (mkSol (s_ok S) (s_bad S) (s_dim S) (s_cap S) (numDoneSteps + 1)%Z (s_t1 S) (s_t2 S) (s_tval S) (s_xval S)).

(** ** ODESolverFixedStep.h:54-73 integrate; with 0 steps h is a division by zero that is not used *)
Definition integrate (step : calc) (f : T -> vec -> vec) (n : nat) (initCond : vec) (t1 t2 : T) (numSteps : Z) : res sol :=
  S <- sol_new t1 t2 (Z.of_nat n) numSteps ;;
  S <- fillValues S 0 t1 initCond ;;
  let h := (t2 - t1) / lit numSteps in
  '(S, _, _, _, _) <- for_range 1 (Z.to_nat (numSteps + 1)) (fun '(S, t, x, x_out, x_err) k =>
    let dxdt := f t x in
    '(x_out, x_err) <- step f n t x dxdt h x_out x_err ;;
    let t := t + h in
    S <- fillValues S (Z.of_nat k) t x_out ;;
    Ok (S, t, x_out, x_out, x_err)) (S, t1, initCond, zeros n, zeros n) ;;
  Ok S.
End ODE.
Arguments s_ok {T} _. Arguments s_bad {T} _. Arguments s_dim {T} _. Arguments s_cap {T} _. Arguments s_count {T} _. Arguments s_t1 {T} _. Arguments s_t2 {T} _.
Arguments s_tval {T} _. Arguments s_xval {T} _.
