(** * Model of the one-dimensional interpolation classes
      (mml/base/InterpolatedFunctions/InterpolatedRealFunction.h)

    Arithmetic is exact ([arith T] of RootFind_Model.v); [a >= b] is "not a < b" and [a == b] is "neither less nor
    greater".  Vectors are lists; reading outside them is [UB].  The error estimates of the polynomial and rational
    classes (mutable members that do not influence the value) are left out. *)

From Coq Require Import List Bool Arith ZArith.
From Verif Require Import Base Num Tri_Model RootFind_Model.
Import ListNotations.

(** InterpolatedRealFunction.h:52-55  _x, _y, _usedPoints (_numPoints is the size of _x) *)
Record interp (T : Type) := mkInterp { ip_x : list T; ip_y : list T; ip_m : nat }.
Arguments mkInterp {T} _ _ _. Arguments ip_x {T} _. Arguments ip_y {T} _. Arguments ip_m {T} _.

(** ** Locating the interval: only comparisons are used *)
Section Locate.
Context {T : Type} (geb : T -> T -> bool).
(** InterpolatedRealFunction.h:148-154  the bisection; the fuel is the number of points *)
Fixpoint locate_loop (fuel : nat) (xs : list T) (asc : bool) (x : T) (lo hi : nat) : res nat :=
  match fuel with
  | 0 => NoFuel
  | S fuel' =>
    if 1 <? hi - lo then
      let mid := (hi + lo) / 2 in
      xm <- vget xs mid ;;
      if Bool.eqb (geb x xm) asc then locate_loop fuel' xs asc x mid hi else locate_loop fuel' xs asc x lo mid
    else Ok lo
  end.
(** InterpolatedRealFunction.h:141-156  locate *)
Definition locate (ip : interp T) (x : T) : res nat :=
  let n := length (ip_x ip) in
  last <- vget (ip_x ip) (n - 1) ;; first <- vget (ip_x ip) 0 ;;
  lo <- locate_loop n (ip_x ip) (geb last first) x 0 (n - 1) ;;
  Ok (Z.to_nat (Z.max 0 (Z.min (Z.of_nat n - Z.of_nat (ip_m ip)) (Z.of_nat lo - Z.quot (Z.of_nat (ip_m ip) - 2) 2)))).
End Locate.

Section Interp.
Context {T : Type} (A : arith T).
Local Notation "a + b" := (nadd (aops A) a b).
Local Notation "a - b" := (nsub (aops A) a b).
Local Notation "a * b" := (nmul (aops A) a b).
Local Notation "a / b" := (ndiv (aops A) a b).
Local Notation "- a" := (nopp (aops A) a).
Local Notation "a <? b" := (altb A a b).
Local Notation lit := (alit A).
Definition ageb (a b : T) : bool := negb (a <? b).
Local Notation X ip i := (vget (ip_x ip) i).
Local Notation Y ip i := (vget (ip_y ip) i).

(** InterpolatedRealFunction.h:64-77  constructor of the base class: sizes and duplicate abscissas (the size of y is not
    looked at) *)
Definition has_dup (xs : list T) : bool :=
  existsb (fun i => existsb (fun j => match nth_error xs i, nth_error xs j with Some a, Some b => aeqb A a b | _, _ => false end)
                            (seq (S i) (length xs - S i))) (seq 0 (length xs)).
Definition interp_new (xs ys : list T) (m : Z) : res (interp T) :=
  let n := Z.of_nat (length xs) in
  if ((n <? 2) || (m <? 2) || (n <? m))%Z then Throw InvalidArgument
  else if has_dup xs then Throw InvalidArgument
  else Ok (mkInterp xs ys (Z.to_nat m)).

(** ** Piecewise linear: InterpolatedRealFunction.h:202-210  calcInterpValue; 130-133 operator() *)
Definition linear_value (ip : interp T) (extrapolate : bool) (j : nat) (x : T) : res T :=
  lo <- X ip 0 ;; hi <- X ip (Nat.sub (length (ip_x ip)) 1) ;;
  if negb extrapolate && ((x <? lo) || (hi <? x)) then Ok (lit 0)
  else
    xj <- X ip j ;; xk <- X ip (Nat.add j 1) ;;
    if aeqb A xj xk then Y ip j
    else yj <- Y ip j ;; yk <- Y ip (Nat.add j 1) ;; Ok (yj + ((x - xj) / (xk - xj) * (yk - yj))).
Definition linear_eval (ip : interp T) (extrapolate : bool) (x : T) : res T :=
  j <- locate ageb ip x ;; linear_value ip extrapolate j x.

(** ** Polynomial (Neville): InterpolatedRealFunction.h:261-300 *)
(** 266-277: the nearest table entry, and the initial columns c and d *)
Definition neville_init (ip : interp T) (s : nat) (x : T) : res (nat * list T) :=
  x0 <- X ip s ;;
  '(ns, _, c) <- for_range 0 (ip_m ip) (fun '(ns, dif, c) i =>
    xi <- X ip (Nat.add s i) ;;
    yi <- Y ip (Nat.add s i) ;;
    c <- vset c i yi ;;
    let dift := aabs A (x - xi) in
    Ok (if dift <? dif then (i, dift, c) else (ns, dif, c))) (0, aabs A (x - x0), repeat (lit 0) (ip_m ip)) ;;
  Ok (ns, c).
(** 281-293: one column of the tableau *)
Definition neville_column (ip : interp T) (s : nat) (x : T) (m : nat) (c d : list T) : res (list T * list T) :=
  for_range 0 (Nat.sub (ip_m ip) m) (fun '(c, d) i =>
    xi <- X ip (Nat.add s i) ;; xm <- X ip (Nat.add (Nat.add s i) m) ;;
    let ho := xi - x in let hp := xm - x in
    ci <- vget c (Nat.add i 1) ;; di <- vget d i ;;
    let w := ci - di in
    if aeqb A (ho - hp) (lit 0) then Throw NumericalError
    else
      let den := w / (ho - hp) in
      d <- vset d i (hp * den) ;; c <- vset c i (ho * den) ;; Ok (c, d)) (c, d).
Definition neville_value (ip : interp T) (s : nat) (x : T) : res T :=
  '(ns, c) <- neville_init ip s x ;;
  y <- Y ip (Nat.add s ns) ;;
  '(_, _, y, _) <- for_range 1 (ip_m ip) (fun '(c, d, y, ns) m =>
    '(c, d) <- neville_column ip s x m c d ;;
    if (2 * (ns + 1) <? Z.of_nat (ip_m ip) - Z.of_nat m)%Z
    then dy <- zget c (ns + 1)%Z ;; Ok (c, d, y + dy, ns)
    else dy <- zget d ns ;; Ok (c, d, y + dy, (ns - 1)%Z)) (c, c, y, (Z.of_nat ns - 1)%Z) ;;
  Ok y.
Definition neville_eval (ip : interp T) (x : T) : res T := j <- locate ageb ip x ;; neville_value ip j x.

(** ** Rational (Bulirsch-Stoer): InterpolatedRealFunction.h:610-647; [tiny] is 1.0e-99 *)
Definition tiny : T := lit 1 / lit (10 ^ 99).
(** the search for the nearest entry; [inr y]: x is a data point *)
Definition rational_init (ip : interp T) (s : nat) (x : T) : res ((nat * T * list T * list T) + T) :=
  x0 <- X ip s ;;
  for_each_brk (fun '(ns, hh, c, d) i =>
    xi <- X ip (Nat.add s i) ;;
    let h := aabs A (x - xi) in
    yi <- Y ip (Nat.add s i) ;;
    if aeqb A h (lit 0) then Ok (inr yi)
    else
      c <- vset c i yi ;; d <- vset d i (yi + tiny) ;;
      Ok (inl (if h <? hh then (i, h, c, d) else (ns, hh, c, d)))) (seq 0 (ip_m ip))
    (0, aabs A (x - x0), repeat (lit 0) (ip_m ip), repeat (lit 0) (ip_m ip)).
Definition rational_column (ip : interp T) (s : nat) (x : T) (m : nat) (c d : list T) : res (list T * list T) :=
  for_range 0 (Nat.sub (ip_m ip) m) (fun '(c, d) i =>
    ci <- vget c (Nat.add i 1) ;; di <- vget d i ;;
    let w := ci - di in
    xm <- X ip (Nat.add (Nat.add s i) m) ;; xi <- X ip (Nat.add s i) ;;
    let t := (xi - x) * di / (xm - x) in
    if aeqb A (t - ci) (lit 0) then Throw NumericalError
    else
      let dd := w / (t - ci) in
      d <- vset d i (ci * dd) ;; c <- vset c i (t * dd) ;; Ok (c, d)) (c, d).
Definition rational_value (ip : interp T) (s : nat) (x : T) : res T :=
  r <- rational_init ip s x ;;
  match r with
  | inr y => Ok y
  | inl (ns, _, c, d) =>
    y <- Y ip (Nat.add s ns) ;;
    '(_, _, y, _) <- for_range 1 (ip_m ip) (fun '(c, d, y, ns) m =>
      '(c, d) <- rational_column ip s x m c d ;;
      if (2 * (ns + 1) <? Z.of_nat (ip_m ip) - Z.of_nat m)%Z
      then dy <- zget c (ns + 1)%Z ;; Ok (c, d, y + dy, ns)
      else dy <- zget d ns ;; Ok (c, d, y + dy, (ns - 1)%Z)) (c, d, y, (Z.of_nat ns - 1)%Z) ;;
    Ok y
  end.
Definition rational_eval (ip : interp T) (x : T) : res T := j <- locate ageb ip x ;; rational_value ip j x.

(** ** Cubic spline *)
Definition lhalf : T := lit 1 / lit 2.
(** 0.99e99: larger end derivatives mean "natural" *)
Definition natural_mark : T := lit (99 * 10 ^ 97).
(** InterpolatedRealFunction.h:360-394  initSecDerivs: the second derivatives at the data points *)
Definition spline_init (xv yv : list T) (yp1 ypn : T) : res (list T) :=
  let n := length xv in
  let y2 := repeat (lit 0) n in let u := repeat (lit 0) (Nat.sub n 1) in
  '(y2, u) <- (if natural_mark <? yp1 then
      y2 <- vset y2 0 (lit 0) ;; u <- vset u 0 (lit 0) ;; Ok (y2, u)
    else
      y2 <- vset y2 0 (- lhalf) ;;
      x0 <- vget xv 0 ;; x1 <- vget xv 1 ;; y0 <- vget yv 0 ;; y1 <- vget yv 1 ;;
      u <- vset u 0 ((lit 3 / (x1 - x0)) * ((y1 - y0) / (x1 - x0) - yp1)) ;; Ok (y2, u)) ;;
  '(y2, u) <- for_range 1 (Nat.sub n 1) (fun '(y2, u) i =>
    xi <- vget xv i ;; xp <- vget xv (Nat.sub i 1) ;; xn <- vget xv (Nat.add i 1) ;;
    yi <- vget yv i ;; yp <- vget yv (Nat.sub i 1) ;; yn <- vget yv (Nat.add i 1) ;;
    let sig := (xi - xp) / (xn - xp) in
    zp <- vget y2 (Nat.sub i 1) ;;
    let p := sig * zp + lit 2 in
    y2 <- vset y2 i ((sig - lit 1) / p) ;;
    let ui := (yn - yi) / (xn - xi) - (yi - yp) / (xi - xp) in
    up <- vget u (Nat.sub i 1) ;;
    u <- vset u i ((lit 6 * ui / (xn - xp) - sig * up) / p) ;;
    Ok (y2, u)) (y2, u) ;;
  '(qn, un) <- (if natural_mark <? ypn then Ok (lit 0, lit 0)
    else
      xl <- vget xv (Nat.sub n 1) ;; xk <- vget xv (Nat.sub n 2) ;; yl <- vget yv (Nat.sub n 1) ;; yk <- vget yv (Nat.sub n 2) ;;
      Ok (lhalf, (lit 3 / (xl - xk)) * (ypn - (yl - yk) / (xl - xk)))) ;;
  ul <- vget u (Nat.sub n 2) ;; zl <- vget y2 (Nat.sub n 2) ;;
  y2 <- vset y2 (Nat.sub n 1) ((un - qn * ul) / (qn * zl + lit 1)) ;;
  for_down 0 (Nat.sub n 1) (fun y2 k =>
    zk <- vget y2 k ;; zn <- vget y2 (Nat.add k 1) ;; uk <- vget u k ;; vset y2 k (zk * zn + uk)) y2.

(** InterpolatedRealFunction.h:345-349  constructor: the table and the second derivatives *)
Definition spline_new (xs ys : list T) (yp1 ypn : T) : res (interp T * list T) :=
  ip <- interp_new xs ys 2 ;; z <- spline_init xs ys yp1 ypn ;; Ok (ip, z).

(** the common prologue of the evaluations: h, a, b *)
Definition spline_at {B} (ip : interp T) (j : nat) (x : T) (k : T -> T -> T -> res B) : res B :=
  xl <- X ip j ;; xu <- X ip (Nat.add j 1) ;;
  let h := xu - xl in
  if aeqb A h (lit 0) then Throw NumericalError else k h ((xu - x) / h) ((x - xl) / h).
(** InterpolatedRealFunction.h:404-418  calcInterpValue *)
Definition spline_value (ip : interp T) (z : list T) (j : nat) (x : T) : res T :=
  spline_at ip j x (fun h a b =>
    yl <- Y ip j ;; yu <- Y ip (Nat.add j 1) ;; zl <- vget z j ;; zu <- vget z (Nat.add j 1) ;;
    Ok (a * yl + b * yu + ((a * a * a - a) * zl + (b * b * b - b) * zu) * (h * h) / lit 6)).
Definition spline_eval ip z (x : T) : res T := j <- locate ageb ip x ;; spline_value ip z j x.
(** InterpolatedRealFunction.h:429-447  Derivative *)
Definition spline_deriv ip z (x : T) : res T :=
  j <- locate ageb ip x ;; spline_at ip j x (fun h a b =>
    yl <- Y ip j ;; yu <- Y ip (Nat.add j 1) ;; zl <- vget z j ;; zu <- vget z (Nat.add j 1) ;;
    Ok ((yu - yl) / h - (lit 3 * a * a - lit 1) / lit 6 * h * zl + (lit 3 * b * b - lit 1) / lit 6 * h * zu)).
(** InterpolatedRealFunction.h:455-469  SecondDerivative *)
Definition spline_second ip z (x : T) : res T :=
  j <- locate ageb ip x ;; spline_at ip j x (fun h a b => zl <- vget z j ;; zu <- vget z (Nat.add j 1) ;; Ok (a * zl + b * zu)).
(** InterpolatedRealFunction.h:495-525  integrateSegment *)
Definition segment (ip : interp T) (z : list T) (i : nat) (x0 x1 : T) : res T :=
  xl <- X ip i ;; xu <- X ip (Nat.add i 1) ;;
  let h := xu - xl in
  if aeqb A h (lit 0) then Ok (lit 0)
  else
    let a0 := (xu - x0) / h in let b0 := (x0 - xl) / h in
    let a1 := (xu - x1) / h in let b1 := (x1 - xl) / h in
    yl <- Y ip i ;; yu <- Y ip (Nat.add i 1) ;; zl <- vget z i ;; zu <- vget z (Nat.add i 1) ;;
    let term1 := h * yl * lhalf * (a0 * a0 - a1 * a1) in
    let term2 := h * yu * lhalf * (b1 * b1 - b0 * b0) in
    let term3 := h * h * h / lit 6 * zl * ((a0 * a0 * a0 * a0 / lit 4 - a0 * a0 / lit 2) - (a1 * a1 * a1 * a1 / lit 4 - a1 * a1 / lit 2)) in
    let term4 := h * h * h / lit 6 * zu * ((b1 * b1 * b1 * b1 / lit 4 - b1 * b1 / lit 2) - (b0 * b0 * b0 * b0 / lit 4 - b0 * b0 / lit 2)) in
    Ok (term1 + term2 + term3 + term4).
(** InterpolatedRealFunction.h:484-540  Integrate for a <= b, and for a > b by exchanging the bounds (the recursive call
    then has its bounds in order) *)
Definition integrate_up (ip : interp T) (z : list T) (a b : T) : res T :=
  lo <- X ip 0 ;; hi <- X ip (Nat.sub (length (ip_x ip)) 1) ;;
  if (a <? lo) || (hi <? b) then Throw DomainError
  else
    iLow <- locate ageb ip a ;; iHigh <- locate ageb ip b ;;
    if Nat.eqb iLow iHigh then segment ip z iLow a b
    else
      xn <- X ip (Nat.add iLow 1) ;; s0 <- segment ip z iLow a xn ;;
      s <- for_range (Nat.add iLow 1) iHigh (fun s i => xi <- X ip i ;; xj <- X ip (Nat.add i 1) ;; t <- segment ip z i xi xj ;; Ok (s + t)) (lit 0 + s0) ;;
      xh <- X ip iHigh ;; t <- segment ip z iHigh xh b ;; Ok (s + t).
Definition integrate (ip : interp T) (z : list T) (a b : T) : res T :=
  if b <? a then s <- integrate_up ip z b a ;; Ok (- s) else integrate_up ip z a b.

(** ** Barycentric rational (Floater-Hormann) *)
(** InterpolatedRealFunction.h:688-709  computeWeights; [n > d] *)
Definition bary_weight (xs : list T) (d k : nat) : res T :=
  let n := length xs in
  let imin := Nat.sub k d in
  let imax := if (Nat.sub n d <=? k)%nat then Nat.sub (Nat.sub n d) 1 else k in
  xk <- vget xs k ;;
  '(_, s) <- for_range imin (Nat.add imax 1) (fun '(temp, s) i =>
    let jmax := Nat.min (Nat.add i d) (Nat.sub n 1) in
    term <- for_range i (Nat.add jmax 1) (fun term j =>
      if Nat.eqb j k then Ok term else xj <- vget xs j ;; Ok (term * (xk - xj))) (lit 1) ;;
    Ok (- temp, s + temp / term)) (if Nat.odd imin then - lit 1 else lit 1, lit 0) ;;
  Ok s.
Record bary := mkBary { by_d : nat; by_x : list T; by_y : list T; by_w : list T }.
(** InterpolatedRealFunction.h:718-729  constructor *)
Definition bary_new (xs ys : list T) (d : Z) : res bary :=
  let n := length xs in
  if (Z.of_nat n <=? d)%Z then Throw InvalidArgument
  else if (d <? 0)%Z then Throw InvalidArgument
  else
    w <- for_range 0 n (fun w k => s <- bary_weight xs (Z.to_nat d) k ;; vset w k s) (repeat (lit 0) n) ;;
    Ok (mkBary (Z.to_nat d) xs ys w).
(** InterpolatedRealFunction.h:756-768  operator() *)
Definition bary_eval (B : bary) (x : T) : res T :=
  r <- for_each_brk (fun '(num, den) i =>
    xi <- vget (by_x B) i ;;
    let h := x - xi in
    yi <- vget (by_y B) i ;;
    if aeqb A h (lit 0) then Ok (inr yi)
    else
      wi <- vget (by_w B) i ;;
      let temp := wi / h in
      Ok (inl (num + temp * yi, den + temp))) (seq 0 (length (by_x B))) (lit 0, lit 0) ;;
  match r with inr y => Ok y | inl (num, den) => Ok (num / den) end.
End Interp.
Arguments mkBary {T} _ _ _ _. Arguments by_d {T} _. Arguments by_x {T} _. Arguments by_y {T} _. Arguments by_w {T} _.
