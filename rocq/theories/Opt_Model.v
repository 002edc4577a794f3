(** * Model of one-dimensional minimisation (mml/algorithms/Optimization.h)

    Arithmetic is exact ([arith T] of RootFind_Model.v).  The function is total: values that are not finite, and with
    them ValidateFunctionValue and the NaN tests of ValidateBounds, are left out.  Timing, names, status texts and the
    verbose flag are left out.  NumericInputError is [InvalidArgument] and OptimizationError is [NumericalError].
    [a > b] is [b < a], [a <= b] is "not b < a", [a == b] is "neither less nor greater". *)

From Coq Require Import List Bool Arith ZArith.
From Verif Require Import Base Num RootFind_Model.
Import ListNotations.

Section Opt.
Context {T : Type} (A : arith T).
Local Notation "a + b" := (nadd (aops A) a b).
Local Notation "a - b" := (nsub (aops A) a b).
Local Notation "a * b" := (nmul (aops A) a b).
Local Notation "a / b" := (ndiv (aops A) a b).
Local Notation "- a" := (nopp (aops A) a).
Local Notation "a <? b" := (altb A a b).
Local Notation "a <=? b" := (negb (altb A b a)).
Local Notation lit := (alit A).
Local Notation abs := (aabs A).
Local Notation copysign := (acopysign A).

(** std::max *)
Definition amax (a b : T) : T := if a <? b then b else a.

(** Optimization.h:114-127 MinimumBracket *)
Record bracket := mkBracket { bk_ax : T; bk_bx : T; bk_cx : T; bk_fa : T; bk_fb : T; bk_fc : T; bk_valid : bool }.
(** Optimization.h:85-107 MinimizationResult: xmin, fmin, iterations, converged *)
Record minres := mkMin { mr_xmin : T; mr_fmin : T; mr_iters : nat; mr_conv : bool }.

(** Optimization.h:209-211 GOLD, GLIMIT, TINY *)
Definition GOLD : T := lit 1618034 / lit 1000000.
Definition GLIMIT : T := lit 100.
Definition TINY : T := lit 1 / lit (10 ^ 20).

(** Optimization.h:239-302 the bracketing loop; [n] is MAX_BRACKET_ITER - iter *)
Fixpoint bracketmin_loop (func : T -> T) (n : nat) (ax bx cx fa fb fc : T) : bracket :=
  if fc <? fb then
    match n with
    | 0 => mkBracket ax bx cx fa fb fc false
    | S n' =>
      let r := (bx - ax) * (fb - fc) in
      let q := (bx - cx) * (fb - fa) in
      let u := bx - ((bx - cx) * q - (bx - ax) * r) / (lit 2 * copysign (amax (abs (q - r)) TINY) (q - r)) in
      let ulim := bx + GLIMIT * (cx - bx) in
      if lit 0 <? (bx - u) * (u - cx) then
        let fu := func u in
        if fu <? fc then mkBracket bx u cx fb fu fc true
        else if fb <? fu then mkBracket ax bx u fa fb fu true
        else
          let u := cx + GOLD * (cx - bx) in
          bracketmin_loop func n' bx cx u fb fc (func u)
      else if lit 0 <? (cx - u) * (u - ulim) then
        let fu := func u in
        if fu <? fc then
          let u' := u + GOLD * (u - cx) in
          bracketmin_loop func n' cx u u' fc fu (func u')
        else bracketmin_loop func n' bx cx u fb fc fu
      else if lit 0 <=? (u - ulim) * (ulim - cx) then
        bracketmin_loop func n' bx cx ulim fb fc (func ulim)
      else
        let u := cx + GOLD * (cx - bx) in
        bracketmin_loop func n' bx cx u fb fc (func u)
    end
  else mkBracket ax bx cx fa fb fc true.

(** Optimization.h:205-306 BracketMinimum *)
Definition BracketMinimum (func : T -> T) (a b : T) : bracket :=
  let fa := func a in
  let fb := func b in
  let '(ax, bx, fa, fb) := if fa <? fb then (b, a, fb, fa) else (a, b, fa, fb) in
  let cx := bx + GOLD * (bx - ax) in
  bracketmin_loop func 200 ax bx cx fa fb (func cx).

(** Optimization.h:365-366 R, C *)
Definition GR : T := lit 61803399 / lit 100000000.
Definition GC : T := lit 1 - GR.

(** Optimization.h:389-407 the golden section loop (no bound on the iterations in the code: [fuel]) and 409-420 the
    result *)
Fixpoint golden_loop (fuel : nat) (func : T -> T) (tol : T) (it : nat) (x0 x1 x2 x3 f1 f2 : T) : res minres :=
  if tol * (abs x1 + abs x2) <? abs (x3 - x0) then
    match fuel with
    | 0 => NoFuel
    | S fuel' =>
      if f2 <? f1 then
        let x2' := GR * x2 + GC * x3 in
        golden_loop fuel' func tol (S it) x1 x2 x2' x3 f2 (func x2')
      else
        let x1' := GR * x1 + GC * x0 in
        golden_loop fuel' func tol (S it) x0 x1' x1 x2 (func x1') f1
    end
  else if f1 <? f2 then Ok (mkMin x1 f1 it true) else Ok (mkMin x2 f2 it true).

(** Optimization.h:358-420 GoldenSectionSearch(func, bracket, tol); ValidateTolerance is NumericValidation.h:106-111 *)
Definition GoldenSectionSearch (fuel : nat) (func : T -> T) (br : bracket) (tol : T) : res minres :=
  if tol <=? lit 0 then Throw InvalidArgument else
  if negb (bk_valid br) then Throw InvalidArgument else
  let x0 := bk_ax br in
  let x3 := bk_cx br in
  let '(x1, x2) :=
    if abs (bk_bx br - bk_ax br) <? abs (bk_cx br - bk_bx br)
    then (bk_bx br, bk_bx br + GC * (bk_cx br - bk_bx br))
    else (bk_bx br - GC * (bk_bx br - bk_ax br), bk_bx br) in
  golden_loop fuel func tol 0 x0 x1 x2 x3 (func x1) (func x2).
(** Optimization.h:429-436 GoldenSectionSearch(func, a, b, tol) *)
Definition GoldenSectionSearchAB (fuel : nat) (func : T -> T) (a b tol : T) : res minres :=
  if tol <=? lit 0 then Throw InvalidArgument else
  let br := BracketMinimum func a b in
  if negb (bk_valid br) then Throw NumericalError else GoldenSectionSearch fuel func br tol.
(** Optimization.h:878-884 GoldenSectionMaximize *)
Definition GoldenSectionMaximize (fuel : nat) (func : T -> T) (a b tol : T) : res minres :=
  r <- GoldenSectionSearchAB fuel (fun x => - func x) a b tol ;;
  Ok (mkMin (mr_xmin r) (- mr_fmin r) (mr_iters r) (mr_conv r)).

(** Optimization.h:506-507 CGOLD, ZEPS (double) *)
Definition CGOLD : T := lit 3819660 / lit 10000000.
Definition ZEPS : T := lit 1 / lit (2 ^ 52) * (lit 1 / lit 1000).

(** the variables of Brent's loop that live across iterations *)
Record brs := mkBrs { b_a : T; b_b : T; b_d : T; b_e : T; b_x : T; b_w : T; b_v : T; b_fx : T; b_fw : T; b_fv : T }.

(** Optimization.h:539-569 the step: (d, e) *)
Definition brent_golden (s : brs) (xm : T) : T * T :=
  let e := if xm <=? b_x s then b_a s - b_x s else b_b s - b_x s in (CGOLD * e, e).
Definition brent_step (s : brs) (xm tol1 tol2 : T) : T * T :=
  if tol1 <? abs (b_e s) then
    let r := (b_x s - b_w s) * (b_fx s - b_fv s) in
    let q := (b_x s - b_v s) * (b_fx s - b_fw s) in
    let p := (b_x s - b_v s) * q - (b_x s - b_w s) * r in
    let q := lit 2 * (q - r) in
    let p := if lit 0 <? q then - p else p in
    let q := abs q in
    let etemp := b_e s in
    let e := b_d s in
    if (abs (lit 1 / lit 2 * q * etemp) <=? abs p) || (p <=? q * (b_a s - b_x s)) || (q * (b_b s - b_x s) <=? p) then
      brent_golden s xm
    else
      let d := p / q in
      let u := b_x s + d in
      if (u - b_a s <? tol2) || (b_b s - u <? tol2) then (copysign tol1 (xm - b_x s), e) else (d, e)
  else brent_golden s xm.
(** Optimization.h:575-602 update of the bracket and of the three points *)
Definition brent_update (s : brs) (d e u fu : T) : brs :=
  if fu <=? b_fx s then
    mkBrs (if b_x s <=? u then b_x s else b_a s) (if b_x s <=? u then b_b s else b_x s) d e u (b_x s) (b_w s) fu (b_fx s) (b_fw s)
  else
    let a := if u <? b_x s then u else b_a s in
    let b := if u <? b_x s then b_b s else u in
    if (fu <=? b_fw s) || aeqb A (b_w s) (b_x s) then mkBrs a b d e (b_x s) u (b_w s) (b_fx s) fu (b_fw s)
    else if (fu <=? b_fv s) || aeqb A (b_v s) (b_x s) || aeqb A (b_v s) (b_w s) then mkBrs a b d e (b_x s) (b_w s) u (b_fx s) (b_fw s) fu
    else mkBrs a b d e (b_x s) (b_w s) (b_v s) (b_fx s) (b_fw s) (b_fv s).
(** Optimization.h:525-603 the loop; [n] is maxIter - iter, [it] is result.iterations *)
Fixpoint brent_loop (func : T -> T) (tol : T) (n it : nat) (s : brs) : res minres :=
  match n with
  | 0 => Throw NumericalError
  | S n' =>
    let xm := lit 1 / lit 2 * (b_a s + b_b s) in
    let tol1 := tol * abs (b_x s) + ZEPS in
    let tol2 := lit 2 * tol1 in
    if abs (b_x s - xm) <=? tol2 - lit 1 / lit 2 * (b_b s - b_a s) then Ok (mkMin (b_x s) (b_fx s) (S it) true)
    else
      let '(d, e) := brent_step s xm tol1 tol2 in
      let u := if tol1 <=? abs d then b_x s + d else b_x s + copysign tol1 d in
      brent_loop func tol n' (S it) (brent_update s d e u (func u))
  end.
Definition brent_init (br : bracket) (f : T) : brs :=
  let x := bk_bx br in
  mkBrs (if bk_ax br <? bk_cx br then bk_ax br else bk_cx br) (if bk_cx br <? bk_ax br then bk_ax br else bk_cx br) (lit 0) (lit 0) x x x f f f.
(** Optimization.h:495-610 BrentMinimize(func, bracket, tol, maxIter) *)
Definition BrentMinimize (func : T -> T) (br : bracket) (tol : T) (maxIter : Z) : res minres :=
  if tol <=? lit 0 then Throw InvalidArgument else
  if negb (bk_valid br) then Throw InvalidArgument else
  if (maxIter <=? 0)%Z then Throw InvalidArgument else
  brent_loop func tol (Z.to_nat maxIter) 0 (brent_init br (func (bk_bx br))).
(** Optimization.h:621-632 BrentMinimize(func, a, b, tol, maxIter) *)
Definition BrentMinimizeAB (func : T -> T) (a b tol : T) (maxIter : Z) : res minres :=
  if tol <=? lit 0 then Throw InvalidArgument else
  if (maxIter <=? 0)%Z then Throw InvalidArgument else
  let br := BracketMinimum func a b in
  if negb (bk_valid br) then Throw NumericalError else BrentMinimize func br tol maxIter.
(** Optimization.h:894-899 BrentMaximize *)
Definition BrentMaximize (func : T -> T) (a b tol : T) (maxIter : Z) : res minres :=
  r <- BrentMinimizeAB (fun x => - func x) a b tol maxIter ;;
  Ok (mkMin (mr_xmin r) (- mr_fmin r) (mr_iters r) (mr_conv r)).

(** ** Brent's method with derivatives *)
Record dbrs := mkDbrs { d_s : brs; d_dx : T; d_dw : T; d_dv : T }.
(** Optimization.h:731-778 the step: (d, e) *)
Definition dbrent_bisect (s : dbrs) : T * T :=
  let x := b_x (d_s s) in
  let e := if lit 0 <=? d_dx s then b_a (d_s s) - x else b_b (d_s s) - x in (lit 1 / lit 2 * e, e).
Definition dbrent_step (s : dbrs) (xm tol1 tol2 : T) : T * T :=
  let a := b_a (d_s s) in let b := b_b (d_s s) in let x := b_x (d_s s) in
  if tol1 <? abs (b_e (d_s s)) then
    let d0 := lit 2 * (b - a) in
    let d1 := if aeqb A (d_dw s) (d_dx s) then d0 else (b_w (d_s s) - x) * d_dx s / (d_dx s - d_dw s) in
    let d2 := if aeqb A (d_dv s) (d_dx s) then d0 else (b_v (d_s s) - x) * d_dx s / (d_dx s - d_dv s) in
    let u1 := x + d1 in
    let u2 := x + d2 in
    let ok1 := (lit 0 <? (a - u1) * (u1 - b)) && (d_dx s * d1 <=? lit 0) in
    let ok2 := (lit 0 <? (a - u2) * (u2 - b)) && (d_dx s * d2 <=? lit 0) in
    let olde := b_e (d_s s) in
    let e := b_d (d_s s) in
    if ok1 || ok2 then
      let d := if ok1 && ok2 then (if abs d1 <? abs d2 then d1 else d2) else if ok1 then d1 else d2 in
      if abs d <=? abs (lit 1 / lit 2 * olde) then
        let u := x + d in
        if (u - a <? tol2) || (b - u <? tol2) then (copysign tol1 (xm - x), e) else (d, e)
      else dbrent_bisect s
    else dbrent_bisect s
  else dbrent_bisect s.
(** Optimization.h:801-834 update *)
Definition dbrent_update (s : dbrs) (d e u fu du : T) : dbrs :=
  let t := d_s s in
  if fu <=? b_fx t then
    mkDbrs (mkBrs (if b_x t <=? u then b_x t else b_a t) (if b_x t <=? u then b_b t else b_x t) d e u (b_x t) (b_w t) fu (b_fx t) (b_fw t))
           du (d_dx s) (d_dw s)
  else
    let a := if u <? b_x t then u else b_a t in
    let b := if u <? b_x t then b_b t else u in
    if (fu <=? b_fw t) || aeqb A (b_w t) (b_x t) then mkDbrs (mkBrs a b d e (b_x t) u (b_w t) (b_fx t) fu (b_fw t)) (d_dx s) du (d_dw s)
    else if (fu <? b_fv t) || aeqb A (b_v t) (b_x t) || aeqb A (b_v t) (b_w t) then mkDbrs (mkBrs a b d e (b_x t) (b_w t) u (b_fx t) (b_fw t) fu) (d_dx s) (d_dw s) du
    else mkDbrs (mkBrs a b d e (b_x t) (b_w t) (b_v t) (b_fx t) (b_fw t) (b_fv t)) (d_dx s) (d_dw s) (d_dv s).
(** Optimization.h:717-835 the loop *)
Fixpoint dbrent_loop (func dfunc : T -> T) (tol : T) (n it : nat) (s : dbrs) : res minres :=
  match n with
  | 0 => Throw NumericalError
  | S n' =>
    let t := d_s s in
    let xm := lit 1 / lit 2 * (b_a t + b_b t) in
    let tol1 := tol * abs (b_x t) + ZEPS in
    let tol2 := lit 2 * tol1 in
    if abs (b_x t - xm) <=? tol2 - lit 1 / lit 2 * (b_b t - b_a t) then Ok (mkMin (b_x t) (b_fx t) (S it) true)
    else
      let '(d, e) := dbrent_step s xm tol1 tol2 in
      if tol1 <=? abs d then
        let u := b_x t + d in
        dbrent_loop func dfunc tol n' (S it) (dbrent_update s d e u (func u) (dfunc u))
      else
        let u := b_x t + copysign tol1 d in
        if b_fx t <? func u then Ok (mkMin (b_x t) (b_fx t) (S it) true)
        else dbrent_loop func dfunc tol n' (S it) (dbrent_update s d e u (func u) (dfunc u))
  end.
(** Optimization.h:687-842 BrentMinimizeWithDeriv(func, dfunc, bracket, tol, maxIter) *)
Definition BrentMinimizeWithDeriv (func dfunc : T -> T) (br : bracket) (tol : T) (maxIter : Z) : res minres :=
  if tol <=? lit 0 then Throw InvalidArgument else
  if (maxIter <=? 0)%Z then Throw InvalidArgument else
  if negb (bk_valid br) then Throw InvalidArgument else
  let dx := dfunc (bk_bx br) in
  dbrent_loop func dfunc tol (Z.to_nat maxIter) 0 (mkDbrs (brent_init br (func (bk_bx br))) dx dx dx).
End Opt.
