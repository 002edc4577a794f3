(** * Model of root bracketing and root finding
      (mml/algorithms/RootFinding/RootFindingBracketing.h, RootFindingMethods.h)

    Arithmetic is exact: [arith T] has the field operations, the comparison [<], the integer literals and
    sqrt.  A function is [T -> option T]: [None] stands for a value for which IsFunctionValueValid is false
    (NaN or infinity).  Verbose output, timing, names and message texts are left out; [rr_err] says whether an
    error message is set.  The tests [== 0.0] and [a == c] are "neither less nor greater". *)

From Coq Require Import List Bool Arith ZArith.
From Verif Require Import Base Num.
Import ListNotations.

Record arith (T : Type) := mkArith {
  aops : numops T; altb : T -> T -> bool; alit : Z -> T; asqrt : T -> T }.
Arguments aops {T} _. Arguments altb {T} _ _ _. Arguments alit {T} _ _. Arguments asqrt {T} _ _.

Section RootFinding.
Context {T : Type} (A : arith T).
Local Notation "a + b" := (nadd (aops A) a b).
Local Notation "a - b" := (nsub (aops A) a b).
Local Notation "a * b" := (nmul (aops A) a b).
Local Notation "a / b" := (ndiv (aops A) a b).
Local Notation "- a" := (nopp (aops A) a).
Local Notation "a <? b" := (altb A a b).
Local Notation lit := (alit A).
Local Notation "a <=? b" := (negb (altb A b a)).

(** std::abs, std::copysign (no negative zero), == *)
Definition aabs (a : T) : T := if a <? lit 0 then - a else a.
Definition acopysign (a b : T) : T := if b <? lit 0 then - aabs a else aabs a.
Definition aeqb (a b : T) : bool := (a <=? b) && (b <=? a).
Definition ahalf : T := lit 1 / lit 2.

(** RootFindingBase.h:65-95 RootFindingResult *)
Record rfres := mkRR { rr_root : T; rr_fval : option T; rr_iters : nat; rr_conv : bool; rr_tol : T; rr_err : bool }.
(** a result in which only the error message is set *)
Definition rr_fail : rfres := mkRR (lit 0) (Some (lit 0)) 0 false (lit 0) true.
(** (config.max_iterations > 0) ? config.max_iterations : Defaults::...; [dflt] is the default *)
Definition max_iter (cfg dflt : Z) : nat := Z.to_nat (if (0 <? cfg)%Z then cfg else dflt).
(** RootFindingBracketing.h:246-249, 394-396 and RootFindingMethods.h:127, 291, 446, 641: the overloads that throw *)
Definition or_throw (r : rfres) : res T := if rr_conv r then Ok (rr_root r) else Throw NumericalError.

(** RootFindingBracketing.h:75-94 BracketRoot; func returns a number (no NaN or infinity) *)
Fixpoint bracket_loop (func : T -> T) (n : nat) (x1 x2 f1 f2 : T) : bool * T * T :=
  match n with
  | 0 => (false, x1, x2)
  | S n' =>
    if f1 * f2 <? lit 0 then (true, x1, x2)
    else if aabs f1 <? aabs f2 then
      let x1 := x1 + (lit 16 / lit 10) * (x1 - x2) in bracket_loop func n' x1 x2 (func x1) f2
    else
      let x2 := x2 + (lit 16 / lit 10) * (x2 - x1) in bracket_loop func n' x1 x2 f1 (func x2)
  end.
Definition BracketRoot (func : T -> T) (x1 x2 : T) (MaxTry : Z) : res (bool * T * T) :=
  if aeqb x1 x2 then Throw NumericalError
  else Ok (bracket_loop func (Z.to_nat MaxTry) x1 x2 (func x1) (func x2)).

(** RootFindingBracketing.h:144-170 FindRootBrackets; Vector::Resize (Vector.h:163-166) keeps the elements and
    value-initialises new ones *)
Definition vresize (v : list T) (n : nat) : list T := firstn n v ++ repeat (lit 0) (n - length v).
Record bstate := mkBS { bs_x : T; bs_fp : T; bs_num : nat; bs_cap : nat; bs_xb1 : list T; bs_xb2 : list T }.
Definition FindRootBrackets (func : T -> T) (x1 x2 : T) (numPoints : Z) (xb1 xb2 : list T) : res (nat * list T * list T) :=
  let numBrackets := 20 in
  let xb1 := vresize xb1 numBrackets in
  let xb2 := vresize xb2 numBrackets in
  let dx := (x2 - x1) / lit numPoints in
  s <- for_range 0 (Z.to_nat numPoints) (fun s i =>
    let x := bs_x s + dx in
    let fc := func x in
    if fc * bs_fp s <=? lit 0 then
      v1 <- vset (bs_xb1 s) (bs_num s) (x - dx) ;;
      v2 <- vset (bs_xb2 s) (bs_num s) x ;;
      let num := S (bs_num s) in
      if Nat.eqb num (bs_cap s)
      then Ok (mkBS x fc num (Nat.mul (bs_cap s) 2) (vresize v1 (Nat.mul (bs_cap s) 2)) (vresize v2 (Nat.mul (bs_cap s) 2)))
      else Ok (mkBS x fc num (bs_cap s) v1 v2)
    else Ok (mkBS x fc (bs_num s) (bs_cap s) (bs_xb1 s) (bs_xb2 s)))
    (mkBS x1 (func x1) 0 numBrackets xb1 xb2) ;;
  Ok (bs_num s, bs_xb1 s, bs_xb2 s).

(** RootFindingBracketing.h:260-328 FindRootBisection *)
Fixpoint bisect_loop (func : T -> option T) (tol : T) (n j : nat) (dx rtb : T) : rfres :=
  match n with
  | 0 => mkRR rtb (func rtb) j false (aabs dx) true
  | S n' =>
    let dx := dx * ahalf in
    let xmid := rtb + dx in
    match func xmid with
    | None => mkRR rtb None (S j) false (aabs dx) true
    | Some fmid =>
      let rtb := if fmid <=? lit 0 then xmid else rtb in
      if (aabs dx <? tol) || aeqb fmid (lit 0)
      then mkRR rtb (func rtb) (S j) true (aabs dx) false
      else bisect_loop func tol n' (S j) dx rtb
    end
  end.
Definition FindRootBisection (dflt : Z) (func : T -> option T) (x1 x2 tol : T) (max_iterations : Z) : rfres :=
  match func x1, func x2 with
  | Some f, Some fmid =>
    if lit 0 <=? f * fmid then rr_fail
    else
      let dx := if f <? lit 0 then x2 - x1 else x1 - x2 in
      let rtb := if f <? lit 0 then x1 else x2 in
      bisect_loop func tol (max_iter max_iterations dflt) 0 dx rtb
  | _, _ => rr_fail
  end.

(** RootFindingBracketing.h:400-465 FindRootFalsePosition *)
Fixpoint falsi_loop (func : T -> option T) (tol : T) (n j : nat) (x1 f1 x2 f2 rtf : T) : rfres :=
  match n with
  | 0 => mkRR rtf (func rtf) j false (aabs (x2 - x1)) true
  | S n' =>
    let dx := x2 - x1 in
    let rtf := x1 + dx * f1 / (f1 - f2) in
    match func rtf with
    | None => mkRR rtf None (S j) false (lit 0) true
    | Some f =>
      let '(x1, f1, x2, f2) := if f <? lit 0 then (rtf, f, x2, f2) else (x1, f1, rtf, f) in
      if (aabs f <? tol) || (aabs (x2 - x1) <? tol)
      then mkRR rtf (Some f) (S j) true (aabs (x2 - x1)) false
      else falsi_loop func tol n' (S j) x1 f1 x2 f2 rtf
    end
  end.
Definition FindRootFalsePosition (dflt : Z) (func : T -> option T) (x1 x2 tol : T) (max_iterations : Z) : rfres :=
  match func x1, func x2 with
  | Some f1, Some f2 =>
    if lit 0 <=? f1 * f2 then rr_fail
    else
      let '(x1, f1, x2, f2) := if lit 0 <? f1 then (x2, f2, x1, f1) else (x1, f1, x2, f2) in
      falsi_loop func tol (max_iter max_iterations dflt) 0 x1 f1 x2 f2 x1
  | _, _ => rr_fail
  end.

(** RootFindingMethods.h:450-556 FindRootRidders *)
Fixpoint ridders_loop (func : T -> option T) (tol : T) (n j : nat) (x1 f1 x2 f2 ans : T) : rfres :=
  match n with
  | 0 => mkRR ans (func ans) j false (aabs (x2 - x1)) true
  | S n' =>
    let xm := ahalf * (x1 + x2) in
    match func xm with
    | None => mkRR ans None (S j) false (lit 0) true
    | Some fm =>
      let s := asqrt A (fm * fm - f1 * f2) in
      if aeqb s (lit 0) then mkRR ans (func ans) (S j) true (aabs (x2 - x1)) false
      else
        let xnew := xm + (xm - x1) * ((if f2 <=? f1 then lit 1 else - lit 1) * fm / s) in
        if aabs (xnew - ans) <=? tol then mkRR ans (func ans) (S j) true (aabs (xnew - ans)) false
        else
          let ans := xnew in
          match func ans with
          | None => mkRR ans None (S j) false (lit 0) true
          | Some fnew =>
            if aabs fnew <? tol then mkRR ans (Some fnew) (S j) true (aabs fnew) false
            else
              let '(x1, f1, x2, f2) :=
                if negb (aeqb (acopysign fm fnew) fm) then (xm, fm, ans, fnew)
                else if negb (aeqb (acopysign f1 fnew) f1) then (x1, f1, ans, fnew)
                else (ans, fnew, x2, f2) in
              if aabs (x2 - x1) <=? tol then mkRR ans (Some fnew) (S j) true (aabs (x2 - x1)) false
              else ridders_loop func tol n' (S j) x1 f1 x2 f2 ans
          end
    end
  end.
(** the initial value of ans is -1.0e99 *)
Definition ridders_start : T := - lit (10 ^ 99).
Definition FindRootRidders (dflt : Z) (func : T -> option T) (x1 x2 tol : T) (max_iterations : Z) : rfres :=
  match func x1, func x2 with
  | Some f1, Some f2 =>
    if lit 0 <=? f1 * f2 then rr_fail
    else ridders_loop func tol (max_iter max_iterations dflt) 0 x1 f1 x2 f2 ridders_start
  | _, _ => rr_fail
  end.

(** RootFindingMethods.h:656-759 FindRootBrent; [eps] is Constants::Eps.  The step: the new values of d and e *)
Definition brent_step (a b c d e fa fb fc xm tol1 : T) : T * T :=
  if (tol1 <=? aabs e) && (aabs fb <? aabs fa) then
    let s := fb / fa in
    let '(p, q) :=
      if aeqb a c then (lit 2 * xm * s, lit 1 - s)
      else
        let q := fa / fc in
        let r := fb / fc in
        (s * (lit 2 * xm * q * (q - r) - (b - a) * (r - lit 1)), (q - lit 1) * (r - lit 1) * (s - lit 1)) in
    let q := if lit 0 <? p then - q else q in
    let p := aabs p in
    let min1 := lit 3 * xm * q - aabs (tol1 * q) in
    let min2 := aabs (e * q) in
    if lit 2 * p <? (if min1 <? min2 then min1 else min2) then (p / q, d) else (xm, xm)
  else (xm, xm).
Fixpoint brent_loop (func : T -> option T) (eps tol : T) (n j : nat) (a b c d e fa fb fc xm : T) : rfres :=
  match n with
  | 0 => mkRR b (Some fb) j false (aabs xm) true
  | S n' =>
    let '(c, fc, d, e) :=
      if ((lit 0 <? fb) && (lit 0 <? fc)) || ((fb <? lit 0) && (fc <? lit 0)) then (a, fa, b - a, b - a) else (c, fc, d, e) in
    let '(a, b, c, fa, fb, fc) :=
      if aabs fc <? aabs fb then (b, c, b, fb, fc, fb) else (a, b, c, fa, fb, fc) in
    let tol1 := lit 2 * eps * aabs b + ahalf * tol in
    let xm := ahalf * (c - b) in
    if (aabs xm <=? tol1) || aeqb fb (lit 0) then mkRR b (Some fb) (S j) true (aabs xm) false
    else
      let '(d, e) := brent_step a b c d e fa fb fc xm tol1 in
      let a := b in
      let fa := fb in
      let b := if tol1 <? aabs d then b + d else b + acopysign tol1 xm in
      match func b with
      | None => mkRR b None (S j) false (lit 0) true
      | Some fb => brent_loop func eps tol n' (S j) a b c d e fa fb fc xm
      end
  end.
Definition FindRootBrent (dflt : Z) (eps : T) (func : T -> option T) (x1 x2 tol : T) (max_iterations : Z) : rfres :=
  match func x1, func x2 with
  | Some fa, Some fb =>
    if lit 0 <=? fa * fb then rr_fail
    else brent_loop func eps tol (max_iter max_iterations dflt) 0 x1 x2 x2 (lit 0) (lit 0) fa fb fb (lit 0)
  | _, _ => rr_fail
  end.

(** RootFindingMethods.h:142-221 FindRootNewton; [der x] is the value of Derivation::NDer4(func, x), [None] when it
    is not finite, [thr] is sqrt(Constants::Eps).  The function values are numbers: Newton does not test them *)
Fixpoint newton_loop (func : T -> T) (der : T -> option T) (thr x1 x2 tol : T) (n j : nat) (rtn dx : T) : rfres :=
  match n with
  | 0 => mkRR rtn (Some (func rtn)) j false (aabs dx) true
  | S n' =>
    let f := func rtn in
    match der rtn with
    | None => mkRR rtn (Some f) (S j) false (lit 0) true
    | Some df =>
      if aabs df <? thr then mkRR rtn (Some f) (S j) false (lit 0) true
      else
        let dx := f / df in
        let rtn := rtn - dx in
        if (x1 - rtn) * (rtn - x2) <? lit 0 then mkRR rtn (Some (func rtn)) (S j) false (aabs dx) true
        else if aabs dx <? tol then mkRR rtn (Some (func rtn)) (S j) true (aabs dx) false
        else newton_loop func der thr x1 x2 tol n' (S j) rtn dx
    end
  end.
Definition FindRootNewton (dflt : Z) (thr : T) (func : T -> T) (der : T -> option T) (x1 x2 tol : T) (max_iterations : Z) : rfres :=
  if lit 0 <? func x1 * func x2 then rr_fail
  else newton_loop func der thr x1 x2 tol (max_iter max_iterations dflt) 0 (ahalf * (x1 + x2)) (lit 0).

(** RootFindingMethods.h:297-366 FindRootSecant; a step with f2 == f1 is infinite or NaN *)
Fixpoint secant_loop (func : T -> option T) (tol : T) (n j : nat) (x1 f1 x2 f2 dx : T) : rfres :=
  match n with
  | 0 => mkRR x2 (Some f2) j false (aabs dx) true
  | S n' =>
    if aeqb f2 f1 then mkRR x2 (Some f2) (S j) false (lit 0) true
    else
      let dx := (x2 - x1) * f2 / (f2 - f1) in
      let x1 := x2 in
      let f1 := f2 in
      let x2 := x2 - dx in
      match func x2 with
      | None => mkRR x2 None (S j) false (lit 0) true
      | Some f2 =>
        if aabs dx <? tol then mkRR x2 (Some f2) (S j) true (aabs dx) false
        else secant_loop func tol n' (S j) x1 f1 x2 f2 dx
      end
  end.
Definition FindRootSecant (dflt : Z) (func : T -> option T) (x1 x2 tol : T) (max_iterations : Z) : rfres :=
  match func x1, func x2 with
  | Some f1, Some f2 =>
    if lit 0 <? f1 * f2 then rr_fail
    else
      let '(x1, f1, x2, f2) := if aabs f1 <? aabs f2 then (x2, f2, x1, f1) else (x1, f1, x2, f2) in
      secant_loop func tol (max_iter max_iterations dflt) 0 x1 f1 x2 f2 (lit 0)
  | _, _ => rr_fail
  end.
End RootFinding.
