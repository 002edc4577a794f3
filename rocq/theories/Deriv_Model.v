(** * Model of numerical differentiation of real functions
      (mml/core/Derivation/DerivationRealFunction.h, DerivationBase.h)

    Arithmetic is exact ([arith T]); [eps] is Constants::Eps.  A function is a total [T -> T] (it does not throw
    and returns no NaN or infinity), so the check_finite tests never fire.  Each rule computes the value and the
    error estimate; when no estimate is asked for, the code skips the second and the samples it alone needs.
    Timing, algorithm names, evaluation counts and message texts are left out.  NumericInputError is
    [InvalidArgument]. *)

From Coq Require Import List Bool Arith ZArith.
From Verif Require Import Base Num RootFind_Model.
Import ListNotations.

(** the rules: DerivationRealFunction.h:96-111, 148-166, 199-223, 256-274, 307-329, 368-390, 413-438, 468-491, 514-540 *)
Inductive rule := NDer1 | NDer2 | NDer4 | NDer6 | NDer8 | NSecDer2 | NSecDer4 | NThirdDer2 | NThirdDer4.
Definition rule_eqb (a b : rule) : bool :=
  match a, b with
  | NDer1, NDer1 | NDer2, NDer2 | NDer4, NDer4 | NDer6, NDer6 | NDer8, NDer8
  | NSecDer2, NSecDer2 | NSecDer4, NSecDer4 | NThirdDer2, NThirdDer2 | NThirdDer4, NThirdDer4 => true
  | _, _ => false
  end.

Section Deriv.
Context {T : Type} (A : arith T).
Local Notation "a + b" := (nadd (aops A) a b).
Local Notation "a - b" := (nsub (aops A) a b).
Local Notation "a * b" := (nmul (aops A) a b).
Local Notation "a / b" := (ndiv (aops A) a b).
Local Notation "- a" := (nopp (aops A) a).
Local Notation "a <? b" := (altb A a b).
Local Notation lit := (alit A).
Local Notation "a <=? b" := (negb (altb A b a)).
Local Notation abs := (aabs A).

(** DerivationBase.h:43-45 ScaleStep *)
Definition ScaleStep (h x : T) : T := h * (if lit 1 <? abs x then abs x else lit 1).

Section Rules.
Variable eps : T.
Variable f : T -> T.
Variables x h : T.

(** DerivationRealFunction.h:100-111 *)
Definition der1 : T * T :=
  let yh := f (x + h) in
  let y0 := f x in
  let diff := yh - y0 in
  let ym := f (x - h) in
  let ypph := abs (yh - lit 2 * y0 + ym) / h in
  (diff / h, ypph / lit 2 + (abs yh + abs y0) * eps / h).
(** DerivationRealFunction.h:152-166 *)
Definition der2 : T * T :=
  let yh := f (x + h) in
  let ymh := f (x - h) in
  let diff := yh - ymh in
  let y2h := f (x + lit 2 * h) in
  let ym2h := f (x - lit 2 * h) in
  (diff / (lit 2 * h), eps * (abs yh + abs ymh) / (lit 2 * h) + abs ((y2h - ym2h) / lit 2 - diff) / (lit 6 * h)).
(** DerivationRealFunction.h:203-223 *)
Definition der4 : T * T :=
  let yh := f (x + h) in
  let ymh := f (x - h) in
  let y2h := f (x + lit 2 * h) in
  let ym2h := f (x - lit 2 * h) in
  let y2 := ym2h - y2h in
  let y1 := yh - ymh in
  let y3h := f (x + lit 3 * h) in
  let ym3h := f (x - lit 3 * h) in
  let e := abs ((y3h - ym3h) / lit 2 + lit 2 * (ym2h - y2h) + lit 5 * (yh - ymh) / lit 2) / (lit 30 * h) in
  let e := e + eps * (abs y2h + abs ym2h + lit 8 * (abs ymh + abs yh)) / (lit 12 * h) in
  ((y2 + lit 8 * y1) / (lit 12 * h), e).
(** DerivationRealFunction.h:260-274 *)
Definition der6 : T * T :=
  let yh := f (x + h) in
  let ymh := f (x - h) in
  let y1 := yh - ymh in
  let y2 := f (x - lit 2 * h) - f (x + lit 2 * h) in
  let y3 := f (x + lit 3 * h) - f (x - lit 3 * h) in
  let y7 := (f (x + lit 4 * h) - f (x - lit 4 * h) - lit 6 * y3 - lit 14 * y1 - lit 14 * y2) / lit 2 in
  ((y3 + lit 9 * y2 + lit 45 * y1) / (lit 60 * h),
   abs y7 / (lit 140 * h) + lit 5 * (abs yh + abs ymh) * eps / h).
(** DerivationRealFunction.h:311-329 *)
Definition der8 : T * T :=
  let yh := f (x + h) in
  let ymh := f (x - h) in
  let y1 := yh - ymh in
  let y2 := f (x - lit 2 * h) - f (x + lit 2 * h) in
  let y3 := f (x + lit 3 * h) - f (x - lit 3 * h) in
  let y4 := f (x - lit 4 * h) - f (x + lit 4 * h) in
  let tmp1 := lit 3 * y4 / lit 8 + lit 4 * y3 in
  let tmp2 := lit 21 * y2 + lit 84 * y1 in
  let f9 := (f (x + lit 5 * h) - f (x - lit 5 * h)) / lit 2 + lit 4 * y4 + lit 27 * y3 / lit 2 + lit 24 * y2 + lit 21 * y1 in
  ((tmp1 + tmp2) / (lit 105 * h),
   abs f9 / (lit 630 * h) + lit 7 * (abs yh + abs ymh) * eps / h).
(** DerivationRealFunction.h:372-390 *)
Definition secder2 : T * T :=
  let y0 := f x in
  let yh := f (x + h) in
  let ymh := f (x - h) in
  let h2 := h * h in
  let y2h := f (x + lit 2 * h) in
  let ym2h := f (x - lit 2 * h) in
  let f4 := abs (ym2h - lit 4 * ymh + lit 6 * y0 - lit 4 * yh + y2h) / h2 in
  ((ymh - lit 2 * y0 + yh) / h2,
   f4 * h2 / lit 12 + eps * (abs ymh + lit 2 * abs y0 + abs yh) / h2).
(** DerivationRealFunction.h:417-438 *)
Definition secder4 : T * T :=
  let y0 := f x in
  let yh := f (x + h) in
  let ymh := f (x - h) in
  let y2h := f (x + lit 2 * h) in
  let ym2h := f (x - lit 2 * h) in
  let h2 := h * h in
  let y3h := f (x + lit 3 * h) in
  let ym3h := f (x - lit 3 * h) in
  let f6 := abs (ym3h - lit 6 * ym2h + lit 15 * ymh - lit 20 * y0 + lit 15 * yh - lit 6 * y2h + y3h) / h2 in
  ((- ym2h + lit 16 * ymh - lit 30 * y0 + lit 16 * yh - y2h) / (lit 12 * h2),
   f6 * h2 * h2 / lit 90
   + eps * (abs ym2h + lit 16 * abs ymh + lit 30 * abs y0 + lit 16 * abs yh + abs y2h) / (lit 12 * h2)).
(** DerivationRealFunction.h:472-491 *)
Definition thirdder2 : T * T :=
  let yh := f (x + h) in
  let ymh := f (x - h) in
  let y2h := f (x + lit 2 * h) in
  let ym2h := f (x - lit 2 * h) in
  let h3 := h * h * h in
  let y3h := f (x + lit 3 * h) in
  let ym3h := f (x - lit 3 * h) in
  let f5 := abs (ym3h - lit 3 * ym2h + lit 5 * ymh - lit 5 * yh + lit 3 * y2h - y3h) / h3 in
  ((- ym2h + lit 2 * ymh - lit 2 * yh + y2h) / (lit 2 * h3),
   f5 * h * h / lit 4 + eps * (abs ym2h + lit 2 * abs ymh + lit 2 * abs yh + abs y2h) / (lit 2 * h3)).
(** DerivationRealFunction.h:518-540 *)
Definition thirdder4 : T * T :=
  let yh := f (x + h) in
  let ymh := f (x - h) in
  let y2h := f (x + lit 2 * h) in
  let ym2h := f (x - lit 2 * h) in
  let y3h := f (x + lit 3 * h) in
  let ym3h := f (x - lit 3 * h) in
  let h3 := h * h * h in
  let y4h := f (x + lit 4 * h) in
  let ym4h := f (x - lit 4 * h) in
  let f7 := abs (ym4h - lit 4 * ym3h + lit 9 * ym2h - lit 13 * ymh + lit 13 * yh - lit 9 * y2h + lit 4 * y3h - y4h) / h3 in
  ((ym3h - lit 8 * ym2h + lit 13 * ymh - lit 13 * yh + lit 8 * y2h - y3h) / (lit 8 * h3),
   f7 * h * h * h * h / lit 120
   + eps * (abs ym3h + lit 8 * abs ym2h + lit 13 * abs ymh + lit 13 * abs yh + lit 8 * abs y2h + abs y3h) / (lit 8 * h3)).

Definition compute (m : rule) : T * T :=
  match m with
  | NDer1 => der1 | NDer2 => der2 | NDer4 => der4 | NDer6 => der6 | NDer8 => der8
  | NSecDer2 => secder2 | NSecDer4 => secder4 | NThirdDer2 => thirdder2 | NThirdDer4 => thirdder4
  end.
End Rules.

(** AlgorithmTypes.h EvaluationConfigBase and DerivativeConfig: the fields read by the rules; DerivativeResult:
    the fields with a numerical meaning, [dr_ok] saying whether the status is Success (the only failure status
    that can arise here is InvalidInput) *)
Record dcfg := mkDC { dc_estimate : bool; dc_propagate : bool; dc_step : T }.
Record dres := mkDR { dr_value : T; dr_error : T; dr_step : T; dr_ok : bool }.

(** DerivationRealFunction.h:32-91 ExecuteDerivativeDetailed, with NumericValidation.h:149-154 ValidateStepSize *)
Definition Detailed (eps : T) (m : rule) (f : T -> T) (x h : T) (c : dcfg) : res dres :=
  if h <=? lit 0 then
    if dc_propagate c then Throw InvalidArgument else Ok (mkDR (lit 0) (lit 0) h false)
  else
    let '(v, e) := compute eps f x h m in
    Ok (mkDR v (if dc_estimate c then e else lit 0) h true).
(** DerivationRealFunction.h:27-30, 113-117 and the same overload of every rule: the step of the config, or the
    default step [h0] of the rule scaled *)
Definition DetailedAuto (eps h0 : T) (m : rule) (f : T -> T) (x : T) (c : dcfg) : res dres :=
  Detailed eps m f x (if negb (aeqb A (dc_step c) (lit 0)) then dc_step c else ScaleStep h0 x) c.

(** DerivationRealFunction.h:118-126 and the same overload of every rule: value and, when asked for, error *)
Definition NDer (eps : T) (m : rule) (f : T -> T) (x h : T) (err : bool) : res (T * T) :=
  bind (Detailed eps m f x h (mkDC err true (lit 0))) (fun r => Ok (dr_value r, dr_error r)).
(** DerivationRealFunction.h:127-134 and the same overloads of every rule *)
Definition NDerDefault (eps h0 : T) (m : rule) (f : T -> T) (x : T) (err : bool) : res (T * T) :=
  NDer eps m f x (ScaleStep h0 x) err.

(** DerivationRealFunction.h:136-143, 191-194, 248-251, 299-302, 354-357: by how many steps NDerKLeft and NDerKRight
    move the point; the overloads with an explicit step and those with the default step differ for NDer2 *)
Definition shiftL (m : rule) : Z := match m with NDer1 => 1 | NDer2 => 3 | NDer4 => 4 | NDer6 => 5 | NDer8 => 6 | _ => 0 end.
Definition shiftR (m : rule) : Z := match m with NDer1 => 0 | NDer2 => 3 | NDer4 => 4 | NDer6 => 5 | NDer8 => 6 | _ => 0 end.
Definition shiftL0 (m : rule) : Z := match m with NDer2 => 2 | _ => shiftL m end.
Definition shiftR0 (m : rule) : Z := match m with NDer2 => 2 | _ => shiftR m end.
Definition NDerLeft (eps : T) (m : rule) (f : T -> T) (x h : T) (err : bool) := NDer eps m f (x - lit (shiftL m) * h) h err.
Definition NDerRight (eps : T) (m : rule) (f : T -> T) (x h : T) (err : bool) := NDer eps m f (x + lit (shiftR m) * h) h err.
Definition NDerLeftDefault (eps h0 : T) (m : rule) (f : T -> T) (x : T) (err : bool) :=
  let h := ScaleStep h0 x in NDer eps m f (x - lit (shiftL0 m) * h) h err.
Definition NDerRightDefault (eps h0 : T) (m : rule) (f : T -> T) (x : T) (err : bool) :=
  let h := ScaleStep h0 x in NDer eps m f (x + lit (shiftR0 m) * h) h err.

(** ** Richardson extrapolation *)

(** DerivationRealFunction.h:595, 603 / 671, 678 / 737-738, 745-746: the difference quotients that start a column *)
Inductive dkind := First | Second | Third.
Definition quotient (k : dkind) (f : T -> T) (x hh : T) : T :=
  match k with
  | First => (f (x + hh) - f (x - hh)) / (lit 2 * hh)
  | Second => (f (x + hh) - lit 2 * f x + f (x - hh)) / (hh * hh)
  | Third => let h3 := hh * hh * hh in
      (f (x + lit 2 * hh) - lit 2 * f (x + hh) + lit 2 * f (x - hh) - f (x - lit 2 * hh)) / (lit 2 * h3)
  end.

(** std::max *)
Definition dmax (a b : T) : T := if a <? b then b else a.

(** DerivationRealFunction.h:606-623: the loop over j.  [prev] is column i-1 of the tableau from a[j-1][i-1] down,
    [cur] is a[j-1][i], [err] is None for numeric_limits::max() (every finite number is at most that);
    the result is column i from a[j][i] down, err and ans.  Only columns i-1 and i of the tableau are ever read,
    so the model keeps just those. *)
Fixpoint rich_col (con2 : T) (prev : list T) (cur fac : T) (err : option T) (ans : T) : list T * option T * T :=
  match prev with
  | [] => ([], err, ans)
  | p :: prev' =>
    let v := (cur * fac - p) / (fac - lit 1) in
    let fac' := fac * con2 in
    let errt := dmax (abs (v - cur)) (abs (v - p)) in
    let better := match err with None => true | Some e => errt <=? e end in
    let err' := if better then Some errt else err in
    let ans' := if better then v else ans in
    let '(col, err'', ans'') := rich_col con2 prev' v fac' err' ans' in
    (v :: col, err'', ans'')
  end.

(** DerivationRealFunction.h:599-628: the loop over i, [n] columns left; the error is at least one row old here,
    so it is never max() *)
Fixpoint rich_loop (D : T -> T) (con : T) (n : nat) (hh : T) (prev : list T) (err : option T) (ans : T) : T * option T :=
  match n with
  | 0 => (ans, err)
  | S n' =>
    let hh := hh / con in
    let a0 := D hh in
    let '(col, err, ans) := rich_col (con * con) prev a0 (con * con) err ans in
    let new := a0 :: col in
    let stop := match err with
                | None => false
                | Some e => lit 2 * e <=? abs (last new (lit 0) - last prev (lit 0))
                end in
    if stop then (ans, err) else rich_loop D con n' hh new err ans
  end.

(** DerivationRealFunction.h:578-632 NDerRichardson, 654-702 NSecDerRichardson, 720-770 NThirdDerRichardson.
    A negative max_iter becomes a huge std::size_t (std::vector throws std::length_error); for max_iter = 0,
    a[0][0] is outside the empty tableau *)
Definition Richardson (k : dkind) (f : T -> T) (x h : T) (max_iter : Z) (con : T) : res (T * option T) :=
  if aeqb A h (lit 0) then Ok (lit 0, None)
  else if (max_iter <? 0)%Z then Throw LengthError
  else if (max_iter =? 0)%Z then UB
  else let a00 := quotient k f x h in
    Ok (rich_loop (quotient k f x) con (Z.to_nat max_iter - 1) h [a00] None a00).
End Deriv.
Arguments dcfg T : clear implicits.
Arguments dres T : clear implicits.
