(** * Model of the closed-form polynomial solvers (mml/algorithms/RootFinding/RootFindingPolynoms.h:37-203)

    Arithmetic is exact: [trig T] of Fourier_Model.v with a real cube root and an arc cosine.  A complex number is the
    pair of its parts.  A root that the code computes as 0/0 (a NaN) is [None]. *)

From Coq Require Import List Bool Arith ZArith.
From Verif Require Import Base Num RootFind_Model Fourier_Model.
Import ListNotations.

Record ralg (T : Type) := mkRalg { rtr : trig T; rcbrt : T -> T; racos : T -> T }.
Arguments rtr {T} _. Arguments rcbrt {T} _ _. Arguments racos {T} _ _.

Section Cubic.
Context {T : Type} (A0 : ralg T).
Local Notation TR := (rtr A0).
Local Notation AR := (tar (rtr A0)).
Local Notation ops := (aops (tar (rtr A0))).
Local Notation "a + b" := (nadd ops a b).
Local Notation "a - b" := (nsub ops a b).
Local Notation "a * b" := (nmul ops a b).
Local Notation "a / b" := (ndiv ops a b).
Local Notation "- a" := (nopp ops a).
Local Notation "a <? b" := (altb (tar (rtr A0)) a b).
Local Notation lit := (alit (tar (rtr A0))).
Local Notation cx := (@cplx T).
Variable Eps : T.                              (* Constants::Eps *)

(** std::complex: negation, division, conversion from a real, absolute value, principal square root *)
Definition copp (a : cx) : cx := (- fst a, - snd a).
Definition cdiv (a b : cx) : cx :=
  let d := fst b * fst b + snd b * snd b in
  ((fst a * fst b + snd a * snd b) / d, (snd a * fst b - fst a * snd b) / d).
Definition cre (r : T) : cx := (r, lit 0).
Definition cabs (a : cx) : T := asqrt AR (fst a * fst a + snd a * snd a).
Definition csqrt (a : cx) : cx :=
  let r := cabs a in
  (asqrt AR ((r + fst a) / lit 2), acopysign AR (asqrt AR ((r - fst a) / lit 2)) (snd a)).
(** MMLBase.h:85-94  POW2, POW3 *)
Definition pow2 (a : T) : T := a * a.
Definition pow3 (a : T) : T := a * a * a.

(** RootFindingPolynoms.h:39-65  SolveQuadratic with real coefficients: the returned count, x1 and x2.
    x2 = c / q is 0/0 when q is 0 (then b = c = 0) *)
Definition SolveQuadratic (a b c : T) : Z * option cx * option cx :=
  if aabs AR a <? Eps then
    if aabs AR b <? Eps then (0%Z, Some (cre (lit 0)), Some (cre (lit 0)))
    else (1%Z, Some (cre (- c / b)), Some (cre (lit 0)))
  else
    let D := b * b - lit 4 * a * c in
    if negb (D <? lit 0) then
      let sqrtD := asqrt AR D in
      let q := - (lit 1 / lit 2) * (b + acopysign AR sqrtD b) in
      (2%Z, Some (cre (q / a)), if aeqb AR q (lit 0) then None else Some (cre (c / q)))
    else
      let sqrtD := csqrt (cre D) in
      (0%Z, Some (cdivr TR (cadd TR (cre (- b)) sqrtD) (lit 2 * a)), Some (cdivr TR (csub TR (cre (- b)) sqrtD) (lit 2 * a))).

(** RootFindingPolynoms.h:68-81  SolveQuadratic with complex coefficients *)
Definition SolveQuadraticC (a b c : cx) : cx * cx :=
  if cabs a <? Eps then
    (if cabs b <? Eps then cre (lit 0) else cdiv (copp c) b, cre (lit 0))
  else
    let D := csub TR (cmul TR b b) (cmul TR (cscale TR (lit 4) a) c) in
    let sqrtD := csqrt D in
    (cdiv (cadd TR (copp b) sqrtD) (cscale TR (lit 2) a), cdiv (csub TR (copp b) sqrtD) (cscale TR (lit 2) a)).

(** RootFindingPolynoms.h:85-131  SolveCubic *)
Definition SolveCubic (a b c d : T) : Z * option cx * option cx * option cx :=
  if aabs AR a <? Eps then
    let '(n, x1, x2) := SolveQuadratic b c d in (n, x1, x2, Some (cre (lit 0)))
  else
    let A := b / a in
    let B := c / a in
    let C := d / a in
    let Q := (lit 3 * B - pow2 A) / lit 9 in
    let R := (lit 9 * A * B - lit 27 * C - lit 2 * pow3 A) / lit 54 in
    let D := pow3 Q + pow2 R in
    if negb (D <? lit 0) then
      let S := rcbrt A0 (R + asqrt AR D) in
      let U := rcbrt A0 (R - asqrt AR D) in
      let im := asqrt AR (lit 3) * (S - U) / lit 2 in
      (1%Z, Some (cre (- A / lit 3 + (S + U))),
       Some (cadd TR (cre (- A / lit 3 - (S + U) / lit 2)) (lit 0, im)),
       Some (csub TR (cre (- A / lit 3 - (S + U) / lit 2)) (lit 0, im)))
    else
      let theta := racos A0 (R / asqrt AR (- pow3 Q)) in
      let root t := cre (lit 2 * asqrt AR (- Q) * tcos TR (t / lit 3) - A / lit 3) in
      (3%Z, Some (root theta), Some (root (theta + lit 2 * tpi TR)), Some (root (theta + lit 4 * tpi TR))).

(** RootFindingPolynoms.h:182-191  one round of the search for the largest |U| *)
Definition pick_larger (P : T) (s : cx * cx) (z : cx) : cx * cx :=
  let U := csqrt (csub TR (cmul TR (cre (lit 2)) z) (cre P)) in
  if cabs (snd s) <? cabs U then (z, U) else s.
(** RootFindingPolynoms.h:134-203  SolveQuartic; [None] for all roots if U is 0, so that W is not a number *)
Definition SolveQuartic (a b c d e : T) : option cx * option cx * option cx * option cx :=
  if aabs AR a <? Eps then
    let '(_, x1, x2, x3) := SolveCubic b c d e in (x1, x2, x3, Some (cre (lit 0)))
  else
    let A := b / a in
    let B := c / a in
    let C := d / a in
    let D := e / a in
    let AA := A * A in
    let P := B - lit 3 * AA / lit 8 in
    let Q := C - lit 1 / lit 2 * A * B + AA * A / lit 8 in
    let R := D - lit 1 / lit 4 * A * C + AA * B / lit 16 - lit 3 * AA * AA / lit 256 in
    let sh := cre (A / lit 4) in
    if negb (Eps <? aabs AR Q) then
      let '(t1, t2) := SolveQuadraticC (cre (lit 1)) (cre P) (cre R) in
      (Some (csub TR (csqrt t1) sh), Some (csub TR (copp (csqrt t1)) sh), Some (csub TR (csqrt t2) sh), Some (csub TR (copp (csqrt t2)) sh))
    else
      match SolveCubic (lit 1) (- P / lit 2) (- R) (R * P / lit 2 - Q * Q / lit 8) with
      | (_, Some z1, Some z2, Some z3) =>
        let s := (z1, csqrt (csub TR (cmul TR (cre (lit 2)) z1) (cre P))) in
        let '(z, U) := pick_larger P (pick_larger P s z2) z3 in
        if aeqb AR (fst U) (lit 0) && aeqb AR (snd U) (lit 0) then (None, None, None, None)
        else
          let W := cdiv (cre Q) (cmul TR (cre (lit 2)) U) in
          let '(y1, y2) := SolveQuadraticC (cre (lit 1)) U (csub TR z W) in
          let '(y3, y4) := SolveQuadraticC (cre (lit 1)) (copp U) (cadd TR z W) in
          (Some (csub TR y1 sh), Some (csub TR y2 sh), Some (csub TR y3 sh), Some (csub TR y4 sh))
      | _ => (None, None, None, None)
      end.
End Cubic.
