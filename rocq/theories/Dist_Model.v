(** * Model of the probability distributions with closed formulas (mml/algorithms/Statistics/Distributions.h)

    Arithmetic is exact; exp, log, tan, atan2, pow and erf are those of the record [mfun].  StatisticsError is [DomainError].
    Each distribution is the tuple of its members, after the test of its constructor. *)

From Coq Require Import List Bool ZArith.
From Verif Require Import Base Num RootFind_Model Fourier_Model Ortho_Model.
Import ListNotations.

Record mfun (T : Type) := mkMfun { ftrig : trig T; fexp : T -> T; flog : T -> T; ftan : T -> T; fatan2 : T -> T -> T; fpow : T -> T -> T; ferf : T -> T }.
Arguments ftrig {T} _. Arguments fexp {T} _ _. Arguments flog {T} _ _. Arguments ftan {T} _ _. Arguments fatan2 {T} _ _ _. Arguments fpow {T} _ _ _. Arguments ferf {T} _ _.
(** pdf, cdf, inverseCdf (which may be infinite), mean, variance *)
Record dist (T : Type) := mkDist { d_pdf : T -> res T; d_cdf : T -> res T; d_inv : T -> res (ext T); d_mean : res T; d_var : res T }.
Arguments mkDist {T} _ _ _ _ _. Arguments d_pdf {T} _ _. Arguments d_cdf {T} _ _. Arguments d_inv {T} _ _. Arguments d_mean {T} _. Arguments d_var {T} _.

Section Dist.
Context {T : Type} (F : mfun T).
Local Notation ops := (aops (tar (ftrig F))).
Local Notation "a + b" := (nadd ops a b).
Local Notation "a - b" := (nsub ops a b).
Local Notation "a * b" := (nmul ops a b).
Local Notation "a / b" := (ndiv ops a b).
Local Notation "- a" := (nopp ops a).
Local Notation "a <? b" := (altb (tar (ftrig F)) a b).
Local Notation "a <=? b" := (negb (altb (tar (ftrig F)) b a)).
Local Notation lit := (alit (tar (ftrig F))).
Local Notation half := (alit (tar (ftrig F)) 1 / alit (tar (ftrig F)) 2).
Local Notation abs := (aabs (tar (ftrig F))).
Local Notation sqrt := (asqrt (tar (ftrig F))).
Local Notation pi := (tpi (ftrig F)).
Local Notation exp := (fexp F). Local Notation log := (flog F). Local Notation pow := (fpow F). Local Notation erf := (ferf F).
Local Notation error := (Throw DomainError).
(** a literal n * 10^-k *)
Local Notation dec n k := (alit (tar (ftrig F)) n / alit (tar (ftrig F)) (10 ^ k)).

(** polynomial with the leading coefficient first, as the code nests it *)
Definition nest (l : list T) (x : T) : T := fold_left (fun v c => v * x + c) l (lit 0).
(** Distributions.h:112-170 (and again 1465-1497)  inverseStandardNormalCdf: coefficients and formula; nesting from 0 is exact *)
Definition ca := [- dec 3969683028665376 14; dec 2209460984245205 13; - dec 2759285104469687 13; dec 1383577518672690 13; - dec 3066479806614716 14; dec 2506628277459239 15].
Definition cb := [- dec 5447609879822406 14; dec 1615858368580409 13; - dec 1556989798598866 13; dec 6680131188771972 14; - dec 1328068155288572 14; lit 1].
Definition cc := [- dec 7784894002430293 18; - dec 3223964580411365 16; - dec 2400758277161838 15; - dec 2549732539343734 15; dec 4374664141464968 15; dec 2938163982698783 15].
Definition cd := [dec 7784695709041462 18; dec 3224671290700398 16; dec 2445134137142996 15; dec 3754408661907416 15; lit 1].
Definition probit (p : T) : T :=
  let pLow := dec 2425 5 in let pHigh := lit 1 - pLow in
  if p <? pLow then let q := sqrt (- lit 2 * log p) in nest cc q / nest cd q
  else if p <=? pHigh then let q := p - half in let r := q * q in nest ca r * q / nest cb r
  else let q := sqrt (- lit 2 * log (lit 1 - p)) in - nest cc q / nest cd q.

(** Distributions.h:26-106  NormalDistribution *)
Definition NormalDistribution (mu sigma : T) : res (dist T) :=
  if sigma <=? lit 0 then error
  else Ok (mkDist
    (fun x => let z := (x - mu) / sigma in Ok (exp (- half * z * z) / (sigma * sqrt (lit 2 * pi))))
    (fun x => let z := (x - mu) / (sigma * sqrt (lit 2)) in Ok (half * (lit 1 + erf z)))
    (fun p => if (p <=? lit 0) || (lit 1 <=? p) then error else Ok (Fin (mu + sigma * probit p)))
    (Ok mu) (Ok (sigma * sigma))).
(** Distributions.h:789-833  CauchyDistribution (no mean, no variance) *)
Definition CauchyDistribution (mu sigma : T) : res (dist T) :=
  if sigma <=? lit 0 then error
  else Ok (mkDist
    (fun x => let z := (x - mu) / sigma in Ok (lit 1 / (pi * sigma * (lit 1 + z * z))))
    (fun x => Ok (half + fatan2 F (x - mu) sigma / pi))
    (fun p => if (p <=? lit 0) || (lit 1 <=? p) then error else Ok (Fin (mu + sigma * ftan F (pi * (p - half)))))
    (Throw OtherError) (Throw OtherError)).
(** Distributions.h:837-886  ExponentialDistribution *)
Definition ExponentialDistribution (lambda : T) : res (dist T) :=
  if lambda <=? lit 0 then error
  else Ok (mkDist
    (fun x => if x <? lit 0 then error else Ok (lambda * exp (- lambda * x)))
    (fun x => if x <? lit 0 then error else Ok (lit 1 - exp (- lambda * x)))
    (fun p => if (p <? lit 0) || (lit 1 <=? p) then error else Ok (Fin (- log (lit 1 - p) / lambda)))
    (Ok (lit 1 / lambda)) (Ok (lit 1 / (lambda * lambda)))).
(** Distributions.h:890-956  LogisticDistribution *)
Definition LogisticDistribution (mu sigma : T) : res (dist T) :=
  if sigma <=? lit 0 then error
  else Ok (mkDist
    (fun x => let e := exp (- ((x - mu) / sigma)) in let denom := lit 1 + e in Ok (e / (sigma * denom * denom)))
    (fun x => let z := (x - mu) / sigma in let e := exp (- abs z) in if lit 0 <=? z then Ok (lit 1 / (lit 1 + e)) else Ok (e / (lit 1 + e)))
    (fun p => if (p <=? lit 0) || (lit 1 <=? p) then error else Ok (Fin (mu + sigma * log (p / (lit 1 - p)))))
    (Ok mu) (Ok ((pi * sigma) * (pi * sigma) / lit 3))).
(** Distributions.h:964-1005  UniformDistribution *)
Definition UniformDistribution (a b : T) : res (dist T) :=
  if b <=? a then error
  else Ok (mkDist
    (fun x => if (x <? a) || (b <? x) then Ok (lit 0) else Ok (lit 1 / (b - a)))
    (fun x => if x <? a then Ok (lit 0) else if b <? x then Ok (lit 1) else Ok ((x - a) / (b - a)))
    (fun p => if (p <? lit 0) || (lit 1 <? p) then error else Ok (Fin (a + p * (b - a))))
    (Ok ((a + b) / lit 2)) (Ok ((b - a) * (b - a) / lit 12))).
(** Distributions.h:1294-1343  WeibullDistribution; at x = 0 the density is infinite for shape < 1 ([UB] here); mean and variance are [WeibullMean] and [WeibullVariance] below *)
Definition WeibullDistribution (shape scale : T) : res (dist T) :=
  if shape <=? lit 0 then error else if scale <=? lit 0 then error
  else Ok (mkDist
    (fun x => if x <? lit 0 then Ok (lit 0)
              else if aeqb (tar (ftrig F)) x (lit 0) then (if shape <? lit 1 then UB else if aeqb (tar (ftrig F)) shape (lit 1) then Ok (lit 1 / scale) else Ok (lit 0))
              else let z := x / scale in Ok (shape / scale * pow z (shape - lit 1) * exp (- pow z shape)))
    (fun x => if x <=? lit 0 then Ok (lit 0) else Ok (lit 1 - exp (- pow (x / scale) shape)))
    (fun p => if p <=? lit 0 then Ok (Fin (lit 0)) else if lit 1 <=? p then Ok PosInf else Ok (Fin (scale * pow (- log (lit 1 - p)) (lit 1 / shape))))
    UB UB).
(** Distributions.h:1352-1406  ParetoDistribution *)
Definition ParetoDistribution (alpha xm : T) : res (dist T) :=
  if alpha <=? lit 0 then error else if xm <=? lit 0 then error
  else Ok (mkDist
    (fun x => if x <? xm then Ok (lit 0) else Ok (alpha * pow xm alpha / pow x (alpha + lit 1)))
    (fun x => if x <? xm then Ok (lit 0) else Ok (lit 1 - pow (xm / x) alpha))
    (fun p => if p <=? lit 0 then Ok (Fin xm) else if lit 1 <=? p then Ok PosInf else Ok (Fin (xm / pow (lit 1 - p) (lit 1 / alpha))))
    (if alpha <=? lit 1 then error else Ok (alpha * xm / (alpha - lit 1)))
    (if alpha <=? lit 2 then error else Ok ((xm * xm * alpha) / ((alpha - lit 1) * (alpha - lit 1) * (alpha - lit 2))))).
(** Distributions.h:1415-1462  LogNormalDistribution *)
Definition LogNormalDistribution (mu sigma : T) : res (dist T) :=
  if sigma <=? lit 0 then error
  else Ok (mkDist
    (fun x => if x <=? lit 0 then Ok (lit 0) else let z := (log x - mu) / sigma in Ok (exp (- half * z * z) / (x * sigma * sqrt (lit 2 * pi))))
    (fun x => if x <=? lit 0 then Ok (lit 0) else let z := (log x - mu) / (sigma * sqrt (lit 2)) in Ok (half * (lit 1 + erf z)))
    (fun p => if p <=? lit 0 then Ok (Fin (lit 0)) else if lit 1 <=? p then Ok PosInf else Ok (Fin (exp (mu + sigma * probit p))))
    (Ok (exp (mu + half * sigma * sigma))) (Ok (exp (lit 2 * mu + sigma * sigma) * (exp (sigma * sigma) - lit 1)))).
(** Distributions.h:1336-1342  WeibullDistribution::mean and variance, with std::tgamma as a parameter *)
Definition WeibullMean (tgamma : T -> T) (shape scale : T) : T := scale * tgamma (lit 1 + lit 1 / shape).
Definition WeibullVariance (tgamma : T -> T) (shape scale : T) : T :=
  let g1 := tgamma (lit 1 + lit 1 / shape) in let g2 := tgamma (lit 1 + lit 2 / shape) in scale * scale * (g2 - g1 * g1).
End Dist.
