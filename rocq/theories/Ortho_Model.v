(** * Model of the orthogonal bases (mml/core/OrthogonalBasis/*.h, mml/core/OrthogonalBasis.h, mml/base/ChebyshevPolynom.h) and
    of the special polynomials they use (mml/base/StandardFunctions.h, the implementations of the library itself, compiled
    where the C++ standard library has no special functions)

    Arithmetic is exact, with a cosine, pi, exp, pow and the gamma function. *)

From Coq Require Import List Bool Arith ZArith.
From Verif Require Import Base Num RootFind_Model Fourier_Model Integ_Model.
Import ListNotations.

(** the bounds of a domain: numbers or numeric_limits::infinity() *)
Inductive ext (T : Type) := NegInf | Fin (t : T) | PosInf.
Arguments NegInf {T}. Arguments Fin {T} _. Arguments PosInf {T}.
(** the members common to the basis classes: Evaluate, WeightFunction, Normalization, DomainMin, DomainMax, RecurrenceCoefficients *)
Record basis (T : Type) := mkBasis { b_eval : Z -> T -> res T; b_weight : T -> T; b_norm : Z -> res T; b_min : ext T; b_max : ext T;
                                     b_rec : Z -> res (T * T * T) }.
Arguments mkBasis {T} _ _ _ _ _ _. Arguments b_eval {T} _ _ _. Arguments b_weight {T} _ _. Arguments b_norm {T} _ _.
Arguments b_min {T} _. Arguments b_max {T} _. Arguments b_rec {T} _ _.

Section Ortho.
Context {T : Type} (A : trig T).
Variable exp tgamma : T -> T.
Variable rpow : T -> T -> T.
Local Notation ops := (aops (tar A)).
Local Notation "a + b" := (nadd ops a b).
Local Notation "a - b" := (nsub ops a b).
Local Notation "a * b" := (nmul ops a b).
Local Notation "a / b" := (ndiv ops a b).
Local Notation "- a" := (nopp ops a).
Local Notation "a <? b" := (altb (tar A) a b).
Local Notation lit := (alit (tar A)).
Local Notation int k := (alit (tar A) (Z.of_nat k)).
Local Notation half := (alit (tar A) 1 / alit (tar A) 2).
Local Notation abs := (aabs (tar A)).
Local Notation sqrt := (asqrt (tar A)).
Local Notation pi := (tpi A).

(** StandardFunctions.h:140-150  Functions::Legendre; the state is (P_prev2, P_prev1, P_n) *)
Definition Legendre (n : nat) (x : T) : T :=
  match n with
  | 0 => lit 1
  | 1 => x
  | _ => let '(_, _, p) := fold_left (fun '(p2, p1, _) k =>
           let pn := ((lit 2 * int k - lit 1) * x * p1 - (int k - lit 1) * p2) / int k in (p1, pn, pn))
           (seq 2 (n - 1)) (lit 1, x, lit 0) in p
  end.
(** StandardFunctions.h:153-163  Functions::Hermite *)
Definition Hermite (n : nat) (x : T) : T :=
  match n with
  | 0 => lit 1
  | 1 => lit 2 * x
  | _ => let '(_, _, p) := fold_left (fun '(p2, p1, _) k =>
           let pn := lit 2 * x * p1 - lit 2 * (int k - lit 1) * p2 in (p1, pn, pn))
           (seq 2 (n - 1)) (lit 1, lit 2 * x, lit 0) in p
  end.
(** StandardFunctions.h:166-176  Functions::Laguerre *)
Definition Laguerre (n : nat) (x : T) : T :=
  match n with
  | 0 => lit 1
  | 1 => lit 1 - x
  | _ => let '(_, _, p) := fold_left (fun '(p2, p1, _) k =>
           let pn := ((lit 2 * int k - lit 1 - x) * p1 - (int k - lit 1) * p2) / int k in (p1, pn, pn))
           (seq 2 (n - 1)) (lit 1, lit 1 - x, lit 0) in p
  end.
(** StandardFunctions.h:179-203  Functions::AssocLegendre *)
Definition AssocLegendre (l m : nat) (x : T) : T :=
  if Nat.ltb l m then lit 0
  else
    let pmm := if Nat.ltb 0 m
               then fst (fold_left (fun '(p, fact) _ => (p * (- fact * sqrt (lit 1 - x * x)), fact + lit 2)) (seq 1 m) (lit 1, lit 1))
               else lit 1 in
    if Nat.eqb l m then pmm
    else
      let pm1 := x * (lit 2 * int m + lit 1) * pmm in
      if Nat.eqb l (S m) then pm1
      else let '(_, _, p) := fold_left (fun '(p2, p1, _) ll =>
             let pn := (x * (lit 2 * int ll - lit 1) * p1 - (int ll + int m - lit 1) * p2) / int (ll - m) in (p1, pn, pn))
             (seq (m + 2) (l - m - 1)) (pmm, pm1, lit 0) in p.
(** StandardFunctions.h:206-218  Functions::AssocLaguerre *)
Definition AssocLaguerre (n m : nat) (x : T) : T :=
  match n with
  | 0 => lit 1
  | 1 => lit 1 + int m - x
  | _ => let '(_, _, p) := fold_left (fun '(p2, p1, _) k =>
           let pn := ((lit 2 * int k - lit 1 + int m - x) * p1 - (int k - lit 1 + int m) * p2) / int k in (p1, pn, pn))
           (seq 2 (n - 1)) (lit 1, lit 1 + int m - x, lit 0) in p
  end.
(** StandardFunctions.h:221-233  Functions::SphLegendre, for m <= l (otherwise the unsigned l - m + 1 wraps around) *)
Definition SphLegendre (l m : nat) (theta : T) : T :=
  let x := tcos A theta in
  let ratio := fold_left (fun r i => r / int i) (seq (l - m + 1) (2 * m)) (lit 1) in
  let K := sqrt ((lit 2 * int l + lit 1) / (lit 4 * pi) * ratio) in
  K * AssocLegendre l m x.
(** ChebyshevPolynom.h:38-57  ChebyshevT and 77-96 ChebyshevU, for n >= 0; a negative n throws an ArgumentError *)
Definition ChebyshevT (n : nat) (x : T) : T :=
  match n with
  | 0 => lit 1
  | 1 => x
  | _ => let '(_, _, p) := fold_left (fun '(p2, p1, _) (_ : nat) => let pn := lit 2 * x * p1 - p2 in (p1, pn, pn))
           (seq 2 (n - 1)) (lit 1, x, lit 0) in p
  end.
Definition ChebyshevU (n : nat) (x : T) : T :=
  match n with
  | 0 => lit 1
  | 1 => lit 2 * x
  | _ => let '(_, _, p) := fold_left (fun '(p2, p1, _) (_ : nat) => let pn := lit 2 * x * p1 - p2 in (p1, pn, pn))
           (seq 2 (n - 1)) (lit 1, lit 2 * x, lit 0) in p
  end.

(** the test every member starts with: a negative index throws std::invalid_argument (an ArgumentError is one too) *)
Definition nonneg {S} (n : Z) (r : res S) : res S := if (n <? 0)%Z then Throw InvalidArgument else r.
(** HermiteBasis.h:77-79 and elsewhere  n! *)
Definition factorial (n : nat) : T := fold_left (fun f k => f * int k) (seq 1 n) (lit 1).

(** LegendreBasis.h:54-95 *)
Definition LegendreBasis : basis T := mkBasis
  (fun n x => nonneg n (Ok (Legendre (Z.to_nat n) x)))
  (fun _ => lit 1)
  (fun n => nonneg n (Ok (lit 2 / (lit 2 * lit n + lit 1))))
  (Fin (- lit 1)) (Fin (lit 1))
  (fun n => nonneg n (Ok ((lit 2 * lit n + lit 1) / (lit n + lit 1), lit 0, - lit n / (lit n + lit 1)))).
(** LegendreBasis.h:112-127  AssociatedLegendreBasis: constructor and Evaluate *)
Definition assoc_legendre_new (m : Z) : res nat := if (m <? 0)%Z then Throw InvalidArgument else Ok (Z.to_nat m).
Definition assoc_legendre_eval (m : nat) (l : Z) (x : T) : res T :=
  if (l <? Z.of_nat m)%Z then Throw InvalidArgument else Ok (SphLegendre (Z.to_nat l) m x).

(** HermiteBasis.h:60-113 *)
Definition hermite_norm (n : Z) : res T := nonneg n (Ok (rpow (lit 2) (lit n) * factorial (Z.to_nat n) * sqrt pi)).
Definition HermiteBasis : basis T := mkBasis
  (fun n x => nonneg n (Ok (Hermite (Z.to_nat n) x)))
  (fun x => exp (- x * x))
  hermite_norm
  NegInf PosInf
  (fun n => nonneg n (Ok (lit 2, lit 0, - lit 2 * lit n))).
(** HermiteBasis.h:117-127  QuantumWavefunction *)
Definition QuantumWavefunction (n : Z) (x : T) : res T :=
  nonneg n (h <- b_eval HermiteBasis n x ;; w <- hermite_norm n ;; Ok (lit 1 / sqrt w * h * exp (- half * x * x))).
(** HermiteBasis.h:147-181  ProbabilistHermiteBasis, which has no RecurrenceCoefficients; [Constants::SQRT2] is the root of 2 *)
Definition ProbabilistHermiteBasis : basis T := mkBasis
  (fun n x => nonneg n (Ok (rpow (lit 2) (- half * lit n) * Hermite (Z.to_nat n) (x / sqrt (lit 2)))))
  (fun x => exp (- half * x * x))
  (fun n => nonneg n (Ok (factorial (Z.to_nat n) * sqrt (lit 2 * pi))))
  NegInf PosInf
  (fun _ => Throw OtherError).

(** LaguerreBasis.h:60-109 *)
Definition LaguerreBasis : basis T := mkBasis
  (fun n x => nonneg n (Ok (Laguerre (Z.to_nat n) x)))
  (fun x => exp (- x))
  (fun n => nonneg n (Ok (lit 1)))
  (Fin (lit 0)) PosInf
  (fun n => nonneg n (Ok (- lit 1 / (lit n + lit 1), (lit 2 * lit n + lit 1) / (lit n + lit 1), - lit n / (lit n + lit 1)))).
(** LaguerreBasis.h:134-216  AssociatedLaguerreBasis: constructor and members *)
Definition assoc_laguerre_new (alpha : T) : res T := if negb (- lit 1 <? alpha) then Throw InvalidArgument else Ok alpha.
Definition assoc_laguerre_value (alpha : T) (n : nat) (x : T) : T :=
  match n with
  | 0 => lit 1
  | 1 => lit 1 + alpha - x
  | _ => let '(_, _, p) := fold_left (fun '(p2, p1, _) k =>
           let pn := ((lit 2 * int k + alpha + lit 1 - x) * p1 - (int k + alpha) * p2) / (int k + lit 1) in (p1, pn, pn))
           (seq 1 (n - 1)) (lit 1, lit 1 + alpha - x, lit 0) in p
  end.
Definition AssociatedLaguerreBasis (alpha : T) : basis T := mkBasis
  (fun n x => nonneg n (Ok (assoc_laguerre_value alpha (Z.to_nat n) x)))
  (fun x => rpow x alpha * exp (- x))
  (fun n => nonneg n (Ok (fold_left (fun r k => r * (alpha + int k)) (seq 1 (Z.to_nat n)) (tgamma (alpha + lit 1)) / factorial (Z.to_nat n))))
  (Fin (lit 0)) PosInf
  (fun n => nonneg n (Ok (- lit 1 / (lit n + lit 1), (lit 2 * lit n + alpha + lit 1) / (lit n + lit 1), - (lit n + alpha) / (lit n + lit 1)))).

(** ChebyshevBasis.h:61-111  ChebyshevBasis *)
Definition ChebyshevBasis : basis T := mkBasis
  (fun n x => nonneg n (Ok (ChebyshevT (Z.to_nat n) x)))
  (fun x => if negb (abs x <? lit 1) then lit (10 ^ 10) else lit 1 / sqrt (lit 1 - x * x))
  (fun n => nonneg n (Ok (if (n =? 0)%Z then pi else pi / lit 2)))
  (Fin (- lit 1)) (Fin (lit 1))
  (fun n => nonneg n (Ok (lit 2, lit 0, - lit 1))).
(** ChebyshevBasis.h:114-135  GetExtrema (n = 0 divides 0 by 0 and is left out: n >= 1), GetZeros *)
Definition chebyshev_extrema (n : Z) : res (list T) :=
  nonneg n (Ok (map (fun k => tcos A (int k * pi / lit n)) (seq 0 (S (Z.to_nat n))))).
Definition chebyshev_zeros (n : Z) : res (list T) :=
  if (n <=? 0)%Z then Throw InvalidArgument
  else Ok (map (fun k => tcos A ((lit 2 * int k - lit 1) * pi / (lit 2 * lit n))) (seq 1 (Z.to_nat n))).
(** ChebyshevBasis.h:165-215  ChebyshevBasisSecondKind *)
Definition ChebyshevBasisSecondKind : basis T := mkBasis
  (fun n x => nonneg n (Ok (ChebyshevU (Z.to_nat n) x)))
  (fun x => if negb (abs x <? lit 1) then lit 0 else sqrt (lit 1 - x * x))
  (fun n => nonneg n (Ok (pi / lit 2)))
  (Fin (- lit 1)) (Fin (lit 1))
  (fun n => nonneg n (Ok (lit 2, lit 0, - lit 1))).
Definition chebyshev2_zeros (n : Z) : res (list T) :=
  if (n <=? 0)%Z then Throw InvalidArgument
  else Ok (map (fun k => tcos A (int k * pi / (lit n + lit 1))) (seq 1 (Z.to_nat n))).

(** OrthogonalBasis.h:60-77  ComputeCoefficient on a bounded domain: the trapezoidal rule (Integ_Model.v) applied to
    f * Evaluate(n) * WeightFunction.  [maxSteps] is Defaults::TrapezoidIntegrationMaxSteps.  An exception of Evaluate
    appears only for n < 0, where it comes first. *)
Definition ComputeCoefficient (maxSteps : Z) (B : basis T) (f : T -> T) (n : Z) (eps : T) : res T :=
  nonneg n
    (match b_min B, b_max B with
     | Fin a, Fin b =>
         r <- IntegrateTrap (tar A) maxSteps (fun x => f x * match b_eval B n x with Ok v => v | _ => lit 0 end * b_weight B x) a b eps ;;
         w <- b_norm B n ;; Ok (ir_value r / w)
     | _, _ => UB
     end).
End Ortho.
