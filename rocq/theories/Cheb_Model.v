(** * Model of the Chebyshev approximation (mml/algorithms/ChebyshevApproximation.h)

    Arithmetic is exact ([arith T]) with a cosine and the constant PI ([trig T] of Fourier_Model.v).  The function to
    approximate may throw, so it returns [res T].  [PrintCoefficients] and the trivial getters are left out. *)

From Coq Require Import List Bool Arith ZArith.
From Verif Require Import Base Num RootFind_Model Fourier_Model Poly_Model.
Import ListNotations.

Section Cheb.
Context {T : Type} (A : trig T).
Local Notation ops := (aops (tar A)).
Local Notation "a + b" := (nadd ops a b).
Local Notation "a - b" := (nsub ops a b).
Local Notation "a * b" := (nmul ops a b).
Local Notation "a / b" := (ndiv ops a b).
Local Notation "- a" := (nopp ops a).
Local Notation "a <? b" := (altb (tar A) a b).
Local Notation lit := (alit (tar A)).
Local Notation int k := (alit (tar A) (Z.of_nat k)).
Local Notation half := (alit (tar A) 1 / alit (tar A) 2).

(** ChebyshevApproximation.h:38-42  _coef, _a, _b, _m *)
Record cheb := mkCheb { cb_coef : list T; cb_a : T; cb_b : T; cb_m : nat }.
(** ChebyshevApproximation.h:50-55  default constructor *)
Definition cheb_default : cheb := mkCheb [] (- lit 1) (lit 1) 0.

(** ChebyshevApproximation.h:67-97 and 100-128  construction from a function (two overloads with the same body).
    Vector(int) throws a VectorInitializationError, itself a std::invalid_argument, for negative n before n is tested *)
Definition cheb_of_func (func : T -> res T) (a b : T) (n : Z) : res cheb :=
  if (n <=? 0)%Z then Throw InvalidArgument
  else if negb (a <? b) then Throw InvalidArgument
  else
    let N := Z.to_nat n in
    let bma := half * (b - a) in
    let bpa := half * (b + a) in
    f <- for_range 0 N (fun f k =>
           let y := tcos A (tpi A * (int k + half) / int N) in
           v <- func (y * bma + bpa) ;; vset f k v) (repeat (lit 0) N) ;;
    let fac := lit 2 / int N in
    coef <- for_range 0 N (fun c k =>
           s <- for_range 0 N (fun s j => fj <- vget f j ;; Ok (s + fj * tcos A (tpi A * int k * (int j + half) / int N))) (lit 0) ;;
           vset c k (fac * s)) (repeat (lit 0) N) ;;
    Ok (mkCheb coef a b N).

(** ChebyshevApproximation.h:137-146  construction from coefficients *)
Definition cheb_of_coef (c : list T) (a b : T) : res cheb :=
  if Nat.eqb (length c) 0 then Throw InvalidArgument
  else if negb (a <? b) then Throw InvalidArgument
  else Ok (mkCheb c a b (length c)).

(** ChebyshevApproximation.h:184-196 and 208-219  the Clenshaw recurrence on the first m coefficients *)
Definition clenshaw (coef : list T) (a b x : T) (m : nat) : res T :=
  let y := (lit 2 * x - a - b) / (b - a) in
  let y2 := lit 2 * y in
  s <- for_down 1 m (fun '(d, dd) j => c <- vget coef j ;; Ok (y2 * d - dd + c, d)) (lit 0, lit 0) ;;
  c0 <- vget coef 0 ;;
  Ok (y * fst s - snd s + half * c0).
(** ChebyshevApproximation.h:177-198  operator() *)
Definition cheb_eval (C : cheb) (x : T) : res T :=
  if lit 0 <? (x - cb_a C) * (x - cb_b C) then Throw DomainError
  else if Nat.eqb (cb_m C) 0 then Ok (lit 0)
  else clenshaw (cb_coef C) (cb_a C) (cb_b C) x (cb_m C).
(** ChebyshevApproximation.h:201-219  Eval(x, m) *)
Definition cheb_eval_terms (C : cheb) (x : T) (m : Z) : res T :=
  if (m <=? 0)%Z || (Z.of_nat (cb_m C) <? m)%Z then Throw InvalidArgument
  else if lit 0 <? (x - cb_a C) * (x - cb_b C) then Throw DomainError
  else clenshaw (cb_coef C) (cb_a C) (cb_b C) x (Z.to_nat m).

(** ChebyshevApproximation.h:239-243  Coefficient(j) *)
Definition cheb_coefficient (C : cheb) (j : Z) : res T :=
  if (j <? 0)%Z || (Z.of_nat (length (cb_coef C)) <=? j)%Z then Throw OutOfRange else vget (cb_coef C) (Z.to_nat j).
(** ChebyshevApproximation.h:253-257  SetNumTerms *)
Definition cheb_set_terms (C : cheb) (m : Z) : res cheb :=
  if (m <=? 0)%Z || (Z.of_nat (length (cb_coef C)) <? m)%Z then Throw InvalidArgument
  else Ok (mkCheb (cb_coef C) (cb_a C) (cb_b C) (Z.to_nat m)).
(** ChebyshevApproximation.h:265-266  the loop of Truncate: structural, since every round lowers m *)
Fixpoint truncate_loop (coef : list T) (threshold : T) (m : nat) : res nat :=
  match m with
  | S (S m' as m1) => c <- vget coef m1 ;; if aabs (tar A) c <? threshold then truncate_loop coef threshold m1 else Ok m
  | _ => Ok m
  end.
(** ChebyshevApproximation.h:264-268  Truncate: the object with its new number of terms, which is also returned *)
Definition cheb_truncate (C : cheb) (threshold : T) : res cheb :=
  m <- truncate_loop (cb_coef C) threshold (cb_m C) ;; Ok (mkCheb (cb_coef C) (cb_a C) (cb_b C) m).

(** ChebyshevApproximation.h:280-302  Derivative *)
Definition cheb_derivative (C : cheb) : res cheb :=
  let coef := cb_coef C in
  let n := length coef in
  if Nat.leb n 1 then cheb_of_coef [lit 0] (cb_a C) (cb_b C)
  else
    let cder := repeat (lit 0) n in
    cder <- vset cder (n - 1) (lit 0) ;;
    cl <- vget coef (n - 1) ;;
    cder <- vset cder (n - 2) (lit 2 * int (n - 1) * cl) ;;
    cder <- for_down 1 (n - 1) (fun cder j =>
              d <- vget cder (j + 1) ;; c <- vget coef j ;; vset cder (j - 1) (d + lit 2 * int j * c)) cder ;;
    let con := lit 2 / (cb_b C - cb_a C) in
    cder <- for_range 0 n (fun cder j => d <- vget cder j ;; vset cder j (d * con)) cder ;;
    cheb_of_coef cder (cb_a C) (cb_b C).

(** ChebyshevApproximation.h:313-335  Integral; with one coefficient _coef[n - 2] is read outside the vector and with
    none cint[n - 1] is written outside it ([UB]) *)
Definition cheb_integral (C : cheb) : res cheb :=
  let coef := cb_coef C in
  let n := length coef in
  let con := lit 1 / lit 4 * (cb_b C - cb_a C) in
  s <- for_range 1 (n - 1) (fun '(cint, sum, fac) j =>
         cl <- vget coef (j - 1) ;; cr <- vget coef (j + 1) ;;
         let v := con * (cl - cr) / int j in
         cint <- vset cint j v ;; Ok (cint, sum + fac * v, - fac)) (repeat (lit 0) n, lit 0, lit 1) ;;
  let '(cint, sum, fac) := s in
  if Nat.ltb n 2 then UB
  else
    cl <- vget coef (n - 2) ;;
    let v := con * cl / int (n - 1) in
    cint <- vset cint (n - 1) v ;;
    let sum := sum + fac * v in
    cint <- vset cint 0 (lit 2 * sum) ;;
    cheb_of_coef cint (cb_a C) (cb_b C).

(** ChebyshevApproximation.h:348-374  ToPolynomial(m): the coefficient list of the polynomial in y *)
Definition cheb_to_poly (C : cheb) (m : Z) : res (list T) :=
  if (m <=? 0)%Z || (Z.of_nat (length (cb_coef C)) <? m)%Z then Throw InvalidArgument
  else
    let M := Z.to_nat m in
    let coef := cb_coef C in
    cl <- vget coef (M - 1) ;;
    d <- vset (repeat (lit 0) M) 0 cl ;;
    s <- for_down 1 (M - 1) (fun '(d, dd) j =>
           s <- for_down 1 (M - j + 1) (fun '(d, dd) k =>
                  sv <- vget d k ;; dl <- vget d (k - 1) ;; ek <- vget dd k ;;
                  d <- vset d k (lit 2 * dl - ek) ;; dd <- vset dd k sv ;; Ok (d, dd)) (d, dd) ;;
           let '(d, dd) := s in
           sv <- vget d 0 ;; e0 <- vget dd 0 ;; c <- vget coef j ;;
           d <- vset d 0 (- e0 + c) ;; dd <- vset dd 0 sv ;; Ok (d, dd)) (d, repeat (lit 0) M) ;;
    let '(d, dd) := s in
    d <- for_down 1 M (fun d j => dl <- vget d (j - 1) ;; ej <- vget dd j ;; vset d j (dl - ej)) d ;;
    e0 <- vget dd 0 ;; c0 <- vget coef 0 ;;
    vset d 0 (- e0 + half * c0).
(** ChebyshevApproximation.h:345  ToPolynomial() *)
Definition cheb_to_poly_all (C : cheb) : res (list T) := cheb_to_poly C (Z.of_nat (cb_m C)).
(** ChebyshevApproximation.h:378-385  FromPolynomial *)
Definition cheb_of_poly (p : list T) (a b : T) (n : Z) : res cheb :=
  let n := if (n <=? 0)%Z then (p_degree p + 1)%Z else n in
  cheb_of_func (p_eval ops p) a b n.

(** ChebyshevApproximation.h:391-412  MaxError (two overloads).  A non-positive number of samples gives 0: the loop does
    not run, or for 0 runs once at the NaN 0/0, which compares greater than nothing *)
Definition cheb_max_error (C : cheb) (func : T -> res T) (numSamples : Z) : res T :=
  if (numSamples <=? 0)%Z then Ok (lit 0)
  else
    for_range 0 (S (Z.to_nat numSamples)) (fun maxErr i =>
      let x := cb_a C + int i * (cb_b C - cb_a C) / lit numSamples in
      v <- cheb_eval C x ;; w <- func x ;;
      let err := aabs (tar A) (v - w) in
      Ok (if maxErr <? err then err else maxErr)) (lit 0).

(** ChebyshevApproximation.h:434-445  ChebyshevRoots *)
Definition ChebyshevRoots (n : Z) : res (list T) :=
  if (n <=? 0)%Z then Throw InvalidArgument
  else for_range 0 (Z.to_nat n) (fun r k => vset r k (tcos A (tpi A * int (2 * k + 1)%nat / (lit 2 * lit n)))) (repeat (lit 0) (Z.to_nat n)).
(** ChebyshevApproximation.h:450-461  ChebyshevExtrema *)
Definition ChebyshevExtrema (n : Z) : res (list T) :=
  if (n <=? 0)%Z then Throw InvalidArgument
  else for_range 0 (S (Z.to_nat n)) (fun r k => vset r k (tcos A (tpi A * int k / lit n))) (repeat (lit 0) (S (Z.to_nat n))).
End Cheb.
Arguments cheb T : clear implicits.
Arguments mkCheb {T} _ _ _ _. Arguments cb_coef {T} _. Arguments cb_a {T} _. Arguments cb_b {T} _. Arguments cb_m {T} _.
