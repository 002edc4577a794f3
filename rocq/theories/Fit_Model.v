(** * Model of curve fitting (mml/algorithms/CurveFitting.h)

    Arithmetic is exact.  [Eps] is std::numeric_limits<Scalar>::epsilon().  Coefficients the code computes as 0/0 are
    [None].  CurveFittingError is [InvalidArgument], SingularMatrixError is [SingularError].  The singular value
    decomposition behind the general fit is a parameter. *)

From Coq Require Import List Bool Arith ZArith.
From Verif Require Import Base Num RootFind_Model.
Import ListNotations.
Local Open Scope nat_scope.

Section Fit.
Context {T : Type} (A0 : arith T).
Local Notation ops := (aops A0).
Local Notation "a + b" := (nadd ops a b).
Local Notation "a - b" := (nsub ops a b).
Local Notation "a * b" := (nmul ops a b).
Local Notation "a / b" := (ndiv ops a b).
Local Notation "a <? b" := (altb A0 a b).
Local Notation lit := (alit A0).
Variable Eps : T.

(** CurveFitting.h:156-163  the four sums of the normal equations *)
Definition fit_sums (n : nat) (xs ys : list T) : res (T * T * T * T) :=
  for_range 0 n (fun s i =>
    let '(sx, sy, sxx, sxy) := s in
    x <- vget xs i ;; y <- vget ys i ;;
    Ok (sx + x, sy + y, sxx + x * x, sxy + x * y)) (lit 0, lit 0, lit 0, lit 0).
(** CurveFitting.h:180-184  the sum of squared residuals *)
Definition fit_residual (n : nat) (xs ys : list T) (a b : T) : res T :=
  for_range 0 n (fun s i =>
    x <- vget xs i ;; y <- vget ys i ;;
    let r := y - (a * x + b) in Ok (s + r * r)) (lit 0).
(** CurveFitting.h:127-187  LinearLeastSquares: slope, intercept and the returned residual norm *)
Definition LinearLeastSquares (xs ys : list T) : res (option (T * T * T)) :=
  if negb (length xs =? length ys) then Throw InvalidArgument
  else if length xs =? 0 then Throw InvalidArgument
  else let n := length xs in
  if n =? 1 then y0 <- vget ys 0 ;; Ok (Some (lit 0, y0, lit 0))
  else if n =? 2 then
    x0 <- vget xs 0 ;; x1 <- vget xs 1 ;; y0 <- vget ys 0 ;; y1 <- vget ys 1 ;;
    let dx := x1 - x0 in
    if aabs A0 dx <? Eps * lit 10 then
      let b := (y0 + y1) / lit 2 in
      let r0 := y0 - b in
      let r1 := y1 - b in
      Ok (Some (lit 0, b, asqrt A0 (r0 * r0 + r1 * r1)))
    else
      let a := (y1 - y0) / dx in
      Ok (Some (a, y0 - a * x0, lit 0))
  else
    s <- fit_sums n xs ys ;;
    let '(sx, sy, sxx, sxy) := s in
    let nT := lit (Z.of_nat n) in
    let det := nT * sxx - sx * sx in
    let m1 := aabs A0 (nT * sxx) in
    let m2 := aabs A0 (sx * sx) in
    if aabs A0 det <? Eps * (if m1 <? m2 then m2 else m1) then Throw SingularError
    else if aeqb A0 det (lit 0) then Ok None
    else
      let a := (nT * sxy - sx * sy) / det in
      let b := (sxx * sy - sx * sxy) / det in
      r <- fit_residual n xs ys a b ;;
      Ok (Some (a, b, asqrt A0 r)).

(** CurveFitting.h:197-211  LinearFitResult *)
Record line_fit := mkLine { lf_a : T; lf_b : T; lf_norm : T; lf_r2 : T; lf_mse : T }.
(** CurveFitting.h:221-224, 376-379  the mean of the ordinates *)
Definition fit_mean (n : nat) (ys : list T) : res T :=
  s <- for_range 0 n (fun s i => y <- vget ys i ;; Ok (s + y)) (lit 0) ;; Ok (s / lit (Z.of_nat n)).
(** CurveFitting.h:226-243, 381-398  R^2 from the two sums of squares *)
Definition fit_r2 (ss_res ss_tot : T) : T :=
  if Eps <? ss_tot then lit 1 - ss_res / ss_tot
  else if ss_res <? Eps then lit 1 else lit 0.
(** CurveFitting.h:213-249  LinearLeastSquaresDetailed *)
Definition LinearLeastSquaresDetailed (xs ys : list T) : res (option line_fit) :=
  let n := length xs in
  f <- LinearLeastSquares xs ys ;;
  match f with
  | None => Ok None
  | Some (a, b, norm) =>
    mean <- fit_mean n ys ;;
    s <- for_range 0 n (fun s i =>
      x <- vget xs i ;; y <- vget ys i ;;
      let r := y - (a * x + b) in
      Ok (fst s + r * r, snd s + (y - mean) * (y - mean))) (lit 0, lit 0) ;;
    Ok (Some (mkLine a b norm (fit_r2 (fst s) (snd s)) (fst s / lit (Z.of_nat n))))
  end.

(** CurveFitting.h:68-104  the status of the Detailed functions when exceptions are not propagated *)
Inductive fit_status := FitSuccess | FitSingular | FitInvalidInput | FitOther.
Definition fit_guard {X} (m : res X) : res (fit_status * option X) :=
  match m with
  | Ok x => Ok (FitSuccess, Some x)
  | Throw SingularError => Ok (FitSingular, None)
  | Throw InvalidArgument => Ok (FitInvalidInput, None)
  | Throw _ => Ok (FitOther, None)
  | UB => UB
  | NoFuel => NoFuel
  end.
(** CurveFitting.h:566-584  LinearFitDetailed *)
Definition LinearFitDetailed (xs ys : list T) : res (fit_status * option (option line_fit)) := fit_guard (LinearLeastSquaresDetailed xs ys).

(** ** Linear combinations of basis functions *)
(** the decomposition: from the rows of the design matrix and the right-hand side, the solution and the singular values *)
Variable svd : list (list T) -> list T -> res (list T * list T).
(** CurveFitting.h:254-266  GeneralLinearFitResult; the condition number [None] is infinite *)
Record gen_fit := mkGen { gf_coef : list T; gf_norm : T; gf_r2 : T; gf_mse : T; gf_adj : T; gf_m : nat; gf_n : nat; gf_rank : nat; gf_cond : option T }.
(** CurveFitting.h:345-351  the design matrix, as the list of its rows *)
Definition design (xs : list T) (fs : list (T -> T)) : list (list T) := map (fun x => map (fun f => f x) fs) xs.
(** CurveFitting.h:365-372  the residual sum of squares of a coefficient vector *)
Definition gen_residual (m n : nat) (A : list (list T)) (ys c : list T) : res T :=
  for_range 0 m (fun s i =>
    row <- vget A i ;; y <- vget ys i ;;
    p <- for_range 0 n (fun p j => cj <- vget c j ;; aij <- vget row j ;; Ok (p + cj * aij)) (lit 0) ;;
    let r := y - p in Ok (s + r * r)) (lit 0).
(** CurveFitting.h:328-418, 423-507  GeneralLinearLeastSquares (both overloads have this body) *)
Definition GeneralLinearLeastSquares (xs ys : list T) (fs : list (T -> T)) : res gen_fit :=
  if negb (length xs =? length ys) then Throw InvalidArgument
  else if length xs =? 0 then Throw InvalidArgument
  else if length fs =? 0 then Throw InvalidArgument
  else let m := length xs in
  let n := length fs in
  if Nat.ltb m n then Throw InvalidArgument
  else
    let A := design xs fs in
    r <- svd A ys ;;
    let '(c, w) := r in
    ss_res <- gen_residual m n A ys c ;;
    mean <- fit_mean m ys ;;
    ss_tot <- for_range 0 m (fun s i => y <- vget ys i ;; let d := y - mean in Ok (s + d * d)) (lit 0) ;;
    let r2 := fit_r2 ss_res ss_tot in
    let adj := if Eps <? ss_tot then
                 if Nat.ltb n m then lit 1 - (lit 1 - r2) * (lit (Z.of_nat m) - lit 1) / (lit (Z.of_nat m) - lit (Z.of_nat n)) else r2
               else r2 in
    w0 <- vget w 0 ;;
    let thresh := lit 1 / lit 2 * asqrt A0 (lit (Z.of_nat m) + lit (Z.of_nat n) + lit 1) * w0 * Eps in
    rank <- for_range 0 n (fun k i => wi <- vget w i ;; Ok (if thresh <? wi then S k else k)) 0 ;;
    cond <- (if Nat.ltb 0 rank then wr <- vget w (Nat.pred rank) ;; Ok (if lit 0 <? wr then Some (w0 / wr) else None) else Ok None) ;;
    Ok (mkGen c (asqrt A0 ss_res) r2 (ss_res / lit (Z.of_nat m)) adj m n rank cond).
(** CurveFitting.h:276-295  GeneralLinearFitResult::evaluate *)
Definition gen_evaluate (g : gen_fit) (x : T) (fs : list (T -> T)) : res T :=
  if negb (length (gf_coef g) =? length fs) then Throw InvalidArgument
  else for_range 0 (length (gf_coef g)) (fun s i => c <- vget (gf_coef g) i ;; f <- vget fs i ;; Ok (s + c * f x)) (lit 0).

(** ** Polynomials *)
(** std::pow(x, power) for a positive int, CurveFitting.h:538 *)
Fixpoint fpow (x : T) (k : nat) : T := match k with O => lit 1 | S k => x * fpow x k end.
(** CurveFitting.h:526-543  PolynomialFit *)
Definition PolynomialFit (xs ys : list T) (degree : Z) : res gen_fit :=
  if Z.ltb degree 0 then Throw InvalidArgument
  else GeneralLinearLeastSquares xs ys (map (fun i x => fpow x i) (seq 0 (S (Z.to_nat degree)))).
(** CurveFitting.h:547-560  EvaluatePolynomial *)
Definition EvaluatePolynomial (x : T) (c : list T) : res T :=
  let n := length c in
  if n =? 0 then Ok (lit 0)
  else
    top <- vget c (n - 1)%nat ;;
    for_down 0 (n - 1)%nat (fun r i => ci <- vget c i ;; Ok (ci + x * r)) top.
End Fit.
Arguments line_fit : clear implicits.
Arguments gen_fit : clear implicits.
