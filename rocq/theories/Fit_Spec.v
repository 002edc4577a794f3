(** * Specification of curve fitting: sums of squares *)

From Coq Require Import List Arith ZArith Reals.
From Verif Require Import Num RootFind_Model RootFind_Proofs.
Import ListNotations.
Local Open Scope R_scope.
Local Notation sum := (sumn Rnum).

(** the sum of squared residuals of the line a x + b *)
Definition ssr (n : nat) (x y : nat -> R) (a b : R) : R := sum n (fun i => (y i - (a * x i + b)) * (y i - (a * x i + b))).
Definition mean (n : nat) (y : nat -> R) : R := sum n y / INR n.
(** the sum of squared deviations from the mean *)
Definition spread (n : nat) (y : nat -> R) : R := sum n (fun i => (y i - mean n y) * (y i - mean n y)).
(** R^2 as the code decides it: data without spread count as fitted when the residual is below the threshold *)
Definition r_squared (Eps res tot : R) : R := if Rltb Eps tot then 1 - res / tot else if Rltb res Eps then 1 else 0.
(** the sum of squared residuals of the combination sum c_j f_j *)
Definition gssr (m n : nat) (f : nat -> R -> R) (x y c : nat -> R) : R := sum m (fun i => let r := y i - sum n (fun j => c j * f j (x i)) in r * r).
