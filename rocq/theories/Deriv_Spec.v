(** * C84: what the differentiation rules are for *)

From Coq Require Import Reals List Arith.
From Verif Require Import Base Num QR_Math Deriv_Math RootFind_Model RootFind_Proofs Deriv_Model.
Import ListNotations.
Local Open Scope R_scope.

(** [derivatives f fs n lo hi] (Deriv_Math.v): fs 0 = f on [lo, hi] and fs (k+1) is the derivative of fs k there, k < n *)

(** which derivative a rule computes, and its documented order of accuracy in h *)
Definition what (m : rule) : nat :=
  match m with NSecDer2 | NSecDer4 => 2 | NThirdDer2 | NThirdDer4 => 3 | _ => 1 end.
Definition acc (m : rule) : nat :=
  match m with NDer1 => 1 | NDer2 | NSecDer2 | NThirdDer2 => 2 | NDer4 | NSecDer4 | NThirdDer4 => 4 | NDer6 => 6 | NDer8 => 8 end.
(** how many steps from x the value may look *)
Definition reach (m : rule) : R :=
  match m with NDer1 | NDer2 | NSecDer2 => 1 | NDer4 | NSecDer4 | NThirdDer2 => 2 | NDer6 | NThirdDer4 => 3 | NDer8 => 4 end.
(** the constant of the error bound, and of the leading error term *)
Definition bound (m : rule) : R :=
  match m with NDer1 => 1/2 | NDer2 => 1/6 | NDer4 => 1/18 | NDer6 => 47/2100 | NDer8 => 1957/198450
  | NSecDer2 => 1/12 | NSecDer4 => 1/54 | NThirdDer2 => 17/60 | NThirdDer4 => 403/2520 end.
Definition lead (m : rule) : R :=
  match m with NDer1 => 1/2 | NDer2 => 1/6 | NDer4 => -1/30 | NDer6 => 1/140 | NDer8 => -1/630
  | NSecDer2 => 1/12 | NSecDer4 => -1/90 | NThirdDer2 => 1/4 | NThirdDer4 => -7/120 end.

(** the polynomial a_0 + a_1 t + a_2 t^2 + ... and its derivative *)
Definition pev (a : list R) (t : R) : R := rsum (length a) (fun k => nth k a 0 * t ^ k).
Definition pder (a : list R) : list R := map (fun k => INR (S k) * nth (S k) a 0) (seq 0 (length a - 1)).

(** the three quotients extrapolated by Richardson: derivative computed, reach, constant of the error bound *)
Definition rwhat (k : dkind) : nat := match k with First => 1 | Second => 2 | Third => 3 end.
Definition rreach (k : dkind) : R := match k with Third => 2 | _ => 1 end.
Definition rbound (k : dkind) : R := match k with First => 1/6 | Second => 1/12 | Third => 17/60 end.
(** the product of (con^2j + 1) / (con^2j - 1) for j = 1, ..., n *)
Fixpoint amplification (con : R) (n : nat) : R :=
  match n with O => 1 | S k => amplification con k * ((con ^ (2 * S k) + 1) / (con ^ (2 * S k) - 1)) end.
