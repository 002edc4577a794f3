(** * Specification of the Chebyshev approximation: the Chebyshev polynomials and series *)

From Coq Require Import List Arith ZArith Reals.
From Verif Require Import Num RootFind_Model Interp_Linear Cheb_Model.
Import ListNotations.
Local Open Scope R_scope.

(** The polynomials of the first kind: T_0 = 1, T_1 = y, T_{k+2} = 2 y T_{k+1} - T_k *)
Fixpoint cT (k : nat) (y : R) : R :=
  match k with
  | 0%nat => 1
  | S k1 => match k1 with 0%nat => y | S k2 => 2 * y * cT k1 y - cT k2 y end
  end.
(** The polynomials of the second kind: U_0 = 1, U_1 = 2 y, U_{k+2} = 2 y U_{k+1} - U_k *)
Fixpoint cU (k : nat) (y : R) : R :=
  match k with
  | 0%nat => 1
  | S k1 => match k1 with 0%nat => 2 * y | S k2 => 2 * y * cU k1 y - cU k2 y end
  end.

(** c_0 / 2 + c_1 T_1(y) + ... + c_{m-1} T_{m-1}(y) *)
Definition series (c : nat -> R) (m : nat) (y : R) : R :=
  c 0%nat / 2 + sumn Rnum (m - 1) (fun i => c (S i) * cT (S i) y).
(** the affine map of [a, b] onto [-1, 1] *)
Definition unitpos (a b x : R) : R := (2 * x - a - b) / (b - a).
(** the coefficients of an approximation, 0 beyond the last one *)
Definition cof (C : cheb R) (j : nat) : R := nth j (cb_coef C) 0.
(** what an approximation stands for: its first m terms on its interval *)
Definition cfun (C : cheb R) (m : nat) (x : R) : R := series (cof C) m (unitpos (cb_a C) (cb_b C) x).
(** the objects the constructors, SetNumTerms and Truncate produce *)
Definition cheb_ok (C : cheb R) : Prop := (1 <= cb_m C <= length (cb_coef C))%nat /\ cb_a C < cb_b C.
(** the k-th of the n sample points in [a, b] *)
Definition node (a b : R) (n k : nat) : R := cos (PI * (INR k + 1 / 2) / INR n) * ((b - a) / 2) + (b + a) / 2.
