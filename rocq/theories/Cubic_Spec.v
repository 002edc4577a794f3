(** * Specification of the closed-form solvers: real polynomials at complex points *)

From Coq Require Import List Arith ZArith Reals.
From Verif Require Import Num RootFind_Model RootFind_Proofs Fourier_Model Fourier_Spec Cubic_Model.
Import ListNotations.
Local Open Scope R_scope.

(** the real cube root *)
Definition Rcbrt (x : R) : R := if Rlt_dec x 0 then - Rpower (- x) (/ 3) else if Rlt_dec 0 x then Rpower x (/ 3) else 0.
Definition Rralg : ralg R := mkRalg R Rtrig Rcbrt acos.
(** l_0 + l_1 X + l_2 X^2 + ... at a complex X *)
Fixpoint cpev (l : list R) (X : C) : C := match l with [] => (0, 0) | a :: l => Cadd (RtoC a) (Cmul X (cpev l X)) end.
(** the product of X - r over the list *)
Fixpoint factors (l : list C) (X : C) : C := match l with [] => (1, 0) | r :: l => Cmul (Csub X r) (factors l X) end.
(** all roots of the polynomial, with multiplicity: it is the leading coefficient times the product of X - r *)
Definition all_roots (l : list R) (lead : R) (roots : list C) : Prop := forall X, cpev l X = Cmul (RtoC lead) (factors roots X).
Definition is_real (x : C) : Prop := snd x = 0.
(** the coefficient of y in p(y - b/(4a)) / a, for p = a x^4 + b x^3 + c x^2 + d x + e *)
Definition shifted_linear (a b c d : R) : R := d / a - b * c / (2 * a * a) + b * b * b / (8 * a * a * a).
