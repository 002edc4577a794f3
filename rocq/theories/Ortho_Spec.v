(** * Specification of the orthogonal bases: improper integrals, three-term recurrences (of the model it uses only the record of
    a basis and the bounds of its domain) *)

From Coq Require Import List Arith ZArith Reals.
From Verif Require Import Base Num RootFind_Model Fourier_Model Fourier_Spec Ortho_Model.
Import ListNotations.
Local Open Scope R_scope.

(** [x] lies strictly between the bounds *)
Definition inside (a b : ext R) (x : R) : Prop :=
  match a with NegInf => True | Fin a => a < x | PosInf => False end /\ match b with NegInf => False | Fin b => x < b | PosInf => True end.
(** [P] holds for all numbers close enough to the lower bound, or to the upper bound, on the inner side *)
Definition near_lo (a : ext R) (P : R -> Prop) : Prop :=
  match a with NegInf => exists M, forall x, x < M -> P x | Fin a => exists d, 0 < d /\ forall x, a < x < a + d -> P x | PosInf => False end.
Definition near_hi (b : ext R) (P : R -> Prop) : Prop :=
  match b with PosInf => exists M, forall x, M < x -> P x | Fin b => exists d, 0 < d /\ forall x, b - d < x < b -> P x | NegInf => False end.
(** the integral of [f] from [a] to [b], improper if need be: [f] has a primitive between the bounds, which has limits there *)
Definition integral (a b : ext R) (f : R -> R) (l : R) : Prop :=
  exists F u v, (forall x, inside a b x -> derivable_pt_lim F x (f x)) /\
    (forall e, 0 < e -> near_lo a (fun x => Rabs (F x - u) < e)) /\ (forall e, 0 < e -> near_hi b (fun x => Rabs (F x - v) < e)) /\ l = v - u.

(** What the comments of the classes promise: Evaluate and Normalization are defined for every index, the functions are orthogonal
    with respect to the weight on the domain, and Normalization is the square of the norm. *)
Definition orthogonal (B : basis R) : Prop := forall m n : Z, (0 <= m)%Z -> (0 <= n)%Z ->
  exists pm pn h, (forall x, b_eval B m x = Ok (pm x)) /\ (forall x, b_eval B n x = Ok (pn x)) /\ b_norm B m = Ok h /\ 0 < h /\
    integral (b_min B) (b_max B) (fun x => pm x * pn x * b_weight B x) (if Z.eqb m n then h else 0).
(** RecurrenceCoefficients(n) = (a, b, c) with p_{n+1} = (a x + b) p_n + c p_{n-1}, where p_{-1} = 0 *)
Definition recurrence (B : basis R) (n : Z) : Prop :=
  exists a b c pn pn1 pm, b_rec B n = Ok (a, b, c) /\ (forall x, b_eval B n x = Ok (pn x)) /\ (forall x, b_eval B (n + 1) x = Ok (pn1 x)) /\
    (if Z.eqb n 0 then forall x, pm x = 0 else forall x, b_eval B (n - 1) x = Ok (pm x)) /\
    forall x, pn1 x = (a * x + b) * pn x + c * pm x.
(** [f] is a polynomial whose leading term is k x^n *)
Definition degree (n : nat) (k : R) (f : R -> R) : Prop :=
  k <> 0 /\ exists c : nat -> R, forall x, f x = k * x ^ n + sumn Rnum n (fun i => c i * x ^ i).
(** negative indices are refused *)
Definition refuses_negative (B : basis R) : Prop := forall n, (n < 0)%Z -> (forall x, b_eval B n x = Throw InvalidArgument) /\ b_norm B n = Throw InvalidArgument.

(** Euler's integral: [g] is the value of the gamma function at s > 0 *)
Definition gamma_at (s g : R) : Prop := integral (Fin 0) PosInf (fun x => Rpower x (s - 1) * exp (- x)) g.
(** the derivatives of a function, all of them *)
Definition all_derivatives (f : R -> R) (D : nat -> R -> R) : Prop := (forall x, D 0%nat x = f x) /\ forall k x, derivable_pt_lim (D k) x (D (S k) x).

(** [p 0], [p 1], ... with p_0 = 1 and p_{n+1} = (a_n x + b_n) p_n + c_n p_{n-1} *)
Fixpoint ttr (a b c : nat -> R) (n : nat) (x : R) : R :=
  match n with
  | 0%nat => 1
  | S n1 => (a n1 * x + b n1) * ttr a b c n1 x + match n1 with 0%nat => 0 | S n2 => c n1 * ttr a b c n2 x end
  end.
