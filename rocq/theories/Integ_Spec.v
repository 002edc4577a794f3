(** * Specification of one-dimensional integration (of the model it uses only the record of results: value, error estimate,
    iterations, converged) *)

From Coq Require Import List Arith Reals.
From Verif Require Import Num RootFind_Proofs Interp_Poly Integ_Model.
Import ListNotations.
Local Open Scope R_scope.
Local Notation sum := (sumn Rnum).

(** [F] is a primitive of [f] on the interval with end points [a] and [b] (in either order); the integral of [f] from [a] to [b]
    is then F b - F a *)
Definition primitive (F f : R -> R) (a b : R) : Prop := forall x, between a b x -> derivable_pt_lim F x (f x).
(** [g] is Lipschitz with constant [M] there *)
Definition lipschitz (M : R) (g : R -> R) (a b : R) : Prop := forall x y, between a b x -> between a b y -> Rabs (g x - g y) <= M * Rabs (x - y).
(** the i-th of the points that cut the interval into [n] equal panels *)
Definition node (a b : R) (n i : nat) : R := a + INR i * ((b - a) / INR n).
(** composite trapezoidal rule with [n] panels *)
Definition trapezoid (f : R -> R) (a b : R) (n : nat) : R :=
  sum n (fun i => (b - a) / INR n * ((f (node a b n i) + f (node a b n (S i))) / 2)).
(** composite rule of Simpson with [n] panels, each with its middle point *)
Definition simpson (f : R -> R) (a b : R) (n : nat) : R :=
  sum n (fun i => (b - a) / INR n * ((f (node a b n i) + 4 * f ((node a b n i + node a b n (S i)) / 2) + f (node a b n (S i))) / 6)).
(** machine epsilon *)
Definition eps_machine : R := / 2 ^ 52.
(** the stopping test of the two rules: the change is below eps |old| + eps * 2^-52 *)
Definition settled (eps old new : R) : Prop := Rabs (new - old) < eps * Rabs old + eps * eps_machine.
(** Romberg: the value at 0 of the polynomial of degree below [k] through the points ((1/4)^i, T i) with j - k < i <= j *)
Definition extrapolation (T : nat -> R) (k j : nat) (v : R) : Prop :=
  exists p, is_poly Rnum k p /\ (forall i, (i <= j < i + k)%nat -> p ((1 / 4) ^ i) = T i) /\ v = p 0.
(** the sum of the absolute values of a list of coefficients *)
Definition norm1 (c : list R) : R := fold_right (fun x s => Rabs x + s) 0 c.
(** pieces ((x, y), d) that follow each other from [a] to [b] *)
Inductive partition : R -> R -> list (R * R * nat) -> Prop :=
  | part_one : forall a b d, partition a b [(a, b, d)]
  | part_app : forall a m b l1 l2, partition a m l1 -> partition m b l2 -> partition a b (l1 ++ l2).
(** the sum of [g] over a list *)
Definition total {A} (g : A -> R) (l : list A) : R := fold_right (fun p s => g p + s) 0 l.

(** the outcome of a sequence of estimates v 0, v 1, ... of which at most [n] are computed *)
Definition stops (v : nat -> R) (eps : R) (n : nat) (r : ires) : Prop :=
  if ir_conv r
  then (6 <= ir_iters r < n)%nat /\ ir_value r = v (ir_iters r) /\ settled eps (v (ir_iters r - 1)%nat) (v (ir_iters r)) /\
       ir_err r = Rabs (v (ir_iters r) - v (ir_iters r - 1)%nat) /\ forall j, (6 <= j < ir_iters r)%nat -> ~ settled eps (v (j - 1)%nat) (v j)
  else ir_iters r = n /\ ir_value r = v (n - 1)%nat /\ ir_err r = 0 /\ forall j, (6 <= j < n)%nat -> ~ settled eps (v (j - 1)%nat) (v j).
(** the first value of Simpson's loop is not a rule of Simpson *)
Definition simpson_seq (f : R -> R) (a b : R) (k : nat) : R := match k with 0%nat => 4 / 3 * trapezoid f a b 1 | S k => simpson f a b (2 ^ k) end.
(** the outcome: [v j] and [w j] are the extrapolations after step [j] *)
Definition romberg_stops (v w : nat -> R) (eps : R) (K n : nat) (r : ires) : Prop :=
  let small j := Rabs (v j - w j) <= eps * Rabs (v j) + eps * eps_machine in
  if ir_conv r
  then (K <= ir_iters r <= n)%nat /\ ir_value r = v (ir_iters r - 1)%nat /\ ir_err r = Rabs (v (ir_iters r - 1)%nat - w (ir_iters r - 1)%nat) /\ small (ir_iters r - 1)%nat /\
       forall j, (K <= S j < ir_iters r)%nat -> ~ small j
  else ir_iters r = n /\ (if (K <=? n)%nat then ir_value r = v (n - 1)%nat /\ ir_err r = Rabs (v (n - 1)%nat - w (n - 1)%nat) else ir_value r = 0 /\ ir_err r = 0) /\
       forall j, (K <= S j <= n)%nat -> ~ small j.
