(** * Specification of adaptive integration *)
From Coq Require Import List Reals.
From Verif Require Import ODE_Spec.
Import ListNotations.
Open Scope R_scope.
Set Implicit Arguments.

(** Constants::Eps for double, and the number added to every scale *)
Definition Eps : R := / 2 ^ 52.
Definition Tiny : R := / 10 ^ 30.

(** the estimated error of each component is at most [eps] times |x_i| + |h x'_i| (plus [Tiny]) *)
Definition within (eps : R) (n : nat) (f : sys) (t : R) (x : vec) (h : R) (e : vec) : Prop :=
  forall i, (i < n)%nat -> Rabs (nth i e 0) <= eps * (Rabs (nth i x 0) + Rabs (h * nth i (f t x) 0) + Tiny).
(** the step of size [h] of an embedded pair leads to [y] and its error estimate passes or fails the test *)
Definition passes (tab : tableau) (bstar : list R) (f : sys) (n : nat) (eps t : R) (x : vec) (h : R) (y : vec) : Prop :=
  exists e, rk_pair tab bstar f t x h y e /\ within eps n f t x h e.
Definition fails (tab : tableau) (bstar : list R) (f : sys) (n : nat) (eps t : R) (x : vec) (h : R) : Prop :=
  exists y e, rk_pair tab bstar f t x h y e /\ ~ within eps n f t x h e.

(** [p] is, in each component, the cubic with value x0 and slope d0 at [t] and value x1 and slope d1 at [t + h] *)
Definition hermite (n : nat) (t h : R) (x0 d0 x1 d1 : vec) (p : R -> vec) : Prop :=
  (forall s, length (p s) = n) /\
  forall i, (i < n)%nat -> exists c2 c3, (forall s, nth i (p s) 0 = nth i x0 0 + nth i d0 0 * (s - t) + c2 * (s - t) ^ 2 + c3 * (s - t) ^ 3) /\
    nth i (p (t + h)) 0 = nth i x1 0 /\ nth i d0 0 + 2 * c2 * h + 3 * c3 * h ^ 2 = nth i d1 0.

(** ** The mesh of an integration *)
(** one accepted step: start time, start state, size, end state *)
Record leg := Leg { l_t : R; l_x : vec; l_h : R; l_y : vec }.
(** steps that follow each other from time t, state x to time t', state y *)
Inductive path (step : R -> vec -> R -> vec -> Prop) : R -> vec -> list leg -> R -> vec -> Prop :=
| path_nil : forall t x, path step t x [] t x
| path_snoc : forall t x L u y h z, path step t x L u y -> 0 < h -> step u y h z -> path step t x (L ++ [Leg u y h z]) (u + h) z.
(** the value of the cubic through the ends of a step *)
Definition dense (n : nat) (f : sys) (l : leg) (s : R) (v : vec) : Prop :=
  exists p, hermite n (l_t l) (l_h l) (l_x l) (f (l_t l) (l_x l)) (l_y l) (f (l_t l + l_h l) (l_y l)) p /\ v = p s.

(** ** What an adaptive stepper must do *)
(** the error of a step relative to the tolerance: the smallest c such that the estimate is within c eps *)
Definition relative_error (eps : R) (n : nat) (f : sys) (t : R) (x : vec) (h : R) (e : vec) (c : R) : Prop :=
  0 <= c /\ forall d, 0 <= d -> (c <= d <-> within (d * eps) n f t x h e).
(** [h] is the size tried first, or an earlier size that failed reduced to between [rlo] and 9/10 of it and not below Eps *)
Definition chosen (tab : tableau) (bstar : list R) (rlo : R) (f : sys) (n : nat) (eps t : R) (x : vec) (htry h : R) : Prop :=
  (exists q, 0 < q <= 1 /\ h = htry * q) /\
  (h = htry \/ (Eps <= Rabs h /\ exists h' q, fails tab bstar f n eps t x h' /\ rlo <= q <= 9 / 10 /\ h = h' * q)).

(** ** Outputs at equal intervals *)
(** the output number [j]: at t0 + j dt, on the cubic of the step that contains this time *)
Definition output_at (n : nat) (f : sys) (L : list leg) (t0 dt : R) (j : nat) (p : R * vec) : Prop :=
  fst p = t0 + INR j * dt /\ exists l, In l L /\ l_t l < fst p <= l_t l + l_h l /\ dense n f l (fst p) (snd p).
(** a time that lies after the end of some step, by at most Eps *)
Definition near_miss (L : list leg) (s : R) : Prop := exists l, In l L /\ l_t l + l_h l < s <= l_t l + l_h l + Eps.
(** [outs] are the outputs with numbers [js], in order: all those up to time [tm] except near misses *)
Definition outputs_ok (n : nat) (f : sys) (L : list leg) (t0 dt tm : R) (js : list nat) (outs : list (R * vec)) : Prop :=
  Forall2 (output_at n f L t0 dt) js outs /\ (forall a b, (a < b < length js)%nat -> (nth a js 0 < nth b js 0)%nat) /\
  (forall j, In j js -> (1 <= j)%nat) /\ forall j, (1 <= j)%nat -> t0 + INR j * dt <= tm -> In j js \/ near_miss L (t0 + INR j * dt).

(** ** Outputs at given times *)
(** the output for time [s]: the end of a step less than Eps away, or the cubic of the step that contains [s] (or ends exactly Eps before it) *)
Definition output_for (n : nat) (f : sys) (L : list leg) (s : R) (p : R * vec) : Prop :=
  exists l, In l L /\ ((fst p = l_t l + l_h l /\ snd p = l_y l /\ Rabs (s - fst p) < Eps) \/
    (fst p = s /\ dense n f l s (snd p) /\ l_t l < s /\ (s <= l_t l + l_h l \/ s = l_t l + l_h l + Eps))).
Definition increasing (times : list R) : Prop := forall a b, (a < b < length times)%nat -> nth a times 0 < nth b times 0.
