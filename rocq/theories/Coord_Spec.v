(** * Coordinates, bases and limits, independently of the code *)
From Coq Require Import Reals Lra.
From Verif Require Import Quat_Model Quat_Spec Coord_Model.
Local Open Scope R_scope.

(** the partial derivative of a vector function with respect to the coordinate [i] at [p] is [d] *)
Definition partial (f : vec3 R -> vec3 R) (i : nat) (p d : vec3 R) : Prop :=
  forall k, (k < 3)%nat -> derivable_pt_lim (fun t => v3get (f (v3set p i t)) k) (v3get p i) (v3get d k).
(** [X h] tends to [l] as the step [h] tends to 0 from above *)
Definition tends (X : R -> R) (l : R) : Prop :=
  forall e, 0 < e -> exists d, 0 < d /\ forall h, 0 < h < d -> Rabs (X h - l) < e.
(** orthonormal and right-handed *)
Definition right_handed_frame (a b c : vec3 R) : Prop :=
  dot3 a a = 1 /\ dot3 b b = 1 /\ dot3 c c = 1 /\ dot3 a b = 0 /\ dot3 a c = 0 /\ dot3 b c = 0 /\ cross3 a b = c.
(** scalar product in the plane and the Minkowski product with signature (-,+,+,+) *)
Definition dot2 (a b : pair2 R) : R := p0 a * p0 b + p1 a * p1 b.
Definition mink (a b : vec4 R) : R := - (w0 a * w0 b) + w1 a * w1 b + w2 a * w2 b + w3 a * w3 b.
(** Kronecker delta *)
Definition kron (i j : nat) : R := if Nat.eqb i j then 1 else 0.
Definition sum3 (f : nat -> R) : R := f 0%nat + f 1%nat + f 2%nat.
