(** * What one-dimensional minimisation means, independently of the code *)
From Coq Require Import Reals Lra.
From Verif Require Import RootFind_Model RootFind_Proofs Opt_Model.
Local Open Scope R_scope.

(** [x] lies strictly between [a] and [c], in either order *)
Definition inside (a c x : R) : Prop := a < x < c \/ c < x < a.
(** [x] lies between [a] and [c], ends included *)
Definition within (a c x : R) : Prop := a <= x <= c \/ c <= x <= a.
(** three points with their values, the middle one strictly inside and not higher than the outer ones *)
Definition brackets (f : R -> R) (br : bracket (T := R)) : Prop :=
  inside (bk_ax br) (bk_cx br) (bk_bx br) /\ bk_fa br = f (bk_ax br) /\ bk_fb br = f (bk_bx br) /\ bk_fc br = f (bk_cx br) /\
  bk_fb br <= bk_fa br /\ bk_fb br <= bk_fc br.
(** [f] falls strictly up to [m] and rises strictly from [m] on, between [lo] and [hi] *)
Definition unimodal (f : R -> R) (m lo hi : R) : Prop :=
  (forall x y, within lo hi x -> within lo hi y -> x < y -> y <= m -> f y < f x) /\
  (forall x y, within lo hi x -> within lo hi y -> x < y -> m <= x -> f x < f y).
