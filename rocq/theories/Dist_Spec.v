(** * Specification of probability distributions (of the model it uses the records only) *)

From Coq Require Import Reals ZArith.
From Verif Require Import Base Num RootFind_Model RootFind_Proofs Fourier_Model Fourier_Spec Quat_Spec Ortho_Model Ortho_Spec Dist_Model.
Local Open Scope R_scope.

(** [e] is the error function: 0 at 0, with derivative 2 exp(-x^2) / sqrt pi *)
Definition is_erf (e : R -> R) : Prop := e 0 = 0 /\ forall x, derivable_pt_lim e x (2 / sqrt PI * exp (- x * x)).
(** real arithmetic with the functions of the standard library, and [erf] *)
Definition Rf (e : R -> R) : mfun R := mkMfun R Rtrig exp ln tan Ratan2 Rpower e.

(** on the support (lo, hi): pdf is positive with integral 1, and cdf(x) is the integral of pdf up to x, which is the probability of
    values up to x *)
Definition distribution (lo hi : ext R) (d : dist R) : Prop := exists f P,
  (forall x, inside lo hi x -> d_pdf d x = Ok (f x) /\ d_cdf d x = Ok (P x) /\ 0 < f x /\ integral lo (Fin x) f (P x)) /\ integral lo hi f 1.
(** inverseCdf is the inverse function of cdf: it finds the point with the given probability, and there is no other *)
Definition quantile (lo hi : ext R) (d : dist R) : Prop :=
  (forall p, 0 < p < 1 -> exists x, inside lo hi x /\ d_inv d p = Ok (Fin x) /\ d_cdf d x = Ok p) /\
  (forall x p, inside lo hi x -> 0 < p < 1 -> d_cdf d x = Ok p -> d_inv d p = Ok (Fin x)).
(** mean() and variance() are the integrals of x and (x - mean)^2 with the density *)
Definition moments (lo hi : ext R) (d : dist R) : Prop := exists f m v,
  (forall x, inside lo hi x -> d_pdf d x = Ok (f x)) /\ d_mean d = Ok m /\ d_var d = Ok v /\
  integral lo hi (fun x => x * f x) m /\ integral lo hi (fun x => (x - m) ^ 2 * f x) v.
