(** * Specification of the descriptive statistics: textbook definitions over the reals

    A sample is a number of observations [n] and their values [x 0, ..., x (n-1)]. *)

From Coq Require Import List Arith ZArith Reals Permutation Sorted.
From Verif Require Import Num RootFind_Model RootFind_Proofs Stat_Model.
Import ListNotations.
Local Open Scope R_scope.
Local Notation sum := (sumn Rnum).

(** the real numbers: floor and ceiling are the usual ones *)
Definition Rfloor (r : R) : Z := (up r - 1)%Z.
Definition Rceil (r : R) : Z := (- Rfloor (- r))%Z.
Definition Rstat : sarith R := mkSarith R Rarith Rfloor Rceil ln exp.

(** arithmetic mean, central sums, sample variance and covariance *)
Definition mean (n : nat) (x : nat -> R) : R := sum n x / INR n.
Definition central (k n : nat) (x : nat -> R) : R := sum n (fun i => (x i - mean n x) ^ k).
Definition variance (n : nat) (x : nat -> R) : R := central 2 n x / (INR n - 1).
Definition cosum (n : nat) (x y : nat -> R) : R := sum n (fun i => (x i - mean n x) * (y i - mean n y)).
Definition covariance (n : nat) (x y : nat -> R) : R := cosum n x y / (INR n - 1).
(** Pearson's coefficient *)
Definition correlation (n : nat) (x y : nat -> R) : R := covariance n x y / (sqrt (variance n x) * sqrt (variance n y)).
(** the product of the values *)
Fixpoint prod (n : nat) (x : nat -> R) : R := match n with O => 1 | S n' => prod n' x * x n' end.
(** all observations are equal *)
Definition constant (n : nat) (x : nat -> R) : Prop := forall i j, (i < n)%nat -> (j < n)%nat -> x i = x j.

(** [s] is the data in ascending order *)
Definition sorted_of (data s : list R) : Prop := Permutation data s /\ Sorted Rle s.
Definition nthR (l : list R) (i : nat) : R := nth i l 0.
(** how many values satisfy a condition *)
Definition count {A} (P : A -> bool) (l : list A) : nat := length (filter P l).
Definition le_b (a b : R) : bool := if Rle_dec a b then true else false.
Definition lt_b (a b : R) : bool := if Rlt_dec a b then true else false.
Definition eq_b (a b : R) : bool := if Req_EM_T a b then true else false.

(** distinct values differ by at least 1e-14, the tolerance with which the rank functions recognise ties *)
Definition separated (data : list R) : Prop := forall a b, In a data -> In b data -> a <> b -> 1 / 10 ^ 14 <= Rabs (a - b).
(** [indices] lists the positions 0..n-1 so that the values ascend *)
Definition sorts (data : list R) (indices : list nat) : Prop :=
  Permutation indices (seq 0 (length data)) /\ Sorted Rle (map (nthR data) indices).
(** the rank of a value: the average of the positions its copies take in the sorted sample, counted from 1 *)
Definition rank_of (data : list R) (v : R) : R := INR (count (fun u => lt_b u v) data) + (INR (count (fun u => eq_b u v) data) + 1) / 2.
