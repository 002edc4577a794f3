(** * Concrete cases for C58-C61, and the limits of the tolerance used to recognise ties *)

From Coq Require Import List Arith Bool ZArith QArith Qcanon.
From Verif Require Import Base Num Mat_Model RootFind_Model RootFind_Props Stat_Model.
Import ListNotations.
Local Open Scope nat_scope.

(** exact rational arithmetic; logarithm and exponential are not used below *)
Definition Qcfloor (x : Qc) : Z := (QArith_base.Qnum (this x) / Zpos (Qden (this x)))%Z.
Definition Qcceil (x : Qc) : Z := (- ((- QArith_base.Qnum (this x)) / Zpos (Qden (this x))))%Z.
Definition Qstat : sarith Qc := mkSarith Qc Qarith Qcfloor Qcceil (fun x => x) (fun x => x).
Definition z (a : Z) : Qc := q a 1.
Definition d8 : list Qc := map z [2; 4; 4; 4; 5; 5; 7; 9]%Z.
Definition shows {A B} (f : A -> B) (r : res A) : res B := match r with Ok a => Ok (f a) | Throw e => Throw e | UB => UB | NoFuel => NoFuel end.

Example C58_mean_computed : shows showq (Mean Qstat d8) = Ok (5%Z, 1%positive). Proof. vm_compute. reflexivity. Qed.
Example C58_variance_computed : shows showq (Variance Qstat d8) = Ok (32%Z, 7%positive). Proof. vm_compute. reflexivity. Qed.
Example C58_variance_single_computed : Mean Qstat [z 3] = Ok (z 3). Proof. vm_compute. reflexivity. Qed.
Example C58_weighted_computed : shows showq (WeightedMean Qstat (map z [1; 2; 3]%Z) (map z [1; 1; 2]%Z)) = Ok (9%Z, 4%positive). Proof. vm_compute. reflexivity. Qed.
Example C58_weighted_variance_computed : shows showq (WeightedVariance Qstat (map z [1; 2; 3]%Z) (map z [1; 1; 2]%Z)) = Ok (11%Z, 12%positive). Proof. vm_compute. reflexivity. Qed.
Example C59_median_computed : shows showq (Median Qstat (map z [7; 1; 5; 2]%Z)) = Ok (7%Z, 2%positive) /\ shows showq (Median Qstat (map z [7; 1; 5]%Z)) = Ok (5%Z, 1%positive). Proof. vm_compute. auto. Qed.
Example C59_percentile_computed : shows showq (Percentile Qstat (map z [15; 20; 35; 40; 50]%Z) (z 40)) = Ok (29%Z, 1%positive). Proof. vm_compute. reflexivity. Qed.
Example C59_quartiles_computed : shows (fun t => let '(a, b, c) := t in (showq a, showq b, showq c)) (Quartiles Qstat (map z [1; 2; 3; 4; 5]%Z)) = Ok ((2%Z, 1%positive), (3%Z, 1%positive), (4%Z, 1%positive)). Proof. vm_compute. reflexivity. Qed.
Example C59_mode_computed : shows showq (Mode Qstat d8) = Ok (4%Z, 1%positive). Proof. vm_compute. reflexivity. Qed.
Example C59_trimmed_computed : shows showq (TrimmedMean Qstat (map z [1; 2; 3; 4; 100]%Z) (z 20)) = Ok (3%Z, 1%positive). Proof. vm_compute. reflexivity. Qed.
Example C59_mad_computed : shows showq (MAD Qstat (map z [1; 1; 2; 2; 4; 6; 9]%Z)) = Ok (1%Z, 1%positive). Proof. vm_compute. reflexivity. Qed.
Example C60_covariance_computed : shows showq (Covariance Qstat (map z [1; 2; 3]%Z) (map z [2; 4; 9]%Z)) = Ok (7%Z, 2%positive). Proof. vm_compute. reflexivity. Qed.
Example C60_constant_computed : PearsonCorrelation Qstat (map z [1; 1; 1]%Z) (map z [2; 4; 9]%Z) = Throw DomainError. Proof. vm_compute. reflexivity. Qed.
Example C61_ranks_computed : shows (map showq) (ComputeRanks Qstat (map z [30; 10; 20; 10]%Z) [1; 3; 2; 0]%nat) = Ok [(4%Z, 1%positive); (3%Z, 2%positive); (3%Z, 1%positive); (3%Z, 2%positive)].
Proof. vm_compute. reflexivity. Qed.
Example C61_counts_computed : kendall_counts Qstat (map z [1; 2; 2; 3; 5]%Z) (map z [1; 3; 2; 2; 2]%Z) = Ok (4, 2, 1, 3)%nat. Proof. vm_compute. reflexivity. Qed.

(** Ties are recognised with an absolute tolerance of 1e-14, so ranks do not depend on the order of the values alone: the
    distinct values 0, 6e-15 and 12e-15 get the ranks 1.5, 1.5 and 3, and the same data multiplied by 10 get 1, 2, 3. *)
Theorem C61_close_values_refuted :
  let tiny := [q 0 1; q 6 1000000000000000; q 12 1000000000000000] in
  shows (map showq) (ComputeRanks Qstat tiny [0; 1; 2]%nat) = Ok [(3%Z, 2%positive); (3%Z, 2%positive); (3%Z, 1%positive)] /\
  shows (map showq) (ComputeRanks Qstat (map (fun x => z 10 * x)%Qc tiny) [0; 1; 2]%nat) = Ok [(1%Z, 1%positive); (2%Z, 1%positive); (3%Z, 1%positive)] /\
  kendall_counts Qstat tiny (map z [1; 2; 3]%Z) = Ok (1, 0, 2, 0)%nat /\ kendall_counts Qstat (map (fun x => z 10 * x)%Qc tiny) (map z [1; 2; 3]%Z) = Ok (3, 0, 0, 0)%nat.
Proof. vm_compute. repeat split. Qed.
Print Assumptions C61_close_values_refuted.
