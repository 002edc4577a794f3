(** * What an eigenvalue decomposition of a real symmetric matrix is

    Matrices are functions of two indices below [n], the eigenvectors are the columns of [v]. *)
From Coq Require Import Reals.
From Verif Require Import Base Num Mat_Proofs QR_Math RootFind_Model RootFind_Proofs Fourier_Model Fourier_Spec Fourier_Props Eig_Model.
Local Open Scope R_scope.

(** the library's cos, sin and atan over the real numbers *)
Definition Reig : eigalg R := mkEig R Rtrig atan.

(** [S] stores the symmetric matrix [a] of dimension [n] *)
Definition is_sym (S : symmat R) (n : nat) (a : nat -> nat -> R) : Prop :=
  s_dim S = n /\ forall i j, (i < n)%nat -> (j < n)%nat -> sym_get S i j = Ok (a i j) /\ a i j = a j i.
(** the dimensions the library allows *)
Definition dim_ok (n : nat) : Prop := (0 < n)%nat /\ (Z.of_nat n <= 9999)%Z.

Definition delta (i j : nat) : R := if Nat.eqb i j then 1 else 0.
(** the columns of [v] are orthonormal *)
Definition orthonormal (n : nat) (v : nat -> nat -> R) : Prop :=
  forall i j, (i < n)%nat -> (j < n)%nat -> rsum n (fun k => v k i * v k j) = delta i j.
(** |A v_j - lambda v_j|^2 *)
Definition eig_error2 (n : nat) (a v : nat -> nat -> R) (lam : R) (j : nat) : R :=
  rsum n (fun i => let e := rsum n (fun k => a i k * v k j) - lam * v i j in e * e).
(** the sum of the squares above the diagonal *)
Definition off2 (n : nat) (a : nat -> nat -> R) : R :=
  rsum n (fun i => rsum n (fun j => if (i <? j)%nat then a i j * a i j else 0)).
(** the sum of the squares of all entries *)
Definition frob2 (n : nat) (a : nat -> nat -> R) : R := rsum n (fun i => rsum n (fun j => a i j * a i j)).
(** [mu] is an eigenvalue of [a] *)
Definition eigenvalue (n : nat) (a : nat -> nat -> R) (mu : R) : Prop :=
  exists x, (exists k, (k < n)%nat /\ x k <> 0) /\ forall i, (i < n)%nat -> rsum n (fun k => a i k * x k) = mu * x i.
(** the entries of a returned result *)
Definition is_result (r : eigres R) (n : nat) (lam : nat -> R) (v : nat -> nat -> R) : Prop :=
  is_vector (r_values r) n lam /\ is_matrix (r_vectors r) n n v.
