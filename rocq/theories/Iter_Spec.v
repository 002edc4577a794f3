(** * What the iterative solvers of linear systems are to do, independently of the code *)
From Coq Require Import List Bool Arith ZArith Reals.
From Verif Require Import Base Num Mat_Model RootFind_Model RootFind_Proofs Iter_Model.
Local Open Scope R_scope.

Inductive method := Jacobi | GaussSeidel | SOR (w : R).
(** the call *)
Definition solve (m : method) (M : matrix R) (b x0 : list R) (tol : R) (maxIter : Z) : res (itres R) :=
  match m with
  | Jacobi => JacobiSolve Rarith M b x0 tol maxIter
  | GaussSeidel => GaussSeidelSolve Rarith M b x0 tol maxIter
  | SOR w => SORSolve Rarith M b w x0 tol maxIter
  end.
Definition solve_simple (m : method) (M : matrix R) (b : list R) (tol : R) (maxIter : Z) : res (list R) :=
  match m with
  | Jacobi => JacobiSimple Rarith M b tol maxIter
  | GaussSeidel => GaussSeidelSimple Rarith M b tol maxIter
  | SOR w => SORSimple Rarith M b w tol maxIter
  end.
Definition omega_ok (m : method) : Prop := match m with SOR w => 0 < w < 2 | _ => True end.

Section Sys.
Variables (n : nat) (a : nat -> nat -> R) (b : nat -> R).
Definition total (f : nat -> R) : R := sumn Rnum n f.
(** one textbook sweep from x to y: the i-th equation solved for the i-th unknown, with the old values of the others (Jacobi), with the
    new values of the earlier ones (Gauss-Seidel), the latter mixed with the old value (SOR) *)
Definition sweep_rel (m : method) (x y : nat -> R) : Prop := forall i, (i < n)%nat ->
  match m with
  | Jacobi => total (fun j => a i j * (if Nat.eqb j i then y j else x j)) = b i
  | GaussSeidel => total (fun j => a i j * (if (j <=? i)%nat then y j else x j)) = b i
  | SOR w => exists g, y i = (1 - w) * x i + w * g /\ total (fun j => a i j * (if (j <? i)%nat then y j else if Nat.eqb j i then g else x j)) = b i
  end.
(** |A x - b| / |b|, or |A x - b| if b = 0 *)
Definition norm (v : nat -> R) : R := sqrt (total (fun i => v i * v i)).
Definition scale : R := if Req_EM_T (norm b) 0 then 1 else norm b.
Definition rel_residual (x : nat -> R) : R := norm (fun i => total (fun j => a i j * x j) - b i) / scale.
(** the diagonal entries the solvers accept *)
Definition eps : R := 1 / 2 ^ 52.
Definition diag_ok : Prop := forall i, (i < n)%nat -> eps <= Rabs (a i i) /\ forall j, (j < n)%nat -> Rabs (a j j) * eps <= Rabs (a i i).
Definition dominant : Prop := forall i, (i < n)%nat -> total (fun j => if Nat.eqb j i then 0 else Rabs (a i j)) < Rabs (a i i).
Definition symmetric : Prop := forall i j, (i < n)%nat -> (j < n)%nat -> a i j = a j i.
Definition positive_definite : Prop := forall x, (exists i, (i < n)%nat /\ x i <> 0) -> 0 < total (fun i => x i * total (fun j => a i j * x j)).
End Sys.
