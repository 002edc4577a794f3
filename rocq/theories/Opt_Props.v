(** * C62-C64: the functions run on concrete data, and concrete instances of the theorems *)
From Coq Require Import List Arith Bool Lia ZArith QArith Qcanon Reals Lra Psatz.
From Verif Require Import Base Num RootFind_Model RootFind_Proofs RootFind_Props Opt_Model Opt_Spec Opt_Proofs Opt_Brent.
Import ListNotations.
Local Open Scope nat_scope.

Definition par (x : Qc) : Qc := ((x - q 2 1) * (x - q 2 1) + q 1 1)%Qc.
Definition showb (b : @bracket Qc) := (bk_valid b, map showq [bk_ax b; bk_bx b; bk_cx b], map showq [bk_fa b; bk_fb b; bk_fc b]).
Definition showm (r : res (@minres Qc)) := match r with Ok r => Some (mr_conv r, showq (mr_xmin r), showq (mr_fmin r), mr_iters r) | _ => None end.
Definition close (r : res (@minres Qc)) (x tol : Qc) : bool := match r with Ok r => negb (Qcltb tol (mr_xmin r - x)%Qc) && negb (Qcltb tol (x - mr_xmin r)%Qc) | _ => false end.
Example C62_computed : showb (BracketMinimum Qarith par (q 0 1) (q 1 1)) =
  (true, [(1%Z, 1%positive); (2%Z, 1%positive); (1309017%Z, 500000%positive)], [(2%Z, 1%positive); (1%Z, 1%positive); (345491506289%Z, 250000000000%positive)]).
Proof. vm_compute. reflexivity. Qed.
Definition brq := mkBracket (q 0 1) (q 1 1) (q 3 1) (par (q 0 1)) (par (q 1 1)) (par (q 3 1)) true.
Example C63_computed : match GoldenSectionSearch Qarith 100 par brq (q 1 10) with Ok r => Some (mr_iters r, mr_conv r) | _ => None end = Some (5, true) /\
  close (GoldenSectionSearch Qarith 100 par brq (q 1 10)) (q 2 1) (q 1 10) = true.
Proof. vm_compute. split; reflexivity. Qed.
Example C64_computed : match BrentMinimize Qarith par brq (q 1 10) 100 with Ok r => Some (mr_iters r, mr_conv r) | _ => None end = Some (5, true) /\
  close (BrentMinimize Qarith par brq (q 1 10) 100) (q 2 1) (q 1 50) = true /\ BrentMinimize Qarith par brq (q 1 10) 2 = Throw NumericalError.
Proof. vm_compute. repeat split; reflexivity. Qed.
Example C64_deriv_computed : showm (BrentMinimizeWithDeriv Qarith par (fun x => q 2 1 * (x - q 2 1))%Qc brq (q 1 10) 100) = Some (true, (2%Z, 1%positive), (1%Z, 1%positive), 2).
Proof. vm_compute. reflexivity. Qed.
(** maximising the opposite parabola finds the same point *)
Example C64_maximize_computed : close (BrentMaximize Qarith (fun x => - par x)%Qc (q 0 1) (q 1 1) (q 1 10) 100) (q 2 1) (q 1 50) = true /\
  close (GoldenSectionMaximize Qarith 100 (fun x => - par x)%Qc (q 0 1) (q 1 1) (q 1 10)) (q 2 1) (q 1 5) = true.
Proof. vm_compute. split; reflexivity. Qed.

Local Open Scope R_scope.
Lemma par_unimodal : forall m lo hi, unimodal (fun x => (x - m) * (x - m)) m lo hi.
Proof. intros m lo hi. split; intros x y _ _ H1 H2; cbv beta.
  - assert (0 < (y - x) * ((m - x) + (m - y))) by (apply Rmult_lt_0_compat; lra). lra.
  - assert (0 < (y - x) * ((x - m) + (y - m))) by (apply Rmult_lt_0_compat; lra). lra.
Qed.
Definition brr (f : R -> R) := mkBracket (T := R) (-1) 1 3 (f (-1)) (f 1) (f 3) true.
(** the hypotheses of C62-C64 are met by (x - 2)^2 on the bracket (-1, 1, 3), and the searches end *)
Example C63_C64_instance : let f := fun x : R => (x - 2) * (x - 2) in
  (exists fuel r, GoldenSectionSearch Rarith fuel f (brr f) (1 / 100) = Ok r /\ Rabs (mr_xmin r - 2) <= 2 * (1 / 100) / (1 - 1 / 100) * Rabs (mr_xmin r)) /\
  (exists mi r, BrentMinimize Rarith f (brr f) (1 / 100) mi = Ok r /\ Rabs (mr_xmin r - 2) <= 2 * (1 / 100 * Rabs (mr_xmin r) + ZEPS Rarith)).
Proof.
  intros f. assert (I : inside (bk_ax (brr f)) (bk_cx (brr f)) (bk_bx (brr f))) by (unfold inside; cbn [brr bk_ax bk_bx bk_cx]; lra). assert (W : within (bk_ax (brr f)) (bk_cx (brr f)) 2) by (unfold within; cbn [brr bk_ax bk_bx bk_cx]; lra).
  pose proof (par_unimodal 2 (bk_ax (brr f)) (bk_cx (brr f))) as U. split.
  - destruct (C63_golden_terminates f (brr f) (1 / 100) eq_refl ltac:(lra) I) as (fuel & r & E). { right. exists 2. repeat split; auto; try lra; apply U. }
    exists fuel, r. split; auto. apply (C63_golden_accuracy fuel f (brr f) (1 / 100) r 2); auto; lra.
  - destruct (C64_brent_converges f (brr f) (1 / 100) eq_refl ltac:(lra) I) as (N & H). destruct (H (Z.max 1 N) ltac:(lia)) as (r & E). exists (Z.max 1 N), r. split; auto.
    apply (C64_brent_accuracy f (brr f) (1 / 100) (Z.max 1 N) r 2); auto; try lra; lia.
Qed.
(** and x^2 on the same bracket never ends *)
Example C63_zero_instance : let f := fun x : R => (x - 0) * (x - 0) in forall fuel, GoldenSectionSearch Rarith fuel f (brr f) (1 / 100) = NoFuel.
Proof. intros f fuel. apply C63_golden_zero_refuted; auto; cbn [brr bk_ax bk_bx bk_cx]; [lra|unfold inside; lra|unfold within; lra|apply par_unimodal]. Qed.
(** the derivative version on (x - 2)^2 with its derivative *)
Example C64_deriv_instance : forall mi r, let f := fun x : R => (x - 2) * (x - 2) in BrentMinimizeWithDeriv Rarith f (fun x => 2 * (x - 2)) (brr f) (1 / 100) mi = Ok r ->
  Rabs (mr_xmin r - 2) <= 2 * (1 / 100 * Rabs (mr_xmin r) + ZEPS Rarith).
Proof.
  intros mi r f E. apply (C64_deriv_accuracy f (fun x => 2 * (x - 2)) (brr f) (1 / 100) mi r 2); auto; cbn [brr bk_ax bk_cx]; try lra; [unfold within; lra|apply par_unimodal|].
  intros x. cbv beta. split; split; lra.
Qed.
