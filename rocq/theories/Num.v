(** * Element types of vectors and matrices

    The numeric templates of MML (Vector, Matrix, Polynom, the solvers) are modelled over an abstract
    element type with the operations the code uses.  The theorems assume the laws of a ring or field
    (exact arithmetic); instances are the integers, the canonical rationals (computable) and the reals. *)

From Coq Require Import List Arith Bool Lia ZArith QArith Qcanon Ring Field Reals.
From Verif Require Import Base.
Local Open Scope nat_scope.
Import ListNotations.

Record numops (T : Type) := mkNum {
  n0 : T;                    (* Type{0} *)
  n1 : T;                    (* Type{1} *)
  nadd : T -> T -> T;
  nmul : T -> T -> T;
  nsub : T -> T -> T;
  nopp : T -> T;
  ndiv : T -> T -> T
}.
Arguments n0 {T} _.
Arguments n1 {T} _.
Arguments nadd {T} _ _ _.
Arguments nmul {T} _ _ _.
Arguments nsub {T} _ _ _.
Arguments nopp {T} _ _.
Arguments ndiv {T} _ _ _.

Definition ninv {T} (O : numops T) (x : T) : T := ndiv O (n1 O) x.

(** the laws of a commutative ring and of a field, for Leibniz equality *)
Notation ring_laws O := (ring_theory (n0 O) (n1 O) (nadd O) (nmul O) (nsub O) (nopp O) eq).
Notation field_laws O :=
  (field_theory (n0 O) (n1 O) (nadd O) (nmul O) (nsub O) (nopp O) (ndiv O) (ninv O) eq).

Lemma field_ring : forall T (O : numops T), field_laws O -> ring_laws O.
Proof. intros T O H. exact (F_R H). Qed.

(** sum of [f 0 .. f (n-1)] *)
Fixpoint sumn {T} (O : numops T) (n : nat) (f : nat -> T) : T :=
  match n with 0 => n0 O | S k => nadd O (sumn O k f) (f k) end.

Section Sums.
Context {T : Type} (O : numops T) (HR : ring_laws O).
Add Ring Tring : HR.
Notation "0" := (n0 O). Notation "1" := (n1 O).
Infix "+" := (nadd O). Infix "*" := (nmul O). Infix "-" := (nsub O).
Notation sum := (sumn O).

Lemma sum_ext : forall n f g, (forall i, i < n -> f i = g i) -> sum n f = sum n g.
Proof.
  induction n as [|n IH]; intros f g H; simpl; auto. rewrite (IH f g), (H n); auto.
Qed.
Lemma sum_zero : forall n f, (forall i, i < n -> f i = 0) -> sum n f = 0.
Proof. induction n as [|n IH]; intros f H; simpl; auto. rewrite IH, (H n); auto. ring. Qed.
Lemma sum_add : forall n f g, sum n (fun i => f i + g i) = sum n f + sum n g.
Proof. induction n as [|n IH]; intros f g; simpl; [ring|]. rewrite IH. ring. Qed.
Lemma sum_sub : forall n f g, sum n (fun i => f i - g i) = sum n f - sum n g.
Proof. induction n as [|n IH]; intros f g; simpl; [ring|]. rewrite IH. ring. Qed.
Lemma sum_opp : forall n f, sum n (fun i => nopp O (f i)) = nopp O (sum n f).
Proof. induction n as [|n IH]; intros f; simpl; [ring|]. rewrite IH. ring. Qed.
Lemma sum_mul_l : forall n a f, a * sum n f = sum n (fun i => a * f i).
Proof. induction n as [|n IH]; intros a f; simpl; [ring|]. rewrite <- IH. ring. Qed.
Lemma sum_mul_r : forall n a f, sum n f * a = sum n (fun i => f i * a).
Proof. induction n as [|n IH]; intros a f; simpl; [ring|]. rewrite <- IH. ring. Qed.
Lemma sum_swap : forall n m f, sum n (fun i => sum m (fun j => f i j)) = sum m (fun j => sum n (fun i => f i j)).
Proof.
  induction n as [|n IH]; intros m f; simpl; [symmetry; apply sum_zero; auto|].
  rewrite IH, <- sum_add. apply sum_ext. auto.
Qed.
(** one term is singled out *)
Lemma sum_split : forall n k f, k < n -> sum n f = f k + sum n (fun i => if Nat.eqb i k then 0 else f i).
Proof.
  induction n as [|n IH]; intros k f Hk; [lia|]. simpl. destruct (Nat.eqb_spec n k) as [->|Hne].
  - rewrite (sum_ext k (fun i => if Nat.eqb i k then 0 else f i) f); [ring|].
    intros i Hi. destruct (Nat.eqb_spec i k); auto. lia.
  - rewrite (IH k f) by lia. ring.
Qed.
Lemma sum_one : forall n k f, k < n -> (forall i, i < n -> i <> k -> f i = 0) -> sum n f = f k.
Proof.
  intros n k f Hk H. rewrite (sum_split n k f Hk). rewrite sum_zero; [ring|].
  intros i Hi. destruct (Nat.eqb_spec i k); auto.
Qed.
Lemma sum_app : forall n m f, sum (n + m)%nat f = sum n f + sum m (fun i => f (n + i)%nat).
Proof.
  intros n m f. induction m as [|m IH]; simpl; [rewrite Nat.add_0_r; ring|].
  rewrite Nat.add_succ_r. simpl. rewrite IH. ring.
Qed.
Lemma sum_S_l : forall n f, sum (S n) f = f 0%nat + sum n (fun i => f (S i)).
Proof. intros n f. rewrite <- Nat.add_1_l. rewrite sum_app. simpl. ring. Qed.

(** a sum accumulated by a left fold *)
Lemma sum_fold : forall n f a, fold_left (fun s i => s + f i) (seq 0%nat n) a = a + sum n f.
Proof.
  induction n as [|n IH]; intros f a; [simpl; ring|].
  rewrite seq_S, fold_left_app, IH. simpl. ring.
Qed.

(** reindexing by an involution-free bijection: a swap of two indices *)
Definition tr (a b i : nat) : nat := if Nat.eqb i a then b else if Nat.eqb i b then a else i.
Lemma tr_invol : forall a b i, tr a b (tr a b i) = i.
Proof.
  intros a b i. unfold tr. destruct (Nat.eqb_spec i a) as [->|H1].
  - destruct (Nat.eqb_spec b a); auto. rewrite Nat.eqb_refl. auto.
  - destruct (Nat.eqb_spec i b) as [->|H2]; [rewrite Nat.eqb_refl; auto|].
    destruct (Nat.eqb_spec i a); [contradiction|]. destruct (Nat.eqb_spec i b); [contradiction|auto].
Qed.
Lemma tr_lt : forall a b i n, a < n -> b < n -> i < n -> tr a b i < n.
Proof. intros. unfold tr. destruct (Nat.eqb i a); auto. destruct (Nat.eqb i b); auto. Qed.
Lemma sum_tr : forall n a b f, a < n -> b < n -> sum n (fun i => f (tr a b i)) = sum n f.
Proof.
  intros n a b f Ha Hb. destruct (Nat.eq_dec a b) as [<-|Hab].
  { apply sum_ext. intros i _. unfold tr. destruct (Nat.eqb_spec i a); subst; auto. }
  rewrite (sum_split n a f Ha), (sum_split n b (fun i => if Nat.eqb i a then 0 else f i) Hb).
  rewrite (sum_split n a (fun i => f (tr a b i)) Ha), (sum_split n b (fun i => if Nat.eqb i a then 0 else f (tr a b i)) Hb).
  rewrite (sum_ext n (fun i => if Nat.eqb i b then 0 else if Nat.eqb i a then 0 else f (tr a b i))
                     (fun i => if Nat.eqb i b then 0 else if Nat.eqb i a then 0 else f i)).
  - unfold tr at 1 2. rewrite !Nat.eqb_refl. destruct (Nat.eqb_spec b a); [congruence|]. ring.
  - intros i _. unfold tr. destruct (Nat.eqb_spec i b); auto. destruct (Nat.eqb_spec i a); auto.
Qed.
End Sums.

(** ** Instances *)

Definition Znum : numops Z := mkNum Z 0%Z 1%Z Z.add Z.mul Z.sub Z.opp Z.div.
Lemma Znum_ring : ring_laws Znum.
Proof. exact InitialRing.Zth. Qed.

Definition Qnum : numops Qc := mkNum Qc 0%Qc 1%Qc Qcplus Qcmult Qcminus Qcopp Qcdiv.
Lemma Qnum_field : field_laws Qnum.
Proof.
  constructor.
  - exact Qcrt.
  - discriminate.
  - intros p q. unfold ninv. simpl. unfold Qcdiv. ring.
  - intros p Hp. unfold ninv. simpl. unfold Qcdiv. rewrite Qcmult_1_l. apply Qcmult_inv_l. auto.
Qed.

Definition Rnum : numops R := mkNum R 0%R 1%R Rplus Rmult Rminus Ropp Rdiv.
Lemma Rnum_field : field_laws Rnum.
Proof.
  constructor.
  - exact RTheory.
  - exact R1_neq_R0.
  - intros p q. unfold ninv. simpl. unfold Rdiv. ring.
  - intros p Hp. unfold ninv. simpl. unfold Rdiv. rewrite Rmult_1_l. apply Rinv_l. auto.
Qed.
