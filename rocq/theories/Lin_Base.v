(** * Common ground for the linear solvers

    [wpt m E Q]: the computation ends normally with a result satisfying [Q], or throws an exception
    satisfying [E]; it has no undefined behaviour.  [magops]: the magnitudes ([Real] values of
    [Abs]) that pivot searches compare. *)

From Coq Require Import List Arith Bool Lia ZArith QArith Qcanon Ring Field Reals Lra.
From Verif Require Import Base Num Mat_Model Mat_Proofs.
Import ListNotations.
Local Open Scope nat_scope.

Definition wpt {A} (m : res A) (E : exn -> Prop) (Q : A -> Prop) : Prop :=
  match m with Ok a => Q a | Throw e => E e | _ => False end.

Lemma wpt_bind : forall A B (m : res A) (k : A -> res B) E (Q : B -> Prop),
  wpt m E (fun a => wpt (k a) E Q) -> wpt (bind m k) E Q.
Proof. intros A B m k E Q H. destruct m; simpl in *; auto. Qed.
Lemma wpt_wp : forall A (m : res A) E (Q : A -> Prop), wp m Q -> wpt m E Q.
Proof. intros A m E Q H. destruct m; simpl in *; auto; contradiction. Qed.
Lemma wpt_bind_wp : forall A B (m : res A) (k : A -> res B) E (Q : B -> Prop),
  wp m (fun a => wpt (k a) E Q) -> wpt (bind m k) E Q.
Proof. intros A B m k E Q H. destruct m; simpl in *; auto; contradiction. Qed.
Lemma wpt_conseq : forall A (m : res A) (E : exn -> Prop) (P Q : A -> Prop),
  (forall a, P a -> Q a) -> wpt m E P -> wpt m E Q.
Proof. intros A m E P Q H H1. destruct m; simpl in *; auto. Qed.
Lemma wpt_for_each : forall A S (f : S -> A -> res S) E (I : list A -> S -> Prop) l s,
  I [] s ->
  (forall pre a post s, l = pre ++ a :: post -> I pre s -> wpt (f s a) E (I (pre ++ [a]))) ->
  wpt (for_each f l s) E (I l).
Proof.
  intros A S f E I l s H0 Hstep.
  assert (G : forall post pre s, l = pre ++ post -> I pre s -> wpt (for_each f post s) E (I l)).
  { induction post as [|a post IH]; intros pre s1 Hl HI; simpl.
    - rewrite app_nil_r in Hl. subst. auto.
    - apply wpt_bind. eapply wpt_conseq; [|apply (Hstep pre a post); auto].
      intros s2 H2. apply (IH (pre ++ [a])); auto. rewrite <- app_assoc. auto. }
  apply (G l []); auto.
Qed.
Lemma wpt_for_range : forall S (f : S -> nat -> res S) E (I : nat -> S -> Prop) lo hi s,
  lo <= hi -> I lo s ->
  (forall i s, lo <= i -> i < hi -> I i s -> wpt (f s i) E (I (i + 1))) ->
  wpt (for_range lo hi f s) E (I hi).
Proof.
  intros S f E I lo hi s Hle H0 Hstep. unfold for_range.
  eapply wpt_conseq; [|apply (wpt_for_each _ _ _ _ (fun pre s => I (lo + length pre) s))].
  - intros a H. cbv beta in H. rewrite seq_length in H. replace (lo + (hi - lo)) with hi in H by lia. auto.
  - simpl. rewrite Nat.add_0_r. auto.
  - intros pre a post s1 Hs HI. apply seq_split in Hs. destruct Hs as (-> & _ & Hlt).
    eapply wpt_conseq; [|apply Hstep; [lia|lia|exact HI]].
    intros s2 H2. rewrite app_length. simpl. replace (lo + (length pre + 1)) with (lo + length pre + 1) by lia. auto.
Qed.

(** ** Magnitudes *)
Record magops (T M : Type) := mkMag {
  mabs : T -> M;             (* Abs(x) *)
  mlt : M -> M -> bool;      (* a < b *)
  mzero : M;                 (* 0.0 *)
  mthr : M -> nat -> M;      (* numeric_limits<Real>::epsilon() * norm * n *)
  mrec : M -> T              (* 1.0 / big, converted to the element type *)
}.
Arguments mabs {T M} _ _.
Arguments mlt {T M} _ _ _.
Arguments mzero {T M} _.
Arguments mthr {T M} _ _ _.
Arguments mrec {T M} _ _.

(** exact arithmetic: magnitudes are totally preordered, 0 is the magnitude of 0 only, and
    epsilon * norm * n is positive when norm and n are *)
Record mag_laws {T M} (O : numops T) (G : magops T M) : Prop := {
  ml_asym : forall a b, mlt G a b = true -> mlt G b a = false;
  ml_trans : forall a b c, mlt G a b = false -> mlt G b c = false -> mlt G a c = false;
  ml_nonneg : forall x, mlt G (mabs G x) (mzero G) = false;
  ml_zero : mlt G (mzero G) (mabs G (n0 O)) = false;
  ml_eq0 : forall x, mlt G (mzero G) (mabs G x) = false -> x = n0 O;
  ml_thr : forall m n, mlt G (mzero G) m = true -> 0 < n -> mlt G (mzero G) (mthr G m n) = true
}.

Lemma ml_pos : forall T M (O : numops T) (G : magops T M), mag_laws O G -> forall x, x <> n0 O -> mlt G (mzero G) (mabs G x) = true.
Proof. intros T M O G HG x H. destruct (mlt G (mzero G) (mabs G x)) eqn:E; auto. elim H. apply (ml_eq0 _ _ HG); auto. Qed.
Arguments ml_pos {T M} O G HG x _.
Section Mag.
Context {T M : Type} (O : numops T) (G : magops T M) (HG : mag_laws O G).
Lemma ml_irrefl : forall a, mlt G a a = false.
Proof. intros a. destruct (mlt G a a) eqn:E; auto. rewrite (ml_asym _ _ HG _ _ E) in E. auto. Qed.
Lemma ml_lt_le : forall x p t, mlt G p x = false -> mlt G p t = true -> mlt G x t = true.
Proof.
  intros x p t H1 H2. destruct (mlt G x t) eqn:E; auto.
  rewrite (ml_trans _ _ HG _ _ _ H1 E) in H2. auto.
Qed.
(** a < b, b <= c *)
Lemma ml_lt_lt : forall a b c, mlt G a b = true -> mlt G c b = false -> mlt G a c = true.
Proof.
  intros a b c H1 H2. destruct (mlt G a c) eqn:E; auto.
  rewrite (ml_trans _ _ HG _ _ _ E H2) in H1. auto.
Qed.
Lemma ml_not_zero : forall x t, mlt G (mzero G) t = true -> mlt G (mabs G x) t = false -> x <> n0 O.
Proof.
  intros x t H1 H2 ->. rewrite (ml_trans _ _ HG _ _ _ (ml_zero _ _ HG) H2) in H1. discriminate.
Qed.
End Mag.

(** Rationals, with 2^-52 for the machine epsilon; reals *)
Definition Qceps : Qc := Q2Qc (1 # (2 ^ 52)).
Definition Qclt_b (a b : Qc) : bool := match (a ?= b)%Qc with Lt => true | _ => false end.
Definition Qcabs' (a : Qc) : Qc := if Qclt_b a 0%Qc then (- a)%Qc else a.
Definition Qmag : magops Qc Qc :=
  mkMag _ _ Qcabs' Qclt_b 0%Qc (fun m n => (Qceps * m * Q2Qc (inject_Z (Z.of_nat n)))%Qc) (fun b => (1 / b)%Qc).

Lemma Qclt_b_spec : forall a b, Qclt_b a b = true <-> (a < b)%Qc.
Proof.
  intros a b. unfold Qclt_b, Qclt. unfold Qccompare. rewrite Qlt_alt. destruct (Qcompare a b); split; congruence.
Qed.
Lemma Qclt_b_false : forall a b, Qclt_b a b = false <-> (b <= a)%Qc.
Proof.
  intros a b. split; intros H.
  - apply Qcnot_lt_le. intros E. apply Qclt_b_spec in E. congruence.
  - destruct (Qclt_b a b) eqn:E; auto. apply Qclt_b_spec in E. apply Qcle_not_lt in H. contradiction.
Qed.
Lemma Qmag_laws : mag_laws Qnum Qmag.
Proof.
  constructor; simpl.
  - intros a b H. apply Qclt_b_spec in H. apply Qclt_b_false. apply Qclt_le_weak; auto.
  - intros a b c H1 H2. apply Qclt_b_false in H1, H2. apply Qclt_b_false. eapply Qcle_trans; eauto.
  - intros x. apply Qclt_b_false. unfold Qcabs'. destruct (Qclt_b x 0) eqn:E.
    + apply Qclt_b_spec in E. apply Qclt_le_weak. apply Qclt_minus_iff in E. rewrite Qcplus_0_l in E. auto.
    + apply Qclt_b_false in E. auto.
  - reflexivity.
  - intros x Hx. apply Qclt_b_false in Hx. unfold Qcabs' in Hx. destruct (Qclt_b x 0) eqn:E.
    + apply Qclt_b_spec in E. apply Qclt_minus_iff in E. rewrite Qcplus_0_l in E. apply Qclt_not_le in E. contradiction.
    + apply Qclt_b_false in E. apply Qcle_antisym; auto.
  - intros m n H Hn. apply Qclt_b_spec in H. apply Qclt_b_spec.
    assert (P : forall a b : Qc, (0 < a -> 0 < b -> 0 < a * b)%Qc).
    { intros a b Ha Hb. replace 0%Qc with (0 * b)%Qc by ring. apply Qcmult_lt_compat_r; auto. }
    apply P; [apply P; auto; reflexivity|]. change (Qlt 0 (Qred (inject_Z (Z.of_nat n)))).
    rewrite Qred_correct. unfold Qlt, inject_Z. simpl. lia.
Qed.

Definition Rmag (eps : R) : magops R R :=
  mkMag _ _ Rabs (fun a b => if Rlt_dec a b then true else false) 0%R (fun m n => eps * m * INR n)%R (fun b => 1 / b)%R.
Lemma Rmag_laws : forall eps, (0 < eps)%R -> mag_laws Rnum (Rmag eps).
Proof.
  intros eps He. constructor; simpl.
  - intros a b. destruct (Rlt_dec a b); destruct (Rlt_dec b a); intros; auto; try discriminate; lra.
  - intros a b c. destruct (Rlt_dec a b); destruct (Rlt_dec b c); destruct (Rlt_dec a c); intros; auto; try discriminate; lra.
  - intros x. pose proof (Rabs_pos x). destruct (Rlt_dec (Rabs x) 0); auto; lra.
  - rewrite Rabs_R0. destruct (Rlt_dec 0 0); auto; lra.
  - intros x Hx. destruct (Req_dec x 0) as [|Hn]; auto. pose proof (Rabs_pos_lt x Hn). destruct (Rlt_dec 0 (Rabs x)); [discriminate|lra].
  - intros m n. destruct (Rlt_dec 0 m) as [Hm|]; [|discriminate]. intros _ Hn. apply lt_INR in Hn. simpl in Hn.
    destruct (Rlt_dec 0 (eps * m * INR n)) as [|F]; auto. exfalso. apply F.
    apply Rmult_lt_0_compat; auto. apply Rmult_lt_0_compat; auto.
Qed.
