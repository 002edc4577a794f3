(** * Base: outcomes of C++ code, checked containers, loops

    This file models no MML function by itself; it fixes how C++ control flow is
    rendered in Gallina by all the model files.

    - [Ok a]      : the C++ expression or statement completes normally with value [a].
    - [Throw e]   : a C++ exception leaves the function.
    - [UB]        : undefined behaviour (e.g. a raw [operator[]] outside a container).
    - [NoFuel]    : artefact of the model: a loop was cut off by its fuel argument.

    [UB] and [NoFuel] are never confused with a normal result. *)

From Coq Require Import List Arith Lia Bool.
Import ListNotations.

Inductive exn : Type :=
| OutOfRange            (* std::out_of_range *)
| InvalidArgument       (* std::invalid_argument *)
| LengthError           (* std::length_error *)
| IndexError            (* MML::IndexError and derived *)
| DimensionError        (* MML::MatrixDimensionError, VectorDimensionError *)
| SingularError         (* MML::SingularMatrixError *)
| NumericalError        (* MML::MatrixNumericalError *)
| DomainError           (* MML::*ArgumentError / domain errors *)
| DivideByZero          (* MML::DivideByZeroError *)
| DataErr               (* MML::DataError *)
| BadAlloc              (* std::bad_alloc *)
| OtherError.

Inductive res (A : Type) : Type :=
| Ok : A -> res A
| Throw : exn -> res A
| UB : res A
| NoFuel : res A.
Arguments Ok {A} _.
Arguments Throw {A} _.
Arguments UB {A}.
Arguments NoFuel {A}.

Definition bind {A B} (m : res A) (k : A -> res B) : res B :=
  match m with
  | Ok a => k a
  | Throw e => Throw e
  | UB => UB
  | NoFuel => NoFuel
  end.

Declare Scope res_scope.
Delimit Scope res_scope with res.
Notation "x <- m ;; k" := (bind m (fun x => k))
  (at level 61, m at next level, right associativity) : res_scope.
Notation "' p <- m ;; k" := (bind m (fun p => k))
  (at level 61, p pattern, m at next level, right associativity) : res_scope.
Open Scope res_scope.

(** Total-correctness assertion: the computation ends normally in a value satisfying [Q]. *)
Definition wp {A} (m : res A) (Q : A -> Prop) : Prop :=
  match m with Ok a => Q a | _ => False end.

Lemma wp_Ok : forall A (a : A) (Q : A -> Prop), Q a -> wp (Ok a) Q.
Proof. intros; assumption. Qed.

Lemma wp_bind : forall A B (m : res A) (k : A -> res B) (Q : B -> Prop),
  wp m (fun a => wp (k a) Q) -> wp (bind m k) Q.
Proof. intros A B m k Q H. destruct m; simpl in *; auto. Qed.

Lemma wp_bind_inv : forall A B (m : res A) (k : A -> res B) (Q : B -> Prop),
  wp (bind m k) Q -> wp m (fun a => wp (k a) Q).
Proof. intros A B m k Q H. destruct m; simpl in *; auto. Qed.

Lemma wp_mono : forall A (m : res A) (P Q : A -> Prop),
  wp m P -> (forall a, P a -> Q a) -> wp m Q.
Proof. intros A m P Q H HPQ. destruct m; simpl in *; auto. Qed.

Lemma wp_conseq : forall A (m : res A) (P Q : A -> Prop),
  (forall a, P a -> Q a) -> wp m P -> wp m Q.
Proof. intros A m P Q HPQ H. destruct m; simpl in *; auto. Qed.

Lemma wp_elim : forall A (m : res A) (Q : A -> Prop),
  wp m Q -> exists a, m = Ok a /\ Q a.
Proof. intros A m Q H. destruct m; simpl in H; try contradiction. eauto. Qed.

Lemma wp_intro : forall A (m : res A) (Q : A -> Prop) a,
  m = Ok a -> Q a -> wp m Q.
Proof. intros; subst; assumption. Qed.

Lemma wp_conj : forall A (m : res A) (P Q : A -> Prop),
  wp m P -> wp m Q -> wp m (fun a => P a /\ Q a).
Proof. intros A m P Q H1 H2. destruct m; simpl in *; auto. Qed.

Lemma bind_Ok : forall A B (m : res A) (k : A -> res B) b,
  bind m k = Ok b -> exists a, m = Ok a /\ k a = Ok b.
Proof. intros A B m k b H. destruct m; simpl in H; try discriminate. eauto. Qed.

(** ** Checked vectors (std::vector with [operator[]]) *)

Definition vget {A} (l : list A) (i : nat) : res A :=
  match nth_error l i with Some a => Ok a | None => UB end.

Fixpoint upd {A} (l : list A) (i : nat) (a : A) : list A :=
  match l, i with
  | [], _ => []
  | _ :: l', 0 => a :: l'
  | x :: l', S i' => x :: upd l' i' a
  end.

Definition vset {A} (l : list A) (i : nat) (a : A) : res (list A) :=
  if i <? length l then Ok (upd l i a) else UB.

Lemma upd_length : forall A (l : list A) i a, length (upd l i a) = length l.
Proof. induction l; destruct i; simpl; auto. Qed.

Lemma nth_error_upd_eq : forall A (l : list A) i a,
  i < length l -> nth_error (upd l i a) i = Some a.
Proof. induction l; destruct i; simpl; intros; try lia; auto. apply IHl; lia. Qed.

Lemma nth_error_upd_neq : forall A (l : list A) i j a,
  i <> j -> nth_error (upd l i a) j = nth_error l j.
Proof.
  induction l; destruct i, j; simpl; intros; try lia; auto.
Qed.

Lemma nth_error_upd : forall A (l : list A) i j a,
  nth_error (upd l i a) j =
  if Nat.eqb i j then (if i <? length l then Some a else None) else nth_error l j.
Proof.
  intros A l i j a. destruct (Nat.eqb_spec i j) as [->|Hne].
  - destruct (Nat.ltb_spec j (length l)).
    + apply nth_error_upd_eq; auto.
    + apply nth_error_None. rewrite upd_length; lia.
  - apply nth_error_upd_neq; auto.
Qed.

Lemma nth_error_lt : forall A (l : list A) i, i < length l -> exists a, nth_error l i = Some a.
Proof.
  intros A l i H. destruct (nth_error l i) eqn:E; eauto.
  apply nth_error_None in E; lia.
Qed.

Lemma nth_error_Some_lt : forall A (l : list A) i a, nth_error l i = Some a -> i < length l.
Proof. intros. apply nth_error_Some. congruence. Qed.

Lemma vget_wp : forall A (l : list A) i (Q : A -> Prop),
  i < length l -> (forall a, nth_error l i = Some a -> Q a) -> wp (vget l i) Q.
Proof.
  intros A l i Q Hlt HQ. unfold vget. destruct (nth_error_lt _ l i Hlt) as [a Ha].
  rewrite Ha. simpl. auto.
Qed.

Lemma vget_Ok : forall A (l : list A) i a, vget l i = Ok a <-> nth_error l i = Some a.
Proof.
  intros. unfold vget. destruct (nth_error l i); split; congruence.
Qed.

Lemma vset_wp : forall A (l : list A) i a (Q : list A -> Prop),
  i < length l -> Q (upd l i a) -> wp (vset l i a) Q.
Proof.
  intros A l i a Q Hlt HQ. unfold vset. apply Nat.ltb_lt in Hlt. rewrite Hlt. exact HQ.
Qed.

Lemma vset_Ok : forall A (l : list A) i a l',
  vset l i a = Ok l' <-> i < length l /\ l' = upd l i a.
Proof.
  intros. unfold vset. destruct (Nat.ltb_spec i (length l)); split; intros H'; try congruence.
  - inversion H'; auto.
  - destruct H'; subst; auto.
  - destruct H'; lia.
Qed.

(** ** Loops *)

(** [for (const auto& a : l) s = f(s,a);] *)
Fixpoint for_each {A S} (f : S -> A -> res S) (l : list A) (s : S) : res S :=
  match l with
  | [] => Ok s
  | a :: l' => s' <- f s a ;; for_each f l' s'
  end.

(** [for (size_t i = lo; i < hi; ++i) s = f(s,i);] *)
Definition for_range {S} (lo hi : nat) (f : S -> nat -> res S) (s : S) : res S :=
  for_each f (seq lo (hi - lo)) s.

(** [for (i = hi-1; i >= lo; --i) s = f(s,i);] *)
Definition for_down {S} (lo hi : nat) (f : S -> nat -> res S) (s : S) : res S :=
  for_each f (rev (seq lo (hi - lo))) s.

(** [while] loop with breaks and returns: [inl s] = next iteration, [inr r] = leave with [r]. *)
Fixpoint iter {S R} (fuel : nat) (step : S -> res (S + R)) (s : S) : res R :=
  match fuel with
  | 0 => NoFuel
  | Datatypes.S fuel' =>
      r <- step s ;;
      match r with
      | inl s' => iter fuel' step s'
      | inr b => Ok b
      end
  end.

(** Loop with early exit over a list: [inr r] = break/return out of the loop with [r];
    the loop ending normally yields [inl s]. *)
Fixpoint for_each_brk {A S R} (f : S -> A -> res (S + R)) (l : list A) (s : S) : res (S + R) :=
  match l with
  | [] => Ok (inl s)
  | a :: l' =>
      r <- f s a ;;
      match r with
      | inl s' => for_each_brk f l' s'
      | inr b => Ok (inr b)
      end
  end.

Lemma for_each_inv : forall A S (f : S -> A -> res S) (I : list A -> S -> Prop) l s,
  I [] s ->
  (forall pre a post s, l = pre ++ a :: post -> I pre s -> wp (f s a) (I (pre ++ [a]))) ->
  wp (for_each f l s) (I l).
Proof.
  intros A S f I l s H0 Hstep.
  assert (G : forall post pre s, l = pre ++ post -> I pre s -> wp (for_each f post s) (I l)).
  { induction post as [|a post IH]; intros pre s1 Hl HI; simpl.
    - rewrite app_nil_r in Hl. subst; auto.
    - apply wp_bind. eapply wp_mono. { eapply Hstep; eauto. }
      intros s2 H2. apply (IH (pre ++ [a])); auto. rewrite <- app_assoc. exact Hl. }
  apply (G l []); auto.
Qed.

Lemma for_each_inv_simple : forall A S (f : S -> A -> res S) (I : S -> Prop) l s,
  I s ->
  (forall a s, In a l -> I s -> wp (f s a) I) ->
  wp (for_each f l s) I.
Proof.
  intros A S f I l s H0 Hstep.
  apply (for_each_inv A S f (fun _ => I)); auto.
  intros pre a post s1 Hl HI. apply Hstep; auto. subst l. apply in_or_app; simpl; auto.
Qed.

Lemma for_each_brk_inv : forall A S R (f : S -> A -> res (S + R)) (I : list A -> S -> Prop)
    (Q : R -> Prop) l s,
  I [] s ->
  (forall pre a post s, l = pre ++ a :: post -> I pre s ->
     wp (f s a) (fun r => match r with inl s' => I (pre ++ [a]) s' | inr b => Q b end)) ->
  wp (for_each_brk f l s) (fun r => match r with inl s' => I l s' | inr b => Q b end).
Proof.
  intros A S R f I Q l s H0 Hstep.
  assert (G : forall post pre s, l = pre ++ post -> I pre s ->
     wp (for_each_brk f post s) (fun r => match r with inl s' => I l s' | inr b => Q b end)).
  { induction post as [|a post IH]; intros pre s1 Hl HI; simpl.
    - rewrite app_nil_r in Hl. subst; auto.
    - apply wp_bind. eapply wp_mono. { eapply Hstep; eauto. }
      intros [s2|b] H2; simpl; auto.
      apply (IH (pre ++ [a])); auto. rewrite <- app_assoc. exact Hl. }
  apply (G l []); auto.
Qed.

Lemma seq_split : forall lo k i pre post,
  seq lo k = pre ++ i :: post -> i = lo + length pre /\ pre = seq lo (length pre) /\ length pre < k.
Proof.
  intros lo k i pre. revert lo k i. induction pre as [|x pre IH]; intros lo k i post H.
  - destruct k; simpl in H; inversion H; subst. simpl. repeat split; lia.
  - destruct k; simpl in H; inversion H; subst.
    apply IH in H2. destruct H2 as (E1 & E2 & E3). simpl. repeat split; try lia.
    f_equal. exact E2.
Qed.

(** Invariant rule for [for_range]: [I i s] holds before iteration [i]. *)
Lemma for_range_inv : forall S (f : S -> nat -> res S) (I : nat -> S -> Prop) lo hi s,
  lo <= hi ->
  I lo s ->
  (forall i s, lo <= i -> i < hi -> I i s -> wp (f s i) (I (i + 1))) ->
  wp (for_range lo hi f s) (I hi).
Proof.
  intros S f I lo hi s Hle H0 Hstep. unfold for_range.
  pose proof (for_each_inv nat S f (fun pre s => I (lo + length pre) s) (seq lo (hi - lo)) s) as G.
  cbv beta in G. rewrite seq_length in G. replace (lo + (hi - lo)) with hi in G by lia.
  apply G.
  - simpl. rewrite Nat.add_0_r. exact H0.
  - intros pre a post s1 Hl HI. apply seq_split in Hl. destruct Hl as (E1 & E2 & E3).
    subst a. rewrite app_length. simpl.
    replace (lo + (length pre + 1)) with (lo + length pre + 1) by lia.
    apply Hstep; auto; lia.
Qed.

Lemma for_range_empty : forall S (f : S -> nat -> res S) lo hi s,
  hi <= lo -> for_range lo hi f s = Ok s.
Proof. intros. unfold for_range. replace (hi - lo) with 0 by lia. reflexivity. Qed.

Lemma rev_seq_split : forall lo k i pre post,
  rev (seq lo k) = pre ++ i :: post -> i + length pre + 1 = lo + k /\ lo <= i /\ length pre < k.
Proof.
  intros lo k i pre post H.
  assert (H' : seq lo k = rev post ++ i :: rev pre).
  { rewrite <- (rev_involutive (seq lo k)). rewrite H. rewrite rev_app_distr. simpl.
    rewrite <- app_assoc. reflexivity. }
  pose proof (f_equal (@length nat) H') as Hlen.
  rewrite seq_length, app_length in Hlen. simpl in Hlen. rewrite !rev_length in Hlen.
  apply seq_split in H'. destruct H' as (E1 & E2 & E3). rewrite rev_length in *. lia.
Qed.

(** Invariant rule for [for_down]: [I i s] holds after the iterations [hi-1 .. i]. *)
Lemma for_down_inv : forall S (f : S -> nat -> res S) (I : nat -> S -> Prop) lo hi s,
  lo <= hi ->
  I hi s ->
  (forall i s, lo <= i -> i < hi -> I (i + 1) s -> wp (f s i) (I i)) ->
  wp (for_down lo hi f s) (I lo).
Proof.
  intros S f I lo hi s Hle H0 Hstep. unfold for_down.
  pose proof (for_each_inv nat S f (fun pre s => I (hi - length pre) s) (rev (seq lo (hi - lo))) s) as G.
  cbv beta in G. rewrite rev_length, seq_length in G. replace (hi - (hi - lo)) with lo in G by lia.
  apply G.
  - simpl. rewrite Nat.sub_0_r. exact H0.
  - intros pre a post s1 Hl HI. apply rev_seq_split in Hl. destruct Hl as (E1 & E2 & E3).
    rewrite app_length. simpl.
    replace (hi - (length pre + 1)) with a by lia.
    replace (hi - length pre) with (a + 1) in HI by lia.
    apply Hstep; auto; lia.
Qed.

Lemma iter_inv : forall S R (step : S -> res (S + R)) (I : S -> Prop) (m : S -> nat) (Q : R -> Prop),
  (forall s, I s -> wp (step s) (fun r => match r with
                                          | inl s' => I s' /\ m s' < m s
                                          | inr b => Q b end)) ->
  forall fuel s, I s -> m s < fuel -> wp (iter fuel step s) Q.
Proof.
  intros S R step I m Q Hstep. induction fuel as [|fuel IH]; intros s HI Hm; [lia|].
  simpl. apply wp_bind. eapply wp_mono. { apply Hstep; exact HI. }
  intros [s'|b] H; simpl; auto. destruct H as [HI' Hlt]. apply IH; auto. lia.
Qed.

(** Partial-correctness rule: no measure, conclusion only when the loop does end. *)
Lemma iter_partial : forall S R (step : S -> res (S + R)) (I : S -> Prop) (Q : R -> Prop),
  (forall s r, I s -> step s = Ok r -> match r with inl s' => I s' | inr b => Q b end) ->
  forall fuel s b, I s -> iter fuel step s = Ok b -> Q b.
Proof.
  intros S R step I Q Hstep. induction fuel as [|fuel IH]; intros s b HI H; simpl in H; [discriminate|].
  apply bind_Ok in H. destruct H as (r & Hr & Hk).
  specialize (Hstep s r HI Hr). destruct r as [s'|b'].
  - exact (IH s' b Hstep Hk).
  - inversion Hk; subst; auto.
Qed.

(** ** Member functions that mutate an object

    A mutating member function is a function from the object's state to an outcome together with the
    state of the object when the function returned or threw; so what has been written before an
    exception stays written. *)
Definition ST (S A : Type) : Type := S -> res A * S.

Definition sret {S A} (a : A) : ST S A := fun s => (Ok a, s).
Definition sthrow {S A} (e : exn) : ST S A := fun s => (Throw e, s).
Definition slift {S A} (f : S -> res A) : ST S A := fun s => (f s, s).
Definition swrite {S} (f : S -> S) : ST S unit := fun s => (Ok tt, f s).
Definition sbind {S A B} (m : ST S A) (k : A -> ST S B) : ST S B :=
  fun s => match m s with
           | (Ok a, s') => k a s'
           | (Throw e, s') => (Throw e, s')
           | (UB, s') => (UB, s')
           | (NoFuel, s') => (NoFuel, s')
           end.

Declare Scope st_scope.
Delimit Scope st_scope with st.
Notation "x <-- m ;; k" := (sbind m (fun x => k))
  (at level 61, m at next level, right associativity) : st_scope.

(** Run a mutator and keep the object only if it completed normally. *)
Definition run {S A} (m : ST S A) (s : S) : res S :=
  match m s with
  | (Ok _, s') => Ok s'
  | (Throw e, _) => Throw e
  | (UB, _) => UB
  | (NoFuel, _) => NoFuel
  end.

(** Run a mutator inside a caller that catches every exception: the object keeps whatever state the
    mutator left. *)
Definition run_catch {S A} (m : ST S A) (s : S) : res S :=
  match m s with
  | (Ok _, s') => Ok s'
  | (Throw _, s') => Ok s'
  | (UB, _) => UB
  | (NoFuel, _) => NoFuel
  end.

(** More fuel never changes a loop that has ended normally. *)
Lemma iter_more : forall S R (step : S -> res (S + R)) fuel fuel' s b,
  fuel <= fuel' -> iter fuel step s = Ok b -> iter fuel' step s = Ok b.
Proof.
  induction fuel as [|fuel IH]; intros fuel' s b Hle H; simpl in H; [discriminate|].
  destruct fuel' as [|fuel']; [lia|]. simpl.
  apply bind_Ok in H. destruct H as (r & Hr & Hk). rewrite Hr. simpl.
  destruct r as [s'|b']; auto. apply IH; auto. lia.
Qed.

Lemma nth_ext_error : forall A (l l' : list A), (forall i, nth_error l i = nth_error l' i) -> l = l'.
Proof.
  induction l as [|a l IH]; intros [|b l'] H; auto.
  - specialize (H 0); discriminate.
  - specialize (H 0); discriminate.
  - pose proof (H 0) as H0. simpl in H0. inversion H0. f_equal. apply IH. intros i. apply (H (S i)).
Qed.

(** [iter_inv] with a measure that may depend on ghost state *)
Lemma iter_inv_idx : forall S R (step : S -> res (S + R)) (I : nat -> S -> Prop) (Q : R -> Prop),
  (forall k s, I k s -> wp (step s) (fun r => match r with
                                          | inl s' => exists k', k' < k /\ I k' s'
                                          | inr b => Q b end)) ->
  forall fuel k s, I k s -> k < fuel -> wp (iter fuel step s) Q.
Proof.
  intros S R step I Q Hstep. induction fuel as [|fuel IH]; intros k s HI Hm; [lia|].
  simpl. apply wp_bind. eapply wp_mono; [apply (Hstep k s HI)|].
  intros [s'|b]; auto. intros (k' & Hk & HI'). eapply IH; eauto. lia.
Qed.
