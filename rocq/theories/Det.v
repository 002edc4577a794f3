(** * Determinants

    Specification: Laplace expansion along the first column.  Behaviour under the row operations of
    elimination. *)

From Coq Require Import List Arith Bool Lia ZArith Ring.
From Verif Require Import Base Num.
Local Open Scope nat_scope.

(** [skip p] lists the indices other than [p] *)
Definition skip (p i : nat) : nat := if i <? p then i else S i.

Section Det.
Context {T : Type} (O : numops T).

Definition sgn (i : nat) : T := if Nat.even i then n1 O else nopp O (n1 O).

Fixpoint det (n : nat) (f : nat -> nat -> T) : T :=
  match n with
  | 0 => n1 O
  | S m => sumn O (S m) (fun i => nmul O (nmul O (sgn i) (f i 0)) (det m (fun a b => f (skip i a) (S b))))
  end.

Fixpoint prodn (n : nat) (f : nat -> T) : T :=
  match n with 0 => n1 O | S k => nmul O (prodn k f) (f k) end.

Context (HR : ring_laws O).
Add Ring Tring : HR.
Notation "0" := (n0 O). Notation "1" := (n1 O).
Infix "+" := (nadd O). Infix "*" := (nmul O). Infix "-" := (nsub O).
Notation "- x" := (nopp O x).
Notation sum := (sumn O).
Implicit Types f g h : nat -> nat -> T.

Lemma skip_lt : forall p i n, p <= n -> i < n -> skip p i < S n.
Proof. intros p i n H1 H2. unfold skip. destruct (Nat.ltb_spec i p); lia. Qed.
Lemma skip_neq : forall p i, skip p i <> p.
Proof. intros p i. unfold skip. destruct (Nat.ltb_spec i p); lia. Qed.

Lemma det_ext : forall n f g, (forall i j, i < n -> j < n -> f i j = g i j) -> det n f = det n g.
Proof.
  induction n as [|n IH]; intros f g H; auto. cbn [det]. apply sum_ext. intros i Hi. rewrite (H i 0%nat) by lia. f_equal.
  apply IH. intros a b Ha Hb. apply H; [apply skip_lt; lia|lia].
Qed.

Lemma det_lin : forall n p f g h a, p < n ->
  (forall j, j < n -> h p j = f p j + a * g p j) ->
  (forall i j, i < n -> j < n -> i <> p -> h i j = f i j /\ h i j = g i j) ->
  det n h = det n f + a * det n g.
Proof.
  induction n as [|n IH]; intros p f g h a Hp Hrow Hoth; [lia|]. cbn [det].
  rewrite (sum_mul_l O HR), <- (sum_add O HR). apply sum_ext. intros i Hi. destruct (Nat.eq_dec i p) as [->|Hne].
  - rewrite (Hrow 0%nat) by lia.
    rewrite (det_ext n (fun x b => h (skip p x) (S b)) (fun x b => f (skip p x) (S b))).
    rewrite (det_ext n (fun x b => g (skip p x) (S b)) (fun x b => f (skip p x) (S b))). ring.
    + intros x b Hx Hb. destruct (Hoth (skip p x) (S b)) as [<- <-]; auto; [apply skip_lt; lia|lia|apply skip_neq].
    + intros x b Hx Hb. destruct (Hoth (skip p x) (S b)) as [<- _]; auto; [apply skip_lt; lia|lia|apply skip_neq].
  - destruct (Hoth i 0%nat) as [E1 E2]; auto; [lia|].
    set (p' := if p <? i then p else (p - 1)%nat).
    assert (Hp' : skip i p' = p /\ p' < n).
    { unfold p', skip. destruct (Nat.ltb_spec p i); [destruct (Nat.ltb_spec p i); lia|]. destruct (Nat.ltb_spec (p - 1) i); lia. }
    destruct Hp' as [Ep Hp'].
    rewrite (IH p' (fun x b => f (skip i x) (S b)) (fun x b => g (skip i x) (S b)) (fun x b => h (skip i x) (S b)) a); auto.
    + rewrite <- E2, <- E1. ring.
    + intros j Hj. rewrite Ep. apply Hrow. lia.
    + intros x b Hx Hb Hxp. apply Hoth; [apply skip_lt; lia|lia|]. intros E. apply Hxp. revert E Ep. unfold skip.
      destruct (Nat.ltb_spec x i); destruct (Nat.ltb_spec p' i); lia.
Qed.

Lemma sgn_S : forall i, sgn (S i) = - sgn i.
Proof. intros i. unfold sgn. rewrite Nat.even_succ, <- Nat.negb_even. destruct (Nat.even i); simpl; ring. Qed.

Lemma det_adj_eq : forall n p f, S p < n -> (forall j, j < n -> f p j = f (S p) j) -> det n f = 0.
Proof.
  induction n as [|n IH]; intros p f Hp H; [lia|]. cbn [det].
  rewrite (sum_split O HR (S n) p) by lia.
  rewrite (sum_split O HR (S n) (S p)) by lia. rewrite (proj2 (Nat.eqb_neq (S p) p)) by lia.
  rewrite (sum_zero O HR).
  - rewrite (det_ext n (fun a b => f (skip p a) (S b)) (fun a b => f (skip (S p) a) (S b))).
    + rewrite (H 0%nat) by lia. rewrite sgn_S. ring.
    + intros a b Ha Hb. unfold skip. destruct (Nat.ltb_spec a p); destruct (Nat.ltb_spec a (S p)); auto; try lia.
      replace a with p by lia. symmetry. apply H. lia.
  - intros i Hi. destruct (Nat.eqb_spec i (S p)); auto. destruct (Nat.eqb_spec i p); auto.
    destruct (lt_dec i p) as [Hlt|Hge].
    + rewrite (IH (p - 1)%nat (fun a b => f (skip i a) (S b))); [ring|lia|]. intros j Hj. unfold skip.
      destruct (Nat.ltb_spec (p - 1) i); [lia|]. destruct (Nat.ltb_spec (S (p - 1)) i); [lia|].
      replace (S (p - 1)) with p by lia. apply H. lia.
    + rewrite (IH p (fun a b => f (skip i a) (S b))); [ring|lia|]. intros j Hj. unfold skip.
      destruct (Nat.ltb_spec p i); [|lia]. destruct (Nat.ltb_spec (S p) i); [|lia]. apply H. lia.
Qed.

Lemma det_adj_swap : forall n p f, S p < n -> det n (fun i j => f (tr p (S p) i) j) = - det n f.
Proof.
  intros n p f Hp.
  set (D := fun x y : nat -> T => det n (fun i j => if Nat.eqb i p then x j else if Nat.eqb i (S p) then y j else f i j)).
  assert (L1 : forall x x' y, D (fun j => x j + x' j) y = D x y + D x' y).
  { intros x x' y. unfold D. rewrite (det_lin n p (fun i j => if Nat.eqb i p then x j else if Nat.eqb i (S p) then y j else f i j)
      (fun i j => if Nat.eqb i p then x' j else if Nat.eqb i (S p) then y j else f i j) _ 1); [ring|lia| |].
    - intros j Hj. rewrite Nat.eqb_refl. ring.
    - intros i j Hi Hj Hne. rewrite (proj2 (Nat.eqb_neq i p)) by auto. auto. }
  assert (L2 : forall x y y', D x (fun j => y j + y' j) = D x y + D x y').
  { intros x y y'. unfold D. rewrite (det_lin n (S p) (fun i j => if Nat.eqb i p then x j else if Nat.eqb i (S p) then y j else f i j)
      (fun i j => if Nat.eqb i p then x j else if Nat.eqb i (S p) then y' j else f i j) _ 1); [ring|lia| |].
    - intros j Hj. rewrite (proj2 (Nat.eqb_neq (S p) p)) by lia. rewrite Nat.eqb_refl. ring.
    - intros i j Hi Hj Hne. rewrite (proj2 (Nat.eqb_neq i (S p))) by auto. auto. }
  assert (Z : forall x, D x x = 0).
  { intros x. unfold D. apply (det_adj_eq n p); auto. intros j Hj. rewrite Nat.eqb_refl, (proj2 (Nat.eqb_neq (S p) p)), Nat.eqb_refl by lia. auto. }
  pose proof (Z (fun j => f p j + f (S p) j)) as E. rewrite L1, !L2, !Z in E.
  replace (det n f) with (D (f p) (f (S p))).
  - replace (det n (fun i j => f (tr p (S p) i) j)) with (D (f (S p)) (f p)).
    + transitivity (0 + D (f p) (f (S p)) + (D (f (S p)) (f p) + 0) - D (f p) (f (S p))); [ring|]. rewrite E. ring.
    + apply det_ext. intros i j Hi Hj. unfold tr. destruct (Nat.eqb_spec i p) as [->|]; auto.
      destruct (Nat.eqb_spec i (S p)) as [->|]; auto.
  - apply det_ext. intros i j Hi Hj. destruct (Nat.eqb_spec i p) as [->|]; auto. destruct (Nat.eqb_spec i (S p)) as [->|]; auto.
Qed.

Lemma tr_conj : forall r c i, S r < c -> tr r c i = tr (c - 1) c (tr r (c - 1) (tr (c - 1) c i)).
Proof.
  intros r c i H. unfold tr.
  assert (D : i = r \/ i = c \/ i = (c - 1)%nat \/ (i <> r /\ i <> c /\ i <> (c - 1)%nat)) by lia.
  destruct D as [->|[->|[->|(H1 & H2 & H3)]]];
  repeat match goal with |- context [Nat.eqb ?x ?y] =>
    first [replace (Nat.eqb x y) with true by (symmetry; apply Nat.eqb_eq; lia)
          |replace (Nat.eqb x y) with false by (symmetry; apply Nat.eqb_neq; lia)] end; lia.
Qed.

Lemma det_swap_lt : forall d n r f, (r + S d < n)%nat -> det n (fun i j => f (tr r (r + S d)%nat i) j) = - det n f.
Proof.
  induction d as [|d IH]; intros n r f H.
  - replace (r + 1)%nat with (S r) by lia. apply det_adj_swap. lia.
  - rewrite (det_ext n _ (fun i j => f (tr (r + S d)%nat (S (r + S d)) (tr r (r + S d)%nat (tr (r + S d)%nat (S (r + S d)) i))) j)).
    + rewrite (det_adj_swap n (r + S d)%nat (fun i j => f (tr (r + S d)%nat (S (r + S d)) (tr r (r + S d)%nat i)) j)) by lia.
      rewrite (IH n r (fun i j => f (tr (r + S d)%nat (S (r + S d)) i) j)) by lia.
      rewrite (det_adj_swap n (r + S d)%nat f) by lia. ring.
    + intros i j Hi Hj. rewrite (tr_conj r (r + S (S d))%nat i) by lia.
      replace (r + S (S d) - 1)%nat with (r + S d)%nat by lia. replace (r + S (S d))%nat with (S (r + S d)) by lia. auto.
Qed.

Lemma tr_sym : forall r c i, tr r c i = tr c r i.
Proof. intros r c i. unfold tr. destruct (Nat.eqb_spec i r); destruct (Nat.eqb_spec i c); subst; auto. Qed.

Lemma det_swap : forall n r c f, r < n -> c < n -> r <> c -> det n (fun i j => f (tr r c i) j) = - det n f.
Proof.
  intros n r c f Hr Hc Hne. destruct (lt_dec r c) as [H|H].
  - pose proof (det_swap_lt (c - r - 1) n r f) as E. replace (r + S (c - r - 1))%nat with c in E by lia. auto.
  - pose proof (det_swap_lt (r - c - 1) n c f) as E. replace (c + S (r - c - 1))%nat with r in E by lia. rewrite <- E by auto.
    apply det_ext. intros i j _ _. rewrite tr_sym. auto.
Qed.

Lemma det_eq_rows : forall n r c f, r < c -> c < n -> (forall j, j < n -> f r j = f c j) -> det n f = 0.
Proof.
  intros n r c f Hrc Hc H. destruct (Nat.eq_dec c (S r)) as [->|Hne]; [apply (det_adj_eq n r); auto|].
  assert (E : det n (fun i j => f (tr (S r) c i) j) = 0).
  { apply (det_adj_eq n r); [lia|]. intros j Hj. unfold tr. rewrite (proj2 (Nat.eqb_neq r (S r))), (proj2 (Nat.eqb_neq r c)), Nat.eqb_refl by lia. auto. }
  rewrite det_swap in E by lia. transitivity (- - det n f); [ring|]. rewrite E. ring.
Qed.

Lemma det_add_row : forall n p q f h a, p < n -> q < n -> p <> q ->
  (forall j, j < n -> h p j = f p j + a * f q j) ->
  (forall i j, i < n -> j < n -> i <> p -> h i j = f i j) -> det n h = det n f.
Proof.
  intros n p q f h a Hp Hq Hpq Hrow Hoth.
  rewrite (det_lin n p f (fun i j => if Nat.eqb i p then f q j else f i j) h a Hp).
  - replace (det n (fun i j => if Nat.eqb i p then f q j else f i j)) with 0; [ring|]. symmetry.
    destruct (lt_dec p q).
    + apply (det_eq_rows n p q); auto. intros j Hj. rewrite Nat.eqb_refl, (proj2 (Nat.eqb_neq q p)) by auto. auto.
    + apply (det_eq_rows n q p); auto; [lia|]. intros j Hj. rewrite Nat.eqb_refl, (proj2 (Nat.eqb_neq q p)) by auto. auto.
  - intros j Hj. rewrite Nat.eqb_refl. apply Hrow. auto.
  - intros i j Hi Hj Hne. rewrite (proj2 (Nat.eqb_neq i p)) by auto. split; apply Hoth; auto.
Qed.

Lemma prod_S_l : forall n (u : nat -> T), prodn (S n) u = u 0%nat * prodn n (fun i => u (S i)).
Proof.
  induction n as [|n IH]; intros u; [simpl; ring|]. change (prodn (S (S n)) u) with (prodn (S n) u * u (S n)).
  rewrite IH. simpl. ring.
Qed.
Lemma prod_ext : forall n (u v : nat -> T), (forall i, i < n -> u i = v i) -> prodn n u = prodn n v.
Proof. induction n as [|n IH]; intros u v H; simpl; auto. rewrite (IH u v), (H n); auto. Qed.

Lemma det_upper : forall n f, (forall i j, i < n -> j < i -> f i j = 0) -> det n f = prodn n (fun i => f i i).
Proof.
  induction n as [|n IH]; intros f H; auto. cbn [det]. rewrite (sum_one O HR (S n) 0) by (try lia; intros i Hi Hne; rewrite (H i 0%nat) by lia; ring).
  rewrite prod_S_l. rewrite IH.
  - unfold sgn. simpl Nat.even. cbv iota. rewrite (prod_ext n _ (fun i => f (S i) (S i))); [ring|]. intros i Hi. reflexivity.
  - intros i j Hi Hj. unfold skip. simpl. apply H; lia.
Qed.
End Det.
