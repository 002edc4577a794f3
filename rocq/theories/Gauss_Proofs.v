(** * Gauss-Jordan elimination: proofs *)

From Coq Require Import List Arith Bool Lia ZArith Ring Field.
From Verif Require Import Base Num Mat_Model Mat_Proofs Lin_Base Gauss_Model.
Import ListNotations.
Local Open Scope nat_scope.

Ltac ltb := repeat match goal with
  | |- context [?x <? ?y] => destruct (Nat.ltb_spec x y)
  | |- context [Nat.eqb ?x ?y] => destruct (Nat.eqb_spec x y)
  end; simpl; subst; try lia; auto.

(** ** Loops over one row *)
Section Rows.
Context {T : Type} (O : numops T).
Implicit Types (A : matrix T) (f : nat -> nat -> T).

Lemma swap_rows_wp : forall A a m f r c (Q : matrix T -> Prop), is_matrix A a m f -> r < a -> c < a -> r <> c ->
  (forall A', is_matrix A' a m (fun i j => f (tr r c i) j) -> Q A') -> wp (swap_rows A m r c) Q.
Proof.
  intros A a m f r c Q HA Hr Hc Hrc HQ. unfold swap_rows.
  eapply wp_conseq; [|apply (for_range_inv _ _ (fun l A => is_matrix A a m
     (fun i j => if j <? l then f (tr r c i) j else f i j)))].
  - intros A' H. apply HQ. eapply is_matrix_ext; [exact H|]. intros i j Hi Hj. cbv beta. ltb.
  - lia.
  - eapply is_matrix_ext; [exact HA|]. intros; cbv beta; ltb.
  - intros l A1 _ Hl H1. cbv beta in *. eapply mswap_wp; eauto. intros A' HA'.
    eapply is_matrix_ext; [exact HA'|]. intros i j Hi Hj. unfold fset. cbv beta. rewrite Nat.ltb_irrefl.
    unfold tr. destruct (Nat.eqb_spec j l); ltb.
Qed.

Lemma scale_row_wp : forall A a m f c p (Q : matrix T -> Prop), is_matrix A a m f -> c < a ->
  (forall A', is_matrix A' a m (fun i j => if Nat.eqb i c then nmul O (f c j) p else f i j) -> Q A') ->
  wp (scale_row O A m c p) Q.
Proof.
  intros A a m f c p Q HA Hc HQ. unfold scale_row.
  eapply wp_conseq; [|apply (for_range_inv _ _ (fun l A => is_matrix A a m
     (fun i j => if Nat.eqb i c && (j <? l) then nmul O (f c j) p else f i j)))].
  - intros A' H. apply HQ. eapply is_matrix_ext; [exact H|]. intros i j Hi Hj. cbv beta. ltb.
  - lia.
  - eapply is_matrix_ext; [exact HA|]. intros; cbv beta. rewrite andb_false_r. auto.
  - intros l A1 _ Hl H1. cbv beta in *. apply wp_bind. eapply mget_wp; eauto. eapply mset_wp; eauto. intros A' HA'.
    eapply is_matrix_ext; [exact HA'|]. intros i j Hi Hj. unfold fset. cbv beta. rewrite Nat.ltb_irrefl, andb_false_r. ltb.
Qed.

Lemma sub_row_wp : forall A a m f r c d (Q : matrix T -> Prop), is_matrix A a m f -> r < a -> c < a -> r <> c ->
  (forall A', is_matrix A' a m (fun i j => if Nat.eqb i r then nsub O (f r j) (nmul O (f c j) d) else f i j) -> Q A') ->
  wp (sub_row O A m r c d) Q.
Proof.
  intros A a m f r c d Q HA Hr Hc Hrc HQ. unfold sub_row.
  eapply wp_conseq; [|apply (for_range_inv _ _ (fun l A => is_matrix A a m
     (fun i j => if Nat.eqb i r && (j <? l) then nsub O (f r j) (nmul O (f c j) d) else f i j)))].
  - intros A' H. apply HQ. eapply is_matrix_ext; [exact H|]. intros i j Hi Hj. cbv beta. ltb.
  - lia.
  - eapply is_matrix_ext; [exact HA|]. intros; cbv beta. rewrite andb_false_r. auto.
  - intros l A1 _ Hl H1. cbv beta in *. apply wp_bind. eapply mget_wp; eauto. apply wp_bind. eapply mget_wp; eauto.
    eapply mset_wp; eauto. intros A' HA'.
    eapply is_matrix_ext; [exact HA'|]. intros i j Hi Hj. unfold fset. cbv beta. rewrite Nat.ltb_irrefl, !andb_false_r.
    destruct (Nat.eqb_spec c r); [lia|]. ltb.
Qed.

Lemma swap_cols_wp : forall A a m f r c (Q : matrix T -> Prop), is_matrix A a m f -> r < m -> c < m -> r <> c ->
  (forall A', is_matrix A' a m (fun i j => f i (tr r c j)) -> Q A') ->
  wp (for_range 0 a (fun A k => mswap A k r k c) A) Q.
Proof.
  intros A a m f r c Q HA Hr Hc Hrc HQ.
  eapply wp_conseq; [|apply (for_range_inv _ _ (fun l A => is_matrix A a m
     (fun i j => if i <? l then f i (tr r c j) else f i j)))].
  - intros A' H. apply HQ. eapply is_matrix_ext; [exact H|]. intros i j Hi Hj. cbv beta. ltb.
  - lia.
  - eapply is_matrix_ext; [exact HA|]. intros; cbv beta; ltb.
  - intros l A1 _ Hl H1. cbv beta in *. eapply mswap_wp; eauto. intros A' HA'.
    eapply is_matrix_ext; [exact HA'|]. intros i j Hi Hj. unfold fset. cbv beta. rewrite Nat.ltb_irrefl.
    unfold tr. destruct (Nat.eqb_spec i l); ltb.
Qed.
End Rows.

(** ** Products of swaps *)
Fixpoint perm (k : nat) (r c : nat -> nat) (j : nat) : nat :=
  match k with 0 => j | S k' => perm k' r c (tr (r k') (c k') j) end.
Fixpoint perm_inv (k : nat) (r c : nat -> nat) (j : nat) : nat :=
  match k with 0 => j | S k' => tr (r k') (c k') (perm_inv k' r c j) end.

Lemma perm_ext : forall k r c r' c' j, (forall l, l < k -> r l = r' l /\ c l = c' l) -> perm k r c j = perm k r' c' j.
Proof.
  induction k as [|k IH]; intros r c r' c' j H; simpl; auto.
  destruct (H k) as [-> ->]; auto.
Qed.
Lemma perm_lt : forall k r c n j, (forall l, l < k -> r l < n /\ c l < n) -> j < n -> perm k r c j < n.
Proof.
  induction k as [|k IH]; intros r c n j H Hj; simpl; auto. apply IH; auto.
  destruct (H k); auto. apply tr_lt; auto.
Qed.
Lemma perm_perm_inv : forall k r c j, perm k r c (perm_inv k r c j) = j.
Proof. induction k as [|k IH]; intros r c j; simpl; auto. rewrite tr_invol. auto. Qed.
Lemma perm_inv_perm : forall k r c j, perm_inv k r c (perm k r c j) = j.
Proof. induction k as [|k IH]; intros r c j; simpl; auto. rewrite IH, tr_invol. auto. Qed.
Lemma perm_inv_lt : forall k r c n j, (forall l, l < k -> r l < n /\ c l < n) -> j < n -> perm_inv k r c j < n.
Proof.
  induction k as [|k IH]; intros r c n j H Hj; simpl; auto.
  destruct (H k); auto. apply tr_lt; auto.
Qed.
Lemma perm_inj : forall k r c i j, perm k r c i = perm k r c j -> i = j.
Proof. intros k r c i j H. rewrite <- (perm_inv_perm k r c i), H, perm_inv_perm. auto. Qed.

Lemma sum_perm : forall T (O : numops T), ring_laws O -> forall k r c n f,
  (forall l, l < k -> r l < n /\ c l < n) -> sumn O n (fun j => f (perm k r c j)) = sumn O n f.
Proof.
  intros T O HR. induction k as [|k IH]; intros r c n f H; simpl; [apply sum_ext; auto|].
  destruct (H k) as [H1 H2]; auto.
  rewrite (sum_tr O HR n (r k) (c k) (fun j => f (perm k r c j)) H1 H2). apply IH. auto.
Qed.

(** ** Counting marked indices *)
Fixpoint count (S : nat -> bool) (n : nat) : nat :=
  match n with 0 => 0 | Datatypes.S k => (if S k then 1 else 0) + count S k end.
Lemma count_le : forall S n, count S n <= n.
Proof. induction n as [|n IH]; simpl; auto. destruct (S n); lia. Qed.
Lemma count_lt : forall S n, count S n < n -> exists q, q < n /\ S q = false.
Proof.
  induction n as [|n IH]; simpl; intros H; [lia|]. destruct (S n) eqn:E.
  - destruct IH as (q & Hq & F); [lia|]. exists q. auto.
  - exists n. auto.
Qed.
Lemma count_all : forall S n, count S n = n -> forall q, q < n -> S q = true.
Proof.
  induction n as [|n IH]; simpl; intros H q Hq; [lia|]. pose proof (count_le S n).
  destruct (S n) eqn:E; [|lia]. destruct (Nat.eq_dec q n) as [->|]; auto. apply IH; lia.
Qed.
Definition mark (S : nat -> bool) (c j : nat) : bool := Nat.eqb j c || S j.
Lemma count_mark : forall S c n, c < n -> S c = false -> count (mark S c) n = Datatypes.S (count S n).
Proof.
  intros S c n. induction n as [|n IH]; intros Hc HS; [lia|]. simpl. unfold mark at 1. destruct (Nat.eqb_spec n c) as [->|Hne].
  - rewrite HS. simpl. f_equal. clear IH HS. assert (G : forall k, k <= c -> count (mark S c) k = count S k).
    { induction k as [|k IHk]; intros Hk; simpl; auto. rewrite IHk by lia. unfold mark at 1.
      destruct (Nat.eqb_spec k c); [lia|]. auto. }
    apply G; auto.
  - simpl. rewrite IH by (auto; lia). destruct (S n); lia.
Qed.
Lemma count_none : forall n, count (fun _ => false) n = 0.
Proof. induction n; simpl; auto. Qed.

(** ** Elimination on entry functions *)
Section Field.
Context {T : Type} (O : numops T) (HF : field_laws O).
Let HR : ring_laws O := field_ring T O HF.
Add Field Tfield : HF.
Notation "0" := (n0 O). Notation "1" := (n1 O).
Infix "+" := (nadd O). Infix "*" := (nmul O). Infix "-" := (nsub O). Infix "/" := (ndiv O).
Notation sum := (sumn O).
Implicit Types (f g W V : nat -> nat -> T).

Definition delta (i j : nat) : T := if Nat.eqb i j then 1 else 0.

(** row operation of one elimination step on the values [v] of a column *)
Definition rop (pinv : T) (d : nat -> T) (c : nat) (v : nat -> T) (i : nat) : T :=
  if Nat.eqb i c then v c * pinv else v i - v c * pinv * d i.

Lemma rop_sum : forall pinv d c n (V : nat -> nat -> T) (b : nat -> T) i,
  rop pinv d c (fun i => sum n (fun q => V i q * b q)) i = sum n (fun q => rop pinv d c (fun i => V i q) i * b q).
Proof.
  intros pinv d c n V b i. unfold rop. destruct (Nat.eqb_spec i c) as [->|Hne].
  - rewrite (sum_mul_r O HR). apply sum_ext. intros q _. ring.
  - rewrite (sum_ext O n (fun q => (V i q - V c q * pinv * d i) * b q) (fun q => V i q * b q - V c q * b q * (pinv * d i))).
    + rewrite (sum_sub O HR), <- (sum_mul_r O HR). ring.
    + intros q _. ring.
Qed.

Lemma rop_eqv : forall pinv p d c n (u v : nat -> T), c < n -> p * pinv = 1 ->
  ((forall i, i < n -> u i = v i) <-> (forall i, i < n -> rop pinv d c u i = rop pinv d c v i)).
Proof.
  intros pinv p d c n u v Hc Hp. split; intros H i Hi.
  - unfold rop. rewrite (H c Hc), (H i Hi). auto.
  - assert (Ec : u c = v c).
    { pose proof (H c Hc) as E. unfold rop in E. rewrite Nat.eqb_refl in E.
      transitivity (u c * (p * pinv)); [rewrite Hp; ring|]. transitivity (v c * (p * pinv)); [|rewrite Hp; ring].
      transitivity (u c * pinv * p); [ring|]. rewrite E. ring. }
    destruct (Nat.eqb_spec i c) as [->|Hne]; auto.
    pose proof (H i Hi) as E. unfold rop in E. rewrite (proj2 (Nat.eqb_neq i c) Hne) in E. rewrite Ec in E.
    transitivity (u i - v c * pinv * d i + v c * pinv * d i); [ring|]. rewrite E. ring.
Qed.

(** [A0 x = b] and [W x = V b] have the same solutions, for all x and b *)
Definition sys (n : nat) (A0 W V : nat -> nat -> T) : Prop :=
  forall x b, (forall i, i < n -> sum n (fun k => A0 i k * x k) = b i) <->
              (forall i, i < n -> sum n (fun k => W i k * x k) = sum n (fun q => V i q * b q)).

Lemma sum_delta_l : forall n i (b : nat -> T), i < n -> sum n (fun q => delta i q * b q) = b i.
Proof.
  intros n i b Hi. rewrite (sum_one O HR n i); auto.
  - unfold delta. rewrite Nat.eqb_refl. ring.
  - intros q _ Hq. unfold delta. rewrite (proj2 (Nat.eqb_neq i q)) by auto. ring.
Qed.
Lemma sys_init : forall n A0, sys n A0 A0 delta.
Proof.
  intros n A0 x b. split; intros H i Hi; rewrite H by auto; rewrite sum_delta_l by auto; auto.
Qed.
Lemma sys_swap : forall n A0 W V r c, r < n -> c < n -> sys n A0 W V ->
  sys n A0 (fun i => W (tr r c i)) (fun i => V (tr r c i)).
Proof.
  intros n A0 W V r c Hr Hc H x b. rewrite (H x b). split; intros E i Hi.
  - apply E. apply tr_lt; auto.
  - specialize (E (tr r c i)). rewrite tr_invol in E. apply E. apply tr_lt; auto.
Qed.
Lemma sys_rop : forall n A0 W V c pinv p d, c < n -> p * pinv = 1 -> sys n A0 W V ->
  sys n A0 (fun i j => rop pinv d c (fun i => W i j) i) (fun i j => rop pinv d c (fun i => V i j) i).
Proof.
  intros n A0 W V c pinv p d Hc Hp H x b. rewrite (H x b).
  rewrite (rop_eqv pinv p d c n _ _ Hc Hp).
  split; intros E i Hi.
  - rewrite <- !rop_sum. apply E; auto.
  - rewrite !rop_sum. apply E; auto.
Qed.

(** the state of the elimination: [S] = columns already reduced *)
Record gj (n : nat) (A0 f : nat -> nat -> T) (S : nat -> bool) (W V : nat -> nat -> T) (s : nat -> nat) : Prop := {
  g_sys : sys n A0 W V;
  g_red : forall i j, i < n -> j < n -> S j = true -> f i j = V i (s j) /\ W i j = delta i j;
  g_todo : forall i j, i < n -> j < n -> S j = false -> f i j = W i j /\ V i (s j) = delta i j
}.

Definition elim (f : nat -> nat -> T) (r c : nat) (i j : nat) : T :=
  let f1 i j := f (tr r c i) j in
  let pinv := 1 / f1 c c in
  if Nat.eqb i c then (if Nat.eqb j c then 1 else f1 c j) * pinv
  else (if Nat.eqb j c then 0 else f1 i j) - (if Nat.eqb j c then 1 else f1 c j) * pinv * f1 i c.

Lemma delta_tr : forall r c i j, delta (tr r c i) j = delta i (tr r c j).
Proof.
  intros r c i j. unfold delta. destruct (Nat.eqb_spec (tr r c i) j) as [<-|H1]; destruct (Nat.eqb_spec i (tr r c (tr r c i))) as [|H2]; auto.
  - rewrite tr_invol in H2. congruence.
  - destruct (Nat.eqb_spec i (tr r c j)) as [->|]; auto. rewrite tr_invol in H1. congruence.
  - destruct (Nat.eqb_spec i (tr r c j)) as [->|]; auto. rewrite tr_invol in H1. congruence.
Qed.
Lemma tr_other : forall r c j, j <> r -> j <> c -> tr r c j = j.
Proof. intros r c j H1 H2. unfold tr. destruct (Nat.eqb_spec j r); [congruence|]. destruct (Nat.eqb_spec j c); congruence. Qed.
Lemma tr_r : forall r c, tr r c c = r.
Proof. intros r c. unfold tr. rewrite Nat.eqb_refl. destruct (Nat.eqb_spec c r); auto. Qed.

Definition stepf (f : nat -> nat -> T) (r c : nat) (X : nat -> nat -> T) (i j : nat) : T :=
  rop (1 / f r c) (fun i => f (tr r c i) c) c (fun i => X (tr r c i) j) i.

Lemma gj_step : forall n A0 f S W V s r c,
  gj n A0 f S W V s -> r < n -> c < n -> S r = false -> S c = false -> f r c <> 0 ->
  gj n A0 (elim f r c) (mark S c) (stepf f r c W) (stepf f r c V) (fun j => s (tr r c j)).
Proof.
  intros n A0 f S W V s r c [Hs Hred Htodo] Hr Hc Sr Sc Hp.
  assert (Hpi : f r c * (1 / f r c) = 1) by (field; auto).
  assert (Hti : forall i, i < n -> tr r c i < n) by (intros; apply tr_lt; auto).
  constructor.
  - unfold stepf.
    apply (sys_rop n A0 (fun i => W (tr r c i)) (fun i => V (tr r c i)) c (1 / f r c) (f r c) (fun i => f (tr r c i) c) Hc Hpi).
    apply sys_swap; auto.
  - intros i j Hi Hj Hm. unfold mark in Hm. unfold elim, stepf, rop. rewrite !tr_r. destruct (Nat.eqb_spec j c) as [->|Hjc].
    + (* the column reduced now *)
      assert (E : forall i, i < n -> V (tr r c i) (s (tr r c c)) = delta i c).
      { intros a Ha. rewrite tr_r. destruct (Htodo (tr r c a) r) as [_ ->]; auto. rewrite delta_tr.
        unfold tr at 1. rewrite Nat.eqb_refl. auto. }
      assert (E2 : forall i, i < n -> W (tr r c i) c = f (tr r c i) c).
      { intros a Ha. destruct (Htodo (tr r c a) c) as [-> _]; auto. }
      pose proof (E c Hc) as Ec. pose proof (E2 c Hc) as E2c. rewrite !tr_r in Ec, E2c.
      rewrite !tr_r. destruct (Nat.eqb_spec i c) as [->|Hic].
      * rewrite Ec, E2c. unfold delta. rewrite Nat.eqb_refl. split; auto.
      * pose proof (E i Hi) as Ei. rewrite tr_r in Ei. rewrite Ei, Ec, (E2 i Hi), E2c. unfold delta. rewrite Nat.eqb_refl.
        rewrite (proj2 (Nat.eqb_neq i c) Hic). split; [ring|]. rewrite Hpi. ring.
    + simpl in Hm. assert (Hjr : j <> r) by congruence. rewrite (tr_other r c j Hjr Hjc).
      assert (Ed : forall i, delta (tr r c i) j = delta i j) by (intros; rewrite delta_tr, tr_other; auto).
      destruct (Hred (tr r c i) j) as [F1 F2]; auto. destruct (Hred r j) as [G1 G2]; auto.
      rewrite F1, F2, G1, G2, Ed. unfold delta at 1 3. rewrite (proj2 (Nat.eqb_neq r j)) by auto.
      destruct (Nat.eqb_spec i c) as [->|Hic]; split; auto; try ring.
      unfold delta. rewrite (proj2 (Nat.eqb_neq c j)) by auto. ring.
  - intros i j Hi Hj Hm. unfold mark in Hm. unfold elim, stepf, rop. rewrite !tr_r. destruct (Nat.eqb_spec j c) as [->|Hjc]; [discriminate|].
    simpl in Hm.
    destruct (Htodo (tr r c i) j) as [F1 _]; auto. destruct (Htodo r j) as [G1 _]; auto. rewrite F1, G1.
    assert (Stj : S (tr r c j) = false).
    { unfold tr. destruct (Nat.eqb_spec j r); auto. destruct (Nat.eqb_spec j c); auto. }
    destruct (Htodo (tr r c i) (tr r c j)) as [_ F2]; auto. destruct (Htodo r (tr r c j)) as [_ G2]; auto.
    rewrite F2, G2. rewrite delta_tr, tr_invol.
    assert (Z : delta r (tr r c j) = 0).
    { unfold delta. destruct (Nat.eqb_spec r (tr r c j)) as [E|]; auto. exfalso. apply Hjc.
      rewrite <- (tr_invol r c j), <- E. unfold tr. rewrite Nat.eqb_refl. auto. }
    rewrite Z. destruct (Nat.eqb_spec i c) as [->|Hic]; split; auto; try ring.
    unfold delta. rewrite (proj2 (Nat.eqb_neq c j)) by auto. ring.
Qed.

Lemma gj_init : forall n A0, gj n A0 A0 (fun _ => false) A0 delta (fun j => j).
Proof. intros n A0. constructor; [apply sys_init|discriminate|auto]. Qed.

(** at the end, [V] solves *)
Lemma gj_end : forall n A0 f S W V s, gj n A0 f S W V s -> (forall j, j < n -> S j = true) ->
  forall x b, (forall i, i < n -> sum n (fun k => A0 i k * x k) = b i) <->
              (forall i, i < n -> x i = sum n (fun q => V i q * b q)).
Proof.
  intros n A0 f S W V s [Hs Hred _] HS x b. rewrite (Hs x b).
  assert (E : forall i, i < n -> sum n (fun k => W i k * x k) = x i).
  { intros i Hi. rewrite (sum_one O HR n i); auto.
    - destruct (Hred i i) as [_ ->]; auto. unfold delta. rewrite Nat.eqb_refl. ring.
    - intros k Hk Hki. destruct (Hred i k) as [_ ->]; auto. unfold delta. rewrite (proj2 (Nat.eqb_neq i k)) by auto. ring. }
  split; intros H i Hi; [rewrite <- (H i Hi); symmetry; auto|rewrite (E i Hi); auto].
Qed.

(** from the solution property: two-sided inverse *)
Lemma solves_inverse : forall n A0 V,
  (forall x b, (forall i, i < n -> sum n (fun k => A0 i k * x k) = b i) <->
               (forall i, i < n -> x i = sum n (fun q => V i q * b q))) ->
  (forall i j, i < n -> j < n -> sum n (fun k => A0 i k * V k j) = delta i j) /\
  (forall i j, i < n -> j < n -> sum n (fun k => V i k * A0 k j) = delta i j).
Proof.
  intros n A0 V H.
  assert (D : forall (u : nat -> nat -> T) i j, i < n -> j < n -> sum n (fun q => u i q * delta q j) = u i j).
  { intros u i j Hi Hj. rewrite (sum_one O HR n j); auto.
    - unfold delta. rewrite Nat.eqb_refl. ring.
    - intros q _ Hq. unfold delta. rewrite (proj2 (Nat.eqb_neq q j)) by auto. ring. }
  split; intros i j Hi Hj.
  - apply (proj2 (H (fun k => V k j) (fun q => delta q j))); auto.
    intros a Ha. symmetry. apply (D V); auto.
  - symmetry. apply (proj1 (H (fun k => delta k j) (fun q => A0 q j))); auto.
Qed.

(** when every entry left is small: a vector that A0 maps to small values *)
Lemma gj_small : forall n A0 f S W V k rr cc (small : T -> Prop),
  gj n A0 f S W V (perm k rr cc) -> (forall l, l < k -> rr l < n /\ cc l < n) ->
  small 0 -> (forall i j, i < n -> j < n -> S i = false -> S j = false -> small (f i j)) ->
  (exists q, q < n /\ S q = false) ->
  exists x, (exists i, i < n /\ x i = 1) /\ forall i, i < n -> small (sum n (fun k => A0 i k * x k)).
Proof.
  intros n A0 f S W V k rr cc small [Hs Hred Htodo] Hb H0 Hsm (c & Hc & Sc).
  set (x := fun q => if S q then 0 - W q c else delta q c).
  set (wx := fun i => if S i then 0 else W i c).
  assert (Ewx : forall i, i < n -> sum n (fun q => W i q * x q) = wx i).
  { intros i Hi. unfold x, wx. rewrite (sum_split O HR n c) by auto. rewrite Sc. destruct (S i) eqn:Si.
    - assert (Hic : i <> c) by congruence. rewrite (sum_one O HR n i); auto.
      + rewrite (proj2 (Nat.eqb_neq i c)), Si by auto. destruct (Hred i i) as [_ ->]; auto. unfold delta. rewrite !Nat.eqb_refl. ring.
      + intros q Hq Hqi. destruct (Nat.eqb_spec q c) as [|Hqc]; auto. destruct (S q) eqn:Sq.
        * destruct (Hred i q) as [_ ->]; auto. unfold delta. rewrite (proj2 (Nat.eqb_neq i q)) by auto. ring.
        * unfold delta. rewrite (proj2 (Nat.eqb_neq q c)) by auto. ring.
    - rewrite (sum_zero O HR).
      + unfold delta. rewrite Nat.eqb_refl. ring.
      + intros q Hq. destruct (Nat.eqb_spec q c) as [|Hqc]; auto. destruct (S q) eqn:Sq.
        * destruct (Hred i q) as [_ ->]; auto. unfold delta. rewrite (proj2 (Nat.eqb_neq i q)) by congruence. ring.
        * unfold delta. rewrite (proj2 (Nat.eqb_neq q c)) by auto. ring. }
  exists x. split.
  { exists c. split; auto. unfold x. rewrite Sc. unfold delta. rewrite Nat.eqb_refl. auto. }
  assert (EA : forall i, i < n -> sum n (fun k => A0 i k * x k) = wx (perm_inv k rr cc i)).
  { apply (proj2 (Hs x (fun q => wx (perm_inv k rr cc q)))). intros i Hi. rewrite Ewx by auto.
    rewrite <- (sum_perm T O HR k rr cc n (fun q => V i q * wx (perm_inv k rr cc q))) by auto.
    symmetry. rewrite (sum_one O HR n i); auto.
    - rewrite perm_inv_perm. unfold wx. destruct (S i) eqn:Si; [ring|]. destruct (Htodo i i) as [_ ->]; auto.
      unfold delta. rewrite Nat.eqb_refl. ring.
    - intros q Hq Hqi. rewrite perm_inv_perm. unfold wx. destruct (S q) eqn:Sq; [ring|].
      destruct (Htodo i q) as [_ ->]; auto. unfold delta. rewrite (proj2 (Nat.eqb_neq i q)) by auto. ring. }
  intros i Hi. rewrite EA by auto. assert (Hp : perm_inv k rr cc i < n) by (apply perm_inv_lt; auto).
  unfold wx. destruct (S (perm_inv k rr cc i)) eqn:Sp; auto.
  destruct (Htodo (perm_inv k rr cc i) c) as [<- _]; auto.
Qed.
End Field.

(** ** The searches *)
Section Search.
Context {T M : Type} (O : numops T) (G : magops T M) (HG : mag_laws O G).
Implicit Types (A : matrix T) (f : nat -> nat -> T).

(** [m] is 0 or the magnitude of some entry, and no entry has a larger one *)
Definition is_max (n : nat) (f : nat -> nat -> T) (m : M) : Prop :=
  (m = mzero G \/ exists i j, i < n /\ j < n /\ m = mabs G (f i j)) /\
  forall i j, i < n -> j < n -> mlt G m (mabs G (f i j)) = false.

Lemma max_abs_wp : forall A n f (Q : M -> Prop), is_matrix A n n f ->
  (forall m, is_max n f m -> Q m) -> wp (max_abs G A n) Q.
Proof.
  intros A n f Q HA HQ. unfold max_abs.
  eapply wp_conseq; [|apply (for_range_inv _ _ (fun i0 m =>
     (m = mzero G \/ exists i j, i < n /\ j < n /\ m = mabs G (f i j)) /\
     forall i j, i < i0 -> j < n -> mlt G m (mabs G (f i j)) = false))].
  - intros m H. apply HQ. exact H.
  - lia.
  - split; auto. intros; lia.
  - intros i0 m _ Hi0 [H1 H2]. cbv beta in *.
    eapply wp_conseq; [|apply (for_range_inv _ _ (fun j0 m =>
       (m = mzero G \/ exists i j, i < n /\ j < n /\ m = mabs G (f i j)) /\
       forall i j, (i < i0 /\ j < n) \/ (i = i0 /\ j < j0) -> mlt G m (mabs G (f i j)) = false))].
    + intros m' [G1 G2]. split; auto. intros i j Hi Hj. apply G2. lia.
    + lia.
    + split; auto. intros i j [[]|[]]; auto; lia.
    + intros j0 m1 _ Hj0 [G1 G2]. cbv beta in *. apply wp_bind. eapply mget_wp; eauto. apply wp_Ok.
      destruct (mlt G m1 (mabs G (f i0 j0))) eqn:E.
      * split; [right; eauto|]. intros i j H.
        assert (D : (i < i0 /\ j < n) \/ (i = i0 /\ j < j0) \/ (i = i0 /\ j = j0)) by lia.
        destruct D as [D|[D|[-> ->]]]; [| |apply (ml_irrefl O G HG)];
          (eapply (ml_trans _ _ HG); [apply (ml_asym _ _ HG); exact E|apply G2; auto]).
      * split; auto. intros i j H.
        assert (D : (i < i0 /\ j < n) \/ (i = i0 /\ j < j0) \/ (i = i0 /\ j = j0)) by lia.
        destruct D as [D|[D|[-> ->]]]; auto.
Qed.

Lemma is_max_pos : forall n f m i j, is_max n f m -> i < n -> j < n -> f i j <> n0 O -> mlt G (mzero G) m = true.
Proof. intros n f m i j [_ H] Hi Hj Hne. eapply (ml_lt_lt O G HG); [apply (ml_pos _ _ HG); eauto|auto]. Qed.

Definition fp (n : nat) (f : nat -> nat -> T) (S : nat -> bool) (seen : nat -> nat -> Prop) (st : M * option (nat * nat)) : Prop :=
  (match snd st with
   | None => fst st = mzero G /\ forall i j, i < n -> j < n -> S i = false -> S j = false -> ~ seen i j
   | Some (r, c) => r < n /\ c < n /\ S r = false /\ S c = false /\ fst st = mabs G (f r c)
   end) /\
  forall i j, i < n -> j < n -> S i = false -> S j = false -> seen i j -> mlt G (fst st) (mabs G (f i j)) = false.

Lemma fp_seen : forall n f S s1 s2 st, fp n f S s1 st ->
  (forall i j, i < n -> j < n -> S i = false -> S j = false -> (s1 i j <-> s2 i j)) -> fp n f S s2 st.
Proof.
  intros n f S s1 s2 [big p] [H1 H2] He. split; simpl in *.
  - destruct p as [[r c]|]; auto. destruct H1 as [H1 H3]. split; auto. intros i j Hi Hj Si Sj Hs.
    apply (H3 i j); auto. apply He; auto.
  - intros i j Hi Hj Si Sj Hs. apply H2; auto. apply He; auto.
Qed.

Lemma find_pivot_wp : forall A n f ipiv (S : nat -> bool) (Q : M * option (nat * nat) -> Prop),
  is_matrix A n n f -> is_vector ipiv n (fun j => if S j then 1 else 0) -> (exists q, q < n /\ S q = false) ->
  (forall big r c, r < n -> c < n -> S r = false -> S c = false ->
     (forall i j, i < n -> j < n -> S i = false -> S j = false -> mlt G (mabs G (f r c)) (mabs G (f i j)) = false) ->
     Q (big, Some (r, c))) ->
  wp (find_pivot G A n ipiv) Q.
Proof.
  intros A n f ipiv S Q HA HV (q & Hq & Sq) HQ. unfold find_pivot.
  eapply wp_conseq; [|apply (for_range_inv _ _ (fun j0 st => fp n f S (fun i j => i < j0) st))].
  - intros [big p] [H1 H2]. simpl in *. destruct p as [[r c]|].
    + destruct H1 as (Hr & Hc & Sr & Sc & ->). apply HQ; auto.
    + destruct H1 as [_ H1]. exfalso. apply (H1 q q); auto.
  - lia.
  - split; simpl; [split; auto|]; intros; lia.
  - intros j0 st _ Hj0 H. cbv beta in *. apply wp_bind. eapply vgetf_wp; eauto. cbv beta. destruct (S j0) eqn:Sj0.
    + rewrite Nat.eqb_refl. apply wp_Ok. eapply fp_seen; [exact H|]. intros i j Hi Hj Si Sj. assert (i <> j0) by congruence. cbv beta; lia.
    + simpl.
      eapply wp_conseq; [|apply (for_range_inv _ _ (fun k0 st => fp n f S (fun i j => i < j0 \/ (i = j0 /\ j < k0)) st))].
      * intros st' H'. eapply fp_seen; [exact H'|]. intros i j Hi Hj Si Sj. cbv beta; lia.
      * lia.
      * eapply fp_seen; [exact H|]. intros; cbv beta; lia.
      * intros k0 [big p] _ Hk0 [H1 H2]. cbv beta in *. apply wp_bind. eapply vgetf_wp; eauto. cbv beta. destruct (S k0) eqn:Sk0.
        -- simpl. apply wp_Ok. eapply fp_seen; [split; [exact H1|exact H2]|]. intros i j Hi Hj Si Sj. assert (j <> k0) by congruence. cbv beta; lia.
        -- simpl. apply wp_bind. eapply mget_wp; eauto. apply wp_Ok.
           assert (D : forall i j, i < j0 \/ (i = j0 /\ j < k0 + 1) -> (i < j0 \/ (i = j0 /\ j < k0)) \/ (i = j0 /\ j = k0)) by (intros; lia).
           destruct (mlt G (mabs G (f j0 k0)) big) eqn:E; simpl.
           ++ split; simpl in *.
              ** destruct p as [[r c]|]; auto. destruct H1 as [-> _]. rewrite (ml_nonneg _ _ HG) in E. discriminate.
              ** intros i j Hi Hj Si Sj Hs. apply D in Hs. destruct Hs as [Hs|[-> ->]]; auto. apply (ml_asym _ _ HG); auto.
           ++ split; simpl in *; auto.
              intros i j Hi Hj Si Sj Hs. apply D in Hs. destruct Hs as [Hs|[-> ->]]; [|apply (ml_irrefl O G HG)].
              eapply (ml_trans _ _ HG); [exact E|auto].
Qed.
End Search.

(** ** Elimination in the code *)
Section Elim.
Context {T M : Type} (O : numops T) (G : magops T M).
Notation "0" := (n0 O). Notation "1" := (n1 O).
Infix "+" := (nadd O). Infix "*" := (nmul O). Infix "-" := (nsub O). Infix "/" := (ndiv O).
Implicit Types (A : matrix T) (f : nat -> nat -> T).

Lemma swap_if_wp : forall A a m f r c (Q : matrix T -> Prop), is_matrix A a m f -> r < a -> c < a ->
  (forall A', is_matrix A' a m (fun i j => f (tr r c i) j) -> Q A') ->
  wp (if Nat.eqb r c then Ok A else swap_rows A m r c) Q.
Proof.
  intros A a m f r c Q HA Hr Hc HQ. destruct (Nat.eqb_spec r c) as [->|Hne].
  - apply wp_Ok. apply HQ. eapply is_matrix_ext; [exact HA|]. intros i j Hi Hj. cbv beta.
    replace (tr c c i) with i; auto. unfold tr. destruct (Nat.eqb_spec i c); auto.
  - eapply swap_rows_wp; eauto.
Qed.

Lemma elim_row_wp : forall A n g ll c (Q : matrix T -> Prop), is_matrix A n n g -> ll < n -> c < n -> ll <> c ->
  (forall A', is_matrix A' n n (fun i j => if Nat.eqb i ll then (if Nat.eqb j c then 0 else g ll j) - g c j * g ll c else g i j) -> Q A') ->
  wp (dum <- mget A ll c ;; A <- mset A ll c 0 ;; sub_row O A n ll c dum) Q.
Proof.
  intros A n g ll c Q HA Hl Hc Hne HQ. apply wp_bind. eapply mget_wp; eauto. apply wp_bind. eapply mset_wp; eauto.
  intros A1 H1. eapply sub_row_wp; eauto. intros A2 H2. apply HQ. eapply is_matrix_ext; [exact H2|].
  intros i j Hi Hj. unfold fset. cbv beta. rewrite Nat.eqb_refl, (proj2 (Nat.eqb_neq c ll)) by auto. simpl.
  destruct (Nat.eqb_spec i ll) as [->|Hi']; simpl; auto.
Qed.

(** the matrix after the pivot row is scaled, row by row *)
Definition part (f : nat -> nat -> T) (r c l : nat) (i j : nat) : T :=
  if (i <? l) || Nat.eqb i c then elim O f r c i j else f (tr r c i) j.

Lemma elim_loop_wp : forall A n f r c (Q : matrix T -> Prop), is_matrix A n n (part f r c 0%nat) -> c < n ->
  (forall A', is_matrix A' n n (elim O f r c) -> Q A') ->
  wp (for_range 0%nat n (fun A ll =>
               if Nat.eqb ll c then Ok A
               else dum <- mget A ll c ;; A <- mset A ll c 0 ;; sub_row O A n ll c dum) A) Q.
Proof.
  intros A n f r c Q HA Hc HQ.
  eapply wp_conseq; [|apply (for_range_inv _ _ (fun l A => is_matrix A n n (part f r c l)))].
  - intros A' H. apply HQ. eapply is_matrix_ext; [exact H|]. intros i j Hi Hj. unfold part. rewrite (proj2 (Nat.ltb_lt i n)) by auto. auto.
  - lia.
  - auto.
  - intros l A1 _ Hl H1. cbv beta in *. destruct (Nat.eqb_spec l c) as [->|Hne].
    + apply wp_Ok. eapply is_matrix_ext; [exact H1|]. intros i j Hi Hj. unfold part.
      destruct (Nat.eqb_spec i c) as [->|]; [rewrite !orb_true_r; auto|]. rewrite !orb_false_r. ltb.
    + eapply elim_row_wp; eauto. intros A2 H2. eapply is_matrix_ext; [exact H2|]. intros i j Hi Hj. unfold part. cbv beta.
      destruct (Nat.eqb_spec i l) as [->|Hil].
      * rewrite (proj2 (Nat.ltb_lt l (l + 1)%nat)) by lia. rewrite Nat.ltb_irrefl, (proj2 (Nat.eqb_neq l c)), Nat.eqb_refl, orb_true_r by auto. simpl.
        unfold elim. rewrite (proj2 (Nat.eqb_neq l c)), Nat.eqb_refl by auto. auto.
      * destruct (Nat.eqb_spec i c); [rewrite !orb_true_r; auto|]. rewrite !orb_false_r. ltb.
Qed.

Lemma scaled_wp : forall A n f r c (Q : matrix T -> Prop), is_matrix A n n (fun i j => f (tr r c i) j) -> r < n -> c < n ->
  (forall A', is_matrix A' n n (part f r c 0%nat) -> Q A') ->
  wp (A <- mset A c c 1 ;; scale_row O A n c (1 / f r c)) Q.
Proof.
  intros A n f r c Q HA Hr Hc HQ. apply wp_bind. eapply mset_wp; eauto. intros A1 H1. eapply scale_row_wp; eauto.
  intros A2 H2. apply HQ. eapply is_matrix_ext; [exact H2|]. intros i j Hi Hj. unfold part, fset, elim. cbv beta. rewrite Nat.eqb_refl.
  simpl. destruct (Nat.eqb_spec i c) as [->|Hic]; simpl; auto. rewrite (tr_r r c). destruct (Nat.eqb_spec j c); auto.
Qed.

(** the right-hand sides *)
Definition bpart (f g : nat -> nat -> T) (r c l : nat) (i j : nat) : T :=
  if (i <? l) || Nat.eqb i c then stepf O f r c g i j else g (tr r c i) j.

Lemma scaled_b_wp : forall B n m f g r c (Q : matrix T -> Prop), is_matrix B n m (fun i j => g (tr r c i) j) -> r < n -> c < n ->
  (forall B', is_matrix B' n m (bpart f g r c 0%nat) -> Q B') ->
  wp (scale_row O B m c (1 / f r c)) Q.
Proof.
  intros B n m f g r c Q HB Hr Hc HQ. eapply scale_row_wp; eauto.
  intros A2 H2. apply HQ. eapply is_matrix_ext; [exact H2|]. intros i j Hi Hj. unfold bpart, stepf, rop. cbv beta.
  simpl. destruct (Nat.eqb_spec i c) as [->|Hic]; simpl; auto.
Qed.

Lemma elim2_loop_wp : forall A B n m f g r c (Q : matrix T * matrix T -> Prop),
  is_matrix A n n (part f r c 0%nat) -> is_matrix B n m (bpart f g r c 0%nat) -> c < n ->
  (forall A' B', is_matrix A' n n (elim O f r c) -> is_matrix B' n m (stepf O f r c g) -> Q (A', B')) ->
  wp (for_range 0%nat n (fun '(A, B) ll =>
        if Nat.eqb ll c then Ok (A, B)
        else dum <- mget A ll c ;; A <- mset A ll c 0 ;;
             A <- sub_row O A n ll c dum ;;
             B <- sub_row O B m ll c dum ;; Ok (A, B)) (A, B)) Q.
Proof.
  intros A B n m f g r c Q HA HB Hc HQ.
  eapply wp_conseq; [|apply (for_range_inv _ _ (fun l '(A, B) => is_matrix A n n (part f r c l) /\ is_matrix B n m (bpart f g r c l)))].
  - intros [A' B'] [H H']. apply HQ.
    + eapply is_matrix_ext; [exact H|]. intros i j Hi Hj. unfold part. rewrite (proj2 (Nat.ltb_lt i n)) by auto. auto.
    + eapply is_matrix_ext; [exact H'|]. intros i j Hi Hj. unfold bpart. rewrite (proj2 (Nat.ltb_lt i n)) by auto. auto.
  - lia.
  - auto.
  - intros l [A1 B1] _ Hl [H1 H1']. cbv beta in *. destruct (Nat.eqb_spec l c) as [->|Hne].
    + apply wp_Ok. split; [eapply is_matrix_ext; [exact H1|]|eapply is_matrix_ext; [exact H1'|]]; intros i j Hi Hj; unfold part, bpart;
      (destruct (Nat.eqb_spec i c) as [->|]; [rewrite !orb_true_r; auto|]; rewrite !orb_false_r; ltb).
    + apply wp_bind. eapply mget_wp; eauto. apply wp_bind. eapply mset_wp; eauto. intros A2 H2.
      apply wp_bind. eapply sub_row_wp; eauto. intros A3 H3. apply wp_bind. eapply sub_row_wp; eauto. intros B3 H3'. apply wp_Ok. split.
      * eapply is_matrix_ext; [exact H3|]. intros i j Hi Hj. unfold part, fset. cbv beta.
        rewrite Nat.eqb_refl, (proj2 (Nat.eqb_neq c l)) by auto. simpl.
        destruct (Nat.eqb_spec i l) as [->|Hil].
        -- rewrite (proj2 (Nat.ltb_lt l (l + 1)%nat)) by lia. rewrite Nat.ltb_irrefl, (proj2 (Nat.eqb_neq l c)), Nat.eqb_refl, orb_true_r by auto. simpl.
           unfold elim. rewrite (proj2 (Nat.eqb_neq l c)), Nat.eqb_refl by auto. auto.
        -- simpl. destruct (Nat.eqb_spec i c); [rewrite !orb_true_r; auto|]. rewrite !orb_false_r. ltb.
      * eapply is_matrix_ext; [exact H3'|]. intros i j Hi Hj. unfold bpart, part. cbv beta.
        destruct (Nat.eqb_spec i l) as [->|Hil].
        -- rewrite (proj2 (Nat.ltb_lt l (l + 1)%nat)) by lia. rewrite Nat.ltb_irrefl, (proj2 (Nat.eqb_neq l c)), Nat.eqb_refl, orb_true_r by auto. simpl.
           unfold stepf, rop. rewrite (proj2 (Nat.eqb_neq l c)), Nat.eqb_refl by auto. auto.
        -- destruct (Nat.eqb_spec i c); [rewrite !orb_true_r; auto|]. rewrite !orb_false_r. ltb.
Qed.

Lemma unscramble_wp : forall A n f V rr cc indxr indxc (Q : matrix T -> Prop),
  is_matrix A n n f -> is_vector indxr n rr -> is_vector indxc n cc -> (forall l, l < n -> rr l < n /\ cc l < n) ->
  (forall i j, i < n -> j < n -> f i j = V i (perm n rr cc j)) ->
  (forall A', is_matrix A' n n V -> Q A') -> wp (unscramble A n indxr indxc) Q.
Proof.
  intros A n f V rr cc indxr indxc Q HA Hr Hc Hb Hf HQ. unfold unscramble.
  eapply wp_conseq; [|apply (for_down_inv _ _ (fun l A => is_matrix A n n (fun i j => V i (perm l rr cc j))))].
  - intros A' H. apply HQ. exact H.
  - lia.
  - eapply is_matrix_ext; [exact HA|]. auto.
  - intros l A1 _ Hl H1. cbv beta in *. destruct (Hb l Hl) as [B1 B2].
    apply wp_bind. eapply vgetf_wp; eauto. apply wp_bind. eapply vgetf_wp; eauto.
    destruct (Nat.eqb_spec (rr l) (cc l)) as [He|Hne].
    + apply wp_Ok. eapply is_matrix_ext; [exact H1|]. intros i j Hi Hj. cbv beta. replace (l + 1)%nat with (Datatypes.S l) by lia.
      simpl. replace (tr (rr l) (cc l) j) with j; auto. unfold tr. rewrite He. destruct (Nat.eqb_spec j (cc l)); auto.
    + eapply swap_cols_wp; eauto. intros A2 H2. eapply is_matrix_ext; [exact H2|]. intros i j Hi Hj. cbv beta.
      replace (l + 1)%nat with (Datatypes.S l) by lia. simpl. rewrite tr_invol. auto.
Qed.
End Elim.
