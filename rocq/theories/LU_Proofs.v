(** * LU decomposition: proofs *)

From Coq Require Import List Arith Bool Lia ZArith Ring Field.
From Verif Require Import Base Num Det Mat_Model Mat_Proofs Lin_Base Gauss_Model Gauss_Proofs LU_Model.
Import ListNotations.
Local Open Scope nat_scope.

Definition idn (l : nat) : nat := l.

Lemma perm_next : forall k idx j, perm (k + 1) idn idx j = perm k idn idx (tr k (idx k) j).
Proof. intros k idx j. rewrite Nat.add_1_r. reflexivity. Qed.

(** swaps (l, idx l) with idx l >= l leave smaller positions alone *)
Lemma perm_stable : forall idx n k i, (forall l, l < n -> l <= idx l) -> i < k -> k <= n -> perm k idn idx i = perm (i + 1) idn idx i.
Proof.
  intros idx n k i H. induction k as [|k IH]; intros Hi Hk; [lia|]. destruct (Nat.eq_dec i k) as [->|Hne].
  - replace (k + 1) with (S k) by lia. auto.
  - simpl. rewrite tr_other; [apply IH; lia|unfold idn; lia|]. specialize (H k). lia.
Qed.

Section F.
Context {T : Type} (O : numops T) (HF : field_laws O).
Let HR : ring_laws O := field_ring T O HF.
Add Field Tfield : HF.
Notation "0" := (n0 O). Notation "1" := (n1 O).
Infix "+" := (nadd O). Infix "*" := (nmul O). Infix "-" := (nsub O). Infix "/" := (ndiv O).
Notation "- x" := (nopp O x).
Notation sum := (sumn O).
Implicit Types (f g a : nat -> nat -> T).

(** the reduced rows: zero below the diagonal in the first [k] columns *)
Definition U (k : nat) (a : nat -> nat -> T) (i j : nat) : T := if j <? Nat.min i k then 0 else a i j.

Record lu_inv (n : nat) (A0 : nat -> nat -> T) (k : nat) (a : nat -> nat -> T) (idx : nat -> nat) (d : T) : Prop := {
  l_idx : forall l, l < k -> l <= idx l /\ idx l < n;
  l_eq : forall i j, i < n -> j < n ->
    A0 (perm k idn idx i) j = sum (Nat.min i k) (fun q => a i q * U k a q j) + U k a i j;
  l_nz : forall q, q < k -> a q q <> 0;
  l_det : d * det O n (U k a) = det O n A0;
  l_d : d * d = 1
}.

Lemma lu_init : forall n A0, lu_inv n A0 0%nat A0 (fun _ => 0%nat) 1.
Proof.
  intros n A0. constructor; try (intros; lia); try ring.
  - intros i j Hi Hj. rewrite Nat.min_0_r. unfold U. rewrite Nat.min_0_r. simpl. ring.
  - rewrite (det_ext O n (U 0%nat A0) A0); [ring|]. intros i j _ _. unfold U. rewrite Nat.min_0_r. auto.
Qed.

Definition swapped (a : nat -> nat -> T) (k p i j : nat) : T := a (tr k p i) j.

Lemma U_swapped : forall k a p i j, k <= p -> U k (swapped a k p) i j = U k a (tr k p i) j.
Proof.
  intros k a p i j H. unfold U, swapped. replace (Nat.min (tr k p i) k) with (Nat.min i k); auto.
  unfold tr. destruct (Nat.eqb_spec i k); [lia|]. destruct (Nat.eqb_spec i p); lia.
Qed.

Lemma swap_eq : forall n A0 k a idx d p, lu_inv n A0 k a idx d -> k <= p -> p < n ->
  (forall i j, i < n -> j < n -> A0 (perm (S k) idn (vfset idx k p) i) j =
     sum (Nat.min i k) (fun q => swapped a k p i q * U k (swapped a k p) q j) + U k (swapped a k p) i j) /\
  (forall q, q < k -> swapped a k p q q <> 0) /\
  (if Nat.eqb k p then d else - d) * det O n (U k (swapped a k p)) = det O n A0.
Proof.
  intros n A0 k a idx d p [H1 H2 H3 H4 H5] Hk Hp.
  assert (Hlow : forall q, q < k -> tr k p q = q) by (intros q Hq; apply tr_other; lia).
  split; [|split].
  - intros i j Hi Hj. assert (Ht : tr k p i < n) by (apply tr_lt; lia).
    cbn [perm]. unfold idn at 2. unfold vfset at 2. rewrite Nat.eqb_refl.
    rewrite (perm_ext k idn (vfset idx k p) idn idx) by (intros l Hl; unfold vfset; rewrite (proj2 (Nat.eqb_neq l k)) by lia; auto).
    rewrite H2 by auto. rewrite U_swapped by auto.
    replace (Nat.min (tr k p i) k) with (Nat.min i k).
    2:{ unfold tr. destruct (Nat.eqb_spec i k); [lia|]. destruct (Nat.eqb_spec i p); lia. }
    f_equal. apply sum_ext. intros q Hq. rewrite U_swapped by auto. rewrite (Hlow q) by lia. auto.
  - intros q Hq. unfold swapped. rewrite Hlow by auto. auto.
  - rewrite (det_ext O n _ (fun i j => U k a (tr k p i) j)) by (intros; apply U_swapped; auto).
    destruct (Nat.eqb_spec k p) as [<-|Hne].
    + rewrite (det_ext O n _ (U k a)); auto. intros i j _ _. replace (tr k k i) with i; auto. unfold tr. destruct (Nat.eqb_spec i k); auto.
    + rewrite (det_swap O HR n k p (U k a)) by (auto; lia). rewrite <- H4. ring.
Qed.

(** elimination with pivot row [k] *)
Definition eliml (a : nat -> nat -> T) (k i j : nat) : T :=
  if k <? i then (if Nat.eqb j k then a i k / a k k else if k <? j then a i j - a i k / a k k * a k j else a i j) else a i j.

Lemma det_elim_rows : forall n k f (m : nat -> T) l, k < n -> l <= n ->
  det O n (fun i j => if (k <? i) && (i <? l) then f i j - m i * f k j else f i j) = det O n f.
Proof.
  intros n k f m l Hk. induction l as [|l IH]; intros Hl.
  - apply det_ext. intros i j _ _. rewrite andb_false_r. auto.
  - rewrite <- IH by lia. destruct (lt_dec k l) as [Hkl|Hkl].
    + apply (det_add_row O HR n l k _ _ (- m l)); try lia.
      * intros j Hj. rewrite (proj2 (Nat.ltb_lt k l)), Nat.ltb_irrefl, (proj2 (Nat.ltb_lt l (S l))), Nat.ltb_irrefl by lia. simpl. ring.
      * intros i j Hi Hj Hne. replace (i <? S l) with (i <? l); auto.
        destruct (Nat.ltb_spec i l); destruct (Nat.ltb_spec i (S l)); auto; lia.
    + apply det_ext. intros i j Hi Hj. destruct (Nat.ltb_spec k i); simpl; auto. destruct (Nat.ltb_spec i (S l)); destruct (Nat.ltb_spec i l); auto; lia.
Qed.

Lemma lu_step : forall n A0 k a idx d p, lu_inv n A0 k a idx d -> k < n -> k <= p -> p < n -> a p k <> 0 ->
  lu_inv n A0 (k + 1)%nat (eliml (swapped a k p) k) (vfset idx k p) (if Nat.eqb k p then d else - d).
Proof.
  intros n A0 k a idx d p HI Hk Hkp Hp Hnz. pose proof (swap_eq n A0 k a idx d p HI Hkp Hp) as (E1 & E2 & E3).
  destruct HI as [H1 H2 H3 H4 H5]. set (b := swapped a k p) in *.
  assert (Hb : b k k <> 0) by (unfold b, swapped, tr; rewrite Nat.eqb_refl; auto).
  assert (Ulow : forall q j, q <= k -> U (k + 1)%nat (eliml b k) q j = U k b q j).
  { intros q j Hq. unfold U, eliml. replace (Nat.min q (k + 1)) with q by lia. replace (Nat.min q k) with q by lia.
    destruct (Nat.ltb_spec j q); auto. destruct (Nat.ltb_spec k q); [lia|auto]. }
  assert (Uhigh : forall i j, k < i -> U (k + 1)%nat (eliml b k) i j = U k b i j - b i k / b k k * U k b k j).
  { intros i j Hi. unfold U, eliml. replace (Nat.min i (k + 1)) with (k + 1)%nat by lia. replace (Nat.min i k) with k by lia. rewrite Nat.min_id.
    destruct (Nat.ltb_spec k i); [|lia]. destruct (Nat.ltb_spec j (k + 1)).
    - destruct (Nat.ltb_spec j k); [ring|]. replace j with k by lia. field; auto.
    - destruct (Nat.ltb_spec j k); [lia|]. destruct (Nat.eqb_spec j k); [lia|]. destruct (Nat.ltb_spec k j); [auto|lia]. }
  constructor.
  - intros l Hl. unfold vfset. destruct (Nat.eqb_spec l k) as [->|]; [lia|]. apply H1. lia.
  - intros i j Hi Hj. replace (k + 1)%nat with (S k) at 1 by lia. rewrite E1 by auto.
    destruct (le_lt_dec i k) as [Hik|Hik].
    + rewrite Ulow by auto. replace (Nat.min i (k + 1)) with i by lia. replace (Nat.min i k) with i by lia.
      f_equal. apply sum_ext. intros q Hq. rewrite Ulow by lia. f_equal. unfold eliml. destruct (Nat.ltb_spec k i); [lia|auto].
    + rewrite Uhigh by auto. replace (Nat.min i (k + 1)) with (S k) by lia. replace (Nat.min i k) with k by lia. cbn [sumn].
      rewrite (sum_ext O k (fun q => eliml b k i q * U (k + 1)%nat (eliml b k) q j) (fun q => b i q * U k b q j)).
      * rewrite Ulow by auto. replace (eliml b k i k) with (b i k / b k k); [ring|].
        unfold eliml. rewrite Nat.eqb_refl. destruct (Nat.ltb_spec k i); [auto|lia].
      * intros q Hq. rewrite Ulow by lia. f_equal. unfold eliml. destruct (Nat.ltb_spec k i); auto.
        destruct (Nat.eqb_spec q k); [lia|]. destruct (Nat.ltb_spec k q); [lia|auto].
  - intros q Hq. unfold eliml. destruct (Nat.ltb_spec k q); [lia|]. destruct (Nat.eq_dec q k) as [->|]; auto. apply E2. lia.
  - rewrite <- E3. f_equal. rewrite <- (det_elim_rows n k (U k b) (fun i => b i k / b k k) n) by lia.
    apply det_ext. intros i j Hi Hj. rewrite (proj2 (Nat.ltb_lt i n)), andb_true_r by auto.
    destruct (Nat.ltb_spec k i); [apply Uhigh; auto|apply Ulow; auto].
  - destruct (Nat.eqb k p); auto. rewrite <- H5. ring.
Qed.

(** ** Triangular systems *)
Lemma sum_upper : forall n i (g : nat -> T), i <= n -> sum n (fun j => if j <? i then 0 else g j) = sum n g - sum i g.
Proof.
  induction n as [|n IH]; intros i g Hi; simpl.
  - replace i with 0%nat by lia. simpl. ring.
  - destruct (Nat.eq_dec i (S n)) as [->|Hne].
    + rewrite (sum_zero O HR). { destruct (Nat.ltb_spec n (S n)); [|lia]. simpl. ring. }
      intros j Hj. destruct (Nat.ltb_spec j (S n)); [auto|lia].
    + rewrite IH by lia. destruct (Nat.ltb_spec n i); [lia|]. ring.
Qed.

(** rows of the original system in terms of the reduced rows *)
Lemma row_apply : forall n A0 k a idx d, lu_inv n A0 k a idx d -> k <= n -> forall x i, i < n ->
  sum n (fun j => A0 (perm k idn idx i) j * x j) =
  sum (Nat.min i k) (fun q => a i q * sum n (fun j => U k a q j * x j)) + sum n (fun j => U k a i j * x j).
Proof.
  intros n A0 k a idx d HI Hk x i Hi.
  rewrite (sum_ext O n _ (fun j => sum (Nat.min i k) (fun q => a i q * U k a q j * x j) + U k a i j * x j)).
  - rewrite (sum_add O HR). f_equal. rewrite (sum_swap O HR). apply sum_ext. intros q Hq. rewrite (sum_mul_l O HR). apply sum_ext. intros j Hj. ring.
  - intros j Hj. rewrite (l_eq _ _ _ _ _ _ HI) by auto. rewrite <- (sum_mul_r O HR). ring.
Qed.

(** in rows where all reduced rows vanish on x, the original rows do too *)
Lemma lower_zero : forall n k a idx A0 d, lu_inv n A0 k a idx d -> k <= n -> forall x,
  (forall i, i < n -> sum n (fun j => A0 (perm k idn idx i) j * x j) = 0) ->
  forall i, i < n -> sum n (fun j => U k a i j * x j) = 0.
Proof.
  intros n k a idx A0 d HI Hk x Hz i. induction i as [i IH] using lt_wf_ind. intros Hi.
  pose proof (row_apply _ _ _ _ _ _ HI Hk x i Hi) as E. rewrite Hz in E by auto.
  rewrite (sum_zero O HR (Nat.min i k)) in E.
  - transitivity (0 + sum n (fun j => U k a i j * x j)); [ring|]. auto.
  - intros q Hq. rewrite IH by lia. ring.
Qed.

Lemma mul_cancel : forall x y, x <> 0 -> x * y = 0 -> y = 0.
Proof. intros x y Hx H. transitivity (1 / x * (x * y)); [field; auto|]. rewrite H. ring. Qed.

Lemma upper_zero : forall n a x, (forall q, q < n -> a q q <> 0) ->
  (forall i, i < n -> sum n (fun j => U n a i j * x j) = 0) -> forall i, i < n -> x i = 0.
Proof.
  intros n a x Hnz Hz.
  assert (D : forall d i, (n <= i + d)%nat -> i < n -> x i = 0).
  { induction d as [|d IH]; intros i Hd Hi; [lia|]. specialize (Hz i Hi). rewrite (sum_one O HR n i) in Hz; auto.
    - unfold U in Hz. rewrite Nat.min_l in Hz by lia. rewrite Nat.ltb_irrefl in Hz. eapply mul_cancel; [apply (Hnz i); auto|exact Hz].
    - intros j Hj Hne. unfold U. rewrite Nat.min_l by lia. destruct (Nat.ltb_spec j i); [ring|]. rewrite (IH j) by lia. ring. }
  intros i Hi. apply (D n i); lia.
Qed.

(** a full decomposition has trivial kernel *)
Lemma lu_kernel : forall n A0 a idx d, lu_inv n A0 n a idx d -> forall x,
  (forall i, i < n -> sum n (fun j => A0 i j * x j) = 0) -> forall i, i < n -> x i = 0.
Proof.
  intros n A0 a idx d HI x Hz. apply (upper_zero n a); [apply (l_nz _ _ _ _ _ _ HI)|].
  apply (lower_zero n n a idx A0 d HI (le_n n)). intros i Hi. apply Hz. apply perm_lt; auto.
  intros l Hl. pose proof (l_idx _ _ _ _ _ _ HI l Hl). unfold idn. lia.
Qed.

(** forward and back substitution solve the system *)
Lemma lu_solution : forall n A0 a idx d, lu_inv n A0 n a idx d -> forall b y x,
  (forall i, i < n -> sum i (fun q => a i q * y q) + y i = b (perm n idn idx i)) ->
  (forall i, i < n -> sum n (fun j => U n a i j * x j) = y i) ->
  forall i, i < n -> sum n (fun j => A0 i j * x j) = b i.
Proof.
  intros n A0 a idx d HI b y x Hy Hx i Hi.
  assert (Hb : forall l, l < n -> idn l < n /\ idx l < n) by (intros l Hl; pose proof (l_idx _ _ _ _ _ _ HI l Hl); unfold idn; lia).
  assert (Hq : perm_inv n idn idx i < n) by (apply perm_inv_lt; auto).
  pose proof (row_apply _ _ _ _ _ _ HI (le_n n) x _ Hq) as E. rewrite perm_perm_inv in E. rewrite E, Hx by auto.
  rewrite Nat.min_l by lia. rewrite (sum_ext O _ _ (fun q => a (perm_inv n idn idx i) q * y q)).
  - rewrite Hy by auto. rewrite perm_perm_inv. auto.
  - intros q Hq'. rewrite Hx by lia. auto.
Qed.

(** a vector with coordinate 1 that the first k reduced rows annihilate *)
Lemma upper_vector : forall n k a, k < n -> (forall q, q < k -> a q q <> 0) ->
  exists x, x k = 1 /\ (forall j, k < j -> x j = 0) /\ forall i, i < k -> sum n (fun j => U k a i j * x j) = 0.
Proof.
  intros n k a Hk Hnz.
  assert (D : forall d, d <= k -> exists x, x k = 1 /\ (forall j, k < j -> x j = 0) /\
     forall i, i < k -> (k <= i + d)%nat -> sum n (fun j => U k a i j * x j) = 0).
  { induction d as [|d IH]; intros Hd.
    - exists (delta O k). unfold delta. rewrite Nat.eqb_refl. split; auto. split; [|intros; lia].
      intros j Hj. destruct (Nat.eqb_spec k j); [lia|auto].
    - destruct IH as (x & X1 & X2 & X3); [lia|]. set (r := (k - S d)%nat).
      set (s := sum n (fun j => if Nat.eqb j r then 0 else U k a r j * x j)).
      exists (vfset x r (- s / a r r)). assert (Hr : r < k) by (unfold r; lia).
      split; [|split].
      + unfold vfset. rewrite (proj2 (Nat.eqb_neq k r)) by lia. auto.
      + intros j Hj. unfold vfset. rewrite (proj2 (Nat.eqb_neq j r)) by lia. auto.
      + intros i Hi Hid. destruct (Nat.eq_dec i r) as [->|Hne].
        * rewrite (sum_split O HR n r) by lia. unfold vfset at 1. rewrite Nat.eqb_refl.
          rewrite (sum_ext O n _ (fun j => if Nat.eqb j r then 0 else U k a r j * x j)).
          -- fold s. unfold U. rewrite Nat.min_l by lia. rewrite Nat.ltb_irrefl. field. apply Hnz. auto.
          -- intros j Hj. unfold vfset. destruct (Nat.eqb j r); auto.
        * rewrite <- (X3 i Hi) by (unfold r in *; lia). apply sum_ext. intros j Hj. unfold vfset.
          destruct (Nat.eqb_spec j r) as [->|]; auto. unfold U. rewrite Nat.min_l by lia.
          destruct (Nat.ltb_spec r i); [ring|unfold r in *; lia]. }
  destruct (D k (le_n k)) as (x & X1 & X2 & X3). exists x. split; auto. split; auto. intros i Hi. apply X3; auto. lia.
Qed.

(** when elimination stops at column k: the residual column is the image of a vector *)
Lemma lu_residual : forall n A0 k a idx d, lu_inv n A0 k a idx d -> k < n ->
  exists x, x k = 1 /\
    forall i, i < n -> sum n (fun j => A0 (perm k idn idx i) j * x j) = if i <? k then 0 else a i k.
Proof.
  intros n A0 k a idx d HI Hk. destruct (upper_vector n k a Hk (l_nz _ _ _ _ _ _ HI)) as (x & X1 & X2 & X3).
  exists x. split; auto. intros i Hi. rewrite (row_apply _ _ _ _ _ _ HI) by (auto; lia).
  rewrite (sum_zero O HR) by (intros q Hq; rewrite X3 by lia; ring).
  destruct (Nat.ltb_spec i k) as [Hik|Hik]; [rewrite X3 by auto; ring|].
  rewrite (sum_one O HR n k); auto.
  - unfold U. rewrite Nat.min_r by lia. rewrite Nat.ltb_irrefl, X1. ring.
  - intros j Hj Hne. unfold U. rewrite Nat.min_r by lia. destruct (Nat.ltb_spec j k); [ring|]. rewrite X2 by lia. ring.
Qed.

Lemma lu_det_end : forall n A0 a idx d, lu_inv n A0 n a idx d -> d * prodn O n (fun i => a i i) = det O n A0.
Proof.
  intros n A0 a idx d HI. rewrite <- (l_det _ _ _ _ _ _ HI). f_equal.
  rewrite (det_upper O HR n (U n a)).
  - apply prod_ext. intros i Hi. unfold U. rewrite Nat.min_l by lia. rewrite Nat.ltb_irrefl. auto.
  - intros i j Hi Hj. unfold U. rewrite Nat.min_l by lia. rewrite (proj2 (Nat.ltb_lt j i)) by auto. auto.
Qed.
End F.
