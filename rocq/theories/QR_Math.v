(** * Householder reflections on vectors given as functions *)
From Coq Require Import List Bool Arith ZArith Lia Reals Lra.
From Verif Require Import Base Num Det.
Local Open Scope R_scope.

Notation rsum := (sumn Rnum).
Definition Rring : ring_laws Rnum := field_ring R Rnum Rnum_field.
(** ** Sums of real numbers *)
Lemma rsum_ext : forall n f g, (forall i, (i < n)%nat -> f i = g i) -> rsum n f = rsum n g. Proof. intros. apply sum_ext; auto. Qed.
Lemma rsum_zero : forall n f, (forall i, (i < n)%nat -> f i = 0) -> rsum n f = 0. Proof. intros. apply (sum_zero Rnum Rring); auto. Qed.
Lemma rsum_add : forall n f g, rsum n (fun i => f i + g i) = rsum n f + rsum n g. Proof. intros. apply (sum_add Rnum Rring). Qed.
Lemma rsum_sub : forall n f g, rsum n (fun i => f i - g i) = rsum n f - rsum n g. Proof. intros. apply (sum_sub Rnum Rring). Qed.
Lemma rsum_scal : forall n a f, rsum n (fun i => a * f i) = a * rsum n f. Proof. intros. symmetry. apply (sum_mul_l Rnum Rring). Qed.
Lemma rsum_swap : forall n m f, rsum n (fun i => rsum m (fun j => f i j)) = rsum m (fun j => rsum n (fun i => f i j)). Proof. intros. apply (sum_swap Rnum Rring). Qed.
Lemma rsum_one : forall n k f, (k < n)%nat -> (forall i, (i < n)%nat -> i <> k -> f i = 0) -> rsum n f = f k. Proof. intros. apply (sum_one Rnum Rring); auto. Qed.
Lemma rsum_pos : forall n f, (forall i, (i < n)%nat -> 0 <= f i) -> 0 <= rsum n f.
Proof. induction n as [|n IH]; intros f H; cbn [sumn Rnum n0 nadd]; [lra|]. pose proof (H n ltac:(lia)). pose proof (IH f (fun i Hi => H i ltac:(lia))). lra. Qed.
Lemma rsum_pos_lt : forall n f k, (k < n)%nat -> (forall i, (i < n)%nat -> 0 <= f i) -> 0 < f k -> 0 < rsum n f.
Proof.
  induction n as [|n IH]; intros f k Hk H Hp; [lia|]. cbn [sumn Rnum nadd]. pose proof (H n ltac:(lia)) as Hn. pose proof (rsum_pos n f (fun i Hi => H i ltac:(lia))) as HS. destruct (Nat.eq_dec k n) as [->|N]; [lra|].
  assert (0 < rsum n f) by (apply (IH f k); auto; lia). lra.
Qed.

(** ** Dot product of the first m entries *)
Definition dot (m : nat) (x y : nat -> R) : R := rsum m (fun i => x i * y i).
Lemma dot_ext : forall m x y x' y', (forall i, (i < m)%nat -> x i = x' i) -> (forall i, (i < m)%nat -> y i = y' i) -> dot m x y = dot m x' y'.
Proof. intros. apply rsum_ext. intros i Hi. rewrite H, H0; auto. Qed.
Lemma dot_comm : forall m x y, dot m x y = dot m y x. Proof. intros. apply rsum_ext. intros. ring. Qed.
Lemma dot_lin : forall m x y z a, dot m x (fun i => y i + a * z i) = dot m x y + a * dot m x z.
Proof. intros. unfold dot. rewrite <- rsum_scal, <- rsum_add. apply rsum_ext. intros. ring. Qed.
Lemma dot_lin_l : forall m x y z a, dot m (fun i => y i + a * z i) x = dot m y x + a * dot m z x.
Proof. intros. rewrite !(dot_comm m _ x). apply dot_lin. Qed.
Lemma dot_self_pos : forall m x, 0 <= dot m x x. Proof. intros. apply rsum_pos. intros. nra. Qed.
Lemma dot_self_zero : forall m x, dot m x x = 0 -> forall i, (i < m)%nat -> x i = 0.
Proof. intros m x H i Hi. destruct (Req_dec (x i) 0) as [E|E]; auto. exfalso. assert (0 < dot m x x); [|lra]. apply (rsum_pos_lt m (fun i => x i * x i) i); auto; intros; nra. Qed.

(** ** One reflection: x - (v.x / c) v, the identity if c = 0 *)
Definition house (m : nat) (v : nat -> R) (c : R) (x : nat -> R) (i : nat) : R := if Req_EM_T c 0 then x i else x i - dot m v x / c * v i.
Definition house_ok (m : nat) (v : nat -> R) (c : R) : Prop := c <> 0 -> dot m v v = 2 * c.
Lemma house_ext : forall m v c x v' c' x', (forall i, (i < m)%nat -> v i = v' i) -> c = c' -> (forall i, (i < m)%nat -> x i = x' i) -> forall i, (i < m)%nat -> house m v c x i = house m v' c' x' i.
Proof. intros m v c x v' c' x' Hv -> Hx i Hi. unfold house. destruct (Req_EM_T c' 0); auto. rewrite (dot_ext m v x v' x'), Hv, Hx; auto. Qed.
Lemma house_lin : forall m v c x y a i, house m v c (fun i => x i + a * y i) i = house m v c x i + a * house m v c y i.
Proof. intros. unfold house. destruct (Req_EM_T c 0); auto. rewrite dot_lin. field. auto. Qed.
Lemma house_zero : forall m v c i, house m v c (fun _ => 0) i = 0.
Proof. intros. unfold house. destruct (Req_EM_T c 0); auto. unfold dot. rewrite rsum_zero by (intros; ring). field. auto. Qed.
Lemma house_dot : forall m v c x y, house_ok m v c -> dot m (house m v c x) (house m v c y) = dot m x y.
Proof.
  intros m v c x y HO. unfold house. destruct (Req_EM_T c 0) as [E|E]; [reflexivity|]. specialize (HO E).
  transitivity (dot m (fun i => x i + (- (dot m v x / c)) * v i) (fun i => y i + (- (dot m v y / c)) * v i)); [apply dot_ext; intros; ring|].
  rewrite dot_lin, !dot_lin_l, HO. rewrite (dot_comm m x v). field. auto.
Qed.
Lemma house_invol : forall m v c x i, house_ok m v c -> house m v c (house m v c x) i = x i.
Proof.
  intros m v c x i HO. unfold house at 1. destruct (Req_EM_T c 0) as [E|E]; [unfold house; destruct (Req_EM_T c 0); [reflexivity|contradiction]|]. specialize (HO E).
  assert (D : dot m v (house m v c x) = - dot m v x).
  { transitivity (dot m v (fun i => x i + (- (dot m v x / c)) * v i)); [apply dot_ext; auto; intros j _; unfold house; destruct (Req_EM_T c 0); [contradiction|ring]|]. rewrite dot_lin, HO. field. auto. }
  rewrite D. unfold house. destruct (Req_EM_T c 0); [contradiction|]. field. auto.
Qed.

(** ** Chains of reflections *)
Section Chain.
Variable m : nat.
Fixpoint Qt (v : nat -> nat -> R) (c : nat -> R) (k : nat) (x : nat -> R) : nat -> R := match k with O => x | S k => house m (v k) (c k) (Qt v c k x) end.
Fixpoint Qm (v : nat -> nat -> R) (c : nat -> R) (k : nat) (x : nat -> R) : nat -> R := match k with O => x | S k => Qm v c k (house m (v k) (c k) x) end.
Definition all_ok (v : nat -> nat -> R) (c : nat -> R) (k : nat) : Prop := forall j, (j < k)%nat -> house_ok m (v j) (c j).
Lemma Qt_ext : forall v c v' c' k x x', (forall j i, (j < k)%nat -> (i < m)%nat -> v j i = v' j i) -> (forall j, (j < k)%nat -> c j = c' j) -> (forall i, (i < m)%nat -> x i = x' i) ->
  forall i, (i < m)%nat -> Qt v c k x i = Qt v' c' k x' i.
Proof. induction k as [|k IH]; intros x x' Hv Hc Hx i Hi; cbn [Qt]; [auto|]. apply house_ext; auto. Qed.
Lemma Qm_ext : forall v c v' c' k x x', (forall j i, (j < k)%nat -> (i < m)%nat -> v j i = v' j i) -> (forall j, (j < k)%nat -> c j = c' j) -> (forall i, (i < m)%nat -> x i = x' i) ->
  forall i, (i < m)%nat -> Qm v c k x i = Qm v' c' k x' i.
Proof. induction k as [|k IH]; intros x x' Hv Hc Hx i Hi; cbn [Qm]; [auto|]. apply IH; auto. intros j Hj. apply house_ext; auto. Qed.
Variables (v : nat -> nat -> R) (c : nat -> R).
Lemma Qt_lin : forall k x y a i, Qt v c k (fun i => x i + a * y i) i = Qt v c k x i + a * Qt v c k y i.
Proof.
  induction k as [|k IH]; intros x y a i; cbn [Qt]; [reflexivity|]. rewrite <- house_lin. unfold house. destruct (Req_EM_T (c k) 0); rewrite IH; auto. f_equal. f_equal. f_equal. apply dot_ext; auto.
Qed.
Lemma Qt_zero : forall k i, Qt v c k (fun _ => 0) i = 0.
Proof. induction k as [|k IH]; intros i; cbn [Qt]; [reflexivity|]. transitivity (house m (v k) (c k) (fun _ => 0) i); [|apply house_zero]. unfold house. destruct (Req_EM_T (c k) 0); rewrite IH; auto. f_equal. f_equal. f_equal. apply dot_ext; auto. Qed.
Lemma Qt_sum : forall k n a g i, Qt v c k (fun i => rsum n (fun j => a j * g j i)) i = rsum n (fun j => a j * Qt v c k (g j) i).
Proof.
  intros k n a g i. induction n as [|n IH]; cbn [sumn Rnum n0 nadd nmul]; [apply Qt_zero|]. rewrite <- IH. apply Qt_lin.
Qed.
Lemma Qm_lin : forall k x y a i, Qm v c k (fun i => x i + a * y i) i = Qm v c k x i + a * Qm v c k y i.
Proof.
  induction k as [|k IH]; intros x y a i; cbn [Qm]; [reflexivity|]. rewrite <- IH. assert (E : forall z z', (forall i, z i = z' i) -> forall i, Qm v c k z i = Qm v c k z' i).
  { clear. induction k as [|k IH]; intros z z' H i; cbn [Qm]; auto. apply IH. intros j. unfold house. destruct (Req_EM_T (c k) 0); rewrite ?H; auto. f_equal. f_equal. f_equal. apply dot_ext; auto. }
  apply E. intros j. apply house_lin.
Qed.
Lemma Qm_ext' : forall k z z', (forall i, z i = z' i) -> forall i, Qm v c k z i = Qm v c k z' i.
Proof. induction k as [|k IH]; intros z z' H i; cbn [Qm]; auto. apply IH. intros j. unfold house. destruct (Req_EM_T (c k) 0); rewrite ?H; auto. f_equal. f_equal. f_equal. apply dot_ext; auto. Qed.
Lemma Qm_zero : forall k i, Qm v c k (fun _ => 0) i = 0.
Proof. induction k as [|k IH]; intros i; cbn [Qm]; [reflexivity|]. transitivity (Qm v c k (fun _ => 0) i); [|apply IH]. apply Qm_ext'. intros. apply house_zero. Qed.
Lemma Qm_sum : forall k n a g i, Qm v c k (fun i => rsum n (fun j => a j * g j i)) i = rsum n (fun j => a j * Qm v c k (g j) i).
Proof. intros k n a g i. induction n as [|n IH]; cbn [sumn Rnum n0 nadd nmul]; [apply Qm_zero|]. rewrite <- IH. apply Qm_lin. Qed.
Lemma Qt_dot : forall k x y, all_ok v c k -> dot m (Qt v c k x) (Qt v c k y) = dot m x y.
Proof. induction k as [|k IH]; intros x y H; cbn [Qt]; [reflexivity|]. rewrite house_dot by (apply H; lia). apply IH. intros j Hj. apply H. lia. Qed.
Lemma Qm_dot : forall k x y, all_ok v c k -> dot m (Qm v c k x) (Qm v c k y) = dot m x y.
Proof. induction k as [|k IH]; intros x y H; cbn [Qm]; [reflexivity|]. rewrite IH by (intros j Hj; apply H; lia). apply house_dot. apply H. lia. Qed.
Lemma Qm_Qt : forall k x i, all_ok v c k -> Qm v c k (Qt v c k x) i = x i.
Proof. induction k as [|k IH]; intros x i H; cbn [Qm Qt]; [reflexivity|]. rewrite <- (IH x i) by (intros j Hj; apply H; lia). apply Qm_ext'. intros j. apply house_invol. apply H. lia. Qed.
Lemma Qt_Qm : forall k x i, all_ok v c k -> Qt v c k (Qm v c k x) i = x i.
Proof.
  induction k as [|k IH]; intros x i H; cbn [Qm Qt]; [reflexivity|]. rewrite <- (house_invol m (v k) (c k) x i) by (apply H; lia).
  assert (E : forall j, Qt v c k (Qm v c k (house m (v k) (c k) x)) j = house m (v k) (c k) x j) by (intros; apply IH; intros j' Hj; apply H; lia).
  unfold house at 1 3. destruct (Req_EM_T (c k) 0); rewrite E; auto. f_equal. f_equal. f_equal. apply dot_ext; auto.
Qed.
End Chain.

(** ** A reflection of all columns changes the sign of the determinant *)
Lemma det_combo : forall n p f (a : nat -> R) k, (p < n)%nat -> (k <= n)%nat ->
  det Rnum n (fun i j => if Nat.eqb i p then rsum k (fun l => a l * f l j) else f i j) = (if (p <? k)%nat then a p else 0) * det Rnum n f.
Proof.
  intros n p f a k Hp. induction k as [|k IH]; intros Hk.
  - cbn [sumn Rnum n0]. replace (p <? 0)%nat with false by (symmetry; apply Nat.ltb_ge; lia). rewrite Rmult_0_l.
    pose proof (det_lin Rnum Rring n p (fun i j => if Nat.eqb i p then 0 else f i j) (fun i j => if Nat.eqb i p then 0 else f i j) (fun i j => if Nat.eqb i p then 0 else f i j) 1 Hp) as D.
    cbn [Rnum nadd nmul] in D. rewrite Nat.eqb_refl in D. specialize (D ltac:(intros; ring) ltac:(auto)). lra.
  - pose proof (det_lin Rnum Rring n p (fun i j => if Nat.eqb i p then rsum k (fun l => a l * f l j) else f i j) (fun i j => if Nat.eqb i p then f k j else f i j) (fun i j => if Nat.eqb i p then rsum (S k) (fun l => a l * f l j) else f i j) (a k) Hp) as D.
    cbn [Rnum nadd nmul sumn] in *. rewrite D; clear D.
    + rewrite IH by lia. destruct (Nat.eq_dec k p) as [->|N].
      * rewrite Nat.ltb_irrefl. replace (p <? S p)%nat with true by (symmetry; apply Nat.ltb_lt; lia). rewrite Rmult_0_l, Rplus_0_l. f_equal. apply det_ext. intros i j _ _. destruct (Nat.eqb_spec i p) as [->|]; auto.
      * replace (p <? S k)%nat with (p <? k)%nat by (destruct (Nat.ltb_spec p k), (Nat.ltb_spec p (S k)); auto; lia).
        assert (Z : det Rnum n (fun i j => if Nat.eqb i p then f k j else f i j) = 0).
        { destruct (Nat.lt_ge_cases p k) as [L|L]; [apply (det_eq_rows Rnum Rring n p k)|apply (det_eq_rows Rnum Rring n k p)]; try lia; intros j Hj; rewrite Nat.eqb_refl; destruct (Nat.eqb_spec k p); auto; lia. }
        rewrite Z. ring.
    + intros j Hj. rewrite !Nat.eqb_refl. reflexivity.
    + intros i j Hi Hj Hn. destruct (Nat.eqb_spec i p); [contradiction|auto].
Qed.
Lemma det_rank_one : forall n (v u : nat -> R) f, (exists p, (p < n)%nat /\ v p <> 0) ->
  det Rnum n (fun i j => f i j - u i * rsum n (fun l => v l * f l j)) = (1 - dot n v u) * det Rnum n f.
Proof.
  intros n v u f (p & Hp & Hv). set (w := fun j => rsum n (fun l => v l * f l j)).
  set (B := fun i j => if Nat.eqb i p then w j else f i j). set (C := fun i j => if Nat.eqb i p then w j else f i j - u i * w j).
  assert (D1 : det Rnum n B = v p * det Rnum n f). { unfold B, w. rewrite (det_combo n p f v n Hp (le_n n)). rewrite (proj2 (Nat.ltb_lt p n) Hp). reflexivity. }
  (* subtract multiples of row p from all other rows, one after the other *)
  assert (D2 : forall k, (k <= n)%nat -> det Rnum n (fun i j => if Nat.eqb i p then w j else if (i <? k)%nat then f i j - u i * w j else f i j) = det Rnum n B).
  { induction k as [|k IH]; intros Hk; [apply det_ext; intros i j _ _; unfold B; destruct (Nat.eqb_spec i p); auto|]. rewrite <- IH by lia. destruct (Nat.eq_dec k p) as [->|N].
    - apply det_ext. intros i j _ _. destruct (Nat.eqb_spec i p); auto. destruct (Nat.ltb_spec i p), (Nat.ltb_spec i (S p)); auto; lia.
    - apply (det_add_row Rnum Rring n k p _ _ (- u k)); try lia.
      + intros j Hj. cbn [Rnum nadd nmul]. rewrite Nat.eqb_refl. destruct (Nat.eqb_spec k p); [lia|]. rewrite (proj2 (Nat.ltb_lt k (S k))) by lia. rewrite Nat.ltb_irrefl. ring.
      + intros i j Hi Hj Hn. destruct (Nat.eqb_spec i p); auto. destruct (Nat.ltb_spec i k), (Nat.ltb_spec i (S k)); auto; lia. }
  assert (D3 : det Rnum n C = v p * det Rnum n f). { rewrite <- D1, <- (D2 n (le_n n)). apply det_ext. intros i j Hi _. unfold C. rewrite (proj2 (Nat.ltb_lt i n) Hi). reflexivity. }
  assert (D4 : det Rnum n (fun i j => f i j - u i * w j) = (1 - dot n v u) / v p * det Rnum n C).
  { set (a := fun l => if Nat.eqb l p then (1 - dot n v u) / v p else - (v l / v p)). pose proof (det_combo n p C a n Hp (le_n n)) as E. rewrite (proj2 (Nat.ltb_lt p n) Hp) in E.
    replace ((1 - dot n v u) / v p) with (a p) by (unfold a; rewrite Nat.eqb_refl; reflexivity). rewrite <- E. apply det_ext. intros i j Hi Hj. destruct (Nat.eqb_spec i p) as [->|N]; [|unfold C; destruct (Nat.eqb_spec i p); [contradiction|reflexivity]].
    (* row p *)
    assert (E1 : rsum n (fun l => a l * C l j) = (/ v p) * rsum n (fun l => if Nat.eqb l p then (1 - dot n v u) * w j else (- (v l * f l j) + v l * u l * w j))).
    { rewrite <- rsum_scal. apply rsum_ext. intros l Hl. unfold a, C. destruct (Nat.eqb_spec l p); field; auto. }
    rewrite E1. assert (E2 : rsum n (fun l => if Nat.eqb l p then (1 - dot n v u) * w j else (- (v l * f l j) + v l * u l * w j)) = v p * f p j - v p * u p * w j).
    { transitivity (rsum n (fun l => (- (v l * f l j) + v l * u l * w j) + (if Nat.eqb l p then (1 - dot n v u) * w j - (- (v p * f p j) + v p * u p * w j) else 0))).
      { apply rsum_ext. intros l Hl. destruct (Nat.eqb_spec l p) as [->|]; ring. }
      rewrite rsum_add. rewrite (rsum_one n p (fun l => if Nat.eqb l p then _ else 0) Hp) by (intros l _ Nl; destruct (Nat.eqb_spec l p); [contradiction|reflexivity]). rewrite Nat.eqb_refl.
      transitivity (rsum n (fun l => (-1) * (v l * f l j) + w j * (v l * u l)) + ((1 - dot n v u) * w j - (- (v p * f p j) + v p * u p * w j))); [f_equal; apply rsum_ext; intros; ring|].
      rewrite rsum_add, !rsum_scal. fold (dot n v u). fold (w j). ring. }
    rewrite E2. field. auto. }
  transitivity (det Rnum n (fun i j => f i j - u i * w j)); [reflexivity|]. rewrite D4, D3. field. auto.
Qed.
Lemma some_nonzero : forall m x, dot m x x <> 0 -> exists p, (p < m)%nat /\ x p <> 0.
Proof.
  intros m x. unfold dot. induction m as [|m IH]; cbn [sumn Rnum n0 nadd]; intros H; [lra|]. destruct (Req_dec (x m) 0) as [E|E]; [|exists m; split; [lia|auto]].
  destruct IH as (p & Hp & HX); [intros E'; apply H; rewrite E', E; ring|]. exists p. split; [lia|auto].
Qed.
Lemma det_house : forall n v c f, c <> 0 -> house_ok n v c -> det Rnum n (fun i j => house n v c (fun i => f i j) i) = - det Rnum n f.
Proof.
  intros n v c f Hc HO. specialize (HO Hc). rewrite (det_ext Rnum n _ (fun i j => f i j - (v i / c) * rsum n (fun l => v l * f l j))).
  2: { intros i j _ _. unfold house. destruct (Req_EM_T c 0); [contradiction|]. unfold dot. field. auto. }
  rewrite (det_rank_one n v (fun i => v i / c) f) by (apply some_nonzero; rewrite HO; lra).
  replace (dot n v (fun i => v i / c)) with 2; [ring|]. transitivity (/ c * dot n v v); [rewrite HO; field; auto|]. unfold dot. rewrite <- rsum_scal. apply rsum_ext. intros. field. auto.
Qed.
