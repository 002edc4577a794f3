(** * Relaxation sweeps over the reals: contraction under diagonal dominance, energy descent for symmetric positive definite matrices *)
From Coq Require Import List Bool Arith ZArith Lia Reals Lra.
From Verif Require Import Base Num Mat_Model Mat_Proofs QR_Math.
Local Open Scope R_scope.

Ltac nbi := repeat match goal with
  | |- context [(?x <? ?y)%nat] => destruct (Nat.ltb_spec x y)
  | |- context [Nat.eqb ?x ?y] => destruct (Nat.eqb_spec x y)
  end; cbn [andb orb negb]; subst; try lia; auto.

Lemma rsum_le : forall n f g, (forall i, (i < n)%nat -> f i <= g i) -> rsum n f <= rsum n g.
Proof. induction n; intros f g H; cbn [sumn Rnum nadd n0]; [lra|]. pose proof (IHn f g (fun i Hi => H i ltac:(lia))). pose proof (H n ltac:(lia)). lra. Qed.
Lemma rsum_abs : forall n f, Rabs (rsum n f) <= rsum n (fun i => Rabs (f i)).
Proof. induction n; intros f; cbn [sumn Rnum nadd n0]; [rewrite Rabs_R0; lra|]. eapply Rle_trans; [apply Rabs_triang|]. specialize (IHn f). lra. Qed.
Lemma rsum_elem : forall n f k, (k < n)%nat -> (forall i, (i < n)%nat -> 0 <= f i) -> f k <= rsum n f.
Proof.
  induction n; intros f k Hk H; [lia|]. cbn [sumn Rnum nadd n0]. destruct (Nat.eq_dec k n) as [->|Hne].
  - pose proof (rsum_pos n f (fun i Hi => H i ltac:(lia))). lra.
  - pose proof (IHn f k ltac:(lia) (fun i Hi => H i ltac:(lia))). pose proof (H n ltac:(lia)). lra.
Qed.
Lemma rsum_const : forall n c, rsum n (fun _ => c) = INR n * c.
Proof. induction n; intros c; cbn [sumn Rnum nadd n0]; [simpl; ring|]. rewrite IHn, S_INR. ring. Qed.
Lemma bounded : forall n (f : nat -> R), exists D, 0 <= D /\ forall i, (i < n)%nat -> Rabs (f i) <= D.
Proof.
  intros n f. exists (rsum n (fun i => Rabs (f i))). split; [apply rsum_pos; intros; apply Rabs_pos|].
  intros i Hi. apply (rsum_elem n (fun i => Rabs (f i)) i Hi). intros; apply Rabs_pos.
Qed.
Lemma argmax : forall n (f : nat -> R), (0 < n)%nat -> exists k, (k < n)%nat /\ forall i, (i < n)%nat -> f i <= f k.
Proof.
  induction n; intros f H; [lia|]. destruct (Nat.eq_dec n 0) as [->|Hn].
  - exists 0%nat. split; [lia|]. intros i Hi. replace i with 0%nat by lia. lra.
  - destruct (IHn f ltac:(lia)) as (k & Hk & HM). destruct (Rle_lt_dec (f n) (f k)).
    + exists k. split; [lia|]. intros i Hi. destruct (Nat.eq_dec i n) as [->|]; auto. apply HM; lia.
    + exists n. split; [lia|]. intros i Hi. destruct (Nat.eq_dec i n) as [->|]; [lra|]. pose proof (HM i ltac:(lia)). lra.
Qed.
(** the Euclidean norm is bounded by n times a bound on the entries *)
Lemma norm_bound : forall n r e, 0 <= e -> (forall i, (i < n)%nat -> Rabs (r i) <= e) -> sqrt (rsum n (fun i => r i * r i)) <= INR n * e.
Proof.
  intros n r e He Hr. rewrite <- (sqrt_square (INR n * e)); [|apply Rmult_le_pos; [apply pos_INR|auto]]. apply sqrt_le_1_alt.
  apply Rle_trans with (INR n * (e * e)).
  - rewrite <- rsum_const. apply rsum_le. intros i Hi. specialize (Hr i Hi).
    assert (r i * r i = Rabs (r i) * Rabs (r i)) as -> by (rewrite <- Rabs_mult, Rabs_pos_eq; [auto|nra]). pose proof (Rabs_pos (r i)). nra.
  - assert (INR n = 0 \/ 1 <= INR n) as [E|E]; [destruct n; [left; auto|right; rewrite S_INR; pose proof (pos_INR n); lra]| |]; [rewrite E; nra|].
    assert (0 <= e * e) by nra. assert (0 <= (INR n - 1) * (e * e) * INR n) by (repeat apply Rmult_le_pos; lra). nra.
Qed.
Lemma norm_entry : forall n r i, (i < n)%nat -> Rabs (r i) <= sqrt (rsum n (fun i => r i * r i)).
Proof.
  intros n r i Hi. rewrite <- sqrt_Rsqr_abs. apply sqrt_le_1_alt. unfold Rsqr. apply (rsum_elem n (fun i => r i * r i)); auto. intros; nra.
Qed.

Section Sys.
Variable n : nat.
Variable a : nat -> nat -> R.
Variable b : nat -> R.
(** the sum over the columns other than i *)
Definition off (x : nat -> R) (i : nat) : R := rsum n (fun j => if Nat.eqb j i then 0 else a i j * x j).
Definition row (x : nat -> R) (i : nat) : R := rsum n (fun j => a i j * x j).
Lemma off_row : forall x i, (i < n)%nat -> row x i = off x i + a i i * x i.
Proof.
  intros x i Hi. unfold row, off. transitivity (rsum n (fun j => (if Nat.eqb j i then 0 else a i j * x j) + (if Nat.eqb j i then a i i * x i else 0))).
  - apply rsum_ext. intros j Hj. nbi; ring.
  - rewrite rsum_add. f_equal. rewrite (rsum_one n i); auto; [rewrite Nat.eqb_refl; auto|]. intros j Hj Hne. nbi. 
Qed.
Definition jac (x : nat -> R) (i : nat) : R := (b i - off x i) / a i i.
(** the first k updates of a sweep with relaxation w *)
Fixpoint sw (w : R) (x : nat -> R) (k : nat) : nat -> R :=
  match k with O => x | S k => vfset (sw w x k) k ((1 - w) * sw w x k k + w * jac (sw w x k) k) end.
Lemma sw_late : forall w x k j, (k <= j)%nat -> sw w x k j = x j.
Proof. induction k; intros j Hj; auto. cbn [sw]. unfold vfset. nbi. apply IHk; lia. Qed.
Lemma sw_early : forall w x k j, (j < k)%nat -> sw w x k j = sw w x (S j) j.
Proof. induction k; intros j Hj; [lia|]. destruct (Nat.eq_dec j k) as [->|Hne]; auto. rewrite <- IHk by lia. cbn [sw]. unfold vfset at 1. nbi. Qed.
Lemma off_ext : forall x y i, (forall j, (j < n)%nat -> j <> i -> x j = y j) -> off x i = off y i.
Proof. intros x y i H. apply rsum_ext. intros j Hj. nbi. rewrite H; auto. Qed.

Hypothesis Hd : forall i, (i < n)%nat -> a i i <> 0.

(** ** the residual after a sweep is small when the sweep moved little *)
Lemma jac_resid : forall x i, (i < n)%nat -> b i - row (jac x) i = off x i - off (jac x) i.
Proof. intros x i Hi. rewrite off_row by auto. unfold jac at 2. field. auto. Qed.
Lemma sw_resid : forall w x i, (i < n)%nat -> w <> 0 ->
  b i - row (sw w x n) i = a i i * (sw w x n i - x i) / w - rsum n (fun j => if (j <? i)%nat then 0 else a i j * (sw w x n j - x j)).
Proof.
  intros w x i Hi Hw. rewrite (sw_early w x n i Hi). cbn [sw]. unfold vfset at 1. rewrite Nat.eqb_refl.
  rewrite (sw_late w x i i) by lia.
  assert (E : row (sw w x n) i = row (sw w x i) i + rsum n (fun j => if (j <? i)%nat then 0 else a i j * (sw w x n j - x j))).
  { unfold row. rewrite <- rsum_add. apply rsum_ext. intros j Hj. destruct (Nat.ltb_spec j i).
    - rewrite (sw_early w x n j), (sw_early w x i j) by lia. ring.
    - rewrite (sw_late w x i j) by lia. ring. }
  rewrite E, (off_row (sw w x i)) by auto. unfold jac. rewrite (sw_late w x i i) by lia. field. auto.
Qed.
Definition absum : R := rsum n (fun i => rsum n (fun j => Rabs (a i j))).
Lemma absum_row : forall i, (i < n)%nat -> rsum n (fun j => Rabs (a i j)) <= absum.
Proof. intros i Hi. apply (rsum_elem n (fun i => rsum n (fun j => Rabs (a i j)))); auto. intros. apply rsum_pos. intros. apply Rabs_pos. Qed.
Lemma absum_pos : 0 <= absum. Proof. apply rsum_pos. intros. apply rsum_pos. intros. apply Rabs_pos. Qed.
Lemma wsum_bound : forall i d D (p : nat -> bool), (i < n)%nat -> 0 <= D -> (forall j, (j < n)%nat -> Rabs (d j) <= D) ->
  Rabs (rsum n (fun j => if p j then 0 else a i j * d j)) <= absum * D.
Proof.
  intros i d D p Hi HD Hdj. eapply Rle_trans; [apply rsum_abs|]. apply Rle_trans with (rsum n (fun j => D * Rabs (a i j))).
  - apply rsum_le. intros j Hj. specialize (Hdj j Hj). pose proof (Rabs_pos (a i j)). destruct (p j); [rewrite Rabs_R0; nra|]. rewrite Rabs_mult. nra.
  - rewrite rsum_scal. pose proof (absum_row i Hi). nra.
Qed.
Lemma entry_absum : forall i j, (i < n)%nat -> (j < n)%nat -> Rabs (a i j) <= absum.
Proof. intros i j Hi Hj. eapply Rle_trans; [|apply (absum_row i Hi)]. apply (rsum_elem n (fun j => Rabs (a i j))); auto. intros; apply Rabs_pos. Qed.
Lemma jac_resid_bound : forall x D, 0 <= D -> (forall j, (j < n)%nat -> Rabs (jac x j - x j) <= D) -> forall i, (i < n)%nat -> Rabs (row (jac x) i - b i) <= absum * D.
Proof.
  intros x D HD H i Hi. replace (row (jac x) i - b i) with (- (b i - row (jac x) i)) by ring. rewrite jac_resid by auto.
  replace (- (off x i - off (jac x) i)) with (rsum n (fun j => if Nat.eqb j i then 0 else a i j * (jac x j - x j))); [apply (wsum_bound i (fun j => jac x j - x j)); auto|].
  unfold off. rewrite Ropp_minus_distr, <- rsum_sub. apply rsum_ext. intros j Hj. nbi; ring.
Qed.
Lemma sw_resid_bound : forall w x D, 0 < w -> 0 <= D -> (forall j, (j < n)%nat -> Rabs (sw w x n j - x j) <= D) ->
  forall i, (i < n)%nat -> Rabs (row (sw w x n) i - b i) <= (absum / w + absum) * D.
Proof.
  intros w x D Hw HD H i Hi. replace (row (sw w x n) i - b i) with (- (b i - row (sw w x n) i)) by ring. rewrite sw_resid by (auto; lra). rewrite Rabs_Ropp.
  eapply Rle_trans; [apply Rabs_triang|]. rewrite Rabs_Ropp, Rmult_plus_distr_r. apply Rplus_le_compat.
  - unfold Rdiv. rewrite !Rabs_mult, (Rabs_pos_eq (/ w)) by (left; apply Rinv_0_lt_compat; auto).
    pose proof (entry_absum i i Hi Hi). specialize (H i Hi). pose proof (Rabs_pos (a i i)). pose proof (Rabs_pos (sw w x n i - x i)). pose proof (Rinv_0_lt_compat w Hw).
    assert (Rabs (a i i) * Rabs (sw w x n i - x i) <= absum * D) by (apply Rmult_le_compat; auto). nra.
  - apply (wsum_bound i (fun j => sw w x n j - x j)); auto.
Qed.

(** ** strict diagonal dominance: a contraction in the maximum norm *)
Definition sdd : Prop := forall i, (i < n)%nat -> rsum n (fun j => if Nat.eqb j i then 0 else Rabs (a i j)) < Rabs (a i i).
Lemma sdd_q : sdd -> exists q, 0 <= q < 1 /\ forall i, (i < n)%nat -> rsum n (fun j => if Nat.eqb j i then 0 else Rabs (a i j)) <= q * Rabs (a i i).
Proof.
  intros HS. destruct (Nat.eq_dec n 0) as [E|E]; [exists 0; split; [lra|]; intros; lia|].
  set (s := fun i => rsum n (fun j => if Nat.eqb j i then 0 else Rabs (a i j))).
  destruct (argmax n (fun i => s i / Rabs (a i i)) ltac:(lia)) as (k & Hk & HM). exists (s k / Rabs (a k k)).
  assert (Hs : forall i, 0 <= s i) by (intros i; apply rsum_pos; intros j Hj; nbi; [lra|apply Rabs_pos]).
  assert (Hp : forall i, (i < n)%nat -> 0 < Rabs (a i i)) by (intros; apply Rabs_pos_lt; auto).
  split; [split|].
  - apply Rmult_le_pos; [apply Hs|]. left; apply Rinv_0_lt_compat; auto.
  - apply (Rmult_lt_reg_r (Rabs (a k k))); auto. unfold Rdiv. rewrite Rmult_assoc, Rinv_l by (pose proof (Hp k Hk); lra). pose proof (HS k Hk). fold (s k) in H. lra.
  - intros i Hi. specialize (HM i Hi). fold (s i). pose proof (Hp i Hi). apply (Rmult_le_compat_r (Rabs (a i i))) in HM; [|lra].
    unfold Rdiv in HM at 1. rewrite Rmult_assoc, Rinv_l in HM by lra. lra.
Qed.
Section Contract.
Variable q : R.
Hypothesis Hq : 0 <= q < 1.
Hypothesis Hdom : forall i, (i < n)%nat -> rsum n (fun j => if Nat.eqb j i then 0 else Rabs (a i j)) <= q * Rabs (a i i).
Lemma jac_contract1 : forall x y D i, (i < n)%nat -> 0 <= D -> (forall j, (j < n)%nat -> Rabs (x j - y j) <= D) -> Rabs (jac x i - jac y i) <= q * D.
Proof.
  intros x y D i Hi HD H. unfold jac. replace ((b i - off x i) / a i i - (b i - off y i) / a i i) with ((off y i - off x i) * / a i i) by (field; auto).
  pose proof (Rabs_pos_lt _ (Hd i Hi)) as Hp. rewrite Rabs_mult, Rabs_inv. apply (Rmult_le_reg_r (Rabs (a i i))); auto. rewrite Rmult_assoc, Rinv_l by lra. rewrite Rmult_1_r.
  unfold off. rewrite <- rsum_sub. eapply Rle_trans; [apply rsum_abs|]. apply Rle_trans with (rsum n (fun j => D * (if Nat.eqb j i then 0 else Rabs (a i j)))).
  - apply rsum_le. intros j Hj. nbi; [rewrite Rminus_0_r, Rabs_R0; lra|]. replace (a i j * y j - a i j * x j) with (a i j * - (x j - y j)) by ring.
    rewrite Rabs_mult, Rabs_Ropp. specialize (H j Hj). pose proof (Rabs_pos (a i j)). nra.
  - rewrite rsum_scal. specialize (Hdom i Hi). nra.
Qed.
Lemma sw_contract : forall w x y D, 0 < w <= 1 -> 0 <= D -> (forall j, (j < n)%nat -> Rabs (x j - y j) <= D) ->
  forall k, (k <= n)%nat -> forall j, (j < n)%nat -> Rabs (sw w x k j - sw w y k j) <= (if (j <? k)%nat then (1 - w + w * q) * D else D).
Proof.
  intros w x y D Hw HD H. induction k; intros Hk j Hj; [cbn [sw]; nbi|].
  assert (Hr : (1 - w + w * q) * D <= D) by (assert (0 <= w * (1 - q)) by (apply Rmult_le_pos; lra); nra).
  assert (IH : forall j, (j < n)%nat -> Rabs (sw w x k j - sw w y k j) <= D) by (intros j' Hj'; specialize (IHk ltac:(lia) j' Hj'); destruct (j' <? k)%nat; lra).
  cbn [sw]. unfold vfset. destruct (Nat.eqb_spec j k) as [->|Hne].
  - destruct (Nat.ltb_spec k (S k)); [|lia].
    replace ((1 - w) * sw w x k k + w * jac (sw w x k) k - ((1 - w) * sw w y k k + w * jac (sw w y k) k)) with ((1 - w) * (sw w x k k - sw w y k k) + w * (jac (sw w x k) k - jac (sw w y k) k)) by ring.
    eapply Rle_trans; [apply Rabs_triang|]. rewrite !Rabs_mult, (Rabs_pos_eq (1 - w)), (Rabs_pos_eq w) by lra.
    pose proof (IH k Hj). pose proof (jac_contract1 _ _ D k Hj HD IH). nra.
  - specialize (IHk ltac:(lia) j Hj). destruct (Nat.ltb_spec j k); destruct (Nat.ltb_spec j (S k)); lia || auto.
Qed.
End Contract.

End Sys.

(** ** symmetric positive definite matrices: every update lowers the energy, which is bounded below *)
Definition quad (n : nat) (a : nat -> nat -> R) (x : nat -> R) : R := rsum n (fun i => x i * rsum n (fun j => a i j * x j)).
Definition energy (n : nat) (a : nat -> nat -> R) (b x : nat -> R) : R := quad n a x / 2 - rsum n (fun i => b i * x i).
Definition sym (n : nat) (a : nat -> nat -> R) : Prop := forall i j, (i < n)%nat -> (j < n)%nat -> a i j = a j i.
Definition posdef (n : nat) (a : nat -> nat -> R) : Prop := forall x, (exists i, (i < n)%nat /\ x i <> 0) -> 0 < quad n a x.
Lemma quad_ext : forall n a x y, (forall i, (i < n)%nat -> x i = y i) -> quad n a x = quad n a y.
Proof. intros n a x y H. apply rsum_ext. intros i Hi. rewrite H by auto. f_equal. apply rsum_ext. intros j Hj. rewrite H; auto. Qed.
Lemma posdef_diag : forall n a i, posdef n a -> (i < n)%nat -> 0 < a i i.
Proof.
  intros n a i HP Hi. assert (E : quad n a (fun k => if Nat.eqb k i then 1 else 0) = a i i).
  { unfold quad. rewrite (rsum_one n i); auto; [|intros k Hk Hne; nbi; ring]. rewrite Nat.eqb_refl, Rmult_1_l.
    rewrite (rsum_one n i); auto; [rewrite Nat.eqb_refl; ring|]. intros k Hk Hne; nbi; ring. }
  rewrite <- E. apply HP. exists i. split; auto. rewrite Nat.eqb_refl. lra.
Qed.
Lemma energy_step : forall n a b x i t, sym n a -> (i < n)%nat ->
  energy n a b (vfset x i t) = energy n a b x + (t - x i) * (row n a x i - b i) + a i i * (t - x i) * (t - x i) / 2.
Proof.
  intros n a b x i t HS Hi. set (d := t - x i). set (e := fun k => if Nat.eqb k i then 1 else 0 : R).
  assert (Ee : forall f, rsum n (fun k => f k * e k) = f i).
  { intros f. rewrite (rsum_one n i); auto; [unfold e; rewrite Nat.eqb_refl; ring|]. intros k Hk Hne. unfold e. nbi; ring. }
  assert (Ev : forall k, vfset x i t k = x k + d * e k) by (intros k; unfold vfset, e, d; nbi; ring).
  assert (E1 : rsum n (fun k => b k * vfset x i t k) = rsum n (fun k => b k * x k) + d * b i).
  { rewrite <- (Ee b), <- rsum_scal, <- rsum_add. apply rsum_ext. intros k Hk. rewrite Ev. ring. }
  assert (E2 : forall k, rsum n (fun j => a k j * vfset x i t j) = row n a x k + d * a k i).
  { intros k. rewrite <- (Ee (a k)), <- rsum_scal. unfold row. rewrite <- rsum_add. apply rsum_ext. intros j Hj. rewrite Ev. ring. }
  assert (E3 : quad n a (vfset x i t) = quad n a x + 2 * d * row n a x i + d * d * a i i).
  { unfold quad at 1. transitivity (rsum n (fun k => (x k * row n a x k + d * (a i k * x k)) + d * ((row n a x k + d * a k i) * e k))).
    - apply rsum_ext. intros k Hk. rewrite E2, Ev, (HS i k) by auto. ring.
    - rewrite rsum_add, rsum_add, !rsum_scal, Ee. fold (row n a x i). unfold quad. fold (row n a x). unfold row. ring. }
  unfold energy. rewrite E1, E3. unfold d. field.
Qed.
Lemma quad_S : forall n a x, sym (S n) a -> quad (S n) a x = quad n a x + 2 * x n * rsum n (fun j => a n j * x j) + a n n * x n * x n.
Proof.
  intros n a x HS. unfold quad. cbn [sumn Rnum nadd n0].
  transitivity (rsum n (fun i => x i * rsum n (fun j => a i j * x j) + x n * (a n i * x i)) + x n * (rsum n (fun j => a n j * x j) + a n n * x n)).
  - f_equal. apply rsum_ext. intros i Hi. rewrite (HS n i) by lia. ring.
  - rewrite rsum_add, rsum_scal. ring.
Qed.
Lemma rsum_prod : forall n (c x : nat -> R), rsum n (fun i => x i * rsum n (fun j => c i * c j * x j)) = rsum n (fun j => c j * x j) * rsum n (fun j => c j * x j).
Proof.
  intros n c x. set (s := rsum n (fun j => c j * x j)). transitivity (rsum n (fun i => s * (c i * x i))); [|rewrite rsum_scal; auto].
  apply rsum_ext. intros i Hi. transitivity (x i * (c i * s)); [|ring]. f_equal. unfold s. rewrite <- rsum_scal. apply rsum_ext. intros; ring.
Qed.
Lemma energy_below : forall n a b, sym n a -> posdef n a -> exists L, forall x, L <= energy n a b x.
Proof.
  induction n; intros a b HS HP.
  - exists 0. intros x. unfold energy, quad. cbn [sumn Rnum n0]. lra.
  - pose proof (posdef_diag _ _ n HP ltac:(lia)) as Hn. set (d := a n n) in *.
    set (a' := fun i j => a i j - a n i * a n j / d). set (b' := fun i => b i - b n * a n i / d).
    assert (Eq : forall x, quad n a' x = quad n a x - (rsum n (fun j => a n j * x j)) * (rsum n (fun j => a n j * x j)) / d).
    { intros x. replace (rsum n (fun j => a n j * x j) * rsum n (fun j => a n j * x j) / d) with (/ d * (rsum n (fun j => a n j * x j) * rsum n (fun j => a n j * x j))) by (field; lra).
      rewrite <- (rsum_prod n (a n) x), <- rsum_scal. unfold quad. rewrite <- rsum_sub. apply rsum_ext. intros i Hi.
      transitivity (x i * rsum n (fun j => a i j * x j - / d * (a n i * a n j * x j))); [f_equal; apply rsum_ext; intros; unfold a'; field; lra|].
      rewrite rsum_sub, rsum_scal. ring. }
    assert (HS' : sym n a') by (intros i j Hi Hj; unfold a'; rewrite (HS i j) by lia; field; lra).
    assert (HP' : posdef n a').
    { intros x (k & Hk & Hx). set (s := rsum n (fun j => a n j * x j)). set (y := fun i => if Nat.eqb i n then - s / d else x i).
      assert (Hy : forall i, (i < n)%nat -> y i = x i) by (intros i Hi; unfold y; nbi).
      assert (E : quad n a' x = quad (S n) a y).
      { rewrite quad_S by auto. rewrite (quad_ext n a y x) by auto.
        replace (rsum n (fun j => a n j * y j)) with s by (apply rsum_ext; intros; rewrite Hy; auto).
        rewrite Eq. fold s d. unfold y at 1 2 3. rewrite Nat.eqb_refl. field. lra. }
      rewrite E. apply HP. exists k. split; [lia|]. rewrite Hy; auto. }
    destruct (IHn a' b' HS' HP') as [L HL]. exists (L - b n * b n / d / 2). intros x. specialize (HL x).
    unfold energy in *. rewrite quad_S by auto. cbn [sumn Rnum nadd]. fold d. rewrite Eq in HL. set (s := rsum n (fun j => a n j * x j)) in *.
    assert (Eb : rsum n (fun i => b' i * x i) = rsum n (fun i => b i * x i) - b n / d * s).
    { unfold s. rewrite <- rsum_scal, <- rsum_sub. apply rsum_ext. intros i Hi. unfold b'. field. lra. }
    rewrite Eb in HL. set (Q := quad n a x) in *. set (B := rsum n (fun i => b i * x i)) in *.
    assert (0 <= (d * x n + s - b n) * (d * x n + s - b n) / d / 2).
    { unfold Rdiv. apply Rmult_le_pos; [|lra]. apply Rmult_le_pos; [apply Rle_0_sqr|]. left. apply Rinv_0_lt_compat; auto. }
    replace ((Q + 2 * x n * s + d * x n * x n) / 2 - (B + b n * x n)) with
      ((d * x n + s - b n) * (d * x n + s - b n) / d / 2 + ((Q - s * s / d) / 2 - (B - b n / d * s)) - b n * b n / d / 2) by (field; lra). lra.
Qed.
(** a sweep lowers the energy by the squares of its moves *)
Lemma sw_energy : forall n a b w x, sym n a -> posdef n a -> w <> 0 -> forall k, (k <= n)%nat ->
  energy n a b (sw n a b w x k) = energy n a b x - (2 - w) / w / 2 * rsum k (fun i => a i i * ((sw n a b w x n i - x i) * (sw n a b w x n i - x i))).
Proof.
  intros n a b w x HS HP Hw. induction k; intros Hk; [cbn [sw sumn Rnum n0]; ring|].
  cbn [sumn Rnum nadd]. rewrite Rmult_plus_distr_l. specialize (IHk ltac:(lia)).
  set (sm := rsum k _) in *. rewrite (sw_early n a b w x n k) by lia. cbn [sw]. rewrite energy_step by (auto; lia). rewrite IHk. clear IHk.
  unfold vfset. rewrite Nat.eqb_refl. rewrite (sw_late n a b w x k k) by lia. rewrite (off_row n a) by lia.
  unfold jac. rewrite (sw_late n a b w x k k) by lia. pose proof (posdef_diag n a k HP ltac:(lia)). field. lra.
Qed.
