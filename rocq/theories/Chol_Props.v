(** * C37: CholeskySolver over the real numbers *)

From Coq Require Import List Arith Bool Lia ZArith QArith Qcanon Ring Field Reals Lra.
From Verif Require Import Base Num Det Mat_Model Mat_Proofs Mat_Props Lin_Base Gauss_Proofs Gauss_Props LU_Proofs LU_Props Chol_Model Chol_Proofs.
Import ListNotations.
Local Open Scope nat_scope.

(** the quadratic form x^T f x *)
Definition quad {T} (O : numops T) (n : nat) (f : nat -> nat -> T) (x : nat -> T) : T :=
  sumn O n (fun i => sumn O n (fun j => nmul O (nmul O (x i) (f i j)) (x j))).

Section Alg.
Context {T : Type} (O : numops T) (HF : field_laws O) (H : cholops T) (HL : chol_laws O H).
Let HR : ring_laws O := field_ring T O HF.
Add Field Tfield : HF.
Notation sum := (sumn O).

Lemma quad_gram : forall n m (L : nat -> nat -> T) f x, (forall i j, i < n -> j < n -> f i j = sum m (fun k => nmul O (L i k) (L j k))) ->
  quad O n f x = sum m (fun k => nmul O (sum n (fun i => nmul O (L i k) (x i))) (sum n (fun i => nmul O (L i k) (x i)))).
Proof.
  intros n m L f x E. unfold quad.
  rewrite (sum_ext O n _ (fun i => sum m (fun k => nmul O (nmul O (L i k) (x i)) (sum n (fun j => nmul O (L j k) (x j)))))).
  - rewrite (sum_swap O HR). apply sum_ext. intros k Hk. rewrite <- (sum_mul_r O HR). auto.
  - intros i Hi. rewrite (sum_ext O n _ (fun j => sum m (fun k => nmul O (nmul O (L i k) (x i)) (nmul O (L j k) (x j))))).
    + rewrite (sum_swap O HR). apply sum_ext. intros k Hk. rewrite (sum_mul_l O HR). auto.
    + intros j Hj. rewrite E by auto. rewrite (sum_mul_l O HR), (sum_mul_r O HR). apply sum_ext. intros; ring.
Qed.
Lemma quad_add : forall n f g x, quad O n (fun i j => nadd O (f i j) (g i j)) x = nadd O (quad O n f x) (quad O n g x).
Proof.
  intros n f g x. unfold quad. rewrite <- (sum_add O HR). apply sum_ext. intros i Hi. rewrite <- (sum_add O HR). apply sum_ext. intros; ring.
Qed.
Lemma quad_ext : forall n f g x, (forall i j, i < n -> j < n -> nmul O (nmul O (x i) (f i j)) (x j) = nmul O (nmul O (x i) (g i j)) (x j)) ->
  quad O n f x = quad O n g x.
Proof. intros n f g x E. unfold quad. apply sum_ext. intros i Hi. apply sum_ext. intros j Hj. auto. Qed.

(** when the decomposition stops at column i, the pivot is a value of the quadratic form *)
Lemma stop_quad : forall n f i a, i < n -> dinv O H n f i i a ->
  exists x, x i = n1 O /\ quad O n (symf f) x = nsub O (f i i) (sum i (fun k => nmul O (a i k) (a i k))).
Proof.
  intros n f i a Hi [DU DD DE].
  destruct (upper_vector O HF n i (fun q j => a j q) Hi) as (x & X1 & X2 & X3).
  { intros q Hq. apply (cl_nz _ _ HL). apply DD; lia. }
  exists x. split; auto. set (s := nsub O (f i i) (sum i (fun k => nmul O (a i k) (a i k)))).
  set (Lh := fun r k => if r <? k then n0 O else a r k).
  transitivity (quad O n (fun r c => nadd O (sum i (fun k => nmul O (Lh r k) (Lh c k))) (if Nat.eqb r i && Nat.eqb c i then s else n0 O)) x).
  { apply quad_ext. intros r c Hr Hc.
    destruct (le_lt_dec r i) as [Hri|Hri]; [|rewrite (X2 r Hri); ring].
    destruct (le_lt_dec c i) as [Hci|Hci]; [|rewrite (X2 c Hci); ring]. f_equal. f_equal. unfold symf.
    assert (K : forall r c, r <= i -> c <= r -> f c r = nadd O (sum i (fun k => nmul O (Lh r k) (Lh c k))) (if Nat.eqb r i && Nat.eqb c i then s else n0 O)).
    { clear r c Hr Hc Hri Hci. intros r c Hri Hcr. destruct (Nat.eq_dec c i) as [->|Hne].
      - replace r with i by lia. rewrite Nat.eqb_refl. simpl. unfold s.
        rewrite (sum_ext O i _ (fun k => nmul O (a i k) (a i k))); [ring|]. intros k Hk. unfold Lh. rewrite (proj2 (Nat.ltb_ge i k)) by lia. auto.
      - rewrite (proj2 (Nat.eqb_neq c i)), andb_false_r by auto. rewrite <- (DE r c) by lia. rewrite (sum_lower O HF i c); [|lia|].
        + unfold Lh at 3 4. rewrite (proj2 (Nat.ltb_ge r c)), Nat.ltb_irrefl by lia.
          rewrite (sum_ext O c (fun k => nmul O (Lh r k) (Lh c k)) (fun k => nmul O (a c k) (a r k))); [ring|]. intros k Hk. unfold Lh. rewrite (proj2 (Nat.ltb_ge r k)), (proj2 (Nat.ltb_ge c k)) by lia. ring.
        + intros k Hk1 Hk2. unfold Lh. rewrite (proj2 (Nat.ltb_lt c k)) by lia. ring. }
    destruct (le_lt_dec c r) as [Hcr|Hcr].
    - rewrite Nat.min_r, Nat.max_l by lia. apply K; auto.
    - rewrite Nat.min_l, Nat.max_r by lia. rewrite (K c r) by lia. rewrite (andb_comm (Nat.eqb c i)). f_equal. apply sum_ext. intros; ring. }
  rewrite quad_add. rewrite (quad_gram n i Lh) by auto. rewrite (sum_zero O HR i).
  - unfold quad. rewrite (sum_one O HR n i); auto.
    + rewrite (sum_one O HR n i); auto.
      * rewrite Nat.eqb_refl, X1. simpl. ring.
      * intros j Hj Hne. rewrite (proj2 (Nat.eqb_neq j i)), andb_false_r by auto. ring.
    + intros r Hr Hne. apply (sum_zero O HR). intros j Hj. rewrite (proj2 (Nat.eqb_neq r i)) by auto. simpl. ring.
  - intros k Hk. rewrite (sum_ext O n _ (fun j => nmul O (U O i (fun q j => a j q) k j) (x j))); [rewrite X3 by auto; ring|].
    intros r Hr. unfold U, Lh. rewrite Nat.min_l by lia. auto.
Qed.

Lemma chol_ctor_wpt : forall (A : matrix T) n f, is_matrix A n n f -> 0 < n ->
  (forall i j, i < n -> j < n -> i < j -> c_far H (f i j) (f j i) = false) ->
  wpt (chol_ctor O H A) (throws_at O H n f) (is_chol O H n f).
Proof.
  intros A n f HA Hn Hs. unfold chol_ctor. pose proof HA as (Hr & Hc & _). rewrite Hr, Hc, Nat.eqb_refl. simpl negb. cbv iota.
  rewrite (proj2 (Nat.eqb_neq n 0)) by lia. apply wpt_bind_wp. eapply is_symmetric_wp; eauto.
  replace (forallb _ (seq 0 n)) with true.
  2:{ symmetry. apply forallb_forall. intros i Hi. apply in_seq in Hi. apply forallb_forall. intros j Hj. apply in_seq in Hj.
      destruct (Nat.ltb_spec i j); auto. rewrite Hs by lia. auto. }
  simpl negb. cbv iota. apply wpt_bind. eapply wpt_conseq; [|eapply chol_decomp_wpt; eauto]. intros A1 (a & H1 & H2).
  apply wpt_bind_wp. eapply wp_conseq; [|eapply chol_clear_wp; eauto]. intros A2 H3. cbv beta in H3.
  split; auto. simpl. eexists. split; [exact H3|]. eapply dinv_factor; eauto.
Qed.
End Alg.

(** ** Real numbers; [tol] is IsMatrixSymmetricTolerance *)
Definition Rchol (tol : R) : cholops R :=
  mkCholOps R (fun x => if Rle_dec x 0 then true else false) sqrt ln (fun x y => if Rlt_dec tol (Rabs (x - y)) then true else false).

Lemma Rle0_false : forall tol x, c_le0 (Rchol tol) x = false <-> (0 < x)%R.
Proof. intros tol x. simpl. destruct (Rle_dec x 0); split; intros; try discriminate; try lra; auto. Qed.
Lemma Rle0_true : forall tol x, c_le0 (Rchol tol) x = true <-> (x <= 0)%R.
Proof. intros tol x. simpl. destruct (Rle_dec x 0); split; intros; try discriminate; try lra; auto. Qed.
Lemma Rchol_laws : forall tol, chol_laws Rnum (Rchol tol).
Proof.
  intros tol. constructor; intros x Hx; apply Rle0_false in Hx.
  - simpl. lra.
  - simpl. apply sqrt_sqrt. lra.
  - apply Rle0_false. simpl. apply sqrt_lt_R0. auto.
Qed.

(** specification *)
Definition symmetric (n : nat) (f : nat -> nat -> R) : Prop := forall i j, i < n -> j < n -> f i j = f j i.
Definition positive_definite (n : nat) (f : nat -> nat -> R) : Prop :=
  forall x, (exists i, i < n /\ x i <> 0%R) -> (0 < quad Rnum n f x)%R.
(** L is lower triangular with a positive diagonal, and f = L L^T *)
Definition cholesky_factor (n : nat) (f L : nat -> nat -> R) : Prop :=
  (forall r c, r < c -> c < n -> L r c = 0%R) /\ (forall c, c < n -> (0 < L c c)%R) /\
  (forall r c, r < n -> c < n -> f r c = sumn Rnum n (fun k => L r k * L c k)%R).

Section RealChol.
Context (tol : R) (Htol : (0 <= tol)%R).
Let H := Rchol tol.
Let HL := Rchol_laws tol.
Let HF := Rnum_field.

Lemma sym_near : forall n f, symmetric n f -> forall i j, i < n -> j < n -> i < j -> c_far H (f i j) (f j i) = false.
Proof.
  intros n f Hs i j Hi Hj _. simpl. rewrite (Hs i j Hi Hj). rewrite Rminus_eq_0, Rabs_R0. destruct (Rlt_dec tol 0); auto. lra.
Qed.
Lemma sym_symf : forall n f, symmetric n f -> forall i j, i < n -> j < n -> symf f i j = f i j.
Proof.
  intros n f Hs i j Hi Hj. unfold symf. destruct (le_lt_dec i j).
  - rewrite Nat.min_l, Nat.max_r by lia. auto.
  - rewrite Nat.min_r, Nat.max_l by lia. apply Hs; auto.
Qed.

Lemma squares_nonneg : forall m (g : nat -> R), (0 <= sumn Rnum m (fun k => g k * g k))%R.
Proof. induction m as [|m IH]; intros g; simpl; [lra|]. specialize (IH g). simpl in *. nra. Qed.
Lemma squares_zero : forall m (g : nat -> R), sumn Rnum m (fun k => g k * g k)%R = 0%R -> forall k, k < m -> g k = 0%R.
Proof.
  induction m as [|m IH]; intros g E k Hk; [lia|]. simpl in E. pose proof (squares_nonneg m g) as P. simpl in P.
  assert (g m = 0%R) by nra. destruct (Nat.eq_dec k m) as [->|]; auto. apply (IH g); [|lia]. nra.
Qed.

Lemma factor_pd : forall n f L, chol_factor Rnum H n f L -> positive_definite n (symf f).
Proof.
  intros n f L HC x (i & Hi & Hx). rewrite (quad_gram Rnum HF n n L (symf f) x) by (intros; symmetry; apply HC; auto).
  pose proof (squares_nonneg n (fun k => sumn Rnum n (fun i => nmul Rnum (L i k) (x i)))) as P.
  destruct (Rle_lt_or_eq_dec _ _ P) as [|E]; [auto|]. exfalso. apply Hx. symmetry in E.
  apply (lower_kernel_t Rnum HF n L x); auto.
  - apply (factor_nz Rnum H HL n f L HC).
  - apply HC.
  - intros k Hk. apply (squares_zero n (fun k => sumn Rnum n (fun i => nmul Rnum (L i k) (x i))) E k Hk).
Qed.

Lemma ctor_chol : forall A n f S, is_matrix A n n f -> symmetric n f -> chol_ctor Rnum H A = Ok S -> is_chol Rnum H n f S.
Proof.
  intros A n f S HA Hs HS. destruct n as [|n].
  - exfalso. revert HS. unfold chol_ctor. destruct HA as (-> & -> & _). simpl. discriminate.
  - pose proof (chol_ctor_wpt Rnum HF H HL A (Datatypes.S n) f HA (Nat.lt_0_succ n) (sym_near _ _ Hs)) as W. rewrite HS in W. exact W.
Qed.

(** The constructor succeeds on a symmetric matrix exactly when it is positive definite, and throws otherwise. *)
Theorem C37_constructor : forall A n f, is_matrix A n n f -> 0 < n -> symmetric n f ->
  (positive_definite n f -> exists S, chol_ctor Rnum H A = Ok S) /\
  (~ positive_definite n f -> chol_ctor Rnum H A = Throw SingularError).
Proof.
  intros A n f HA Hn Hs. pose proof (chol_ctor_wpt Rnum HF H HL A n f HA Hn (sym_near _ _ Hs)) as W.
  assert (PDext : forall x, quad Rnum n (symf f) x = quad Rnum n f x).
  { intros x. apply quad_ext. intros i j Hi Hj. rewrite (sym_symf n f Hs i j Hi Hj). auto. }
  destruct (chol_ctor Rnum H A) as [S|e| |] eqn:E; simpl in W; try contradiction.
  - split; [eauto|]. intros F. exfalso. apply F. destruct W as (_ & L & _ & HC). intros x Hx. rewrite <- PDext. apply (factor_pd n f L HC x Hx).
  - destruct W as (-> & i & a & Hi & HD & Hle). split; auto. intros PD. exfalso.
    destruct (stop_quad Rnum HF H HL n f i a Hi HD) as (x & X1 & X2).
    assert (P : (0 < quad Rnum n f x)%R). { apply PD. exists i. split; auto. rewrite X1. simpl. lra. }
    rewrite <- PDext, X2 in P. apply Rle0_true in Hle. lra.
Qed.

Theorem C37_factor : forall A n f S, is_matrix A n n f -> symmetric n f -> chol_ctor Rnum H A = Ok S ->
  exists L, is_matrix (ch_l S) n n L /\ cholesky_factor n f L.
Proof.
  intros A n f S HA Hs HS. destruct (ctor_chol A n f S HA Hs HS) as (_ & L & HLm & HC). exists L. split; auto. destruct HC as (H1 & H2 & H3).
  split; [|split].
  - intros r c Hrc Hc. apply H1; auto. lia.
  - intros c Hc. apply (Rle0_false tol). auto.
  - intros r c Hr Hc. rewrite <- (sym_symf n f Hs r c Hr Hc). symmetry. apply H3; auto.
Qed.

Lemma solution_sym : forall n f b x, symmetric n f -> solution Rnum n (symf f) b x -> solution Rnum n f b x.
Proof.
  intros n f b x Hs [S1 S2]. split.
  - intros i Hi. rewrite <- S1 by auto. apply sum_ext. intros k Hk. rewrite (sym_symf n f Hs i k); auto.
  - intros y Hy. apply S2. intros i Hi. rewrite <- Hy by auto. apply sum_ext. intros k Hk. rewrite (sym_symf n f Hs i k); auto.
Qed.

(** Solve(b, x) with any previous contents of x, and Solve(v, v) *)
Theorem C37_solve : forall A n f S b x bf, is_matrix A n n f -> symmetric n f -> chol_ctor Rnum H A = Ok S -> is_vector b n bf ->
  (exists z zf, chol_solve_into Rnum S b x = Ok z /\ is_vector z n zf /\ solution Rnum n f bf zf) /\
  (exists z zf, chol_solve Rnum S b = Ok z /\ is_vector z n zf /\ solution Rnum n f bf zf) /\
  (exists z zf, chol_solve_alias Rnum S b = Ok z /\ is_vector z n zf /\ solution Rnum n f bf zf).
Proof.
  intros A n f S b x bf HA Hs HS Hb. pose proof (ctor_chol A n f S HA Hs HS) as HC.
  assert (K : forall (m : res (list R)), wp m (fun z => exists zf, is_vector z n zf /\ solution Rnum n (symf f) bf zf) ->
     exists z zf, m = Ok z /\ is_vector z n zf /\ solution Rnum n f bf zf).
  { intros m W. destruct m as [z| | |]; simpl in W; try contradiction. destruct W as (zf & W1 & W2). exists z, zf. split; auto. split; auto. apply solution_sym; auto. }
  split; [|split]; apply K.
  - eapply (chol_solve_wp Rnum HF H HL); eauto.
  - eapply (chol_solve_wp Rnum HF H HL); eauto.
  - eapply (chol_alias_wp Rnum HF H HL); eauto.
Qed.

Theorem C37_bad_input : forall A r c f S b, is_matrix A r c f ->
  (r <> c \/ r = 0 -> chol_ctor Rnum H A = Throw DimensionError) /\
  (chol_ctor Rnum H A = Ok S -> length b <> r -> chol_solve Rnum S b = Throw DimensionError) /\
  (forall i j, r = c -> i < r -> j < r -> (tol < Rabs (f i j - f j i))%R -> chol_ctor Rnum H A = Throw DimensionError).
Proof.
  intros A r c f S b HA. pose proof HA as (Hr & Hc & _). split; [|split].
  - intros D. unfold chol_ctor. rewrite Hr, Hc. destruct (Nat.eqb_spec r c); simpl; auto. destruct (Nat.eqb_spec r 0); auto. lia.
  - intros HS Hb. assert (Hn : ch_n S = r).
    { revert HS. unfold chol_ctor. rewrite Hr, Hc. destruct (Nat.eqb_spec r c); [|discriminate]. simpl. destruct (Nat.eqb_spec r 0); [discriminate|].
      destruct (mat_is_symmetric H A) as [[]|e'| |]; simpl; try discriminate.
      destruct (chol_decomp Rnum H r A) as [A1|e'| |]; simpl; try discriminate. destruct (chol_clear Rnum r A1) as [A2|e'| |]; simpl; try discriminate.
      intros E. injection E as <-. auto. }
    unfold chol_solve, chol_solve_into. rewrite Hn, (proj2 (Nat.eqb_neq (length b) r)) by auto. auto.
  - intros i j <- Hi Hj Hf. unfold chol_ctor. rewrite Hr, Hc, Nat.eqb_refl. simpl negb. cbv iota. rewrite (proj2 (Nat.eqb_neq r 0)) by lia.
    assert (W : wp (mat_is_symmetric H A) (fun s => s = false)).
    { eapply is_symmetric_wp; eauto. apply not_true_is_false. intros E. rewrite forallb_forall in E.
      assert (Far : forall a b, a < r -> b < r -> a < b -> (Rabs (f a b - f b a) <= tol)%R).
      { intros a b' Ha Hb Hab. specialize (E a). rewrite forallb_forall in E. assert (In a (seq 0 r)) as Ia by (apply in_seq; lia).
        specialize (E Ia b'). assert (In b' (seq 0 r)) as Ib by (apply in_seq; lia). specialize (E Ib). rewrite (proj2 (Nat.ltb_lt a b') Hab) in E. simpl in E.
        destruct (Rlt_dec tol (Rabs (f a b' - f b' a))); [discriminate|]. lra. }
      destruct (lt_eq_lt_dec i j) as [[Hij| ->]|Hij].
      - specialize (Far i j Hi Hj Hij). lra.
      - rewrite Rminus_eq_0, Rabs_R0 in Hf. lra.
      - specialize (Far j i Hj Hi Hij). rewrite Rabs_minus_sym in Far. lra. }
    destruct (mat_is_symmetric H A) as [s| | |]; simpl in W; try contradiction. subst s. reflexivity.
Qed.

Theorem C37_inverse : forall A n f S ainv r c g, is_matrix A n n f -> symmetric n f -> chol_ctor Rnum H A = Ok S ->
  is_matrix ainv r c g -> dims_fit n n ->
  exists X xf, chol_inverse Rnum S ainv = Ok X /\ is_matrix X n n xf /\ inverse_of Rnum n f xf.
Proof.
  intros A n f S ainv r c g HA Hs HS HV Hd. pose proof (ctor_chol A n f S HA Hs HS) as HC.
  assert (Hn0 : 0 < n).
  { destruct n; [|lia]. exfalso. revert HS. unfold chol_ctor. destruct HA as (-> & -> & _). simpl. discriminate. }
  assert (W : wp (chol_inverse Rnum S ainv) (fun X => exists xf, is_matrix X n n xf /\
     mat_solution Rnum n n f (fun i j => if Nat.eqb i j then 1%R else 0%R) xf)).
  { unfold chol_inverse. pose proof HC as (Hn & _). rewrite Hn. apply wp_bind.
    eapply wp_conseq; [|eapply (resize_square_wp Rnum n ainv r c g); eauto]. intros R (g' & HRm). apply wp_bind.
    eapply wp_conseq; [|apply (for_range_inv _ _ (fun j '(R, ei, col) => exists xf ef cf, is_matrix R n n xf /\ is_vector ei n ef /\ is_vector col n cf /\
        forall l, l < j -> solution Rnum n f (fun i => if Nat.eqb i l then 1%R else 0%R) (fun i => xf i l)))].
    - intros [[X ei] col] (xf & ef & cf & G1 & _ & _ & G2). apply wp_Ok. exists xf. auto.
    - lia.
    - exists g', (fun _ => 0%R), (fun _ => 0%R). split; [exact HRm|]. split; [apply is_vector_repeat|]. split; [apply is_vector_repeat|]. intros l Hl. lia.
    - intros j [[X ei] col] _ Hj (xf & ef & cf & G1 & G2 & G3 & G4). cbv beta iota. apply wp_bind.
      eapply wp_conseq; [|apply (for_range_inv _ _ (fun i e => is_vector e n (fun k => if k <? i then (if Nat.eqb k j then 1%R else 0%R) else ef k)))].
      + intros e He. cbv beta in *. apply wp_bind. eapply (chol_solve_wp Rnum HF H HL n f S e col (fun i => if Nat.eqb i j then 1%R else 0%R)); eauto.
        { eapply is_vector_ext; [exact He|]. intros k Hk. cbv beta. rewrite (proj2 (Nat.ltb_lt k n)) by auto. auto. }
        intros x x'f Hx Hsol. apply wp_bind.
        eapply wp_conseq; [|apply (for_range_inv _ _ (fun i R => is_matrix R n n (fun r c => if Nat.eqb c j && (r <? i) then x'f r else xf r c)))].
        * intros X' HX'. cbv beta in *. apply wp_Ok. eexists. eexists. exists x'f. split; [exact HX'|]. split; [exact He|]. split; [exact Hx|].
          intros l Hl. apply solution_sym in Hsol; auto. cbv beta. destruct Hsol as [S1 S2]. destruct (Nat.eqb_spec l j) as [->|Hne]; simpl.
          -- split.
             ++ intros i Hi. rewrite <- S1 by auto. apply sum_ext. intros k Hk. rewrite (proj2 (Nat.ltb_lt k n)) by auto. auto.
             ++ intros y Hy i Hi. rewrite (proj2 (Nat.ltb_lt i n)) by auto. apply S2; auto.
          -- apply G4. lia.
        * lia.
        * eapply is_matrix_ext; [exact G1|]. intros; cbv beta. rewrite andb_false_r. auto.
        * intros i X1 _ Hi HX1. cbv beta in *. apply wp_bind. eapply vgetf_wp; eauto. eapply mset_wp; [exact HX1|lia|lia|]. intros X2 HX2.
          eapply is_matrix_ext; [exact HX2|]. intros r' c' Hr' Hc'. unfold fset. cbv beta.
          destruct (Nat.eqb_spec r' i) as [->|]; destruct (Nat.eqb_spec c' j); simpl; auto.
          -- destruct (Nat.ltb_spec i (i + 1)); auto; lia.
          -- destruct (Nat.ltb_spec r' i); destruct (Nat.ltb_spec r' (i + 1)); auto; lia.
      + lia.
      + eapply is_vector_ext; [exact G2|]. intros; cbv beta; auto.
      + intros i e _ Hi He. cbv beta in *. eapply vsetf_wp; eauto. intros e' He'. eapply is_vector_ext; [exact He'|].
        intros k Hk. unfold vfset. cbv beta. ltb. }
  destruct (chol_inverse Rnum S ainv) as [X|e| |]; simpl in W; try contradiction. destruct W as (xf & W1 & W2). exists X, xf.
  split; auto. split; auto. destruct HC as (_ & L & _ & HC).
  apply (right_inverse_two_sided Rnum HF).
  - intros x Hx i Hi. apply (chol_kernel Rnum HF H HL n f L x HC); auto. intros k Hk. rewrite <- (Hx k Hk). apply sum_ext. intros c' Hc'.
    f_equal. apply (sym_symf n f Hs k c'); auto.
  - intros i j Hi Hj. apply (proj1 (W2 j Hj)); auto.
Qed.

Lemma ln_prod : forall n (u : nat -> R), (forall i, i < n -> (0 < u i)%R) ->
  (0 < prodn Rnum n u)%R /\ ln (prodn Rnum n u) = sumn Rnum n (fun i => ln (u i)).
Proof.
  induction n as [|n IH]; intros u Hu; simpl.
  - split; [lra|]. apply ln_1.
  - destruct (IH u) as [P E]; [auto|]. simpl in P. split; [apply Rmult_lt_0_compat; auto|]. rewrite ln_mult by auto. rewrite E. auto.
Qed.

(** logdet() is the logarithm of the determinant (Laplace expansion), which is positive *)
Theorem C37_logdet : forall A n f S, is_matrix A n n f -> symmetric n f -> chol_ctor Rnum H A = Ok S ->
  (0 < det Rnum n f)%R /\ chol_logdet Rnum H S = Ok (ln (det Rnum n f)).
Proof.
  intros A n f S HA Hs HS. destruct (ctor_chol A n f S HA Hs HS) as (Hn & L & HLm & HC).
  assert (Ed : det Rnum n f = prodn Rnum n (fun i => L i i * L i i)%R).
  { change (det Rnum n f = prodn Rnum n (fun i => nmul Rnum (L i i) (L i i))). rewrite <- (chol_det Rnum HF H HL n f L HC). apply det_ext.
    intros i j Hi Hj. symmetry. apply (sym_symf n f Hs); auto. }
  assert (Hp : forall i, i < n -> (0 < L i i)%R) by (intros i Hi; apply (Rle0_false tol); apply HC; auto).
  destruct (ln_prod n (fun i => L i i * L i i)%R) as [P1 P2]; [intros i Hi; apply Rmult_lt_0_compat; auto|].
  rewrite Ed. split; auto. rewrite P2. unfold chol_logdet. rewrite Hn.
  assert (W : wp (for_range 0 n (fun s i => d <- mget (ch_l S) i i ;; Ok (nadd Rnum s (c_log H d))) (n0 Rnum))
                 (fun s => s = sumn Rnum n (fun i => ln (L i i)))).
  { apply (for_range_inv _ _ (fun i s => s = sumn Rnum i (fun i => ln (L i i)))).
    - lia.
    - auto.
    - intros i s _ Hi ->. cbv beta. apply wp_bind. eapply mget_wp; eauto. apply wp_Ok. rewrite Nat.add_1_r. auto. }
  destruct (for_range 0 n (fun s i => d <- mget (ch_l S) i i ;; Ok (nadd Rnum s (c_log H d))) (n0 Rnum)) as [s| | |]; simpl in W; try contradiction.
  subst s. simpl. f_equal. change (2 * sumn Rnum n (fun i => ln (L i i)) = sumn Rnum n (fun i => ln (L i i * L i i)))%R.
  clear - Hp. induction n as [|n IH]; simpl; [lra|]. rewrite <- IH by auto. rewrite ln_mult by auto. lra.
Qed.
End RealChol.

Print Assumptions C37_constructor.
Print Assumptions C37_factor.
Print Assumptions C37_solve.
Print Assumptions C37_bad_input.
Print Assumptions C37_inverse.
Print Assumptions C37_logdet.

(** ** The symmetry test has a tolerance: a matrix that is not symmetric is accepted and only its
    upper triangle is used, so L L^T need not be the matrix. *)
Lemma mat2 : forall a b c d : R, is_matrix (mkMat 2 2 [a; b; c; d]) 2 2 (fun i j => match i, j with 0, 0 => a | 0, _ => b | _, 0 => c | _, _ => d end).
Proof.
  intros a b c d. split; [auto|split; [auto|split; [auto|]]]. intros i j Hi Hj.
  destruct i as [|[|i]]; destruct j as [|[|j]]; try lia; reflexivity.
Qed.

Theorem C37_asymmetric_accepted_refuted : forall tol, (0 < tol)%R ->
  exists A f S L, is_matrix A 2 2 f /\ ~ symmetric 2 f /\ chol_ctor Rnum (Rchol tol) A = Ok S /\
    is_matrix (ch_l S) 2 2 L /\ ~ cholesky_factor 2 f L.
Proof.
  intros tol Ht. set (A := mkMat 2 2 [1%R; 0%R; tol; 1%R]). pose proof (mat2 1 0 tol 1) as HA. fold A in HA.
  set (f := fun i j => match i, j with 0, 0 => 1%R | 0, _ => 0%R | _, 0 => tol | _, _ => 1%R end) in *.
  assert (NS : ~ symmetric 2 f). { intros E. specialize (E 0 1). simpl in E. specialize (E ltac:(lia) ltac:(lia)). lra. }
  assert (W : wpt (chol_ctor Rnum (Rchol tol) A) (throws_at Rnum (Rchol tol) 2 f) (is_chol Rnum (Rchol tol) 2 f)).
  { apply chol_ctor_wpt; [apply Rnum_field|apply Rchol_laws|auto|lia|]. intros i j Hi Hj Hij. destruct i as [|i]; [|lia]. destruct j as [|[|j]]; try lia.
    simpl. rewrite Rminus_0_l, Rabs_Ropp, Rabs_right by lra. destruct (Rlt_dec tol tol); auto. lra. }
  destruct (chol_ctor Rnum (Rchol tol) A) as [S|e| |] eqn:E; simpl in W; try contradiction.
  - destruct W as (Hn & L & HLm & HC). exists A, f, S, L. split; auto. split; auto. split; auto. split; auto.
    intros (_ & _ & F). destruct HC as (_ & _ & G). pose proof (G 1 0) as G1. specialize (F 1 0). simpl in F, G1.
    specialize (G1 ltac:(lia) ltac:(lia)). specialize (F ltac:(lia) ltac:(lia)). lra.
  - exfalso. destruct W as (_ & i & a & Hi & HD & Hle).
    destruct (stop_quad Rnum Rnum_field (Rchol tol) (Rchol_laws tol) 2 f i a Hi HD) as (x & X1 & X2). apply Rle0_true in Hle. rewrite <- X2 in Hle.
    unfold quad, symf in Hle. simpl in Hle. destruct i as [|[|i]]; try lia; rewrite X1 in Hle; simpl in Hle; nra.
Qed.
Print Assumptions C37_asymmetric_accepted_refuted.

(** ** Non-vacuity: a symmetric positive definite matrix, and the computation over the rationals *)
Example C37_hypotheses : exists A f, is_matrix A 2 2 f /\ symmetric 2 f /\ positive_definite 2 f /\
  exists S, chol_ctor Rnum (Rchol 0) A = Ok S.
Proof.
  pose proof (mat2 4 2 2 5) as HA. eexists. eexists. split; [exact HA|].
  assert (Hs : symmetric 2 (fun i j => match i, j with 0, 0 => 4%R | 0, _ => 2%R | _, 0 => 2%R | _, _ => 5%R end)).
  { intros i j Hi Hj. destruct i as [|[|i]]; destruct j as [|[|j]]; try lia; auto. }
  split; auto.
  assert (PD : positive_definite 2 (fun i j => match i, j with 0, 0 => 4%R | 0, _ => 2%R | _, 0 => 2%R | _, _ => 5%R end)).
  { intros x (i & Hi & Hx). unfold quad. simpl.
    match goal with |- (0 < ?e)%R => replace e with ((2 * x 0%nat + x 1%nat) * (2 * x 0%nat + x 1%nat) + 4 * (x 1%nat * x 1%nat))%R by ring end.
    destruct (Req_dec (x 1%nat) 0) as [E|E].
    - destruct i as [|[|i]]; try lia; [|contradiction]. rewrite E. pose proof (Rsqr_pos_lt _ Hx) as P. unfold Rsqr in P. nra.
    - pose proof (Rsqr_pos_lt _ E) as P. unfold Rsqr in P. pose proof (Rle_0_sqr (2 * x 0%nat + x 1%nat)) as P2. unfold Rsqr in P2. lra. }
  split; auto. apply (C37_constructor 0 (Rle_refl 0) _ 2 _ HA); auto.
Qed.

(** rationals with the square root of perfect squares *)
Definition Qchol : cholops Qc :=
  mkCholOps Qc (fun x => negb (Qclt_b 0 x)) (fun x => Q2Qc (Z.sqrt (QArith_base.Qnum (this x)) # Pos.sqrt (Qden (this x)))) (fun x => x)
    (fun x y => Qclt_b 0 (Qcabs' (x - y))).
Example C37_example : exists S x, chol_ctor Num.Qnum Qchol (mkMat 2 2 (map qz [4; 2; 2; 5])%Z) = Ok S /\
  map this (m_data (ch_l S)) = [2 # 1; 0 # 1; 1 # 1; 2 # 1]%Q /\
  chol_solve Num.Qnum S (map qz [8; 8])%Z = Ok x /\ map this x = [3 # 2; 1 # 1]%Q.
Proof. eexists. eexists. split; [reflexivity|]. split; [reflexivity|]. split; reflexivity. Qed.
Example C37_not_pd : chol_ctor Num.Qnum Qchol (mkMat 2 2 (map qz [1; 2; 2; 1])%Z) = Throw SingularError.
Proof. reflexivity. Qed.
Example C37_not_symmetric : chol_ctor Num.Qnum Qchol (mkMat 2 2 (map qz [1; 2; 3; 1])%Z) = Throw DimensionError.
Proof. reflexivity. Qed.
