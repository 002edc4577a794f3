(** * Theorems about the QR decomposition *)
From Coq Require Import List Bool Arith ZArith Lia Reals Lra.
From Verif Require Import Base Num Det Mat_Model Mat_Proofs Mat_Props RootFind_Model RootFind_Proofs Gauss_Props LU_Props QR_Model QR_Math QR_Proofs.
Import ListNotations.
Local Open Scope R_scope.

(** ** Specification: f is the m x n matrix of real numbers given to the constructor *)
(** columns of length one, orthogonal to each other *)
Definition orthonormal (m n : nat) (q : nat -> nat -> R) : Prop :=
  forall j l, (j < n)%nat -> (l < n)%nat -> rsum m (fun i => q i j * q i l) = if Nat.eqb j l then 1 else 0.
(** squared length of A x - b *)
Definition sq_residual (m n : nat) (f : nat -> nat -> R) (b x : nat -> R) : R :=
  rsum m (fun i => (rsum n (fun j => f i j * x j) - b i) * (rsum n (fun j => f i j * x j) - b i)).
Definition nonzero (m n : nat) (f : nat -> nat -> R) : Prop := exists i j, (i < m)%nat /\ (j < n)%nat /\ f i j <> 0.

Lemma ctor_inv : forall a m n f Sv, is_matrix a m n f -> (0 < n)%nat -> qr_ctor Rarith a = Ok Sv -> (n <= m)%nat /\ exists w cf df, QRof m n f Sv w cf df.
Proof.
  intros a m n f Sv HA Hn E. assert (Hnm : (n <= m)%nat).
  { destruct (Nat.le_gt_cases n m) as [L|L]; auto. exfalso. unfold qr_ctor in E. destruct HA as (E1 & E2 & _). rewrite E1, E2 in E. rewrite (proj2 (Nat.ltb_lt m n) L) in E. discriminate. }
  split; auto. destruct (wp_ex _ _ _ (ctor_wp m n a f Hn Hnm HA)) as (S' & E' & H). rewrite E in E'. injection E' as <-. exact H.
Qed.
Lemma nz_pos : forall m n f, nonzero m n f -> (0 < n)%nat. Proof. intros m n f (i & j & _ & H & _). lia. Qed.

(** The constructor accepts every matrix with at least as many rows as columns, and rejects a wider one *)
Theorem C82_constructed : forall a m n f, is_matrix a m n f -> (0 < n)%nat ->
  ((n <= m)%nat -> exists Sv, qr_ctor Rarith a = Ok Sv) /\ ((m < n)%nat -> qr_ctor Rarith a = Throw DimensionError).
Proof.
  intros a m n f HA Hn. split.
  - intros Hnm. destruct (wp_ex _ _ _ (ctor_wp m n a f Hn Hnm HA)) as (S' & E' & _). exists S'. auto.
  - intros L. unfold qr_ctor. destruct HA as (-> & -> & _). rewrite (proj2 (Nat.ltb_lt m n) L). reflexivity.
Qed.
Print Assumptions C82_constructed.

Lemma GetR_wp : forall m n f Sv w cf df, QRof m n f Sv w cf df -> (n <= m)%nat -> dims_ok n n -> wp (qr_GetR Rarith Sv) (fun Rm => is_matrix Rm n n (Rf w df)).
Proof.
  intros m n f Sv w cf df HS Hnm HD. destruct HS as [E1 E2 HM Hc Hd _ _ _ _]. unfold qr_GetR. rewrite E2. apply wp_bind. unfold mat_new. destruct (Z.ltb_spec (Z.of_nat n) 0); [lia|]. cbn [orb]. rewrite !Nat2Z.id.
  apply alloc_ok_wp; [auto|]. intros R0 HR0.
  eapply (fill_wp (fun i j => if (i <=? j)%nat then (if Nat.eqb i j then vget (q_d Sv) i else mget (q_QR Sv) i j) else Ok (alit Rarith 0))); [exact HR0| |intros R' H'; exact H'].
  intros i j Hi Hj. unfold Rf. destruct (Nat.leb_spec i j), (Nat.eqb_spec i j), (Nat.ltb_spec i j); try lia; subst.
  - eapply vgetf_wp; [exact Hd|auto|reflexivity].
  - eapply mget_wp; [exact HM|lia|auto|reflexivity].
  - apply wp_Ok. reflexivity.
Qed.
Definition unitv (j i : nat) : R := if Nat.eqb i j then 1 else 0.
Lemma GetQ_wp : forall m n f Sv w cf df, QRof m n f Sv w cf df -> (n <= m)%nat -> dims_ok m n -> wp (qr_GetQ Rarith Sv) (fun Qx => is_matrix Qx m n (fun i j => Qm m (vcol w) cf (ncols m n) (unitv j) i)).
Proof.
  intros m n f Sv w cf df HS Hnm HD. pose proof HS as [E1 E2 HM Hc Hd _ _ _ _]. unfold qr_GetQ. rewrite E1, E2. apply wp_bind. unfold mat_new. destruct (Z.ltb_spec (Z.of_nat m) 0); [lia|]. destruct (Z.ltb_spec (Z.of_nat n) 0); [lia|]. cbn [orb]. rewrite !Nat2Z.id.
  apply alloc_ok_wp; [auto|]. intros Q0 HQ0. apply wp_bind.
  eapply (fill_wp (fun i j => Ok (if Nat.eqb i j then alit Rarith 1 else alit Rarith 0)) _ m n _ (fun i j => unitv j i)); [exact HQ0|intros; apply wp_Ok; reflexivity|]. intros Q1 HQ1.
  eapply wp_conseq; [|apply (for_down_inv _ _ (fun k Qx => exists qf, is_matrix Qx m n qf /\ forall i j, (i < m)%nat -> (j < n)%nat -> Qm m (vcol w) cf k (fun i => qf i j) i = Qm m (vcol w) cf n (unitv j) i)); [lia|exists (fun i j => unitv j i); auto|]].
  - intros Qx (qf & H1 & H2). eapply is_matrix_ext; [exact H1|]. intros i j Hi Hj. cbv beta. rewrite <- (Qm_n m n f Sv w cf df HS Hnm). rewrite <- H2 by auto. reflexivity.
  - intros k Qx _ Hk (qf & H1 & H2). apply wp_bind. eapply vgetf_wp; [exact Hc|auto|]. change (alit Rarith 0) with 0.
    assert (G : forall i j, (i < m)%nat -> (j < n)%nat -> Qm m (vcol w) cf k (house m (vcol w k) (cf k) (fun i => qf i j)) i = Qm m (vcol w) cf n (unitv j) i) by (intros i j Hi Hj; rewrite <- H2 by auto; rewrite Nat.add_1_r; reflexivity).
    destruct (Raeqb (cf k) 0) as [Z|Z]; cbn [negb].
    + apply wp_Ok. exists qf. split; auto. intros i j Hi Hj. rewrite <- G by auto. apply Qm_ext'. intros l. unfold house. destruct (Req_EM_T (cf k) 0); [auto|contradiction].
    + eapply wp_conseq; [|apply (for_range_inv _ _ (fun j Qx => is_matrix Qx m n (fun a b => if (b <? j)%nat then house m (vcol w k) (cf k) (fun i => qf i b) a else qf a b))); [lia|auto|]].
      * intros Q2 HQ2. eexists. split; [exact HQ2|]. intros i j Hi Hj. rewrite <- G by auto. cbv beta. rewrite (proj2 (Nat.ltb_lt j n) Hj). reflexivity.
      * intros j Q2 _ Hj HQ2. cbv beta in HQ2. apply wp_bind. eapply wp_conseq; [|eapply qr_dot_wp; [exact HM|exact HQ2|auto|auto|lia]]. intros s ->. cbv beta zeta. rewrite Nat.ltb_irrefl.
        eapply wp_conseq; [|apply (update_wp m k n n (fun _ => q_QR Sv) Q2 w _ j (dot m (vcol w k) (fun i => qf i j) / cf k) HQ2 Hk Hj ltac:(lia))].
        -- intros Q3 HQ3. eapply is_matrix_ext; [exact HQ3|]. intros a b Ha Hb. cbv beta. rewrite Nat.ltb_irrefl. destruct (Nat.eqb_spec b j) as [->|]; [|destruct (Nat.ltb_spec b j), (Nat.ltb_spec b (j + 1)); auto; lia].
           destruct (Nat.ltb_spec j (j + 1)); [|lia]. unfold house. destruct (Req_EM_T (cf k) 0); [contradiction|]. reflexivity.
        -- intros M' x' HM' _ i Hi Q HQ. eapply mget_wp; [exact HM|auto|auto|exact HQ].
Qed.
Lemma unit_dot : forall m j l, (j < m)%nat -> dot m (unitv j) (unitv l) = if Nat.eqb j l then 1 else 0.
Proof. intros m j l Hj. unfold dot. rewrite (rsum_one m j) by (first [assumption | intros i _ N; unfold unitv; destruct (Nat.eqb_spec i j); [contradiction|ring]]). unfold unitv. rewrite Nat.eqb_refl. ring. Qed.

(** GetQ and GetR of a matrix that is not flagged singular: A = Q R, Q has orthonormal columns, R is upper triangular with a nonzero diagonal *)
Theorem C82_factor : forall a m n f Sv, is_matrix a m n f -> nonzero m n f -> dims_ok m n -> qr_ctor Rarith a = Ok Sv -> q_sing Sv = false ->
  exists Qx Rx qf rf, qr_GetQ Rarith Sv = Ok Qx /\ qr_GetR Rarith Sv = Ok Rx /\ is_matrix Qx m n qf /\ is_matrix Rx n n rf /\ orthonormal m n qf /\
    (forall i l, (i < m)%nat -> (l < n)%nat -> rsum n (fun j => qf i j * rf j l) = f i l) /\
    (forall i j, (j < i)%nat -> (i < n)%nat -> rf i j = 0) /\ (forall i, (i < n)%nat -> rf i i <> 0).
Proof.
  intros a m n f Sv HA Hz Hdim E Hs. destruct (ctor_inv a m n f Sv HA (nz_pos _ _ _ Hz) E) as (Hnm & w & cf & df & HS). pose proof (qo_done _ _ _ _ _ _ _ HS Hs) as (_ & _ & HD & D). specialize (HD Hz). pose proof (qo_ok _ _ _ _ _ _ _ HS) as OK.
  assert (Hdim' : dims_ok n n). { destruct Hdim as ((F1 & F2 & F3) & _). split; [|lia]. unfold dims_fit. assert (Z.of_nat n <= Z.of_nat m)%Z by lia. repeat split; nia. }
  destruct (wp_ex _ _ _ (GetQ_wp m n f Sv w cf df HS Hnm Hdim)) as (Qx & EQ & HQ). destruct (wp_ex _ _ _ (GetR_wp m n f Sv w cf df HS Hnm Hdim')) as (Rx & ER & HR).
  exists Qx, Rx. do 2 eexists. split; [auto|]. split; [auto|]. split; [exact HQ|]. split; [exact HR|]. split; [|split; [|split]].
  - intros j l Hj Hl. cbv beta. change (dot m (Qm m (vcol w) cf (ncols m n) (unitv j)) (Qm m (vcol w) cf (ncols m n) (unitv l)) = if Nat.eqb j l then 1 else 0). rewrite Qm_dot by auto. apply unit_dot. lia.
  - intros i l Hi Hl. cbv beta. transitivity (rsum n (fun j => Rf w df j l * Qm m (vcol w) cf (ncols m n) (unitv j) i)); [apply rsum_ext; intros; ring|].
    rewrite <- (Qm_sum m (vcol w) cf (ncols m n) n (fun j => Rf w df j l) unitv i). rewrite <- (Qm_Qt m (vcol w) cf (ncols m n) (fun i => f i l) i OK). apply Qm_ext; auto. intros p Hp. rewrite D by auto.
    destruct (Nat.lt_ge_cases p n) as [L|L].
    + rewrite (rsum_one n p) by (first [assumption | intros j _ N; unfold unitv; destruct (Nat.eqb_spec p j); [congruence|ring]]). unfold unitv. rewrite Nat.eqb_refl. ring.
    + rewrite rsum_zero by (intros j Hj; unfold unitv; destruct (Nat.eqb_spec p j); [lia|ring]). unfold Rf. nb.
  - intros i j Hji Hi. unfold Rf. nb.
  - intros i Hi. unfold Rf. rewrite Nat.ltb_irrefl, Nat.eqb_refl. auto.
Qed.
Print Assumptions C82_factor.

(** Also for a matrix flagged singular: Q has orthonormal columns, and QMultiply and QtMultiply keep lengths and angles and undo each other *)
Theorem C82_orthogonal : forall a m n f Sv, is_matrix a m n f -> (0 < n)%nat -> dims_ok m n -> qr_ctor Rarith a = Ok Sv ->
  (exists Qx qf, qr_GetQ Rarith Sv = Ok Qx /\ is_matrix Qx m n qf /\ orthonormal m n qf) /\
  (forall x y xf yf o1 o2, is_vector x m xf -> is_vector y m yf ->
    exists tx ty txf tyf qx qy qxf qyf, qr_QtMultiply Rarith Sv x o1 = Ok tx /\ qr_QtMultiply Rarith Sv y o1 = Ok ty /\ is_vector tx m txf /\ is_vector ty m tyf /\
      qr_QMultiply Rarith Sv x o2 = Ok qx /\ qr_QMultiply Rarith Sv y o2 = Ok qy /\ is_vector qx m qxf /\ is_vector qy m qyf /\
      rsum m (fun i => txf i * tyf i) = rsum m (fun i => xf i * yf i) /\ rsum m (fun i => qxf i * qyf i) = rsum m (fun i => xf i * yf i) /\
      qr_QMultiply Rarith Sv tx o2 = Ok x /\ qr_QtMultiply Rarith Sv qx o1 = Ok x).
Proof.
  intros a m n f Sv HA Hn Hdim E. destruct (ctor_inv a m n f Sv HA Hn E) as (Hnm & w & cf & df & HS). pose proof (qo_ok _ _ _ _ _ _ _ HS) as OK. split.
  - destruct (wp_ex _ _ _ (GetQ_wp m n f Sv w cf df HS Hnm Hdim)) as (Qx & EQ & HQ). do 2 eexists. split; [exact EQ|]. split; [exact HQ|]. intros j l Hj Hl. cbv beta.
    change (dot m (Qm m (vcol w) cf (ncols m n) (unitv j)) (Qm m (vcol w) cf (ncols m n) (unitv l)) = if Nat.eqb j l then 1 else 0). rewrite Qm_dot by auto. apply unit_dot. lia.
  - intros x y xf yf o1 o2 Hx Hy.
    destruct (wp_ex _ _ _ (Qt_wp m n f Sv w cf df HS Hnm x xf o1 Hx)) as (tx & Etx & Htx). destruct (wp_ex _ _ _ (Qt_wp m n f Sv w cf df HS Hnm y yf o1 Hy)) as (ty & Ety & Hty).
    destruct (wp_ex _ _ _ (Qm_wp m n f Sv w cf df HS Hnm x xf o2 Hx)) as (qx & Eqx & Hqx). destruct (wp_ex _ _ _ (Qm_wp m n f Sv w cf df HS Hnm y yf o2 Hy)) as (qy & Eqy & Hqy).
    exists tx, ty. do 2 eexists. exists qx, qy. do 2 eexists. split; [auto|]. split; [auto|]. split; [exact Htx|]. split; [exact Hty|]. split; [auto|]. split; [auto|]. split; [exact Hqx|]. split; [exact Hqy|].
    split; [apply (Qt_dot m (vcol w) cf (ncols m n) xf yf OK)|]. split; [apply (Qm_dot m (vcol w) cf (ncols m n) xf yf OK)|].
    assert (EX : forall (u z : list R) g, is_vector u m g -> is_vector z m xf -> (forall i, (i < m)%nat -> g i = xf i) -> u = z).
    { intros u z g (L1 & U1) (L2 & U2) EG. apply nth_ext_error. intros i. destruct (Nat.lt_ge_cases i m) as [L|L]; [rewrite U1, U2, EG by auto; auto|]. rewrite (proj2 (nth_error_None u i)) by lia. rewrite (proj2 (nth_error_None z i)) by lia. auto. }
    split.
    + destruct (wp_ex _ _ _ (Qm_wp m n f Sv w cf df HS Hnm tx _ o2 Htx)) as (z & Ez & Hz). rewrite Ez. f_equal. apply (EX _ _ _ Hz Hx). intros i Hi. apply (Qm_Qt m (vcol w) cf (ncols m n) xf i OK).
    + destruct (wp_ex _ _ _ (Qt_wp m n f Sv w cf df HS Hnm qx _ o1 Hqx)) as (z & Ez & Hz). rewrite Ez. f_equal. apply (EX _ _ _ Hz Hx). intros i Hi. apply (Qt_Qm m (vcol w) cf (ncols m n) xf i OK).
Qed.
Print Assumptions C82_orthogonal.

(** Solve: the unique solution of A x = b (square matrix not flagged singular) *)
Theorem C82_solve : forall a n f Sv b bf o, is_matrix a n n f -> nonzero n n f -> qr_ctor Rarith a = Ok Sv -> q_sing Sv = false -> is_vector b n bf ->
  exists x xf, qr_Solve Rarith Sv b = Ok x /\ qr_Solve_into Rarith Sv b o = Ok x /\ is_vector x n xf /\ solution Rnum n f bf xf.
Proof.
  intros a n f Sv b bf o HA Hz E Hs Hb. destruct (ctor_inv a n n f Sv HA (nz_pos _ _ _ Hz) E) as (Hnm & w & cf & df & HS).
  assert (SOL : forall xf, (forall i, (i < n)%nat -> rsum n (fun j => f i j * xf j) = bf i) -> solution Rnum n f bf xf).
  { intros xf Hx. split; [exact Hx|]. intros y Hy i Hi. assert (K : y i - xf i = 0); [|lra]. apply (A_kernel n n f Sv w cf df HS Hnm Hs Hz (fun i => y i - xf i)); auto. intros l Hl.
    transitivity (rsum n (fun j => f l j * y j) - rsum n (fun j => f l j * xf j)); [rewrite <- rsum_sub; apply rsum_ext; intros; ring|]. rewrite Hx by auto. cbn [Rnum nmul] in Hy. rewrite Hy by auto. ring. }
  unfold qr_Solve.
  destruct (wp_ex _ _ _ (solve_into_wp n n f Sv w cf df HS Hnm b (repeat (alit Rarith 0) (q_n Sv)) bf eq_refl Hs Hz Hb)) as (x & Ex & xf & Hx & Hxf).
  destruct (wp_ex _ _ _ (solve_into_wp n n f Sv w cf df HS Hnm b o bf eq_refl Hs Hz Hb)) as (y & Ey & yf & Hy & Hyf).
  exists x, xf. split; [auto|]. split; [|split; auto]. rewrite Ey. f_equal. apply nth_ext_error. intros i. destruct Hx as (L1 & X1), Hy as (L2 & Y1). destruct (Nat.lt_ge_cases i n) as [L|L].
  - rewrite X1, Y1 by auto. f_equal. apply (proj2 (SOL xf Hxf) yf Hyf). auto.
  - rewrite (proj2 (nth_error_None y i)) by lia. rewrite (proj2 (nth_error_None x i)) by lia. auto.
Qed.
Print Assumptions C82_solve.

Lemma dot_split : forall m n (g : nat -> R), (n <= m)%nat -> rsum m g = rsum n g + rsum m (fun i => if (i <? n)%nat then 0 else g i).
Proof.
  intros m n g Hnm. induction m as [|m IH]; [replace n with 0%nat by lia; cbn; ring|]. destruct (Nat.eq_dec n (S m)) as [->|N].
  - rewrite (rsum_zero (S m) (fun i => if (i <? S m)%nat then 0 else g i)) by (intros i Hi; nb). ring.
  - cbn [sumn Rnum nadd]. rewrite IH by lia. replace (m <? n)%nat with false by (symmetry; apply Nat.ltb_ge; lia). ring.
Qed.
(** LeastSquaresSolve: no x gives a smaller |A x - b|, and only this x gives the smallest (matrix not flagged singular, any m >= n) *)
Theorem C82_least_squares : forall a m n f Sv b bf, is_matrix a m n f -> nonzero m n f -> qr_ctor Rarith a = Ok Sv -> q_sing Sv = false -> is_vector b m bf ->
  exists x xf, qr_LeastSquaresSolve Rarith Sv b = Ok x /\ is_vector x n xf /\
    forall y, sq_residual m n f bf xf <= sq_residual m n f bf y /\ (sq_residual m n f bf y = sq_residual m n f bf xf -> forall j, (j < n)%nat -> y j = xf j).
Proof.
  intros a m n f Sv b bf HA Hz E Hs Hb. destruct (ctor_inv a m n f Sv HA (nz_pos _ _ _ Hz) E) as (Hnm & w & cf & df & HS). pose proof (qo_done _ _ _ _ _ _ _ HS Hs) as (_ & _ & HD & D). specialize (HD Hz).
  set (t := Qt m (vcol w) cf (ncols m n) bf). set (rest := rsum m (fun i => if (i <? n)%nat then 0 else t i * t i)).
  assert (RES : forall y, sq_residual m n f bf y = dot n (fun i => rsum n (fun j => Rf w df i j * y j) - t i) (fun i => rsum n (fun j => Rf w df i j * y j) - t i) + rest).
  { intros y. transitivity (dot m (fun i => rsum n (fun j => f i j * y j) - bf i) (fun i => rsum n (fun j => f i j * y j) - bf i)); [reflexivity|]. rewrite (residual m n f Sv w cf df HS Hs bf y). fold t. unfold dot at 1. rewrite (dot_split m n) by auto. f_equal. apply rsum_ext. intros i Hi. destruct (Nat.ltb_spec i n); auto. rewrite (Rf_low m n w df Hnm) by auto. ring. }
  assert (W : wp (qr_LeastSquaresSolve Rarith Sv b) (fun x => exists xf, is_vector x n xf /\ forall i, (i < n)%nat -> rsum n (fun j => Rf w df i j * xf j) = t i)).
  { unfold qr_LeastSquaresSolve. rewrite (qo_m _ _ _ _ _ _ _ HS), (qo_n _ _ _ _ _ _ _ HS), (proj1 Hb), Nat.eqb_refl, Hs. cbn [negb]. apply wp_bind. eapply wp_conseq; [|eapply (Qt_wp m n f Sv w cf df HS Hnm); exact Hb]. intros y Hy. fold t in Hy.
    apply wp_bind. destruct (resize_is m n Hnm (repeat (alit Rarith 0) n) n) as (g & Hg). eapply wp_conseq; [|eapply (copy_wp m n Hnm); [exact Hy|exact Hg|lia]]. intros z Hz'. exact (RSolve_wp m n f Sv w cf df HS Hnm z z _ Hs HD Hz'). }
  destruct (wp_ex _ _ _ W) as (x & Ex & xf & Hx & Hxf). exists x, xf. split; [auto|]. split; [auto|].
  assert (Z : dot n (fun i => rsum n (fun j => Rf w df i j * xf j) - t i) (fun i => rsum n (fun j => Rf w df i j * xf j) - t i) = 0) by (apply rsum_zero; intros i Hi; rewrite Hxf by auto; ring).
  intros y. rewrite !RES, Z. split; [pose proof (dot_self_pos n (fun i => rsum n (fun j => Rf w df i j * y j) - t i)); lra|]. intros EQ j Hj.
  assert (Z' : dot n (fun i => rsum n (fun j => Rf w df i j * y j) - t i) (fun i => rsum n (fun j => Rf w df i j * y j) - t i) = 0) by lra. pose proof (dot_self_zero n _ Z') as ZZ. cbv beta in ZZ.
  assert (K : y j - xf j = 0); [|lra]. apply (R_kernel m n w df Hnm HD (fun j => y j - xf j)); auto. intros i Hi.
  transitivity (rsum n (fun j => Rf w df i j * y j) - rsum n (fun j => Rf w df i j * xf j)); [rewrite <- rsum_sub; apply rsum_ext; intros; ring|]. rewrite Hxf by auto. apply ZZ. auto.
Qed.
Print Assumptions C82_least_squares.

Lemma prod_loop : forall n (d : list R) df, is_vector d n df -> wp (for_range 0 n (fun dd i => x <- vget d i ;; Ok (nmul (aops Rarith) dd x)) (alit Rarith 1)) (fun p => p = prodn Rnum n df).
Proof.
  intros n d df Hd. apply (for_range_inv _ _ (fun k p => p = prodn Rnum k df)); [lia|reflexivity|]. intros i p _ Hi ->. apply wp_bind. eapply vgetf_wp; [exact Hd|auto|]. apply wp_Ok. rewrite Nat.add_1_r. reflexivity.
Qed.
(** det(): the determinant (Laplace expansion) of a square matrix, 0 when it is flagged singular *)
Theorem C82_determinant : forall a n f Sv, is_matrix a n n f -> nonzero n n f -> qr_ctor Rarith a = Ok Sv ->
  qr_det Rarith Sv = Ok (if q_sing Sv then 0 else det Rnum n f) /\ (q_sing Sv = false -> det Rnum n f <> 0).
Proof.
  intros a n f Sv HA Hz E. destruct (ctor_inv a n n f Sv HA (nz_pos _ _ _ Hz) E) as (Hnm & w & cf & df & HS). destruct (q_sing Sv) eqn:Hs.
  { split; [|discriminate]. unfold qr_det. rewrite (qo_m _ _ _ _ _ _ _ HS), (qo_n _ _ _ _ _ _ _ HS), Nat.eqb_refl, Hs. reflexivity. }
  pose proof (qo_done _ _ _ _ _ _ _ HS Hs) as (Er & C & HD & D). specialize (HD Hz). pose proof (qo_ok _ _ _ _ _ _ _ HS) as OK.
  assert (DK : forall k, (k <= ncols n n)%nat -> det Rnum n (fun i j => Qt n (vcol w) cf k (fun i => f i j) i) = (if Nat.eqb (Nat.modulo k 2) 1 then - det Rnum n f else det Rnum n f)).
  { induction k as [|k IH]; intros Hk; [reflexivity|]. cbn [Qt]. etransitivity; [apply (det_house n (vcol w k) (cf k) (fun i j => Qt n (vcol w) cf k (fun i => f i j) i)); [apply C; lia|apply OK; lia]|]. rewrite IH by lia.
    pose proof (Nat.mod_upper_bound k 2 ltac:(lia)). assert (M2 : (S k mod 2 = if Nat.eqb (k mod 2) 1 then 0 else 1)%nat).
    { replace (S k) with (1 + k)%nat by lia. rewrite <- Nat.add_mod_idemp_r by lia. destruct (Nat.eqb_spec (k mod 2) 1) as [->|]; [reflexivity|]. replace (k mod 2)%nat with 0%nat by lia. reflexivity. }
    rewrite M2. destruct (Nat.eqb (k mod 2) 1); cbn [Nat.eqb]; ring. }
  specialize (DK (ncols n n) (le_n _)). assert (UP : det Rnum n (fun i j => Qt n (vcol w) cf (ncols n n) (fun i => f i j) i) = prodn Rnum n df).
  { rewrite (det_ext Rnum n _ (Rf w df)) by (intros i j Hi Hj; apply D; auto). rewrite (det_upper Rnum Rring) by (intros i j Hi Hj; unfold Rf; nb).
    assert (G : forall p, prodn Rnum p (fun i => Rf w df i i) = prodn Rnum p df). { induction p as [|p IHp]; auto. cbn [prodn]. rewrite IHp. f_equal. unfold Rf. rewrite Nat.ltb_irrefl, Nat.eqb_refl. auto. } apply G. }
  rewrite UP in DK. split.
  - unfold qr_det. rewrite (qo_m _ _ _ _ _ _ _ HS), (qo_n _ _ _ _ _ _ _ HS), Nat.eqb_refl, Hs. cbn [negb]. destruct (wp_ex _ _ _ (prod_loop n (q_d Sv) df (qo_d _ _ _ _ _ _ _ HS))) as (p & Ep & ->). rewrite Ep. cbn [bind]. rewrite Er, DK.
    destruct (Nat.eqb (ncols n n mod 2) 1); f_equal. cbn [Rarith aops Rnum nopp]. ring.
  - intros _ Z. assert (P : prodn Rnum n df <> 0).
    { clear - HD. assert (G : forall p, (p <= n)%nat -> prodn Rnum p df <> 0); [|apply G; lia]. induction p as [|p IH]; intros Hp; cbn [prodn Rnum n1 nmul]; [lra|]. apply Rmult_integral_contrapositive_currified; [apply IH; lia|apply HD; lia]. }
    apply P. rewrite DK, Z. destruct (Nat.eqb (ncols n n mod 2) 1); ring.
Qed.
Print Assumptions C82_determinant.

(** inverse(ainv): the two-sided inverse, whatever the output matrix held *)
Theorem C82_inverse : forall a n f Sv ainv r c g, is_matrix a n n f -> nonzero n n f -> qr_ctor Rarith a = Ok Sv -> q_sing Sv = false ->
  is_matrix ainv r c g -> dims_fit n n -> exists X xf, qr_inverse Rarith Sv ainv = Ok X /\ is_matrix X n n xf /\ inverse_of Rnum n f xf.
Proof.
  intros a n f Sv ainv r c g HA Hz E Hs HV Hd. pose proof (nz_pos _ _ _ Hz) as Hn0. destruct (ctor_inv a n n f Sv HA Hn0 E) as (Hnm & w & cf & df & HS).
  assert (W : wp (qr_inverse Rarith Sv ainv) (fun X => exists xf, is_matrix X n n xf /\ forall l, (l < n)%nat -> forall i, (i < n)%nat -> rsum n (fun j => f i j * xf j l) = if Nat.eqb i l then 1 else 0)).
  { unfold qr_inverse. rewrite (qo_m _ _ _ _ _ _ _ HS), (qo_n _ _ _ _ _ _ _ HS), Nat.eqb_refl, Hs. cbn [negb]. apply wp_bind. eapply wp_conseq; [|eapply (resize_square_wp Rnum n ainv r c g); eauto]. intros R0 (g' & HRm). apply wp_bind.
    eapply wp_conseq; [|apply (for_range_inv _ _ (fun j '(R0, ei, col) => exists xf ef, is_matrix R0 n n xf /\ is_vector ei n ef /\ forall l, (l < j)%nat -> forall i, (i < n)%nat -> rsum n (fun j => f i j * xf j l) = if Nat.eqb i l then 1 else 0)); [lia| |]].
    - intros [[X ei] col] (xf & ef & G1 & _ & G2). apply wp_Ok. exists xf. auto.
    - exists g', (fun _ => 0). split; [exact HRm|]. split; [apply is_vector_repeat|]. intros l Hl. lia.
    - intros j [[X ei] col] _ Hj (xf & ef & G1 & G2 & G4). cbv beta iota. apply wp_bind.
      eapply wp_conseq; [|apply (vfill_wp (fun i => Ok (if Nat.eqb i j then alit Rarith 1 else alit Rarith 0)) ei n ef (fun i => if Nat.eqb i j then 1 else 0)); [exact G2|intros i Hi; apply wp_Ok; reflexivity|intros v' Hv'; exact Hv']].
      intros e He. apply wp_bind. eapply wp_conseq; [|exact (solve_into_wp n n f Sv w cf df HS Hnm e col _ eq_refl Hs Hz He)]. intros x (x'f & Hx & Hsol). cbv beta in Hsol. apply wp_bind.
      eapply wp_conseq; [|apply (for_range_inv _ _ (fun i R0 => is_matrix R0 n n (fun r c => if (Nat.eqb c j && (r <? i)%nat)%bool then x'f r else xf r c))); [lia| |]].
      + intros X' HX'. cbv beta in *. apply wp_Ok. eexists. eexists. split; [exact HX'|]. split; [exact He|]. intros l Hl i Hi. cbv beta. destruct (Nat.eqb_spec l j) as [->|Hne]; cbn [andb].
        * rewrite <- Hsol by auto. apply rsum_ext. intros k Hk. rewrite (proj2 (Nat.ltb_lt k n)) by auto. auto.
        * apply G4; auto. lia.
      + eapply is_matrix_ext; [exact G1|]. intros; cbv beta. rewrite andb_false_r. auto.
      + intros i X1 _ Hi HX1. cbv beta in *. apply wp_bind. eapply vgetf_wp; eauto. eapply mset_wp; [exact HX1|lia|lia|]. intros X2 HX2.
        eapply is_matrix_ext; [exact HX2|]. intros r' c' Hr' Hc'. unfold fset. cbv beta. destruct (Nat.eqb_spec r' i) as [->|]; destruct (Nat.eqb_spec c' j); cbn [andb]; auto.
        * destruct (Nat.ltb_spec i (i + 1)); auto; lia.
        * destruct (Nat.ltb_spec r' i); destruct (Nat.ltb_spec r' (i + 1)); auto; lia. }
  destruct (wp_ex _ _ _ W) as (X & EX & xf & W1 & W2). exists X, xf. split; auto. split; auto. apply (right_inverse_two_sided Rnum Rnum_field).
  - intros x Hx. apply (A_kernel n n f Sv w cf df HS Hnm Hs Hz x). exact Hx.
  - intros i j Hi Hj. apply W2; auto.
Qed.
Print Assumptions C82_inverse.

(** A nonzero matrix with dependent columns is flagged singular; a flagged matrix sends a vector with a coordinate 1 to one of length at most
    sqrt m times the larger of eps and eps B n, where B bounds the magnitudes of the entries (eps = 2^-52) *)
Theorem C82_singular : forall a m n f Sv, is_matrix a m n f -> nonzero m n f -> qr_ctor Rarith a = Ok Sv ->
  ((exists x k, (k < n)%nat /\ x k <> 0 /\ forall i, (i < m)%nat -> rsum n (fun j => f i j * x j) = 0) -> q_sing Sv = true) /\
  (q_sing Sv = true -> forall B, (forall i j, (i < m)%nat -> (j < n)%nat -> Rabs (f i j) <= B) ->
     exists x k, (k < n)%nat /\ x k = 1 /\ let t := Rmax (/ 2 ^ 52) (/ 2 ^ 52 * B * INR n) in sq_residual m n f (fun _ => 0) x <= INR m * (t * t)).
Proof.
  intros a m n f Sv HA Hz E. destruct (ctor_inv a m n f Sv HA (nz_pos _ _ _ Hz) E) as (Hnm & w & cf & df & HS). split.
  - intros (x & k & Hk & Nx & H). destruct (q_sing Sv) eqn:Hs; auto. exfalso. apply Nx. apply (A_kernel m n f Sv w cf df HS Hnm Hs Hz x); auto.
  - intros Hs B HB. destruct (qo_sing _ _ _ _ _ _ _ HS Hs B HB) as (x & k & Hk & Ek & L). exists x, k. split; auto. split; auto. cbv zeta.
    assert (Ee : / 2 ^ 52 = eps). { unfold eps, qr_eps. cbn [Rarith alit aops Rnum ndiv]. change (2 ^ 52)%Z with (2 ^ Z.of_nat 52)%Z. rewrite <- pow_IZR. unfold Rdiv. ring. }
    rewrite Ee. unfold sq_residual. eapply Rle_trans; [|exact L]. right. unfold dot. apply rsum_ext. intros i Hi. ring.
Qed.
Print Assumptions C82_singular.

(** The errors: wrong lengths, a matrix that is not square, a matrix flagged singular *)
Theorem C82_errors : forall a m n f Sv b o ainv, is_matrix a m n f -> (0 < n)%nat -> qr_ctor Rarith a = Ok Sv ->
  (length b <> m -> qr_QtMultiply Rarith Sv b o = Throw DimensionError /\ qr_QMultiply Rarith Sv b o = Throw DimensionError /\ qr_LeastSquaresSolve Rarith Sv b = Throw DimensionError /\ qr_Solve Rarith Sv b = Throw DimensionError) /\
  (length b <> n -> qr_RSolve Rarith Sv b o = Throw DimensionError) /\
  (m <> n -> qr_Solve Rarith Sv b = Throw DimensionError /\ qr_det Rarith Sv = Throw DimensionError /\ qr_inverse Rarith Sv ainv = Throw DimensionError) /\
  (q_sing Sv = true -> (length b = m -> qr_LeastSquaresSolve Rarith Sv b = Throw SingularError) /\ (m = n -> length b = m -> qr_Solve Rarith Sv b = Throw SingularError) /\
     (length b = n -> qr_RSolve Rarith Sv b o = Throw SingularError) /\ (m = n -> qr_inverse Rarith Sv ainv = Throw SingularError)).
Proof.
  intros a m n f Sv b o ainv HA Hn E. destruct (ctor_inv a m n f Sv HA Hn E) as (Hnm & w & cf & df & HS). pose proof (qo_m _ _ _ _ _ _ _ HS) as Em. pose proof (qo_n _ _ _ _ _ _ _ HS) as En.
  unfold qr_QtMultiply, qr_QMultiply, qr_LeastSquaresSolve, qr_Solve, qr_Solve_into, qr_RSolve, qr_det, qr_inverse. rewrite Em, En. split; [|split; [|split]].
  - intros Hb. rewrite (proj2 (Nat.eqb_neq (length b) m) Hb). cbn [negb]. repeat split; auto. destruct (Nat.eqb m n); reflexivity.
  - intros Hb. rewrite (proj2 (Nat.eqb_neq (length b) n) Hb). reflexivity.
  - intros Hb. rewrite (proj2 (Nat.eqb_neq m n) Hb). auto.
  - intros Hs. rewrite Hs. repeat split.
    + intros Hb. rewrite Hb, Nat.eqb_refl. reflexivity.
    + intros Hmn Hb. rewrite Hb, Nat.eqb_refl. rewrite (proj2 (Nat.eqb_eq m n) Hmn). reflexivity.
    + intros Hb. rewrite Hb, Nat.eqb_refl. reflexivity.
    + intros Hmn. rewrite (proj2 (Nat.eqb_eq m n) Hmn). reflexivity.
Qed.
Print Assumptions C82_errors.

(** ** The threshold for a column is absolute: a matrix with small entries is flagged *)
(** The matrix with columns (2^-60, 0), (0, 1) is not singular, but its constructor flags it: Solve and inverse throw and det() returns 0 *)
Theorem C82_small_entries_refuted : exists a f Sv, is_matrix a 2 2 f /\ det Rnum 2 f <> 0 /\ (exists g, inverse_of Rnum 2 f g) /\ qr_ctor Rarith a = Ok Sv /\ q_sing Sv = true /\
  qr_det Rarith Sv = Ok 0 /\ (forall b, length b = 2%nat -> qr_Solve Rarith Sv b = Throw SingularError).
Proof.
  set (e := / 2 ^ 60). assert (He : 0 < e) by (apply Rinv_0_lt_compat; apply pow_lt; lra).
  set (f := fun i j => if Nat.eqb i j then (if Nat.eqb i 0 then e else 1) else 0). set (a := mkMat 2 2 [e; 0; 0; 1]).
  assert (HA : is_matrix a 2 2 f). { repeat split. intros i j Hi Hj. destruct i as [|[|]], j as [|[|]]; try lia; reflexivity. }
  assert (Hz : nonzero 2 2 f) by (exists 1%nat, 1%nat; repeat split; try lia; unfold f; cbn; lra).
  assert (HD : det Rnum 2 f = e) by (cbn; unfold f; cbn; ring).
  destruct (proj1 (C82_constructed a 2 2 f HA ltac:(lia)) ltac:(lia)) as (Sv & E). exists a, f, Sv. split; [auto|]. split; [rewrite HD; lra|]. split.
  { exists (fun i j => if Nat.eqb i j then (if Nat.eqb i 0 then / e else 1) else 0). split; intros i j Hi Hj; destruct i as [|[|]], j as [|[|]]; try lia; unfold f; cbn; field; lra. }
  split; [auto|].
  assert (Hs : q_sing Sv = true).
  { destruct (q_sing Sv) eqn:Hs; [reflexivity|]. exfalso. revert E. unfold qr_ctor. cbn [a m_rows m_cols]. change (2 <? 2)%nat with false. cbv iota. unfold ncols. cbn [Nat.eqb Nat.sub for_range seq for_each].
    unfold for_range. cbn [Nat.sub seq for_each]. unfold qr_round at 1. assert (Sc : qr_scale Rarith 2 0 a = Ok e).
    { unfold a. unfold qr_scale, for_range. cbn [Nat.sub seq for_each mget midx m_cols m_data Nat.mul Nat.add vget nth_error bind]. rewrite !Rabs_aabs. change (alit Rarith 0) with 0. change (altb Rarith) with Rltb. rewrite (Rabs_right e) by lra. rewrite Rabs_R0.
      destruct (Rltb_spec 0 e); [|lra]. destruct (Rltb_spec e 0); [lra|]. reflexivity. }
    rewrite Sc. cbn [bind]. change (altb Rarith) with Rltb. assert (L : e < qr_eps Rarith).
    { unfold qr_eps, e. cbn [Rarith alit aops Rnum ndiv]. change (2 ^ 52)%Z with (2 ^ Z.of_nat 52)%Z. rewrite <- pow_IZR. unfold Rdiv. rewrite Rmult_1_l. apply Rinv_lt_contravar; [apply Rmult_lt_0_compat; apply pow_lt; lra|]. apply Rlt_pow; [lra|lia]. }
    destruct (Rltb_spec e (qr_eps Rarith)); [|contradiction]. cbn [vset repeat upd length Nat.ltb Nat.leb bind]. cbn [mget midx m_cols m_data Nat.mul Nat.add vget nth_error bind vset upd length Nat.ltb Nat.leb].
    destruct (qr_norm Rarith 2 2 _) as [N| | |]; cbn [bind]; try discriminate. intros E. injection E as <-. cbn [q_sing] in Hs. match type of Hs with (if ?c then _ else _) = _ => destruct c; discriminate end. }
  split; [auto|]. destruct (C82_determinant a 2 f Sv HA Hz E) as (D & _). rewrite Hs in D. split; [auto|]. intros b Hb.
  apply (C82_errors a 2 2 f Sv b [] a HA ltac:(lia) E); auto.
Qed.
Print Assumptions C82_small_entries_refuted.

(** The 1 x 1 zero matrix is not flagged singular (its threshold is 0): det() is 0 and Solve divides by 0 *)
Theorem C82_zero_refuted : forall b, exists a Sv, is_matrix a 1 1 (fun _ _ => 0) /\ qr_ctor Rarith a = Ok Sv /\ q_sing Sv = false /\ qr_det Rarith Sv = Ok 0 /\ qr_Solve Rarith Sv [b] = Ok [b / 0].
Proof.
  intros b. exists (mkMat 1 1 [0]). assert (HA : is_matrix (mkMat 1 1 [0]) 1 1 (fun _ _ => 0)) by (repeat split; intros i j Hi Hj; destruct i, j; try lia; reflexivity).
  assert (E : qr_ctor Rarith (mkMat 1 1 [0]) = Ok (mkQR 1 1 (mkMat 1 1 [0]) [0] [0] false 0)).
  { unfold qr_ctor, qr_norm, for_range. cbn [m_rows m_cols]. change (1 <? 1)%nat with false. unfold ncols. cbn [Nat.eqb Nat.sub seq for_each bind repeat vset upd length Nat.ltb Nat.leb mget midx m_cols m_data Nat.mul Nat.add vget nth_error].
    change (alit Rarith 0) with 0. rewrite Rabs_aabs, Rabs_R0. change (altb Rarith) with Rltb. destruct (Rltb_spec 0 0); [lra|]. cbn [Rarith aops Rnum nmul]. rewrite Rmult_0_r, Rmult_0_l. destruct (Rltb_spec 0 0); [lra|]. reflexivity. }
  eexists. split; [exact HA|]. split; [exact E|]. split; [reflexivity|]. split.
  - unfold qr_det, for_range. cbn [q_m q_n q_sing q_d q_refl Nat.eqb negb Nat.sub seq for_each bind vget nth_error Nat.modulo]. cbn. f_equal. ring.
  - reflexivity.
Qed.
Print Assumptions C82_zero_refuted.

(** ** Instances *)
From Coq Require Import QArith Qcanon.
From Verif Require Import RootFind_Props.
Local Open Scope nat_scope.
Definition qmat (r c : nat) (l : list Z) : matrix Qc := mkMat r c (map (fun z => RootFind_Props.q z 1) l).
Definition qvec (l : list Z) : list Qc := map (fun z => RootFind_Props.q z 1) l.
(** columns (3, 4), (1, 2): R = [-5, -11/5; 0, 2/5], det 2, and the solution of A x = (5, 8) is (1, 2) *)
Example C82_ex_square : (S <- qr_ctor Qarith (qmat 2 2 [3; 1; 4; 2]%Z) ;; d <- qr_det Qarith S ;; x <- qr_Solve Qarith S (qvec [5; 8]%Z) ;; R <- qr_GetR Qarith S ;; Ok (q_sing S, showq d, map showq x, map showq (m_data R))) =
  Ok (false, (2%Z, 1%positive), [(1%Z, 1%positive); (2%Z, 1%positive)], [((-5)%Z, 1%positive); ((-11)%Z, 5%positive); (0%Z, 1%positive); (2%Z, 5%positive)]).
Proof. vm_compute. reflexivity. Qed.
(** one column (3, 0, 4), right-hand side (1, 7, 2): the minimum is at 11/25 *)
Example C82_ex_least_squares : (S <- qr_ctor Qarith (qmat 3 1 [3; 0; 4]%Z) ;; x <- qr_LeastSquaresSolve Qarith S (qvec [1; 7; 2]%Z) ;; Ok (q_sing S, map showq x)) = Ok (false, [(11%Z, 25%positive)]).
Proof. vm_compute. reflexivity. Qed.
