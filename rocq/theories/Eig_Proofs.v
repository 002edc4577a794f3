(** * C88: the Jacobi eigenvalue solver computes rotations *)
From Coq Require Import Reals Lra List Arith ZArith Lia Bool.
From Verif Require Import Base Num Mat_Model Mat_Proofs Mat_Props QR_Math Iter_Math RootFind_Model RootFind_Proofs RootFind_Props Fourier_Model Fourier_Spec Fourier_Props Fourier_Real Fourier_DCT Fit_Proofs Eig_Model Eig_Spec Eig_Math.
Import ListNotations.
Local Open Scope R_scope.
Ltac enum := cbn [Reig etr eatan] in *; tnum.
Lemma mget_ok : forall (A : matrix R) r c f i j, is_matrix A r c f -> (i < r)%nat -> (j < c)%nat -> mget A i j = Ok (f i j).
Proof. intros A r c f i j H Hi Hj. apply wp_eq. eapply mget_wp; eauto. Qed.

Lemma sq_abs : forall x, Rabs x * Rabs x = x * x.
Proof. intros x. rewrite <- Rabs_mult. apply Rabs_right. apply Rle_ge, Rle_0_sqr. Qed.

(** ** One rotation *)
Definition inpq (p q k : nat) : bool := Nat.eqb k p || Nat.eqb k q.
Definition sidesf (c s : R) (p q i : nat) (d : nat -> nat -> R) (a b : nat) : R :=
  if negb (inpq p q a) && inpq p q b && (a <? i)%nat then rot c s p q (d a) b
  else if negb (inpq p q b) && inpq p q a && (b <? i)%nat then rot c s p q (d b) a
  else d a b.
Ltac cases_eqb := repeat match goal with |- context[Nat.eqb ?x ?y] => destruct (Nat.eqb_spec x y); try lia | |- context[Nat.ltb ?x ?y] => destruct (Nat.ltb_spec x y); try lia end.
Lemma sides_wp : forall A n d p q c s (Q : matrix R -> Prop), is_matrix A n n d -> (p < n)%nat -> (q < n)%nat -> p <> q ->
  (forall A', is_matrix A' n n (sidesf c s p q n d) -> Q A') -> wp (jac_rot_sides Reig A p q c s n) Q.
Proof.
  intros A n d p q c s Q HA Hp Hq N HQ. unfold jac_rot_sides. eapply wp_conseq; [exact HQ|]. apply (for_range_inv _ _ (fun i A => is_matrix A n n (sidesf c s p q i d))).
  - lia.
  - eapply is_matrix_ext; [exact HA|]. intros a b Ha Hb. unfold sidesf. destruct (a <? 0)%nat eqn:E1; [apply Nat.ltb_lt in E1; lia|]. destruct (b <? 0)%nat eqn:E2; [apply Nat.ltb_lt in E2; lia|]. rewrite !andb_false_r. auto.
  - intros i A' _ Hi HI. destruct (Nat.eqb_spec i p) as [Ep|Np]; [|destruct (Nat.eqb_spec i q) as [Eq|Nq]]; cbn [negb andb].
    + apply wp_Ok. eapply is_matrix_ext; [exact HI|]. intros a b Ha Hb. unfold sidesf, inpq, rot. cases_eqb; subst; cbn [negb andb orb]; auto; lia.
    + apply wp_Ok. eapply is_matrix_ext; [exact HI|]. intros a b Ha Hb. unfold sidesf, inpq, rot. cases_eqb; subst; cbn [negb andb orb]; auto; lia.
    + enum.
      assert (E1 : sidesf c s p q i d i p = d i p). { unfold sidesf. rewrite Nat.ltb_irrefl, andb_false_r. unfold inpq. rewrite Nat.eqb_refl. auto. }
      assert (E2 : sidesf c s p q i d i q = d i q). { unfold sidesf. rewrite Nat.ltb_irrefl, andb_false_r. unfold inpq. rewrite Nat.eqb_refl, orb_true_r. auto. }
      rewrite (mget_ok _ n n _ i p HI) by auto. cbn [bind]. rewrite (mget_ok _ n n _ i q HI) by auto. cbn [bind]. rewrite E1, E2.
      apply wp_bind. eapply mset_wp; [exact HI|auto|auto|]. intros A1 H1.
      rewrite (mget_ok _ n n _ i p H1) by auto. cbn [bind]. apply wp_bind. eapply mset_wp; [exact H1|auto|auto|]. intros A2 H2.
      apply wp_bind. eapply mset_wp; [exact H2|auto|auto|]. intros A3 H3.
      rewrite (mget_ok _ n n _ i q H3) by auto. cbn [bind]. eapply mset_wp; [exact H3|auto|auto|]. intros A4 H4.
      eapply is_matrix_ext; [exact H4|]. intros a b Ha Hb. unfold fset at 1 2. clear - N Np Nq. unfold fset.
      assert (X : forall a b, (a <> i \/ (b <> p /\ b <> q)) -> (b <> i \/ (a <> p /\ a <> q)) -> sidesf c s p q i d a b = sidesf c s p q (i + 1) d a b).
      { intros x y Hx Hy. unfold sidesf. destruct (Nat.ltb_spec x i), (Nat.ltb_spec x (i + 1)), (Nat.ltb_spec y i), (Nat.ltb_spec y (i + 1)); try lia; auto;
        try (replace x with i in * by lia); try (replace y with i in * by lia); unfold inpq; cases_eqb; cbn [negb andb orb]; auto; lia. }
      destruct (Nat.eqb_spec a q) as [->|]; [destruct (Nat.eqb_spec b i) as [->|]|]; cbn [andb].
      * rewrite !Nat.eqb_refl. cbn [andb]. unfold sidesf, inpq, rot. cases_eqb; cbn [negb andb orb]; lra.
      * rewrite ?andb_false_r. assert (Nat.eqb q i = false) as -> by (apply Nat.eqb_neq; lia). cbn [andb]. apply X; lia.
      * destruct (Nat.eqb_spec a i) as [->|]; [destruct (Nat.eqb_spec b q) as [->|]; [|destruct (Nat.eqb_spec b p) as [->|]]|]; cbn [andb].
        -- unfold sidesf, inpq, rot. cases_eqb; cbn [negb andb orb]; lra.
        -- assert (Nat.eqb i p = false) as -> by (apply Nat.eqb_neq; lia). cbn [andb]. unfold sidesf, inpq, rot. cases_eqb; cbn [negb andb orb]; lra.
        -- assert (Nat.eqb i p = false) as -> by (apply Nat.eqb_neq; lia). cbn [andb]. apply X; lia.
        -- destruct (Nat.eqb_spec a p) as [->|]; [destruct (Nat.eqb_spec b i) as [->|]|]; cbn [andb].
           ++ rewrite !Nat.eqb_refl. cbn [andb]. unfold sidesf, inpq, rot. cases_eqb; cbn [negb andb orb]; lra.
           ++ apply X; lia.
           ++ apply X; lia.
Qed.
Lemma block_wp : forall A n d p q c s (Q : matrix R -> Prop), is_matrix A n n (sidesf c s p q n d) -> (p < n)%nat -> (q < n)%nat -> p <> q -> symf n d ->
  (c * c - s * s) * d p q + c * s * (d p p - d q q) = 0 ->
  (forall A', is_matrix A' n n (conj2 c s p q d) -> Q A') -> wp (jac_rot_block Reig A p q c s) Q.
Proof.
  intros A n d p q c s Q HA Hp Hq N HS Z HQ. unfold jac_rot_block. enum.
  assert (F : forall a b, inpq p q a = inpq p q b -> sidesf c s p q n d a b = d a b). { intros a b E. unfold sidesf. rewrite E. destruct (inpq p q b); cbn [negb andb]; auto. }
  assert (Pp : inpq p q p = true) by (unfold inpq; rewrite Nat.eqb_refl; auto). assert (Pq : inpq p q q = true) by (unfold inpq; rewrite Nat.eqb_refl, orb_true_r; auto).
  rewrite (mget_ok _ n n _ p p HA) by auto. cbn [bind]. rewrite (mget_ok _ n n _ q q HA) by auto. cbn [bind]. rewrite (mget_ok _ n n _ p q HA) by auto. cbn [bind]. rewrite !F by congruence.
  apply wp_bind. eapply mset_wp; [exact HA|auto|auto|]. intros A1 H1. apply wp_bind. eapply mset_wp; [exact H1|auto|auto|]. intros A2 H2.
  apply wp_bind. eapply mset_wp; [exact H2|auto|auto|]. intros A3 H3. eapply mset_wp; [exact H3|auto|auto|]. intros A4 H4. apply HQ.
  eapply is_matrix_ext; [exact H4|]. intros a b Ha Hb. unfold fset.
  pose proof (conj_pp n p q c s d Hp Hq HS) as Epp. pose proof (conj_qq n p q c s d Hp Hq N HS) as Eqq. pose proof (conj_pq n p q c s d Hp Hq N HS Z) as Epq.
  pose proof (conj_sym n p q c s Hp Hq d HS q p Hq Hp) as Eqp. rewrite Epq in Eqp.
  destruct (Nat.eqb_spec a q) as [->|Naq]; [destruct (Nat.eqb_spec b p) as [->|Nbp]|]; cbn [andb].
  - lra.
  - assert (Nat.eqb q p = false) as -> by (apply Nat.eqb_neq; congruence). cbn [andb]. destruct (Nat.eqb_spec b q) as [->|Nbq]; cbn [andb]; [lra|].
    unfold sidesf, inpq. rewrite Nat.eqb_refl, orb_true_r. assert (Nat.eqb b p || Nat.eqb b q = false) as -> by (apply orb_false_iff; split; apply Nat.eqb_neq; auto). cbn [negb andb]. assert ((b <? n)%nat = true) as -> by (apply Nat.ltb_lt; auto).
    unfold conj2. rewrite (rot_o _ _ _ _ _ b) by auto. rewrite !rot_q by auto. rewrite (HS p b), (HS q b) by auto. auto.
  - destruct (Nat.eqb_spec a p) as [->|Nap]; [destruct (Nat.eqb_spec b q) as [->|Nbq]; [|destruct (Nat.eqb_spec b p) as [->|Nbp]]|]; cbn [andb].
    + lra.
    + lra.
    + unfold sidesf, inpq. rewrite Nat.eqb_refl. cbn [orb]. assert (Nat.eqb b p || Nat.eqb b q = false) as -> by (apply orb_false_iff; split; apply Nat.eqb_neq; auto). cbn [negb andb]. assert ((b <? n)%nat = true) as -> by (apply Nat.ltb_lt; auto).
      unfold conj2. rewrite (rot_o _ _ _ _ _ b) by auto. rewrite !rot_p. rewrite (HS p b), (HS q b) by auto. auto.
    + unfold sidesf, inpq. assert (Nat.eqb a p || Nat.eqb a q = false) as -> by (apply orb_false_iff; split; apply Nat.eqb_neq; auto). cbn [negb andb]. rewrite !andb_false_r. assert ((a <? n)%nat = true) as -> by (apply Nat.ltb_lt; auto). rewrite andb_true_r. cbn [andb].
      unfold conj2. destruct (Nat.eqb b p || Nat.eqb b q) eqn:E.
      * apply orb_true_iff in E. destruct E as [E|E]; apply Nat.eqb_eq in E; subst b; [rewrite !rot_p|rewrite !rot_q by auto]; rewrite !rot_o by auto; auto.
      * apply orb_false_iff in E. destruct E as [E1 E2]. apply Nat.eqb_neq in E1, E2. rewrite !rot_o by auto. auto.
Qed.
Lemma vectors_wp : forall V n v p q c s (Q : matrix R -> Prop), is_matrix V n n v -> (p < n)%nat -> (q < n)%nat -> p <> q ->
  (forall V', is_matrix V' n n (fun i => rot c s p q (v i)) -> Q V') -> wp (jac_rot_vectors Reig V p q c s n) Q.
Proof.
  intros V n v p q c s Q HV Hp Hq N HQ. unfold jac_rot_vectors.
  eapply wp_conseq; [|apply (for_range_inv _ _ (fun i V => is_matrix V n n (fun a b => if (a <? i)%nat then rot c s p q (v a) b else v a b)))].
  - intros V' H. apply HQ. eapply is_matrix_ext; [exact H|]. intros a b Ha Hb. cbv beta. apply Nat.ltb_lt in Ha. rewrite Ha. auto.
  - lia.
  - eapply is_matrix_ext; [exact HV|]. intros a b Ha Hb. cbv beta. destruct (a <? 0)%nat eqn:E1; [apply Nat.ltb_lt in E1; lia|]. auto.
  - intros i V' _ Hi HI. enum. rewrite (mget_ok _ n n _ i p HI) by auto. cbn [bind]. rewrite (mget_ok _ n n _ i q HI) by auto. cbn [bind]. rewrite Nat.ltb_irrefl.
    apply wp_bind. eapply mset_wp; [exact HI|auto|auto|]. intros A1 H1. eapply mset_wp; [exact H1|auto|auto|]. intros A2 H2.
    eapply is_matrix_ext; [exact H2|]. intros a b Ha Hb. unfold fset. cbv beta. destruct (Nat.eqb_spec a i) as [->|Na]; cbn [andb].
    + assert ((i <? i + 1)%nat = true) as -> by (apply Nat.ltb_lt; lia). rewrite Nat.ltb_irrefl. destruct (Nat.eqb_spec b q) as [->|Nb]; [rewrite rot_q by auto; auto|]. destruct (Nat.eqb_spec b p) as [->|Nb']; [rewrite rot_p; auto|]. rewrite rot_o; auto.
    + destruct (Nat.ltb_spec a i), (Nat.ltb_spec a (i + 1)); auto; lia.
Qed.

Section Solver.
Variable thr : R.
Hypothesis thr_pos : 0 < thr.
Variables (n : nat) (a : nat -> nat -> R).
Definition st_ok (DV : matrix R * matrix R) (v d : nat -> nat -> R) (r2 : R) : Prop := is_matrix (fst DV) n n d /\ is_matrix (snd DV) n n v /\ decomp n a v d r2.

(** one step keeps the decomposition and removes the entry from the off-diagonal sum *)
Lemma step_wp : forall DV v d r2 p q (Q : matrix R * matrix R -> Prop), st_ok DV v d r2 -> (p < q)%nat -> (q < n)%nat ->
  (Rabs (d p q) < thr -> Q DV) ->
  (thr <= Rabs (d p q) -> forall DV' v' d', st_ok DV' v' d' (r2 - d p q * d p q) -> d' p q = 0 -> Q DV') ->
  wp (jac_step Reig thr n DV p q) Q.
Proof.
  intros [D V] v d r2 p q Q (HD & HV & HI) Hpq Hq Q1 Q2. cbn [fst snd] in *. unfold jac_step. rewrite (mget_ok _ n n _ p q HD) by lia. cbn [bind]. enum.
  destruct (Rltb_spec (Rabs (d p q)) thr) as [L|L]; [apply wp_Ok; auto|].
  unfold jac_angle. rewrite (mget_ok _ n n _ p q HD) by lia. cbn [bind]. enum. destruct (Rltb_spec (Rabs (d p q)) thr) as [L'|_]; [lra|].
  rewrite (mget_ok _ n n _ q q HD), (mget_ok _ n n _ p p HD) by lia. cbn [bind]. enum.
  assert (Nz : d p q <> 0) by (intros E; rewrite E, Rabs_R0 in L; lra).
  set (tau := (d q q - d p p) / (2 * d p q)).
  set (t := if negb (Rltb tau 0) then 1 / (tau + sqrt (1 + tau * tau)) else - (1) / (- tau + sqrt (1 + tau * tau))).
  pose proof (angle_zero (d p p) (d q q) (d p q) Nz) as AZ. cbv zeta in AZ. fold tau in AZ.
  assert (Et : (if Rlt_dec tau 0 then -1 / (- tau + sqrt (1 + tau * tau)) else 1 / (tau + sqrt (1 + tau * tau))) = t).
  { unfold t. destruct (Rltb_spec tau 0), (Rlt_dec tau 0); cbn [negb]; auto; lra. }
  rewrite Et in AZ. destruct AZ as [U Z]. unfold jac_apply. cbn [Reig etr Rtrig tcos tsin eatan].
  set (c := cos (atan t)) in *. set (s := sin (atan t)) in *.
  assert (Hp : (p < n)%nat) by lia. assert (N : p <> q) by lia. pose proof HI as (HS & _).
  apply wp_bind. eapply sides_wp; [exact HD|auto|auto|auto|]. intros A1 H1. apply wp_bind. eapply block_wp; [exact H1|auto|auto|auto|auto|auto|]. intros A2 H2.
  apply wp_bind. eapply vectors_wp; [exact HV|auto|auto|auto|]. intros V1 H3. apply wp_Ok.
  apply (Q2 ltac:(lra) (A2, V1) (fun i => rot c s p q (v i)) (conj2 c s p q d)).
  - split; [|split]; auto. apply decomp_rot; auto.
  - eapply conj_pq; eauto.
Qed.
(** a sweep never increases the off-diagonal sum; either it removes at least thr^2, or all entries are below the threshold *)
Lemma sweep_wp : forall DV v d r2 (Q : matrix R * matrix R -> Prop), st_ok DV v d r2 ->
  (forall DV' v' d' r2', st_ok DV' v' d' r2' -> r2' <= r2 -> (r2' <= r2 - thr * thr \/ (DV' = DV /\ forall i j, (i < j)%nat -> (j < n)%nat -> Rabs (d i j) < thr)) -> (n = 2%nat -> thr <= Rabs (d 0%nat 1%nat) -> r2' = 0) -> Q DV') ->
  wp (jac_sweep Reig thr n DV) Q.
Proof.
  intros DV v d r2 Q H HQ. unfold jac_sweep.
  set (I := fun p q DV' => exists v' d' r2', st_ok DV' v' d' r2' /\ r2' <= r2 /\ (r2' <= r2 - thr * thr \/ (DV' = DV /\ forall i j, (i < j)%nat -> (j < n)%nat -> (i < p \/ (i = p /\ j < q))%nat -> Rabs (d i j) < thr)) /\ (n = 2%nat -> thr <= Rabs (d 0%nat 1%nat) -> (p = 0 /\ q <= 1)%nat /\ DV' = DV \/ r2' = 0)).
  eapply wp_conseq; [|apply (for_range_inv _ _ (fun p DV' => I p 0%nat DV'))].
  - intros DV' (v' & d' & r2' & H1 & H2 & H3 & H4). apply (HQ DV' v' d' r2' H1 H2).
    + destruct H3 as [H3|(E & H3)]; auto. right. split; auto. intros i j Hij Hj. apply H3; auto. lia.
    + intros En L. destruct (H4 En L) as [((E1 & E2) & E3)|E]; auto. lia.
  - lia.
  - exists v, d, r2. split; [exact H|split; [lra|split]]. + right. split; auto. intros i j Hij Hj Hc. lia. + left. auto.
  - intros p DV1 _ Hp HI1. eapply wp_conseq; [|apply (for_range_inv _ _ (fun q DV' => I p q DV'))].
    + intros DV' (v' & d' & r2' & H1 & H2 & H3 & H4). exists v', d', r2'. split; [|split; [|split]]; auto.
      * destruct H3 as [H3|(E & H3)]; auto. right. split; auto. intros i j Hij Hj Hc. apply H3; auto. lia.
      * intros En L. destruct (H4 En L) as [((E1 & E2) & E3)|E]; auto. lia.
    + lia.
    + destruct HI1 as (v' & d' & r2' & H1 & H2 & H3 & H4). exists v', d', r2'. split; [|split; [|split]]; auto.
      * destruct H3 as [H3|(E & H3)]; auto. right. split; auto. intros i j Hij Hj Hc. apply H3; auto. lia.
      * intros En L. destruct (H4 En L) as [((E1 & E2) & E3)|E]; auto. left. split; auto. lia.
    + intros q DV2 Hlo Hq (v' & d' & r2' & H1 & H2 & H3 & H4).
      assert (D_eq : DV2 = DV -> d' p q = d p q). { intros ->. destruct H as (M1 & _). destruct H1 as (M2 & _). eapply is_matrix_fun; [exact M2|exact M1|lia|lia]. }
      eapply step_wp; [exact H1|lia|auto| |].
      * intros L. exists v', d', r2'. split; [|split; [|split]]; auto.
        -- destruct H3 as [H3|(E & H3)]; auto. right. split; auto. intros i j Hij Hj Hc. destruct (Nat.eq_dec i p) as [->|]; [destruct (Nat.eq_dec j q) as [->|]|]; [rewrite <- D_eq; auto| |]; apply H3; auto; lia.
        -- intros En L'. destruct (H4 En L') as [((E1 & E2) & E3)|E]; auto. exfalso. subst p. assert (q = 1)%nat by lia. subst q. rewrite D_eq in L by auto. lra.
      * intros L DV' v'' d'' H5 Zd. exists v'', d'', (r2' - d' p q * d' p q). assert (thr * thr <= d' p q * d' p q). { rewrite <- (sq_abs (d' p q)). apply Rmult_le_compat; lra. }
        split; [|split; [|split]]; auto; [pose proof (Rle_0_sqr thr) as Q0; unfold Rsqr in Q0; lra| |].
        -- left. destruct H3 as [H3|(E & H3)]; pose proof (Rle_0_sqr thr) as Q0; unfold Rsqr in Q0; lra.
        -- intros En L'. right. destruct H5 as (_ & _ & (_ & _ & _ & _ & E & _)). rewrite <- E. unfold off2. rewrite En. assert (p = 0 /\ q = 1)%nat as [-> ->] by lia. cbn [sumn Rnum nadd n0 Nat.ltb Nat.leb]. rewrite Zd. ring.
Qed.

(** ** The norm *)
Lemma off_wp : forall (D : matrix R) d (Q : R -> Prop), is_matrix D n n d -> Q (sqrt (off2 n d)) -> wp (jac_off Reig D n) Q.
Proof.
  intros D d Q HD HQ. unfold jac_off. enum. set (w := fun i j => if (i <? j)%nat then d i j * d i j else 0). apply wp_bind.
  eapply wp_conseq; [|apply (for_range_inv _ _ (fun i acc => acc = rsum i (fun i => rsum n (w i))))].
  - intros x ->. apply wp_Ok. replace (rsum (n - 1) (fun i => rsum n (w i))) with (off2 n d); auto. unfold off2. destruct n as [|m]; auto. rewrite Nat.sub_succ, Nat.sub_0_r. rewrite sumS_R. fold (w m). rewrite (rsum_zero (S m) (w m)); [unfold w; lra|].
    intros j Hj. unfold w. destruct (Nat.ltb_spec m j); auto; lia.
  - lia.
  - reflexivity.
  - intros i acc _ Hi ->. eapply wp_conseq; [|apply (for_range_inv _ _ (fun j acc => acc = rsum i (fun i => rsum n (w i)) + rsum j (w i)))].
    + intros x ->. rewrite Nat.add_1_r, sumS_R. auto.
    + lia.
    + rewrite (rsum_zero (i + 1) (w i)); [lra|]. intros j Hj. unfold w. destruct (Nat.ltb_spec i j); auto; lia.
    + intros j acc Hlo Hj ->. rewrite (mget_ok _ n n _ i j HD) by lia. cbn [bind]. apply wp_Ok. enum. rewrite (Nat.add_1_r j), sumS_R. assert (w i j = d i j * d i j) as -> by (unfold w; destruct (Nat.ltb_spec i j); [auto|lia]). lra.
Qed.
Lemma small_entries : forall d, symf n d -> (forall i j, (i < j)%nat -> (j < n)%nat -> Rabs (d i j) < thr) -> 2 * off2 n d <= INR (n * (n - 1)) * (thr * thr).
Proof.
  intros d HS H. rewrite <- odd_off by auto. destruct (Nat.eq_dec n 0) as [E0|N0]; [rewrite E0; unfold odd2; cbn [sumn Rnum n0 INR Nat.mul]; lra|].
  apply Rle_trans with (rsum n (fun i => rsum n (fun j => thr * thr - delta i j * (thr * thr)))).
  - unfold odd2. apply rsum_le. intros i Hi. apply rsum_le. intros j Hj. unfold delta. destruct (Nat.eqb_spec i j); [lra|]. assert (L : Rabs (d i j) < thr). { destruct (Nat.lt_ge_cases i j); [apply H; auto|rewrite HS by auto; apply H; lia]. }
    rewrite <- sq_abs. pose proof (Rabs_pos (d i j)). assert (Rabs (d i j) * Rabs (d i j) <= thr * thr); [|lra]. apply Rmult_le_compat; lra.
  - right. rewrite (rsum_ext n _ (fun i => INR n * (thr * thr) - thr * thr)).
    + rewrite rsum_const, mult_INR, minus_INR by lia. cbn [INR]. ring.
    + intros i Hi. rewrite rsum_sub, rsum_const. f_equal. rewrite rsum_scal_r. rewrite (rsum_one n i); auto; unfold delta; [rewrite Nat.eqb_refl; ring|]. intros k Hk Nk. rewrite Nat.eqb_sym. apply Nat.eqb_neq in Nk. rewrite Nk. auto.
Qed.
(** ** The sweeps *)
Definition enough_tol (tol : R) : Prop := 0 <= tol /\ INR (n * (n - 1)) * (thr * thr) <= 2 * (tol * tol).
Lemma loop_wp : forall tol maxIter fuel DV v d r2 sweep (Q : matrix R * matrix R * Z * R -> Prop), st_ok DV v d r2 -> (Z.to_nat (maxIter - sweep) < fuel)%nat ->
  (forall DV' v' d' r2' sweep', st_ok DV' v' d' r2' -> r2' <= r2 -> (sweep <= sweep')%Z -> (sweep' <= Z.max sweep maxIter)%Z -> (tol < sqrt r2' -> (maxIter <= sweep')%Z) ->
     (enough_tol tol -> sqrt r2' <= tol \/ IZR (sweep' - sweep) * (thr * thr) <= r2) ->
     (sqrt r2 <= tol \/ (maxIter <= sweep)%Z -> sweep' = sweep /\ DV' = DV /\ r2' = r2) ->
     (tol < sqrt r2 -> (sweep < maxIter)%Z -> (sweep < sweep')%Z) ->
     (n = 2%nat -> thr <= Rabs (d 0%nat 1%nat) -> 0 <= tol < sqrt r2 -> (sweep < maxIter)%Z -> sweep' = (sweep + 1)%Z /\ r2' = 0) ->
     (r2 < thr * thr -> r2' = r2) ->
     Q (DV', sweep', sqrt r2')) ->
  wp (jac_loop Reig thr fuel n tol maxIter DV sweep (sqrt r2)) Q.
Proof.
  intros tol maxIter. induction fuel as [|fuel IH]; intros DV v d r2 sweep Q H HF HQ; [lia|]. cbn [jac_loop]. enum.
  assert (Stop : sqrt r2 <= tol \/ (maxIter <= sweep)%Z -> Q (DV, sweep, sqrt r2)).
  { intros Hs. apply (HQ DV v d r2 sweep H); try lia; try lra; auto.
    - intros L. destruct Hs; [lra|lia].
    - intros Et. right. replace (sweep - sweep)%Z with 0%Z by lia. pose proof H as (_ & _ & (_ & _ & _ & _ & E & _)). pose proof (off_pos n d). lra.
    - intros L1 L2. destruct Hs; [lra|lia].
    - intros _ _ L1 L2. destruct Hs; [lra|lia]. }
  destruct (Rltb_spec tol (sqrt r2)) as [L|L]; cbn [andb]; [|apply wp_Ok, Stop; lra]. destruct (Z.ltb_spec sweep maxIter) as [M|M]; cbn [andb]; [|apply wp_Ok, Stop; lia].
  apply wp_bind. eapply sweep_wp; [exact H|]. intros DV1 v1 d1 r1 H1 Le Pr Two. apply wp_bind. pose proof H1 as (M1 & M2 & M3). eapply off_wp; [exact M1|]. pose proof M3 as (S1 & _ & _ & _ & E1 & _). rewrite E1.
  eapply IH; [exact H1|lia|]. intros DV' v' d' r2' sweep' K1 K2 K3 K4 K5 K6 K7 K8 K9 K10. apply (HQ DV' v' d' r2' sweep'); auto; try lia; try lra.
  - intros Et. destruct (Rle_lt_dec (sqrt r1) tol) as [C|C].
    + left. destruct (K7 (or_introl C)) as (_ & _ & ->). auto.
    + destruct (K6 Et) as [K|K]; auto. right. destruct Pr as [Pr|(Ed & Pr)].
      * replace (sweep' - sweep)%Z with ((sweep' - (sweep + 1)) + 1)%Z by lia. rewrite plus_IZR. lra.
      * exfalso. pose proof H as (_ & _ & (S0 & _ & _ & _ & E0 & _)). pose proof (small_entries d S0 Pr) as B. rewrite E0 in B. destruct Et as [T1 T2]. assert (r2 <= tol * tol) as B2 by lra. apply sqrt_le_1_alt in B2. rewrite sqrt_square in B2 by auto. lra.
  - intros [C|C]; [lra|lia].
  - intros En L1 L2 _. specialize (Two En L1). rewrite Two in K7. rewrite sqrt_0 in K7. destruct (K7 (or_introl (proj1 L2))) as (-> & _ & ->). auto.
  - intros L0. pose proof (off_pos n d1) as P0. destruct Pr as [Pr|(Ed & _)]; [lra|]. assert (r1 = r2) as <-; [|auto]. rewrite <- E1. pose proof H as (N1 & _ & (_ & _ & _ & _ & <- & _)). subst DV1. unfold off2. apply rsum_ext. intros i Hi. apply rsum_ext. intros j Hj. rewrite (is_matrix_fun _ _ _ _ _ M1 N1 i j Hi Hj). auto.
Qed.

(** ** Sorting *)
Lemma min_wp : forall ev f i (Q : nat -> Prop), is_vector ev n f -> (i < n)%nat ->
  (forall m, (i <= m < n)%nat -> (forall j, (i <= j < n)%nat -> f m <= f j) -> Q m) -> wp (eig_min Reig ev i n) Q.
Proof.
  intros ev f i Q HV Hi HQ. unfold eig_min. eapply wp_conseq; [|apply (for_range_inv _ _ (fun k m => (i <= m < k)%nat /\ forall j, (i <= j < k)%nat -> f m <= f j))].
  - intros m (H1 & H2). apply HQ; auto.
  - lia.
  - split; [lia|]. intros j Hj. replace j with i by lia. lra.
  - intros j m Hlo Hj (H1 & H2). enum. rewrite (vec_at ev n f j HV), (vec_at ev n f m HV) by lia. cbn [bind]. apply wp_Ok. destruct (Rltb_spec (f j) (f m)) as [L|L].
    + split; [lia|]. intros k Hk. destruct (Nat.eq_dec k j) as [->|]; [lra|]. specialize (H2 k ltac:(lia)). lra.
    + split; [lia|]. intros k Hk. destruct (Nat.eq_dec k j) as [->|]; [lra|]. apply H2. lia.
Qed.
Lemma swap_cols_wp : forall (V : matrix R) v i m (Q : matrix R -> Prop), is_matrix V n n v -> (i < n)%nat -> (m < n)%nat -> i <> m ->
  (forall V', is_matrix V' n n (fun a b => v a (tr i m b)) -> Q V') -> wp (for_range 0 n (fun V row => mswap V row i row m) V) Q.
Proof.
  intros V v i m Q HV Hi Hm N HQ. eapply wp_conseq; [|apply (for_range_inv _ _ (fun row V => is_matrix V n n (fun a b => if (a <? row)%nat then v a (tr i m b) else v a b)))].
  - intros V' H. apply HQ. eapply is_matrix_ext; [exact H|]. intros x y Hx Hy. cbv beta. apply Nat.ltb_lt in Hx. rewrite Hx. auto.
  - lia.
  - eapply is_matrix_ext; [exact HV|]. intros x y Hx Hy. cbv beta. destruct (x <? 0)%nat eqn:E; [apply Nat.ltb_lt in E; lia|]. auto.
  - intros row V' _ Hr H. eapply mswap_wp; [exact H|auto|auto|auto|auto|]. intros V2 H2. eapply is_matrix_ext; [exact H2|]. intros x y Hx Hy. unfold fset. rewrite Nat.ltb_irrefl. destruct (Nat.eqb_spec x row) as [->|Nx]; cbn [andb].
    + assert ((row <? row + 1)%nat = true) as -> by (apply Nat.ltb_lt; lia). rewrite Nat.ltb_irrefl. unfold tr. destruct (Nat.eqb_spec y m), (Nat.eqb_spec y i); subst; auto; congruence.
    + destruct (Nat.ltb_spec x row), (Nat.ltb_spec x (row + 1)); auto; lia.
Qed.
Lemma sort_wp : forall ev (V : matrix R) v d r2 (Q : list R * matrix R -> Prop), is_vector ev n (fun i => d i i) -> is_matrix V n n v -> decomp n a v d r2 ->
  (forall ev' V' v' d', is_vector ev' n (fun i => d' i i) -> is_matrix V' n n v' -> decomp n a v' d' r2 -> (forall i j, (i < j)%nat -> (j < n)%nat -> d' i i <= d' j j) -> Q (ev', V')) ->
  wp (eig_sort Reig ev V) Q.
Proof.
  intros ev V v d r2 Q HE HV HD HQ. unfold eig_sort. cbv zeta. replace (length ev) with n by (symmetry; apply HE).
  eapply wp_conseq; [|apply (for_range_inv _ _ (fun i s => exists v' d', is_vector (fst s) n (fun i => d' i i) /\ is_matrix (snd s) n n v' /\ decomp n a v' d' r2 /\ (forall x y, (x < i)%nat -> (x < y)%nat -> (y < n)%nat -> d' x x <= d' y y)))].
  - intros [ev' V'] (v' & d' & H1 & H2 & H3 & H4). apply (HQ ev' V' v' d' H1 H2 H3). intros i j Hij Hj. apply H4; lia.
  - lia.
  - exists v, d. split; [|split; [|split]]; auto. intros; lia.
  - intros i [ev1 V1] _ Hi (v' & d' & H1 & H2 & H3 & H4). cbn [fst snd] in *. apply wp_bind. eapply min_wp; [exact H1|lia|]. intros m Hm Mm. destruct (Nat.eqb_spec m i) as [->|Nm]; cbn [negb].
    + apply wp_Ok. exists v', d'. split; [|split; [|split]]; auto. intros x y Hx Hxy Hy. destruct (Nat.eq_dec x i) as [->|]; [apply Mm; lia|apply H4; lia].
    + rewrite (vec_at ev1 n _ i H1), (vec_at ev1 n _ m H1) by lia. cbn [bind]. apply wp_bind. eapply vsetf_wp; [exact H1|lia|]. intros e2 K2. apply wp_bind. eapply vsetf_wp; [exact K2|lia|]. intros e3 K3.
      apply wp_bind. apply (swap_cols_wp V1 v' i m); auto; try lia. intros V2 K4. apply wp_Ok. exists (fun x k => v' x (tr i m k)), (fun x y => d' (tr i m x) (tr i m y)). cbn [fst snd]. split; [|split; [|split]]; auto.
      * eapply is_vector_ext; [exact K3|]. intros k Hk. unfold vfset, tr. cbv beta. destruct (Nat.eqb_spec k m), (Nat.eqb_spec k i); subst; auto; congruence.
      * apply decomp_tr; auto; lia.
      * intros x y Hx Hxy Hy. destruct (Nat.eq_dec x i) as [->|].
        -- rewrite tr_p. apply Mm. unfold tr. destruct (Nat.eqb_spec y i), (Nat.eqb_spec y m); lia.
        -- rewrite (tr_o i m x) by lia. apply H4; unfold tr; destruct (Nat.eqb_spec y i), (Nat.eqb_spec y m); lia.
Qed.

(** ** The whole solver *)
Lemma dims_of : dim_ok n -> dims_fit n n.
Proof. intros (H1 & H2). unfold dims_fit. nia. Qed.
Lemma solve_core : forall S tol maxIter, is_sym S n a -> dim_ok n -> exists r v d r2,
  jac_solve Reig thr S tol maxIter = Ok r /\ is_vector (r_values r) n (fun i => d i i) /\ is_matrix (r_vectors r) n n v /\ decomp n a v d r2 /\ r_residual r = sqrt r2 /\ r_converged r = negb (Rltb tol (sqrt r2)) /\
  (forall i j, (i < j)%nat -> (j < n)%nat -> d i i <= d j j) /\ r2 <= off2 n a /\ (0 <= r_iterations r <= Z.max 0 maxIter)%Z /\ (tol < sqrt r2 -> r_iterations r = Z.max 0 maxIter) /\
  (enough_tol tol -> sqrt r2 <= tol \/ IZR (r_iterations r) * (thr * thr) <= off2 n a) /\
  (sqrt (off2 n a) <= tol \/ (maxIter <= 0)%Z -> r_iterations r = 0%Z /\ r2 = off2 n a) /\
  (tol < sqrt (off2 n a) -> (0 < maxIter)%Z -> (0 < r_iterations r)%Z) /\
  (n = 2%nat -> thr <= Rabs (a 0%nat 1%nat) -> 0 <= tol < sqrt (off2 n a) -> (0 < maxIter)%Z -> r_iterations r = 1%Z /\ r2 = 0) /\ (off2 n a < thr * thr -> r2 = off2 n a).
Proof.
  intros S tol maxIter (Hd & HS) Hdim. pose proof (dims_of Hdim) as HF. destruct Hdim as [Hn _]. assert (Sa : symf n a) by (intros i j Hi Hj; apply HS; auto).
  match goal with |- exists r v d r2, ?s = Ok r /\ @?P r v d r2 => enough (W : wp s (fun r => exists v d r2, P r v d r2)) end.
  { destruct (wp_elim _ _ _ W) as (r & E & v & d & r2 & H). exists r, v, d, r2. split; auto. }
  unfold jac_solve. rewrite Hd. cbv zeta.
  assert (NW : forall Q : matrix R -> Prop, (forall A, is_matrix A n n (fun _ _ => 0) -> Q A) -> wp (mat_new (aops (tar (etr Reig))) (Z.of_nat n) (Z.of_nat n)) Q).
  { intros Q HQ. unfold mat_new. destruct (Z.ltb_spec (Z.of_nat n) 0); [lia|]. cbn [orb]. rewrite Nat2Z.id. apply alloc_ok_wp; auto. split; [auto|tauto]. }
  apply wp_bind. apply NW. intros _ _. apply wp_bind. apply NW. intros D0 HD0. apply wp_bind.
  eapply (fill_wp (fun i j => if Nat.leb i j then sym_get S i j else sym_get S j i)); [exact HD0| |].
  { intros i j Hi Hj. instantiate (1 := a). cbv beta. destruct (Nat.leb i j); [apply wp_intro with (a := a i j); [apply HS; auto|auto]|]. apply wp_intro with (a := a j i); [apply HS; auto|]. apply Sa; auto. }
  intros D HD. apply wp_bind. destruct (identity_ok (aops (tar (etr Reig))) n Hn HF) as (V & EV & HV). rewrite EV. cbn [wp]. apply wp_bind. eapply off_wp; [exact HD|]. apply wp_bind.
  assert (St : st_ok (D, V) delta a (off2 n a)). { split; [|split]; auto. apply decomp_start; auto. }
  eapply loop_wp; [exact St|lia|]. intros [D' V'] v d r2 sweep (M1 & M2 & M3) L1 L2 L3 L4 L5 L6 L7 L8 L9. cbn [fst snd] in *.
  apply wp_bind. eapply (vfill_wp (fun i => mget D' i i)); [apply is_vector_repeat| |].
  { intros i Hi. instantiate (1 := fun i => d i i). apply wp_intro with (a := d i i); auto. apply (mget_ok D' n n d); auto. }
  intros ev Hev. apply wp_bind. eapply sort_wp; [exact Hev|exact M2|exact M3|]. intros ev' V2 v' d' K1 K2 K3 K4. apply wp_Ok. exists v', d', r2. cbn [r_values r_vectors r_residual r_converged r_iterations fst snd].
  repeat (split; [solve [auto|lia]|]). split; [intros T; specialize (L4 T); lia|]. split; [intros T; specialize (L5 T); rewrite Z.sub_0_r in L5; auto|]. split; [intros T; specialize (L6 T); tauto|]. split; [auto|]. split; [intros T1 T2 T3 T4; exact (L8 T1 T2 T3 T4)|auto].
Qed.
End Solver.
