(** * Proofs about the iterative solvers: the loops of the model *)
From Coq Require Import List Bool Arith ZArith Lia Reals Lra.
From Verif Require Import Base Num Mat_Model Mat_Proofs Mat_Props RootFind_Model RootFind_Proofs Stat_Mean QR_Math Iter_Model Iter_Spec Iter_Math.
Import ListNotations.
Local Open Scope R_scope.

Lemma sum_from : forall k m (step : R -> nat -> res R) (g : nat -> R) s0, (k <= m)%nat ->
  (forall s i, (k <= i < m)%nat -> wp (step s i) (fun s' => s' = s + g i)) ->
  wp (for_range k m step s0) (fun s => s = s0 + rsum m (fun i => if (i <? k)%nat then 0 else g i)).
Proof.
  intros k m step g s0 Hk Hs. eapply wp_conseq; [|apply (for_range_inv _ _ (fun j s => s = s0 + rsum j (fun i => if (i <? k)%nat then 0 else g i))); auto].
  - auto.
  - rewrite rsum_zero; [ring|]. intros i Hi. nbi.
  - intros i s H1 H2 ->. eapply wp_conseq; [|apply (Hs _ i)]; [|lia]. intros s' ->. rewrite Nat.add_1_r. cbn [sumn Rnum nadd]. rewrite Rplus_assoc. f_equal. f_equal. nbi.
Qed.
Lemma rsum_cut : forall n i g, (i <= n)%nat -> rsum i g = rsum n (fun j => if (j <? i)%nat then g j else 0).
Proof.
  induction n; intros i g Hi; [replace i with 0%nat by lia; auto|]. destruct (Nat.eq_dec i (S n)) as [->|Hne].
  - apply rsum_ext. intros j Hj. nbi.
  - cbn [sumn Rnum nadd]. rewrite <- IHn by lia. nbi. ring.
Qed.
Lemma norm_wp : forall v n f, is_vector v n f -> wp (norm_l2 Rarith v) (fun s => s = norm n f).
Proof.
  intros v n f HV. unfold norm_l2. pose proof HV as [-> _]. apply wp_bind. eapply wp_conseq; [|apply (sum_from 0 n _ (fun i => f i * f i)); [lia|]].
  - intros s ->. apply wp_Ok. unfold norm, total. cbn [asqrt Rarith]. f_equal. change (alit Rarith 0) with 0. rewrite Rplus_0_l. apply rsum_ext. intros i Hi. nbi.
  - intros s i Hi. apply wp_bind. eapply vgetf_wp; eauto; [lia|]. apply wp_Ok. reflexivity.
Qed.
Lemma vec_minus_wp : forall u v n f g, is_vector u n f -> is_vector v n g -> wp (vec_minus Rarith u v) (fun r => is_vector r n (fun i => f i - g i)).
Proof.
  intros u v n f g HU HV. unfold vec_minus. pose proof HU as [-> _]. pose proof HV as [-> _]. rewrite Nat.eqb_refl. cbn [negb].
  assert (E : forall r, for_range 0 n (fun r i => x <- vget u i ;; y <- vget v i ;; vset r i (x - y)) r = for_range 0 n (fun r i => z <- (x <- vget u i ;; y <- vget v i ;; Ok (x - y)) ;; vset r i z) r).
  { intros r. unfold for_range. f_equal. apply FunctionalExtensionality.functional_extensionality. intros s. apply FunctionalExtensionality.functional_extensionality. intros i.
    destruct (vget u i); cbn [bind]; auto. destruct (vget v i); cbn [bind]; auto. }
  cbn [nsub aops Rarith Rnum]. rewrite E. eapply vfill_wp with (f := fun i => f i - g i); [apply is_vector_repeat| |auto].
  intros i Hi. apply wp_bind. eapply vgetf_wp; eauto. apply wp_bind. eapply vgetf_wp; eauto. apply wp_Ok. auto.
Qed.

Section Sys.
Variables (n : nat) (M : matrix R) (a : nat -> nat -> R) (b : list R) (bf : nat -> R).
Hypothesis HM : is_matrix M n n a.
Hypothesis HB : is_vector b n bf.

Lemma bnorm_wp : wp (b_norm_of Rarith b) (fun s => s = scale n bf).
Proof.
  unfold b_norm_of. apply wp_bind. eapply wp_conseq; [|eapply norm_wp; eauto]. intros s ->. apply wp_Ok. unfold scale. change (alit Rarith 0) with 0. change (alit Rarith 1) with 1.
  destruct (Raeqb (norm n bf) 0); destruct (Req_EM_T (norm n bf) 0); auto; contradiction.
Qed.
Lemma residual_wp : forall x xf, is_vector x n xf -> wp (residual_of Rarith M b x (scale n bf)) (fun r => r = rel_residual n a bf xf).
Proof.
  intros x xf HX. unfold residual_of. destruct (mat_vec_ok Rnum M x n n a xf HM HX) as (w & E & HW). change (aops Rarith) with Rnum. rewrite E. cbn [bind].
  apply wp_bind. eapply wp_conseq; [|eapply vec_minus_wp; [exact HW|exact HB]]. intros r HR. apply wp_bind. eapply wp_conseq; [|eapply norm_wp; exact HR]. intros s ->. apply wp_Ok. reflexivity.
Qed.

(** the sweeps as functions *)
Definition F (m : method) (x : nat -> R) : nat -> R :=
  match m with Jacobi => jac n a bf x | GaussSeidel => sw n a bf 1 x n | SOR w => sw n a bf w x n end.
Definition model_sweep (m : method) : matrix R -> list R -> list R -> res (list R) :=
  match m with Jacobi => jacobi_sweep Rarith | GaussSeidel => gs_sweep Rarith | SOR w => sor_sweep Rarith w end.
Lemma sigma_wp : forall x xf i, is_vector x n xf -> (i < n)%nat -> wp (gs_sigma Rarith M x i) (fun s => s = off n a xf i).
Proof.
  intros x xf i HX Hi. unfold gs_sigma. pose proof HM as (-> & _). apply wp_bind. eapply wp_conseq; [|apply (sum_from 0 i _ (fun j => a i j * xf j)); [lia|]].
  - intros s ->. eapply wp_conseq; [|apply (sum_from (i + 1) n _ (fun j => a i j * xf j)); [lia|]].
    + intros s ->. change (alit Rarith 0) with 0. rewrite Rplus_0_l. rewrite (rsum_cut n i) by lia. rewrite <- rsum_add. apply rsum_ext. intros j Hj. nbi; ring.
    + intros s j Hj. apply wp_bind. eapply mget_wp; eauto; [lia|]. apply wp_bind. eapply vgetf_wp; eauto; [lia|]. apply wp_Ok. reflexivity.
  - intros s j Hj. apply wp_bind. eapply mget_wp; eauto; [lia|]. apply wp_bind. eapply vgetf_wp; eauto; [lia|]. apply wp_Ok. reflexivity.
Qed.
Lemma sweep_wp : forall m x xf, is_vector x n xf -> wp (model_sweep m M b x) (fun y => is_vector y n (F m xf)).
Proof.
  intros m x xf HX. destruct m as [| |w]; cbn [model_sweep F].
  - unfold jacobi_sweep. pose proof HM as (-> & _). cbv zeta.
    eapply wp_conseq; [|apply (for_range_inv _ _ (fun k y => is_vector y n (fun i => if (i <? k)%nat then jac n a bf xf i else xf i))); [lia| |]].
    + intros y HY. eapply is_vector_ext; [exact HY|]. intros i Hi. cbv beta. nbi.
    + eapply is_vector_ext; [exact HX|]. intros i Hi. cbv beta. nbi.
    + intros i y Hi1 Hi2 HY. apply wp_bind. eapply wp_conseq; [|apply (sum_from 0 n _ (fun j => if Nat.eqb j i then 0 else a i j * xf j)); [lia|]].
      * intros s ->. apply wp_bind. eapply vgetf_wp; [exact HB|lia|]. apply wp_bind. eapply mget_wp; eauto. eapply vsetf_wp; [exact HY|lia|]. intros u Hu.
        eapply is_vector_ext; [exact Hu|]. intros k Hk. unfold vfset. cbv beta. change (alit Rarith 0) with 0. cbn [nsub ndiv aops Rarith Rnum]. rewrite Rplus_0_l. unfold jac, off. nbi.
      * intros s j Hj. destruct (Nat.eqb_spec j i); cbn [negb]; [apply wp_Ok; ring|]. apply wp_bind. eapply mget_wp; eauto; [lia|]. apply wp_bind. eapply vgetf_wp; eauto; [lia|]. apply wp_Ok. reflexivity.
  - unfold gs_sweep. pose proof HM as (-> & _).
    apply (for_range_inv _ _ (fun k y => is_vector y n (sw n a bf 1 xf k))); [lia|exact HX|].
    intros i y Hi1 Hi2 HY. apply wp_bind. eapply wp_conseq; [|eapply sigma_wp; [exact HY|lia]]. intros s ->. apply wp_bind. eapply vgetf_wp; [exact HB|lia|].
    apply wp_bind. eapply mget_wp; eauto. eapply vsetf_wp; [exact HY|lia|]. intros u Hu. rewrite Nat.add_1_r. eapply is_vector_ext; [exact Hu|]. intros k Hk. cbn [sw]. unfold vfset. nbi. unfold jac. cbn [nsub ndiv aops Rarith Rnum]. ring.
  - unfold sor_sweep. pose proof HM as (-> & _).
    apply (for_range_inv _ _ (fun k y => is_vector y n (sw n a bf w xf k))); [lia|exact HX|].
    intros i y Hi1 Hi2 HY. apply wp_bind. eapply wp_conseq; [|eapply sigma_wp; [exact HY|lia]]. intros s ->. apply wp_bind. eapply vgetf_wp; [exact HB|lia|].
    apply wp_bind. eapply mget_wp; eauto. apply wp_bind. eapply vgetf_wp; [exact HY|lia|]. eapply vsetf_wp; [exact HY|lia|]. intros u Hu. rewrite Nat.add_1_r. eapply is_vector_ext; [exact Hu|].
    intros k Hk. cbn [sw]. unfold vfset. nbi.
Qed.

(** the checks *)
Lemma check_ok : diag_ok n a -> check Rarith M b = Ok tt.
Proof.
  intros HD. assert (W : wp (check Rarith M b) (fun _ => True)).
  { unfold check. pose proof HM as (-> & -> & _). pose proof HB as (-> & _). rewrite Nat.eqb_refl. cbn [negb]. cbv zeta.
    apply wp_bind. eapply wp_conseq; [|apply (for_range_inv _ _ (fun k s => 0 <= s /\ (s = 0 \/ exists j, (j < n)%nat /\ s = Rabs (a j j)))); [lia| |]].
    - intros mx (H0 & Hmx). apply (for_range_inv _ _ (fun _ _ => True)); [lia|auto|]. intros i u Hi1 Hi2 _. apply wp_bind. eapply mget_wp; eauto. rewrite Rabs_aabs.
      change (it_eps Rarith) with (1 / 4503599627370496). assert (Ee : 1 / 4503599627370496 = eps) by (unfold eps; f_equal; ring). rewrite Ee.
      destruct (HD i Hi2) as [D1 D2]. cbn [altb Rarith nmul aops Rnum].
      assert (L : (if Rltb (mx * eps) eps then eps else mx * eps) <= Rabs (a i i)).
      { destruct (Rltb_spec (mx * eps) eps); auto. destruct Hmx as [->|(j & Hj & ->)]; [pose proof (Rabs_pos (a i i)); lra|auto]. }
      destruct (Rltb_spec (Rabs (a i i)) (if Rltb (mx * eps) eps then eps else mx * eps)); [lra|apply wp_Ok; auto].
    - split; [change (alit Rarith 0) with 0; lra|left; reflexivity].
    - intros i s Hi1 Hi2 (H0 & Hs). apply wp_bind. eapply mget_wp; eauto. rewrite Rabs_aabs. cbn [altb Rarith]. apply wp_Ok. destruct (Rltb_spec s (Rabs (a i i))).
      + split; [apply Rabs_pos|right; eauto].
      + split; auto. }
  apply wp_ex in W. destruct W as ([] & E & _). exact E.
Qed.
Lemma check_bad : ~ diag_ok n a -> check Rarith M b = Throw SingularError.
Proof.
  intros HN. unfold check. pose proof HM as (-> & -> & _). pose proof HB as (-> & _). rewrite Nat.eqb_refl. cbn [negb]. cbv zeta.
  assert (W : wp (for_range 0 n (fun s i => x <- mget M i i ;; Ok (if altb Rarith s (aabs Rarith x) then aabs Rarith x else s)) (alit Rarith 0)) (fun s => 0 <= s /\ forall j, (j < n)%nat -> Rabs (a j j) <= s)).
  { eapply wp_conseq; [|apply (for_range_inv _ _ (fun k s => 0 <= s /\ forall j, (j < k)%nat -> Rabs (a j j) <= s)); [lia| |]]; [auto|split; [change (alit Rarith 0) with 0; lra|intros; lia]|].
    intros i s Hi1 Hi2 [H0 IH]. apply wp_bind. eapply mget_wp; eauto. rewrite Rabs_aabs. cbn [altb Rarith]. apply wp_Ok. split; [destruct (Rltb_spec s (Rabs (a i i))); auto; apply Rabs_pos|].
    intros j Hj. destruct (Nat.eq_dec j i) as [->|Hne]; [destruct (Rltb_spec s (Rabs (a i i))); lra|]. specialize (IH j ltac:(lia)). destruct (Rltb_spec s (Rabs (a i i))); lra. }
  apply wp_ex in W. destruct W as (mx & E & H0 & HX). rewrite E. cbn [bind]. clear E.
  change (it_eps Rarith) with (1 / 4503599627370496). assert (Ee : 1 / 4503599627370496 = eps) by (unfold eps; f_equal; ring). rewrite Ee. cbn [altb Rarith nmul aops Rnum].
  set (t := if Rltb (mx * eps) eps then eps else mx * eps).
  assert (Hep : 0 < eps) by (unfold eps; lra).
  assert (Ht : eps <= t /\ mx * eps <= t) by (unfold t; destruct (Rltb_spec (mx * eps) eps); lra).
  destruct (Classical_Prop.classic (exists i, (i < n)%nat /\ Rabs (a i i) < t)) as [HE|HE].
  - destruct (first_bad _ n (fun i => Rlt_dec (Rabs (a i i)) t) HE) as (k & Hk & Hb & Hg).
    assert (G : forall i, (i < n)%nat -> mget M i i = Ok (a i i)).
    { intros i Hi. assert (W : wp (mget M i i) (fun x => x = a i i)) by (eapply mget_wp; eauto). apply wp_ex in W. destruct W as (x & -> & ->). auto. }
    apply (acc_throw unit k n _ (fun _ => tt) SingularError Hk).
    + intros i Hi. rewrite G by lia. cbn [bind]. rewrite Rabs_aabs. destruct (Rltb_spec (Rabs (a i i)) t); auto. exfalso. apply (Hg i Hi). auto.
    + rewrite G by lia. cbn [bind]. rewrite Rabs_aabs. destruct (Rltb_spec (Rabs (a k k)) t); auto. lra.
  - exfalso. apply HN. intros i Hi. assert (L : t <= Rabs (a i i)) by (apply Rnot_lt_le; intros L; apply HE; eauto). split; [lra|].
    intros j Hj. specialize (HX j Hj). nra.
Qed.

(** ** the loop: the first iterate whose residual is below the tolerance *)
Definition iter (m : method) (k : nat) (x : nat -> R) : nat -> R := Nat.iter k (F m) x.
Lemma iter_shift : forall m k x, iter m k (F m x) = iter m (S k) x.
Proof. induction k; intros x; [reflexivity|]. change (iter m (S k) (F m x)) with (F m (iter m k (F m x))). rewrite IHk. reflexivity. Qed.
Definition res_at (m : method) (x : nat -> R) (k : nat) : R := rel_residual n a bf (iter m k x).
Lemma loop_ok : forall m tol togo it x xf r0, is_vector x n xf ->
  exists R k, it_loop Rarith (model_sweep m M b) M b (scale n bf) tol togo it x r0 = Ok R /\ (k <= togo)%nat /\ is_vector (ir_x R) n (iter m k xf) /\
    (forall j, (1 <= j < k)%nat -> tol <= res_at m xf j) /\
    (if ir_conv R then (1 <= k)%nat /\ ir_iter R = (it + Z.of_nat k - 1)%Z /\ ir_residual R = res_at m xf k /\ res_at m xf k < tol
     else k = togo /\ ir_iter R = (it + Z.of_nat togo)%Z /\ ir_residual R = (if Nat.eqb togo 0 then r0 else res_at m xf togo) /\ forall j, (1 <= j <= togo)%nat -> tol <= res_at m xf j).
Proof.
  intros m tol. induction togo as [|togo IH]; intros it x xf r0 HX.
  - exists (mkIR x it r0 false), 0%nat. cbn. repeat split; auto; try lia; apply HX.
  - cbn [it_loop]. pose proof (sweep_wp m x xf HX) as W. apply wp_ex in W. destruct W as (y & E & HY). rewrite E. cbn [bind].
    pose proof (residual_wp y _ HY) as W. apply wp_ex in W. destruct W as (r & Er & Hr). rewrite Er. cbn [bind]. clear E Er.
    cbn [altb Rarith]. destruct (Rltb_spec r tol) as [L|L].
    + exists (mkIR y it r true), 1%nat. cbn [ir_x ir_conv ir_iter ir_residual]. split; auto. split; [lia|]. split; [exact HY|]. split; [intros; lia|]. split; [lia|]. split; [lia|]. split; [exact Hr|]. unfold res_at. cbn. rewrite <- Hr. auto.
    + destruct (IH (it + 1)%Z y _ r HY) as (R & k & E & Hk & HV & Hlow & HC). exists R, (S k). split; [exact E|]. split; [lia|]. split; [rewrite <- iter_shift; exact HV|].
      assert (Hs : forall j, res_at m (F m xf) j = res_at m xf (S j)) by (intros j; unfold res_at; rewrite iter_shift; auto).
      assert (H1 : tol <= res_at m xf 1) by (unfold res_at; cbn; rewrite <- Hr; lra).
      assert (Hl : forall j K, (1 <= j < S K)%nat -> (forall j, (1 <= j < K)%nat -> tol <= res_at m (F m xf) j) -> tol <= res_at m xf j).
      { intros j K Hj HK. destruct (Nat.eq_dec j 1) as [->|]; auto. replace j with (S (j - 1)) by lia. rewrite <- Hs. apply HK. lia. }
      split; [intros j Hj; apply (Hl j k); auto|]. destruct (ir_conv R).
      * destruct HC as (C1 & C2 & C3 & C4). rewrite Hs in *. repeat split; auto; try lia.
      * destruct HC as (C1 & C2 & C3 & C4). split; [lia|]. split; [lia|]. split.
        -- cbn [Nat.eqb]. rewrite C3. destruct (Nat.eqb_spec togo 0) as [E0|E0]; [rewrite E0; exact Hr|]. apply Hs.
        -- intros j Hj. apply (Hl j (S togo)); [lia|]. intros i Hi. apply C4. lia.
Qed.
Definition startf (x0 : list R) (i : nat) : R := if Nat.eqb (length x0) n then nth i x0 0 else 0.
Lemma start_ok : forall x0, is_vector (start Rarith n x0) n (startf x0).
Proof.
  intros x0. unfold start, startf. destruct (Nat.eqb_spec (length x0) n) as [E|E].
  - split; auto. intros i Hi. apply nth_error_nth'. lia.
  - apply is_vector_repeat.
Qed.
Lemma solve_unfold : forall m x0 tol mi, omega_ok m -> solve m M b x0 tol mi = it_solve Rarith (model_sweep m) M b x0 tol mi.
Proof.
  intros m x0 tol mi HO. destruct m; auto. cbn [solve model_sweep]. unfold SORSolve. cbn in HO. change (alit Rarith 0) with 0. change (alit Rarith 2) with 2. cbn [altb Rarith].
  destruct (Rltb_spec 0 w); destruct (Rltb_spec w 2); cbn [negb orb]; auto; lra.
Qed.
Lemma solve_ok : forall m x0 tol mi, omega_ok m -> diag_ok n a -> let xf := startf x0 in
  exists R k, solve m M b x0 tol mi = Ok R /\ (k <= Z.to_nat mi)%nat /\ is_vector (ir_x R) n (iter m k xf) /\
    (forall j, (1 <= j < k)%nat -> tol <= res_at m xf j) /\
    (if ir_conv R then (1 <= k)%nat /\ ir_iter R = Z.of_nat k /\ ir_residual R = res_at m xf k /\ res_at m xf k < tol
     else k = Z.to_nat mi /\ ir_iter R = (Z.of_nat (Z.to_nat mi) + 1)%Z /\ ir_residual R = (if Nat.eqb (Z.to_nat mi) 0 then 0 else res_at m xf (Z.to_nat mi)) /\ forall j, (1 <= j <= Z.to_nat mi)%nat -> tol <= res_at m xf j).
Proof.
  intros m x0 tol mi HO HD xf. rewrite solve_unfold by auto. unfold it_solve. rewrite check_ok by auto. cbn [bind].
  pose proof bnorm_wp as W. apply wp_ex in W. destruct W as (s & E & ->). rewrite E. cbn [bind]. pose proof HM as (E1 & _). rewrite E1.
  pose proof (start_ok x0) as HX. fold xf in HX. change (alit Rarith 0) with 0. destruct (loop_ok m tol (Z.to_nat mi) 1 _ xf 0 HX) as (R & k & ER & A1 & A2 & A3 & A4). exists R, k. split; auto. split; auto. split; auto. split; auto.
  destruct (ir_conv R); [destruct A4 as (C1 & C2 & C3 & C4)|destruct A4 as (C1 & C2 & C3 & C4)]; repeat split; auto; lia.
Qed.
(** some iterate with a small residual means convergence, for every limit from there on *)
Lemma reaches : forall m x0 tol k, omega_ok m -> diag_ok n a -> (1 <= k)%nat -> res_at m (startf x0) k < tol ->
  forall mi, (Z.of_nat k <= mi)%Z -> exists R, solve m M b x0 tol mi = Ok R /\ ir_conv R = true.
Proof.
  intros m x0 tol k HO HD Hk Hr mi Hm. destruct (solve_ok m x0 tol mi HO HD) as (R & k' & E & _ & _ & _ & HC). exists R. split; auto.
  destruct (ir_conv R); auto. exfalso. destruct HC as (_ & _ & _ & H). specialize (H k ltac:(lia)). lra.
Qed.

(** ** the sweeps satisfy the textbook equations *)
Lemma F_rel : diag_ok n a -> forall m x, sweep_rel n a bf m x (F m x).
Proof.
  intros HD m x i Hi. assert (Hd : a i i <> 0). { destruct (HD i Hi) as [D _]. intros E. rewrite E, Rabs_R0 in D. assert (0 < eps) by (unfold eps; lra). lra. }
  assert (Hrow : forall z y, (forall j, (j < n)%nat -> j <> i -> z j = y j) -> z i = jac n a bf y i -> rsum n (fun j => a i j * z j) = bf i).
  { intros z y Hz Hi'. change (row n a z i = bf i). rewrite off_row, (off_ext n a z y), Hi' by auto. unfold jac. field. auto. }
  unfold total. destruct m as [| |w]; cbn [F].
  - apply (Hrow _ x); [|rewrite Nat.eqb_refl; auto]. intros j Hj Hne. nbi.
  - apply (Hrow _ (sw n a bf 1 x i)).
    + intros j Hj Hne. destruct (Nat.leb_spec j i); [rewrite (sw_early n a bf 1 x n j), (sw_early n a bf 1 x i j) by lia; auto|rewrite sw_late by lia; auto].
    + rewrite Nat.leb_refl, sw_early by auto. cbn [sw]. unfold vfset. rewrite Nat.eqb_refl. ring.
  - exists (jac n a bf (sw n a bf w x i) i). split.
    + rewrite sw_early by auto. cbn [sw]. unfold vfset. rewrite Nat.eqb_refl. rewrite sw_late by lia. auto.
    + apply (Hrow _ (sw n a bf w x i)).
      * intros j Hj Hne. destruct (Nat.ltb_spec j i); [rewrite (sw_early n a bf w x n j), (sw_early n a bf w x i j) by lia; auto|]. rewrite sw_late by lia. nbi.
      * rewrite Nat.ltb_irrefl, Nat.eqb_refl. auto.
Qed.

(** ** convergence *)
Lemma diag_nz : diag_ok n a -> forall i, (i < n)%nat -> a i i <> 0.
Proof. intros HD i Hi E. destruct (HD i Hi) as [D _]. rewrite E, Rabs_R0 in D. assert (0 < eps) by (unfold eps; lra). lra. Qed.
Lemma scale_pos : 0 < scale n bf.
Proof. unfold scale. destruct (Req_EM_T (norm n bf) 0) as [E|E]; [lra|]. assert (0 <= norm n bf) by apply sqrt_pos. lra. Qed.
Definition gain (m : method) : R := match m with Jacobi => absum n a | GaussSeidel => absum n a / 1 + absum n a | SOR w => absum n a / w + absum n a end.
Lemma gain_pos : forall m, omega_ok m -> 0 <= gain m.
Proof.
  intros m HO. pose proof (absum_pos n a). destruct m as [| |w]; cbn in *; try lra. apply Rplus_le_le_0_compat; auto. apply Rmult_le_pos; auto. left. apply Rinv_0_lt_compat. lra.
Qed.
Lemma small_move : forall m x D, omega_ok m -> diag_ok n a -> 0 <= D -> (forall j, (j < n)%nat -> Rabs (F m x j - x j) <= D) ->
  rel_residual n a bf (F m x) <= INR n * (gain m * D) / scale n bf.
Proof.
  intros m x D HO HD H0 H. unfold rel_residual. pose proof scale_pos. pose proof (gain_pos m HO). apply Rmult_le_compat_r; [left; apply Rinv_0_lt_compat; auto|].
  apply norm_bound; [apply Rmult_le_pos; auto|]. intros i Hi. destruct m as [| |w]; cbn [F gain] in *.
  - apply jac_resid_bound; auto. apply diag_nz; auto.
  - apply sw_resid_bound; auto; [apply diag_nz; auto|lra].
  - apply sw_resid_bound; auto; [apply diag_nz; auto|]. cbn in HO. lra.
Qed.
Lemma target : forall m tol, omega_ok m -> 0 < tol -> exists D, 0 < D /\ INR n * (gain m * D) / scale n bf < tol.
Proof.
  intros m tol HO Ht. pose proof scale_pos as Hs. pose proof (gain_pos m HO) as Hg. pose proof (pos_INR n) as Hn. set (G := INR n * gain m).
  assert (HG : 0 <= G) by (apply Rmult_le_pos; auto). exists (tol * scale n bf / (G + 1)).
  split; [apply Rmult_lt_0_compat; [apply Rmult_lt_0_compat; auto|apply Rinv_0_lt_compat; lra]|].
  replace (INR n * (gain m * (tol * scale n bf / (G + 1))) / scale n bf) with (tol * (G * / (G + 1))) by (unfold G; field; fold G; lra).
  rewrite <- (Rmult_1_r tol) at 2. apply Rmult_lt_compat_l; auto. apply (Rmult_lt_reg_r (G + 1)); [lra|]. rewrite Rmult_assoc, Rinv_l by lra. lra.
Qed.
Lemma dominant_reaches : forall m x tol, (match m with SOR w => 0 < w <= 1 | _ => True end) -> diag_ok n a -> dominant n a -> 0 < tol ->
  exists k, (1 <= k)%nat /\ res_at m x k < tol.
Proof.
  intros m x tol Hm HD HS Ht. assert (HO : omega_ok m) by (destruct m; cbn; auto; lra).
  destruct (sdd_q n a (diag_nz HD) HS) as (q & Hq & Hdom).
  set (rho := match m with Jacobi => q | GaussSeidel => 1 - 1 + 1 * q | SOR w => 1 - w + w * q end).
  assert (Hrho : 0 <= rho < 1). { unfold rho. destruct m as [| |w]; try lra. assert (0 < w * (1 - q)) by (apply Rmult_lt_0_compat; lra). split; [assert (0 <= w * q) by (apply Rmult_le_pos; lra)|]; lra. }
  destruct (bounded n (fun j => F m x j - x j)) as (D0 & HD0 & Hb).
  assert (HC : forall u v D, 0 <= D -> (forall j, (j < n)%nat -> Rabs (u j - v j) <= D) -> forall j, (j < n)%nat -> Rabs (F m u j - F m v j) <= rho * D).
  { intros u v D H0 H j Hj. unfold rho. destruct m as [| |w]; cbn [F].
    - apply (jac_contract1 n a bf (diag_nz HD) q Hdom); auto.
    - pose proof (sw_contract n a bf (diag_nz HD) q Hq Hdom 1 u v D ltac:(lra) H0 H n (le_n n) j Hj) as W. destruct (Nat.ltb_spec j n); [exact W|lia].
    - pose proof (sw_contract n a bf (diag_nz HD) q Hq Hdom w u v D ltac:(lra) H0 H n (le_n n) j Hj) as W. destruct (Nat.ltb_spec j n); [exact W|lia]. }
  assert (Hk : forall k j, (j < n)%nat -> Rabs (iter m (S k) x j - iter m k x j) <= rho ^ k * D0).
  { induction k; intros j Hj; [cbn [pow]; rewrite Rmult_1_l; apply Hb; auto|].
    change (iter m (S (S k)) x) with (F m (iter m (S k) x)). change (iter m (S k) x j) with (F m (iter m k x) j). cbn [pow]. rewrite Rmult_assoc. apply HC; auto.
    apply Rmult_le_pos; auto. apply pow_le; lra. }
  destruct (target m tol HO Ht) as (D & HDp & HT).
  destruct (pow_lt_1_zero rho ltac:(rewrite Rabs_pos_eq; lra) (D / (D0 + 1)) ltac:(apply Rmult_lt_0_compat; [auto|apply Rinv_0_lt_compat; lra])) as (N & HN).
  specialize (HN N (le_n N)). rewrite Rabs_pos_eq in HN by (apply pow_le; lra).
  exists (S N). split; [lia|]. unfold res_at. eapply Rle_lt_trans; [|exact HT]. apply (small_move m (iter m N x)); auto; [lra|].
  intros j Hj. eapply Rle_trans; [apply (Hk N j Hj)|]. apply (Rmult_lt_compat_r (D0 + 1)) in HN; [|lra]. unfold Rdiv in HN. rewrite Rmult_assoc, Rinv_l in HN by lra.
  assert (0 <= rho ^ N) by (apply pow_le; lra). nra.
Qed.
Lemma spd_reaches : forall m x tol, m <> Jacobi -> omega_ok m -> diag_ok n a -> symmetric n a -> positive_definite n a -> 0 < tol ->
  exists k, (1 <= k)%nat /\ res_at m x k < tol.
Proof.
  intros m x tol Hm HO HD HS HP Ht. destruct (target m tol HO Ht) as (D & HDp & HT).
  destruct (energy_below n a bf HS HP) as (L & HL).
  set (w := match m with SOR w => w | _ => 1 end). assert (Hw : 0 < w < 2) by (unfold w; destruct m; cbn in HO; lra).
  assert (HF : forall u, F m u = sw n a bf w u n) by (intros u; destruct m; [contradiction|reflexivity|reflexivity]).
  assert (He : 0 < eps) by (unfold eps; lra).
  set (c := (2 - w) / w / 2). assert (Hc : 0 < c). { unfold c, Rdiv. apply Rmult_lt_0_compat; [|lra]. apply Rmult_lt_0_compat; [lra|]. apply Rinv_0_lt_compat. lra. }
  set (E := fun k => energy n a bf (iter m k x)).
  assert (HE : forall k, E (S k) = E k - c * rsum n (fun i => a i i * ((iter m (S k) x i - iter m k x i) * (iter m (S k) x i - iter m k x i)))).
  { intros k. unfold E. change (iter m (S k) x) with (F m (iter m k x)). rewrite !HF. apply (sw_energy n a bf w _ HS HP); [lra|lia]. }
  assert (Hdd : forall i, (i < n)%nat -> eps <= a i i). { intros i Hi. destruct (HD i Hi) as [H1 _]. rewrite Rabs_pos_eq in H1; auto. left. apply (posdef_diag n a i); auto. }
  set (eta := c * (eps * (D * D))). assert (Hd2 : 0 < D * D) by nra. assert (Heta : 0 < eta) by (unfold eta; apply Rmult_lt_0_compat; auto; apply Rmult_lt_0_compat; auto).
  destruct (Classical_Prop.classic (exists k, E k - E (S k) <= eta)) as [(k & Hk)|HN].
  - exists (S k). split; [lia|]. unfold res_at. eapply Rle_lt_trans; [|exact HT]. apply (small_move m (iter m k x)); auto; [lra|].
    intros j Hj. change (F m (iter m k x)) with (iter m (S k) x). rewrite HE in Hk. set (d := fun i => iter m (S k) x i - iter m k x i) in *. change (Rabs (d j) <= D).
    assert (Hj' : a j j * (d j * d j) <= eps * (D * D)).
    { eapply Rle_trans; [apply (rsum_elem n (fun i => a i i * (d i * d i)) j Hj); intros i Hi; apply Rmult_le_pos; [pose proof (Hdd i Hi); lra|nra]|].
      change (E k - (E k - c * rsum n (fun i => a i i * (d i * d i))) <= eta) in Hk. unfold eta in Hk. apply (Rmult_le_reg_l c); auto. lra. }
    pose proof (Hdd j Hj). assert (d j * d j <= D * D) by (apply (Rmult_le_reg_l eps); auto; assert (0 <= d j * d j) by nra; nra).
    apply Rsqr_le_abs_0 in H0. rewrite (Rabs_pos_eq D) in H0 by lra. auto.
  - exfalso. assert (Hall : forall k, E k <= E 0%nat - INR k * eta).
    { induction k; [simpl; lra|]. assert (~ (E k - E (S k) <= eta)) by (intros Hx; apply HN; eauto). rewrite S_INR. lra. }
    destruct (Rle_lt_dec (E 0%nat - L) 0).
    + specialize (Hall 1%nat). specialize (HL (iter m 1 x)). fold (E 1%nat) in HL. simpl in Hall. lra.
    + destruct (archimed_cor1 (eta / (E 0%nat - L)) ltac:(apply Rmult_lt_0_compat; [auto|apply Rinv_0_lt_compat; auto])) as (N & HN1 & HN2).
      specialize (Hall N). specialize (HL (iter m N x)). fold (E N) in HL. assert (HNp : 0 < INR N) by (apply lt_0_INR; auto).
      apply (Rmult_lt_compat_l (INR N * (E 0%nat - L))) in HN1; [|apply Rmult_lt_0_compat; auto].
      replace (INR N * (E 0%nat - L) * / INR N) with (E 0%nat - L) in HN1 by (field; lra).
      replace (INR N * (E 0%nat - L) * (eta / (E 0%nat - L))) with (INR N * eta) in HN1 by (field; lra). lra.
Qed.
End Sys.
