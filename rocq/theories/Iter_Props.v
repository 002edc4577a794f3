(** * C83: iterative solvers of linear systems *)
From Coq Require Import List Bool Arith ZArith Lia Reals Lra QArith Qcanon.
From Verif Require Import Base Num Mat_Model Mat_Proofs Mat_Props RootFind_Model RootFind_Proofs RootFind_Props QR_Math Iter_Model Iter_Spec Iter_Math Iter_Proofs.
Import ListNotations.
Local Open Scope nat_scope.
Local Open Scope R_scope.

(** What every call returns: the start is x0 (zero if x0 has another length); the solution is the k-th textbook iterate for the first
    k >= 1 whose relative residual is below the tolerance, and then k is the number of iterations; otherwise the last iterate. *)
Theorem C83_result : forall m n M a b bf x0 tol maxIter, is_matrix M n n a -> is_vector b n bf -> omega_ok m -> diag_ok n a ->
  exists (r : itres R) (k : nat) (X : nat -> nat -> R), solve m M b x0 tol maxIter = Ok r /\
    (forall i, (i < n)%nat -> X 0%nat i = if Nat.eqb (length x0) n then nth i x0 0 else 0) /\ (forall j, sweep_rel n a bf m (X j) (X (S j))) /\
    is_vector (ir_x r) n (X k) /\ (Z.of_nat k <= Z.max 0 maxIter)%Z /\ (forall j, (1 <= j < k)%nat -> tol <= rel_residual n a bf (X j)) /\
    (ir_conv r = true -> (1 <= k)%nat /\ ir_iter r = Z.of_nat k /\ ir_residual r = rel_residual n a bf (X k) /\ ir_residual r < tol) /\
    (ir_conv r = false -> Z.of_nat k = Z.max 0 maxIter /\ ((1 <= maxIter)%Z -> ir_residual r = rel_residual n a bf (X k) /\ tol <= ir_residual r)).
Proof.
  intros m n M a b bf x0 tol mi HM HB HO HD. destruct (solve_ok n M a b bf HM HB m x0 tol mi HO HD) as (r & k & E & Hk & HV & Hl & HC).
  exists r, k, (fun k => iter n a bf m k (startf n x0)). split; auto. split; [reflexivity|]. split; [intros j; apply (F_rel n a bf HD)|]. split; auto. split; [lia|]. split; [exact Hl|].
  destruct (ir_conv r); split; try discriminate; intros _.
  - destruct HC as (C1 & C2 & C3 & C4). repeat split; auto; rewrite C3; auto.
  - destruct HC as (C1 & C2 & C3 & C4). split; [lia|]. intros Hm. destruct (Nat.eqb_spec (Z.to_nat mi) 0) as [E0|E0]; [lia|]. rewrite C3, C1. split; [reflexivity|]. apply C4. lia.
Qed.
Print Assumptions C83_result.

(** Strictly diagonally dominant systems: Jacobi, Gauss-Seidel and SOR with omega <= 1 converge from every start, to every tolerance. *)
Theorem C83_dominant : forall m n M a b bf x0 tol, is_matrix M n n a -> is_vector b n bf -> (match m with SOR w => 0 < w <= 1 | _ => True end) ->
  diag_ok n a -> dominant n a -> 0 < tol ->
  exists N, forall maxIter, (N <= maxIter)%Z -> exists r, solve m M b x0 tol maxIter = Ok r /\ ir_conv r = true.
Proof.
  intros m n M a b bf x0 tol HM HB Hm HD HS Ht. destruct (dominant_reaches n a bf m (startf n x0) tol Hm HD HS Ht) as (k & Hk & Hr).
  exists (Z.of_nat k). apply (reaches n M a b bf HM HB m x0 tol k); auto. destruct m; cbn; auto; lra.
Qed.
Print Assumptions C83_dominant.

(** Symmetric positive definite systems: Gauss-Seidel, and SOR for every omega in (0, 2), converge from every start, to every tolerance. *)
Theorem C83_positive_definite : forall m n M a b bf x0 tol, is_matrix M n n a -> is_vector b n bf -> m <> Jacobi -> omega_ok m ->
  diag_ok n a -> symmetric n a -> positive_definite n a -> 0 < tol ->
  exists N, forall maxIter, (N <= maxIter)%Z -> exists r, solve m M b x0 tol maxIter = Ok r /\ ir_conv r = true.
Proof.
  intros m n M a b bf x0 tol HM HB Hm HO HD HS HP Ht. destruct (spd_reaches n a bf m (startf n x0) tol Hm HO HD HS HP Ht) as (k & Hk & Hr).
  exists (Z.of_nat k). apply (reaches n M a b bf HM HB m x0 tol k); auto.
Qed.
Print Assumptions C83_positive_definite.

(** For a diagonally dominant matrix the reported residual bounds the error in every component. *)
Theorem C83_error_bound : forall m n M a b bf x0 tol maxIter gap xs r, is_matrix M n n a -> is_vector b n bf -> omega_ok m -> diag_ok n a -> 0 < gap ->
  (forall i, (i < n)%nat -> gap + total n (fun j => if Nat.eqb j i then 0 else Rabs (a i j)) <= Rabs (a i i)) ->
  (forall i, (i < n)%nat -> total n (fun j => a i j * xs j) = bf i) -> (1 <= maxIter)%Z -> solve m M b x0 tol maxIter = Ok r ->
  length (ir_x r) = n /\ forall i, (i < n)%nat -> gap * Rabs (nth i (ir_x r) 0 - xs i) <= ir_residual r * scale n bf.
Proof.
  intros m n M a b bf x0 tol mi gap xs r HM HB HO HD Hg Hdom Hxs Hmi E.
  destruct (C83_result m n M a b bf x0 tol mi HM HB HO HD) as (r' & k & X & E' & _ & _ & HV & _ & _ & HT & HF). rewrite E in E'. injection E' as <-.
  assert (Hr : ir_residual r = rel_residual n a bf (X k)) by (destruct (ir_conv r); [apply HT; auto|apply HF; auto]).
  pose proof HV as [HL Hn]. split; auto. intros i Hi. rewrite (nth_error_nth _ _ 0 (Hn i Hi)).
  destruct (argmax n (fun i => Rabs (X k i - xs i)) ltac:(lia)) as (p & Hp & HX). cbv beta in HX. set (D := Rabs (X k p - xs p)) in *.
  apply Rle_trans with (gap * D); [apply Rmult_le_compat_l; auto; lra|].
  rewrite Hr. unfold rel_residual. pose proof (scale_pos n bf) as Hs. unfold Rdiv. rewrite Rmult_assoc, Rinv_l, Rmult_1_r by lra.
  eapply Rle_trans; [|apply (norm_entry n (fun i => total n (fun j => a i j * X k j) - bf i) p Hp)]. cbv beta. rewrite <- (Hxs p Hp). unfold total. rewrite <- rsum_sub.
  assert (Er : rsum n (fun j => a p j * X k j - a p j * xs j) = row n a (fun j => X k j - xs j) p) by (apply rsum_ext; intros; ring).
  rewrite Er, off_row by auto. set (o := off n a (fun j => X k j - xs j) p).
  assert (Ho : Rabs o <= total n (fun j => if Nat.eqb j p then 0 else Rabs (a p j)) * D).
  { unfold o, off, total. rewrite Rmult_comm, <- rsum_scal. eapply Rle_trans; [apply rsum_abs|]. apply rsum_le. intros j Hj. nbi; [rewrite Rabs_R0; lra|]. rewrite Rabs_mult. pose proof (HX j Hj). pose proof (Rabs_pos (a p j)). nra. }
  pose proof (Hdom p Hp) as Hd. pose proof (Rabs_triang_inv (a p p * (X k p - xs p)) (- o)) as Ht. rewrite Rabs_mult, Rabs_Ropp in Ht. fold D in Ht.
  replace (a p p * (X k p - xs p) - - o) with (o + a p p * (X k p - xs p)) in Ht by ring. assert (0 <= D) by apply Rabs_pos. nra.
Qed.
Print Assumptions C83_error_bound.

(** Started at a solution, every method returns it after one iteration with residual 0. *)
Theorem C83_fixed_point : forall m n M a b bf x0 tol maxIter, is_matrix M n n a -> is_vector b n bf -> omega_ok m -> diag_ok n a ->
  length x0 = n -> (forall i, (i < n)%nat -> total n (fun j => a i j * nth j x0 0) = bf i) -> 0 < tol -> (1 <= maxIter)%Z ->
  solve m M b x0 tol maxIter = Ok (mkIR x0 1 0 true).
Proof.
  intros m n M a b bf x0 tol mi HM HB HO HD HL Hx Ht Hmi.
  assert (HJ : forall x, (forall j, (j < n)%nat -> x j = nth j x0 0) -> forall i, (i < n)%nat -> jac n a bf x i = x i).
  { intros x Ex i Hi. unfold jac. rewrite <- (Hx i Hi). assert (E : total n (fun j => a i j * nth j x0 0) = row n a x i) by (apply rsum_ext; intros j Hj; rewrite Ex; auto).
    rewrite E, off_row by auto. field. apply (diag_nz n a HD i Hi). }
  set (x := startf n x0). assert (Ex : forall j, x j = nth j x0 0) by (intros j; unfold x, startf; rewrite HL, Nat.eqb_refl; auto).
  assert (HW : forall w k, (k <= n)%nat -> forall j, sw n a bf w x k j = x j).
  { intros w. induction k; intros Hk j; auto. cbn [sw]. unfold vfset. nbi; [|apply IHk; lia]. rewrite (HJ _ ltac:(intros; rewrite IHk by lia; auto)) by lia. rewrite IHk by lia. ring. }
  assert (HF : forall j, (j < n)%nat -> F n a bf m x j = nth j x0 0) by (intros j Hj; rewrite <- Ex; destruct m; cbn [F]; [apply HJ; auto|apply HW; auto|apply HW; auto]).
  assert (Hr : res_at n a bf m x 1 = 0).
  { unfold res_at, rel_residual, norm. rewrite (rsum_zero n); [rewrite sqrt_0; unfold Rdiv; ring|]. intros i Hi. cbv beta.
    assert (E : total n (fun j => a i j * iter n a bf m 1 x j) = bf i) by (rewrite <- (Hx i Hi); apply rsum_ext; intros j Hj; f_equal; apply HF; auto). rewrite E. ring. }
  destruct (solve_ok n M a b bf HM HB m x0 tol mi HO HD) as (r & k & E & Hk & HV & Hl & HC). fold x in HV, Hl, HC. rewrite E. f_equal. destruct r as [rx ri rr rc]. cbn in *. destruct rc.
  - destruct HC as (C1 & C2 & C3 & C4). assert (k = 1)%nat. { destruct (Nat.eq_dec k 1); auto. specialize (Hl 1%nat ltac:(lia)). lra. } subst k. f_equal; auto; [|rewrite C3; auto].
    destruct HV as [V1 V2]. apply (nth_ext _ _ 0 0); [congruence|]. intros i Hi. rewrite (nth_error_nth _ _ 0 (V2 i ltac:(lia))). apply HF. lia.
  - destruct HC as (_ & _ & _ & C4). specialize (C4 1%nat ltac:(lia)). lra.
Qed.
Print Assumptions C83_fixed_point.

(** The documented errors, and what SolveSimple makes of the result. *)
Theorem C83_errors : forall m n M a b bf x0 tol maxIter, is_matrix M n n a -> is_vector b n bf -> 
  (forall w, ~ 0 < w < 2 -> forall M b, solve (SOR w) M b x0 tol maxIter = Throw NumericalError) /\
  (omega_ok m -> forall M', m_cols M' <> m_rows M' -> solve m M' b x0 tol maxIter = Throw DimensionError) /\
  (omega_ok m -> forall b', length b' <> n -> solve m M b' x0 tol maxIter = Throw DimensionError) /\
  (omega_ok m -> ~ diag_ok n a -> solve m M b x0 tol maxIter = Throw SingularError) /\
  (forall r, solve m M b [] tol maxIter = Ok r -> solve_simple m M b tol maxIter = if ir_conv r then Ok (ir_x r) else Throw OtherError).
Proof.
  intros m n M a b bf x0 tol mi HM HB. split; [|split; [|split; [|split]]].
  - intros w Hw M' b'. cbn [solve]. unfold SORSolve. change (alit Rarith 0) with 0. change (alit Rarith 2) with 2. cbn [altb Rarith]. destruct (Rltb_spec 0 w); destruct (Rltb_spec w 2); cbn [negb orb]; auto. exfalso. apply Hw. lra.
  - intros HO M' HN. rewrite solve_unfold by auto. unfold it_solve, check. destruct (Nat.eqb_spec (m_cols M') (m_rows M')); [contradiction|reflexivity].
  - intros HO b' HN. rewrite solve_unfold by auto. unfold it_solve, check. pose proof HM as (-> & -> & _). rewrite Nat.eqb_refl. cbn [negb]. destruct (Nat.eqb_spec (length b') n); [contradiction|reflexivity].
  - intros HO HN. rewrite solve_unfold by auto. unfold it_solve. rewrite (check_bad n M a b bf HM HB HN). reflexivity.
  - intros r E. destruct m; cbn [solve solve_simple] in *; unfold JacobiSimple, GaussSeidelSimple, SORSimple, simple; rewrite E; reflexivity.
Qed.
Print Assumptions C83_errors.

(** SolveOptimal is SOR with omega = 2 / (1 + sin(pi / n)), in [1, 2) for n >= 2: it converges on symmetric positive definite systems. *)
Theorem C83_optimal : forall n M a b bf x0 tol, is_matrix M n n a -> is_vector b n bf -> (2 <= n)%nat -> diag_ok n a -> symmetric n a -> positive_definite n a -> 0 < tol ->
  let w := 2 / (1 + sin (PI / INR n)) in 1 <= w < 2 /\
  (forall maxIter, SORSolveOptimal Rarith sin PI M b x0 tol maxIter = solve (SOR w) M b x0 tol maxIter) /\
  exists N, forall maxIter, (N <= maxIter)%Z -> exists r, SORSolveOptimal Rarith sin PI M b x0 tol maxIter = Ok r /\ ir_conv r = true.
Proof.
  intros n M a b bf x0 tol HM HB Hn HD HS HP Ht w.
  assert (Hn2 : 2 <= INR n) by (apply (le_INR 2); auto). pose proof PI_RGT_0 as Hpi.
  assert (Ha : 0 < PI / INR n <= PI / 2). { split; [apply Rmult_lt_0_compat; auto; apply Rinv_0_lt_compat; lra|]. apply Rmult_le_compat_l; [lra|]. apply Rinv_le_contravar; lra. }
  assert (Hs : 0 < sin (PI / INR n)) by (apply sin_gt_0; lra). pose proof (SIN_bound (PI / INR n)) as [_ Hs1].
  assert (Hw : 1 <= w < 2).
  { unfold w. split; [apply (Rmult_le_reg_r (1 + sin (PI / INR n))); [lra|]; unfold Rdiv; rewrite Rmult_assoc, Rinv_l by lra; lra|].
    apply (Rmult_lt_reg_r (1 + sin (PI / INR n))); [lra|]. unfold Rdiv; rewrite Rmult_assoc, Rinv_l by lra; lra. }
  assert (E : forall maxIter, SORSolveOptimal Rarith sin PI M b x0 tol maxIter = solve (SOR w) M b x0 tol maxIter).
  { intros mi. cbn [solve]. unfold SORSolveOptimal. pose proof HM as (-> & _). unfold w. rewrite INR_IZR_INZ. reflexivity. }
  split; auto. split; auto. destruct (C83_positive_definite (SOR w) n M a b bf x0 tol HM HB ltac:(discriminate) ltac:(cbn; lra) HD HS HP Ht) as (N & HN).
  exists N. intros mi Hmi. rewrite E. auto.
Qed.
Print Assumptions C83_optimal.

(** EstimateOptimalOmega returns one of its samples, with a residual as small as that of every other sample (of those below [huge]). *)
Definition sample (ns : Z) (i : nat) : R := 1 + 95 / 100 * INR i / IZR ns.
Theorem C83_estimate : forall n M a b bf huge zt ns ti, is_matrix M n n a -> is_vector b n bf -> diag_ok n a -> (1 <= ns)%Z ->
  exists i0, (Z.of_nat i0 <= ns)%Z /\ EstimateOptimalOmega Rarith huge zt M b ns ti = Ok (sample ns i0) /\
    exists r0, solve (SOR (sample ns i0)) M b [] zt ti = Ok r0 /\
    forall i, (Z.of_nat i <= ns)%Z -> exists r, solve (SOR (sample ns i)) M b [] zt ti = Ok r /\ (ir_residual r < huge -> ir_residual r0 <= ir_residual r).
Proof.
  intros n M a b bf huge zt ns ti HM HB HD Hns.
  assert (Hnr : 1 <= IZR ns) by (apply (IZR_le 1); auto).
  assert (Hom : forall i, (Z.of_nat i <= ns)%Z -> omega_ok (SOR (sample ns i))).
  { intros i Hi. cbn. unfold sample. assert (0 <= INR i <= IZR ns) by (split; [apply pos_INR|rewrite INR_IZR_INZ; apply IZR_le; auto]).
    assert (0 <= 95 / 100 * INR i / IZR ns <= 95 / 100); [|lra]. split; [apply Rmult_le_pos; [lra|left; apply Rinv_0_lt_compat; lra]|].
    apply (Rmult_le_reg_r (IZR ns)); [lra|]. unfold Rdiv at 1. rewrite Rmult_assoc, Rinv_l by lra. lra. }
  assert (Hrun : forall i, (Z.of_nat i <= ns)%Z -> exists r, solve (SOR (sample ns i)) M b [] zt ti = Ok r).
  { intros i Hi. destruct (solve_ok n M a b bf HM HB (SOR (sample ns i)) [] zt ti (Hom i Hi) HD) as (r & k & E & _). eauto. }
  assert (W : exists p, for_range 0 (Z.to_nat (ns + 1)) (fun '(bestOmega, bestResidual) i =>
      r <- SORSolve Rarith M b (1 + 95 / 100 * IZR (Z.of_nat i) / IZR ns) [] zt ti ;;
      Ok (if Rltb (ir_residual r) bestResidual then (1 + 95 / 100 * IZR (Z.of_nat i) / IZR ns, ir_residual r) else (bestOmega, bestResidual))) (1, huge) = Ok p /\
      exists i0 r0, (Z.of_nat i0 <= ns)%Z /\ fst p = sample ns i0 /\ solve (SOR (sample ns i0)) M b [] zt ti = Ok r0 /\ snd p <= huge /\ (snd p < huge -> snd p = ir_residual r0) /\
        forall i r, (i < Z.to_nat (ns + 1))%nat -> solve (SOR (sample ns i)) M b [] zt ti = Ok r -> snd p <= ir_residual r \/ huge <= ir_residual r).
  { apply wp_ex. apply (for_range_inv _ _ (fun k p => exists i0 r0, (Z.of_nat i0 <= ns)%Z /\ fst p = sample ns i0 /\ solve (SOR (sample ns i0)) M b [] zt ti = Ok r0 /\ snd p <= huge /\ (snd p < huge -> snd p = ir_residual r0) /\
        forall i r, (i < k)%nat -> solve (SOR (sample ns i)) M b [] zt ti = Ok r -> snd p <= ir_residual r \/ huge <= ir_residual r)); [lia| |].
    - destruct (Hrun 0%nat ltac:(lia)) as (r0 & E0). exists 0%nat, r0. cbn [fst snd]. repeat split; auto; try lia; try lra. unfold sample. cbn [INR]. field. lra.
    - intros i [bo br] Hi1 Hi2 (i0 & r0 & Hi0 & E1 & E2 & E3 & E4 & E5). cbn [fst snd] in *. destruct (Hrun i ltac:(lia)) as (r & Er). pose proof Er as Er'. unfold sample in Er'. rewrite INR_IZR_INZ in Er'. cbn [solve] in Er'. rewrite Er'. cbn [bind]. apply wp_Ok.
      destruct (Rltb_spec (ir_residual r) br) as [L|L]; cbn [fst snd].
      + exists i, r. split; [lia|]. split; [unfold sample; rewrite INR_IZR_INZ; auto|]. split; auto. split; [lra|]. split; [auto|]. intros j rj Hj Ej. destruct (Nat.eq_dec j i) as [->|Hne]; [rewrite Er in Ej; injection Ej as <-; left; lra|]. destruct (E5 j rj ltac:(lia) Ej); [left|right]; lra.
      + exists i0, r0. split; auto. split; auto. split; auto. split; auto. split; auto. intros j rj Hj Ej. destruct (Nat.eq_dec j i) as [->|Hne]; [rewrite Er in Ej; injection Ej as <-; left; lra|]. apply (E5 j rj); auto; lia. }
  destruct W as ([bo br] & E & i0 & r0 & Hi0 & E1 & E2 & E3 & E4 & E5). cbn [fst snd] in *. exists i0. split; auto. split.
  - unfold EstimateOptimalOmega. change (alit Rarith) with IZR. cbn [altb Rarith aops nadd nmul ndiv Rnum]. cbv zeta. change (IZR 1) with 1. rewrite E. cbn [bind]. rewrite E1. auto.
  - exists r0. split; auto. intros i Hi. destruct (Hrun i Hi) as (r & Er). exists r. split; auto. intros Hh. destruct (E5 i r ltac:(lia) Er); [|lra]. rewrite <- E4; lra.
Qed.
Print Assumptions C83_estimate.

(** ** Examples *)
Lemma mat_of : forall n (f : nat -> nat -> R), is_matrix (mkMat n n (concat (map (fun i => map (f i) (seq 0 n)) (seq 0 n)))) n n f.
Proof.
  intros n f. split; [reflexivity|]. split; [reflexivity|]. cbn [m_data].
  assert (H : forall k, length (concat (map (fun i => map (f i) (seq 0 n)) (seq 0 k))) = (k * n)%nat /\ forall i j, (i < k)%nat -> (j < n)%nat -> nth_error (concat (map (fun i => map (f i) (seq 0 n)) (seq 0 k))) (i * n + j) = Some (f i j)).
  { induction k as [|k [IH1 IH2]]; [split; auto; intros; lia|]. rewrite seq_S, map_app, concat_app. cbn [map concat]. rewrite app_nil_r. cbn [Nat.add]. split; [rewrite app_length, IH1, map_length, seq_length; lia|].
    intros i j Hi Hj. destruct (Nat.eq_dec i k) as [->|Hne].
    - rewrite nth_error_app2 by lia. rewrite IH1. replace (k * n + j - k * n)%nat with j by lia. rewrite nth_error_map, (nth_error_nth' _ 0%nat) by (rewrite seq_length; auto). rewrite seq_nth by auto. reflexivity.
    - rewrite nth_error_app1; [apply IH2; lia|]. rewrite IH1. assert (i * n + n <= k * n)%nat by nia. lia. }
  apply H.
Qed.
Lemma vec_of : forall n (f : nat -> R), is_vector (map f (seq 0 n)) n f.
Proof. intros n f. split; [rewrite map_length, seq_length; auto|]. intros i Hi. rewrite nth_error_map, (nth_error_nth' _ 0%nat) by (rewrite seq_length; auto). rewrite seq_nth by auto. reflexivity. Qed.
Ltac lt3 i := destruct i as [|[|[|i]]]; [| | |lia].
(** 4 x + y = 6, 2 x + 5 y = 12 meets the hypotheses of the dominance theorem and of the error bound; the symmetric one with 4, 1; 1, 5 also those of the other *)
Definition ex_a (i j : nat) : R := match i, j with O, O => 4 | O, _ => 1 | S O, O => 2 | _, _ => 5 end.
Example C83_ex_dominant : diag_ok 2 ex_a /\ dominant 2 ex_a /\ (forall i, (i < 2)%nat -> 3 + total 2 (fun j => if Nat.eqb j i then 0 else Rabs (ex_a i j)) <= Rabs (ex_a i i)) /\
  forall tol, 0 < tol -> exists N, forall maxIter, (N <= maxIter)%Z -> exists r, JacobiSolve Rarith (mkMat 2 2 [4; 1; 2; 5]) [6; 12] [] tol maxIter = Ok r /\ ir_conv r = true.
Proof.
  assert (D : diag_ok 2 ex_a) by (intros i Hi; destruct i as [|[|i]]; [| |lia]; (split; [|intros j Hj; destruct j as [|[|j]]; [| |lia]]); cbn; unfold eps; rewrite ?Rabs_pos_eq by lra; lra).
  assert (G : forall i, (i < 2)%nat -> 3 + total 2 (fun j => if Nat.eqb j i then 0 else Rabs (ex_a i j)) <= Rabs (ex_a i i)) by (intros i Hi; destruct i as [|[|i]]; [| |lia]; cbn; rewrite !Rabs_pos_eq by lra; lra).
  assert (S' : dominant 2 ex_a) by (intros i Hi; specialize (G i Hi); lra).
  split; auto. split; auto. split; auto. intros tol Ht. apply (C83_dominant Jacobi 2 _ ex_a [6; 12] (fun i => nth i [6; 12] 0) [] tol (mat_of 2 ex_a)); cbn [solve]; auto.
  apply (vec_of 2 (fun i => nth i [6; 12] 0)).
Qed.
Definition ex_s (i j : nat) : R := match i, j with O, O => 4 | S O, S O => 5 | _, _ => 1 end.
Example C83_ex_positive_definite : diag_ok 2 ex_s /\ symmetric 2 ex_s /\ positive_definite 2 ex_s.
Proof.
  split; [intros i Hi; destruct i as [|[|i]]; [| |lia]; (split; [|intros j Hj; destruct j as [|[|j]]; [| |lia]]); cbn; unfold eps; rewrite ?Rabs_pos_eq by lra; lra|].
  split; [intros i j Hi Hj; destruct i as [|[|i]]; [| |lia]; destruct j as [|[|j]]; [| |lia| | |lia]; reflexivity|].
  intros x (i & Hi & Hx). cbn. set (u := x 0%nat) in *. set (v := x 1%nat) in *. assert (H : u <> 0 \/ v <> 0) by (destruct i as [|[|i]]; [left|right|lia]; auto).
  replace (0 + u * (0 + 4 * u + 1 * v) + v * (0 + 1 * u + 5 * v)) with (3 * (u * u) + 4 * (v * v) + (u + v) * (u + v)) by ring.
  assert (0 <= u * u) by apply Rle_0_sqr. assert (0 <= v * v) by apply Rle_0_sqr. assert (0 <= (u + v) * (u + v)) by apply Rle_0_sqr. assert (0 < u * u \/ 0 < v * v) by (destruct H as [H|H]; [left|right]; apply Rlt_0_sqr; auto). lra.
Qed.
(** a run in exact arithmetic: 2 x = 6, 3 x + 4 y = 8; one sweep of Gauss-Seidel is exact, Jacobi needs two; too few iterations *)
Definition qm (n : nat) (l : list Z) : matrix Qc := mkMat n n (map (fun z => RootFind_Props.q z 1) l).
Definition qv (l : list Z) : list Qc := map (fun z => RootFind_Props.q z 1) l.
Definition shown (r : res (itres Qc)) := (r <- r ;; Ok (map showq (ir_x r), ir_iter r, showq (ir_residual r), ir_conv r)).
Example C83_ex_run :
  shown (GaussSeidelSolve Qarith (qm 2 [2; 0; 3; 4]%Z) (qv [6; 8]%Z) [] (RootFind_Props.q 1 1000) 50) = Ok ([(3%Z, 1%positive); ((-1)%Z, 4%positive)], 1%Z, (0%Z, 1%positive), true) /\
  shown (JacobiSolve Qarith (qm 2 [2; 0; 3; 4]%Z) (qv [6; 8]%Z) [] (RootFind_Props.q 1 1000) 50) = Ok ([(3%Z, 1%positive); ((-1)%Z, 4%positive)], 2%Z, (0%Z, 1%positive), true) /\
  shown (SORSolve Qarith (qm 1 [2]%Z) (qv [6]%Z) (RootFind_Props.q 1 2) [] (RootFind_Props.q 1 1000) 3) = Ok ([(21%Z, 8%positive)], 4%Z, (1%Z, 8%positive), false).
Proof. repeat split; vm_compute; reflexivity. Qed.

(** ** Findings *)
Definition bad_a (i j : nat) : R := if Nat.eqb i j then 5 else 4.
(** JacobiSolver documents convergence for symmetric positive definite matrices; on [5 4 4; 4 5 4; 4 4 5] x = (13, 13, 13) the iterates move away from the
    solution (1, 1, 1) by a factor 1.6 per sweep and no number of iterations suffices, for any tolerance up to 1. *)
Theorem C83_jacobi_positive_definite_refuted : diag_ok 3 bad_a /\ symmetric 3 bad_a /\ positive_definite 3 bad_a /\
  forall tol maxIter, tol <= 1 -> exists r, JacobiSolve Rarith (mkMat 3 3 [5; 4; 4; 4; 5; 4; 4; 4; 5]) [13; 13; 13] [] tol maxIter = Ok r /\ ir_conv r = false.
Proof.
  assert (D : diag_ok 3 bad_a) by (intros i Hi; lt3 i; (split; [|intros j Hj; lt3 j]); cbn; unfold eps; rewrite ?Rabs_pos_eq by lra; lra).
  split; auto. split; [intros i j Hi Hj; unfold bad_a; rewrite (Nat.eqb_sym j i); auto|]. split.
  - intros x (i & Hi & Hx). cbn. set (u := x 0%nat) in *. set (v := x 1%nat) in *. set (w := x 2%nat) in *.
    replace (0 + u * (0 + 5 * u + 4 * v + 4 * w) + v * (0 + 4 * u + 5 * v + 4 * w) + w * (0 + 4 * u + 4 * v + 5 * w)) with (u * u + v * v + w * w + 4 * ((u + v + w) * (u + v + w))) by ring.
    assert (H : u <> 0 \/ v <> 0 \/ w <> 0) by (lt3 i; auto). assert (0 <= u * u) by apply Rle_0_sqr. assert (0 <= v * v) by apply Rle_0_sqr. assert (0 <= w * w) by apply Rle_0_sqr. assert (0 <= (u + v + w) * (u + v + w)) by apply Rle_0_sqr.
    assert (0 < u * u \/ 0 < v * v \/ 0 < w * w) by (destruct H as [H|[H|H]]; [left|right; left|right; right]; apply Rlt_0_sqr; auto). lra.
  - intros tol mi Ht. set (bf := fun _ : nat => 13).
    destruct (C83_result Jacobi 3 _ bad_a [13; 13; 13] bf [] tol mi (mat_of 3 bad_a) (vec_of 3 bf) I D) as (r & k & X & E & H0 & HS & HV & _ & _ & HT & _).
    exists r. split; [exact E|]. destruct (ir_conv r); auto. exfalso. destruct (HT eq_refl) as (_ & _ & Hr & Hlt).
    assert (HX : forall j i, (i < 3)%nat -> X j i = 1 - (- (8 / 5)) ^ j).
    { induction j; intros i Hi; [rewrite H0 by auto; cbn; lra|]. specialize (HS j i Hi). cbn [sweep_rel] in HS. unfold total, bf in HS. pose proof (IHj 0%nat ltac:(lia)) as A0. pose proof (IHj 1%nat ltac:(lia)) as A1. pose proof (IHj 2%nat ltac:(lia)) as A2.
      cbn [pow]. set (p := (- (8 / 5)) ^ j) in *. lt3 i; cbn in HS; rewrite ?A0, ?A1, ?A2 in HS; lra. }
    assert (Hb : norm 3 bf = 13 * sqrt 3). { unfold norm, total, bf. cbn. replace (0 + 13 * 13 + 13 * 13 + 13 * 13) with ((13 * 13) * 3) by ring. rewrite sqrt_mult by lra. rewrite sqrt_square by lra. auto. }
    assert (Hs : 0 < sqrt 3) by (apply sqrt_lt_R0; lra).
    set (p := (- (8 / 5)) ^ k). assert (Hn : norm 3 (fun i => total 3 (fun j => bad_a i j * X k j) - bf i) = Rabs p * (13 * sqrt 3)).
    { unfold norm, total, bf. cbn. rewrite !HX by lia. fold p.
      match goal with |- sqrt ?e = _ => replace e with ((p * p) * ((13 * 13) * 3)) by field end.
      rewrite sqrt_mult; [|apply Rle_0_sqr|lra]. rewrite (sqrt_mult (13 * 13) 3) by lra. rewrite (sqrt_square 13) by lra. f_equal. apply sqrt_Rsqr_abs. }
    rewrite Hr in Hlt. unfold rel_residual in Hlt. rewrite Hn in Hlt. unfold scale in Hlt. rewrite Hb in Hlt. destruct (Req_EM_T (13 * sqrt 3) 0); [lra|].
    replace (Rabs p * (13 * sqrt 3) / (13 * sqrt 3)) with (Rabs p) in Hlt by (field; lra).
    assert (1 <= Rabs p). { unfold p. rewrite <- RPow_abs. apply pow_R1_Rle. rewrite Rabs_Ropp, Rabs_pos_eq; lra. } lra.
Qed.
Print Assumptions C83_jacobi_positive_definite_refuted.
(** The result field "Number of iterations performed" is one too many whenever the solver did not converge: maxIter sweeps are reported as maxIter + 1
    (here for every system, with the unreachable tolerance 0). *)
Theorem C83_iterations_refuted : forall m n M a b bf x0 maxIter, is_matrix M n n a -> is_vector b n bf -> omega_ok m -> diag_ok n a -> (0 <= maxIter)%Z ->
  exists r, solve m M b x0 0 maxIter = Ok r /\ ir_conv r = false /\ ir_iter r = (maxIter + 1)%Z.
Proof.
  intros m n M a b bf x0 mi HM HB HO HD Hmi. destruct (solve_ok n M a b bf HM HB m x0 0 mi HO HD) as (r & k & E & Hk & HV & Hl & HC). exists r. split; auto. destruct (ir_conv r).
  - exfalso. destruct HC as (_ & _ & _ & C). unfold res_at, rel_residual in C. assert (0 <= norm n (fun i => total n (fun j => a i j * iter n a bf m k (startf n x0) j) - bf i) / scale n bf); [|lra].
    apply Rmult_le_pos; [apply sqrt_pos|]. left. apply Rinv_0_lt_compat. apply scale_pos.
  - split; auto. destruct HC as (_ & C & _). lia.
Qed.
Print Assumptions C83_iterations_refuted.
(** SolveOptimal computes omega = 2 for a system with one unknown and always throws. *)
Theorem C83_optimal_1x1_refuted : forall M a b x0 tol maxIter, is_matrix M 1 1 a -> SORSolveOptimal Rarith sin PI M b x0 tol maxIter = Throw NumericalError.
Proof.
  intros M a b x0 tol mi HM. unfold SORSolveOptimal. pose proof HM as (-> & _). unfold SORSolve. change (alit Rarith (Z.of_nat 1)) with 1. change (alit Rarith 0) with 0. change (alit Rarith 2) with 2. change (alit Rarith 1) with 1.
  cbn [aops Rarith Rnum nadd ndiv altb]. replace (PI / 1) with PI by field. rewrite sin_PI. replace (2 / (1 + 0)) with 2 by field. destruct (Rltb_spec 2 2); [lra|]. cbn [negb orb]. rewrite orb_true_r. reflexivity.
Qed.
Print Assumptions C83_optimal_1x1_refuted.
(** The threshold for the diagonal is absolute: the system 2^-53 x = b is rejected as singular by all three solvers. *)
Theorem C83_small_diagonal_refuted : forall m b x0 tol maxIter, omega_ok m -> solve m (mkMat 1 1 [1 / 2 ^ 53]) [b] x0 tol maxIter = Throw SingularError.
Proof.
  intros m b x0 tol mi HO. apply (C83_errors m 1 _ (fun _ _ => 1 / 2 ^ 53) [b] (fun _ => b) x0 tol mi (mat_of 1 (fun _ _ => 1 / 2 ^ 53)) (vec_of 1 (fun _ => b))); auto.
  intros HD. destruct (HD 0%nat ltac:(lia)) as [H _]. rewrite Rabs_pos_eq in H by lra. unfold eps in H. lra.
Qed.
Print Assumptions C83_small_diagonal_refuted.
