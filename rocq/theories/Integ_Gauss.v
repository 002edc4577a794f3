(** * Gauss-Legendre and Gauss-Kronrod rules, adaptive bisection *)

From Coq Require Import List Bool Arith ZArith Lia Reals Lra Psatz.
From Verif Require Import Base Num Mat_Proofs RootFind_Model RootFind_Proofs Tri_Model Interp_Model Interp_Poly Interp_Bary Integ_Model Integ_Spec Integ_Trap Integ_Romberg.
Import ListNotations.
Local Open Scope R_scope.
Local Notation sum := (sumn Rnum).

(** a symmetric rule on [-1, 1]: weight of the centre, pairs (weight, node) *)
Definition qrule (w0 : R) (L : list (R * R)) (g : R -> R) : R := w0 * g 0 + fold_right (fun p s => fst p * (g (snd p) + g (- snd p)) + s) 0 L.
Definition rpairs (ws xs : list Z) (d : Z) (ij : list (nat * nat)) : list (R * R) := map (fun p => (dec Rarith ws d (fst p), dec Rarith xs d (snd p))) ij.
Definition odds (n : nat) : list (nat * nat) := map (fun j => (j, 2 * j + 1)%nat) (seq 0 n).
Definition bothi (l : list nat) : list (nat * nat) := map (fun j => (j, j)) l.

(** the tables of each rule: centre weight, weights, nodes, digits, pairs of indices *)
Record table := mkTab { tb_w0 : Z; tb_ws : list Z; tb_xs : list Z; tb_d : nat; tb_ij : list (nat * nat) }.
Definition tab_rule (t : table) : (R -> R) -> R := qrule (IZR (tb_w0 t) / IZR (10 ^ Z.of_nat (tb_d t))) (rpairs (tb_ws t) (tb_xs t) (Z.of_nat (tb_d t)) (tb_ij t)).
Definition k15 := mkTab 20948214108472782801299917489171426 wGK15 xGK15 35 (bothi (seq 1 7)).
Definition g7 := mkTab 41795918367346938775510204081632653 wG7 xGK15 35 [(1, 2); (2, 4); (3, 6)]%nat.
Definition k21 := mkTab 149445554002916905664936468389821 wGK21 xGK21 33 (bothi (seq 0 10)).
Definition g10 := mkTab 0 wG10 xGK21 33 (odds 5).
Definition k31 := mkTab 101330007014791549017374792767493 wGK31 xGK31 33 (bothi (seq 0 15)).
Definition g15 := mkTab 202578241925561272880620199967519 wG15 xGK31 33 (odds 7).
Definition g10s := mkTab 0 wG10s xG10s 16 (bothi (seq 0 5)).

Definition scaled (f : R -> R) (a b t : R) : R := f ((a + b) / 2 + (b - a) / 2 * t).
Definition ktab (r : gkrule) := match r with GK15 => k15 | GK21 => k21 | GK31 => k31 end.
Definition gtab (r : gkrule) := match r with GK15 => g7 | GK21 => g10 | GK31 => g15 end.
Definition kpoints (r : gkrule) : nat := match r with GK15 => 15 | GK21 => 21 | GK31 => 31 end.

Ltac dc := repeat match goal with |- context [dec Rarith ?l ?d ?i] => let x := fresh "c" in set (x := dec Rarith l d i) in *; clearbody x end.
Lemma gk15_ok : forall f a b, let r := IntegrateGK15 Rarith f a b in
  ir_value r = (b - a) / 2 * tab_rule k15 (scaled f a b) /\ ir_err r = Rabs ((b - a) / 2 * tab_rule k15 (scaled f a b) - (b - a) / 2 * tab_rule g7 (scaled f a b)) /\ ir_iters r = 15%nat /\ ir_conv r = true.
Proof.
  intros f a b. cbv zeta. unfold IntegrateGK15. cbn [fold_left seq Nat.eqb].
  assert (EK : tab_rule k15 = qrule (dec Rarith wGK15 35 0) (rpairs wGK15 xGK15 35 (bothi (seq 1 7)))) by reflexivity.
  assert (EG : tab_rule g7 = qrule (dec Rarith wG7 35 0) (rpairs wG7 xGK15 35 [(1, 2); (2, 4); (3, 6)]%nat)) by reflexivity.
  rewrite EK, EG. clear EK EG. unfold qrule, rpairs, bothi, scaled. cbn [map seq fold_right fst snd ir_value ir_err ir_iters ir_conv]. rewrite Rabs_aabs. dc. rnum.
  assert (N : forall x, (a + b) / 2 + (b - a) / 2 * x = 1 / 2 * (a + b) + 1 / 2 * (b - a) * x) by (intros; field). rewrite !N.
  assert (N' : forall x, 1 / 2 * (a + b) + 1 / 2 * (b - a) * - x = 1 / 2 * (a + b) - 1 / 2 * (b - a) * x) by (intros; field). rewrite !N'.
  replace (1 / 2 * (a + b) + 1 / 2 * (b - a) * 0) with (1 / 2 * (a + b)) by field.
  split; [field|]. split; [f_equal; field|]. auto.
Qed.
Ltac gk_nodes a b :=
  assert (N : forall x, (a + b) / 2 + (b - a) / 2 * x = 1 / 2 * (a + b) + 1 / 2 * (b - a) * x) by (intros; field); rewrite !N;
  assert (N' : forall x, 1 / 2 * (a + b) + 1 / 2 * (b - a) * - x = 1 / 2 * (a + b) - 1 / 2 * (b - a) * x) by (intros; field); rewrite !N';
  replace (1 / 2 * (a + b) + 1 / 2 * (b - a) * 0) with (1 / 2 * (a + b)) by field.
Ltac gen_f f := repeat match goal with |- context [f ?x] => let y := fresh "y" in set (y := f x) in *; clearbody y end.
Lemma gk21_ok : forall f a b, let r := IntegrateGK21 Rarith f a b in
  ir_value r = (b - a) / 2 * tab_rule k21 (scaled f a b) /\ ir_err r = Rabs ((b - a) / 2 * tab_rule k21 (scaled f a b) - (b - a) / 2 * tab_rule g10 (scaled f a b)) /\ ir_iters r = 21%nat /\ ir_conv r = true.
Proof.
  intros f a b. cbv zeta. unfold IntegrateGK21, gk_pairs. cbn [fold_left seq Nat.mul Nat.add].
  assert (EK : tab_rule k21 = qrule (dec Rarith wGK21 33 10) (rpairs wGK21 xGK21 33 (bothi (seq 0 10)))) by reflexivity.
  assert (EG : tab_rule g10 = qrule (0 / IZR (10 ^ 33)) (rpairs wG10 xGK21 33 (odds 5))) by reflexivity.
  rewrite EK, EG. clear EK EG. unfold qrule, rpairs, bothi, odds, scaled. cbn [map seq fold_right fst snd ir_value ir_err ir_iters ir_conv Nat.mul Nat.add]. rewrite Rabs_aabs. dc. rnum.
  gk_nodes a b. gen_f f. replace (0 / IZR (10 ^ 33)) with 0 by (unfold Rdiv; ring).
  split; [field|]. split; [f_equal; field|]. auto.
Qed.
Lemma gk31_ok : forall f a b, let r := IntegrateGK31 Rarith f a b in
  ir_value r = (b - a) / 2 * tab_rule k31 (scaled f a b) /\ ir_err r = Rabs ((b - a) / 2 * tab_rule k31 (scaled f a b) - (b - a) / 2 * tab_rule g15 (scaled f a b)) /\ ir_iters r = 31%nat /\ ir_conv r = true.
Proof.
  intros f a b. cbv zeta. unfold IntegrateGK31, gk_pairs. cbn [fold_left seq Nat.mul Nat.add].
  assert (EK : tab_rule k31 = qrule (dec Rarith wGK31 33 15) (rpairs wGK31 xGK31 33 (bothi (seq 0 15)))) by reflexivity.
  assert (EG : tab_rule g15 = qrule (dec Rarith wG15 33 7) (rpairs wG15 xGK31 33 (odds 7))) by reflexivity.
  rewrite EK, EG. clear EK EG. unfold qrule, rpairs, bothi, odds, scaled. cbn [map seq fold_right fst snd ir_value ir_err ir_iters ir_conv Nat.mul Nat.add]. rewrite Rabs_aabs. dc. rnum.
  gk_nodes a b. gen_f f.
  split; [field|]. split; [f_equal; field|]. auto.
Qed.
Lemma gauss10_ok : forall f a b, let r := IntegrateGauss10 Rarith f a b in
  ir_value r = (b - a) / 2 * tab_rule g10s (scaled f a b) /\ ir_err r = 0 /\ ir_iters r = 1%nat /\ ir_conv r = true.
Proof.
  intros f a b. cbv zeta. unfold IntegrateGauss10. cbn [fold_left seq].
  assert (EG : tab_rule g10s = qrule (0 / IZR (10 ^ 16)) (rpairs wG10s xG10s 16 (bothi (seq 0 5)))) by reflexivity.
  rewrite EG. clear EG. unfold qrule, rpairs, bothi, scaled. cbn [map seq fold_right fst snd ir_value ir_err ir_iters ir_conv]. dc. rnum. rewrite (Rplus_comm b a).
  gk_nodes a b. gen_f f. replace (0 / IZR (10 ^ 16)) with 0 by (unfold Rdiv; ring).
  split; [field|]. auto.
Qed.
Lemma gk_ok : forall r f a b, let v := gk_rule Rarith r f a b in
  ir_value v = (b - a) / 2 * tab_rule (ktab r) (scaled f a b) /\ ir_err v = Rabs ((b - a) / 2 * tab_rule (ktab r) (scaled f a b) - (b - a) / 2 * tab_rule (gtab r) (scaled f a b)) /\ ir_iters v = kpoints r /\ ir_conv v = true.
Proof. intros [] f a b; [apply gk15_ok|apply gk21_ok|apply gk31_ok]. Qed.

(** ** Linearity, symmetry, monotonicity *)
Lemma qrule_lin : forall w0 L f g c, qrule w0 L (fun t => f t + c * g t) = qrule w0 L f + c * qrule w0 L g.
Proof. intros w0 L f g c. unfold qrule. induction L as [|[w x] L IH]; cbn [fold_right fst snd]; [ring|]. lra. Qed.
Lemma qrule_ext : forall w0 L f g, (forall t, f t = g t) -> qrule w0 L f = qrule w0 L g.
Proof. intros w0 L f g H. unfold qrule. rewrite H. f_equal. induction L as [|[w x] L IH]; cbn [fold_right fst snd]; auto. rewrite !H, IH. reflexivity. Qed.
Lemma qrule_odd : forall w0 L f, (forall t, f (- t) = - f t) -> qrule w0 L f = 0.
Proof.
  intros w0 L f H. unfold qrule. assert (f 0 = 0). { pose proof (H 0) as E. rewrite Ropp_0 in E. lra. } rewrite H0. replace (w0 * 0) with 0 by ring.
  induction L as [|[w x] L IH]; cbn [fold_right fst snd]; [ring|]. rewrite H. lra.
Qed.
Lemma qrule_mono : forall w0 L f g, 0 <= w0 -> (forall p, In p L -> 0 <= fst p /\ -1 <= snd p <= 1) -> (forall t, -1 <= t <= 1 -> f t <= g t) -> qrule w0 L f <= qrule w0 L g.
Proof.
  intros w0 L f g H0 HL H. unfold qrule. apply Rplus_le_compat. { apply Rmult_le_compat_l; auto. apply H. lra. }
  induction L as [|[w x] L IH]; cbn [fold_right fst snd]; [lra|]. destruct (HL (w, x) ltac:(left; auto)) as [A B]. cbn [fst snd] in *.
  apply Rplus_le_compat; [|apply IH; intros; apply HL; right; auto]. apply Rmult_le_compat_l; auto. apply Rplus_le_compat; apply H; lra.
Qed.
Definition tab_ok (t : table) : bool :=
  (0 <=? tb_w0 t)%Z && forallb (fun p => (0 <=? nth (fst p) (tb_ws t) 0)%Z && (Z.abs (nth (snd p) (tb_xs t) 0) <=? 10 ^ Z.of_nat (tb_d t))%Z) (tb_ij t).
Lemma pow10_pos : forall d, 0 < IZR (10 ^ Z.of_nat d).
Proof. intros. apply IZR_lt. apply Z.pow_pos_nonneg; lia. Qed.
Lemma tab_mono : forall t f g, tab_ok t = true -> (forall s, -1 <= s <= 1 -> f s <= g s) -> tab_rule t f <= tab_rule t g.
Proof.
  intros t f g HT H. apply andb_true_iff in HT. destruct HT as [H0 HL]. apply Z.leb_le in H0. pose proof (pow10_pos (tb_d t)) as P. apply qrule_mono; auto.
  - apply Rmult_le_pos; [apply IZR_le; auto|apply Rlt_le, Rinv_0_lt_compat; auto].
  - intros p Hp. unfold rpairs in Hp. apply in_map_iff in Hp. destruct Hp as (ij & <- & Hi). rewrite forallb_forall in HL. specialize (HL _ Hi). apply andb_true_iff in HL. destruct HL as [A B]. apply Z.leb_le in A, B. cbn [fst snd]. unfold dec. rnum.
    split; [apply Rmult_le_pos; [apply IZR_le; auto|apply Rlt_le, Rinv_0_lt_compat; auto]|].
    set (x := nth (snd ij) (tb_xs t) 0%Z) in *. set (D := (10 ^ Z.of_nat (tb_d t))%Z) in *. assert (- IZR D <= IZR x <= IZR D). { rewrite <- opp_IZR. split; apply IZR_le; lia. }
    split; [apply Rmult_le_reg_r with (IZR D); auto; unfold Rdiv; rewrite Rmult_assoc, Rinv_l by lra; lra|apply Rmult_le_reg_r with (IZR D); auto; unfold Rdiv; rewrite Rmult_assoc, Rinv_l by lra; lra].
Qed.

(** ** Moments *)
(** the moment of the table as an integer: times 10^(d (k+1)) *)
Definition momZ (t : table) (k : nat) : Z :=
  ((if (k =? 0)%nat then tb_w0 t else 0) + fold_right (fun p s => nth (fst p) (tb_ws t) 0 * 2 * nth (snd p) (tb_xs t) 0 ^ Z.of_nat k + s) 0 (tb_ij t))%Z.
Definition mom_ok (t : table) (tol : Z) (k : nat) : bool :=
  Nat.odd k || (Z.abs (momZ t k * Z.of_nat (k + 1) - 2 * 10 ^ Z.of_nat (tb_d t * (k + 1))) <=? tol * Z.of_nat (k + 1) * 10 ^ Z.of_nat (tb_d t * k))%Z.
(** the same test for the first n even moments after the zeroth, in fixed point: [T] counts units of 2^-B and stands for a number in
    [T, T + e], where e grows by 2 each time the power of the node goes up by 2 *)
Fixpoint mom_loop (B tol D c0 : Z) (L : list (Z * Z)) (k : Z) (n : nat) : bool :=
  match n with
  | O => true
  | S n => let s := (c0 + fold_right (fun p s => snd p + s) 0 L)%Z in
           ((k =? 0)%Z || (D * (2 * 2 ^ B - (k + 1) * s) <=? tol * (k + 1) * 2 ^ B)%Z && (D * ((k + 1) * (s + 1 + Z.of_nat (length L) * (k + 1)) - 2 * 2 ^ B) <=? tol * (k + 1) * 2 ^ B)%Z) &&
           mom_loop B tol D 0 (map (fun p => (fst p, Z.shiftr (fst p * snd p) B)) L) (k + 2) n
  end.
Definition mom_pair (B : Z) (t : table) (p : nat * nat) : Z * Z :=
  let x := nth (snd p) (tb_xs t) 0%Z in let D := (10 ^ Z.of_nat (tb_d t))%Z in (x * x * 2 ^ B / (D * D), nth (fst p) (tb_ws t) 0 * 2 * 2 ^ B / D)%Z.
Definition pair_ok (B : Z) (p : Z * Z) : bool := (0 <=? fst p)%Z && (fst p <? 2 ^ B)%Z && (0 <=? snd p)%Z && (snd p <=? 2 ^ B)%Z.
Definition mom_all (t : table) (tol : Z) (n : nat) : bool :=
  let B := 160%Z in let L := map (mom_pair B t) (tb_ij t) in
  forallb (pair_ok B) L && (0 <=? tol)%Z && mom_ok t tol 0 && mom_loop B tol (10 ^ Z.of_nat (tb_d t)) (tb_w0 t * 2 ^ B / 10 ^ Z.of_nat (tb_d t)) L 0 n.
(** [T] units of 2^-B enclose the number N / M up to e units *)
Definition encl (U M N T e : Z) : Prop := (T * M <= N * U)%Z /\ (N * U <= (T + e) * M)%Z.
Lemma encl_step : forall U D M N x Y T e, (0 < U)%Z -> (0 < D)%Z -> (0 < M)%Z -> (0 <= Y < U)%Z -> (0 <= T <= U)%Z -> (0 <= N)%Z -> (0 <= e)%Z ->
  (Y * (D * D) <= x * x * U)%Z -> (x * x * U <= (Y + 1) * (D * D))%Z -> encl U M N T e -> encl U (D * D * M) (x * x * N) (Y * T / U) (e + 2).
Proof.
  intros U D M N x Y T e HU HD HM HY HT HN He H1 H2 [H3 H4]. pose proof (Z.div_mod (Y * T) U ltac:(lia)) as DM. pose proof (Z.mod_pos_bound (Y * T) U HU) as MB. set (T' := (Y * T / U)%Z) in *.
  assert (HDD : (0 < D * D)%Z) by (apply Z.mul_pos_pos; auto).
  assert (L1 : ((Y * T) * (D * D * M) <= (x * x * N * U) * U)%Z).
  { replace (Y * T * (D * D * M))%Z with ((Y * (D * D)) * (T * M))%Z by ring. replace (x * x * N * U * U)%Z with ((x * x * U) * (N * U))%Z by ring. apply Z.mul_le_mono_nonneg; auto; apply Z.mul_nonneg_nonneg; lia. }
  assert (L2 : ((x * x * N * U) * U <= ((Y + 1) * (T + e)) * (D * D * M))%Z).
  { replace ((Y + 1) * (T + e) * (D * D * M))%Z with (((Y + 1) * (D * D)) * ((T + e) * M))%Z by ring. replace (x * x * N * U * U)%Z with ((x * x * U) * (N * U))%Z by ring. apply Z.mul_le_mono_nonneg; auto; [|apply Z.mul_nonneg_nonneg; lia]. apply Z.mul_nonneg_nonneg; [apply Z.square_nonneg|lia]. }
  assert (HDM : (0 < D * D * M)%Z) by (apply Z.mul_pos_pos; auto).
  split; apply Z.mul_le_mono_pos_r with U; auto.
  - eapply Z.le_trans; [|exact L1]. replace (T' * (D * D * M) * U)%Z with ((T' * U) * (D * D * M))%Z by ring. apply Z.mul_le_mono_nonneg_r; lia.
  - eapply Z.le_trans; [exact L2|]. replace ((T' + (e + 2)) * (D * D * M) * U)%Z with (((T' + (e + 2)) * U) * (D * D * M))%Z by ring. apply Z.mul_le_mono_nonneg_r; [lia|].
    assert (e * (Y + 1) <= e * U)%Z by (apply Z.mul_le_mono_nonneg_l; lia). lia.
Qed.
Lemma encl_div : forall U D N, (0 < D)%Z -> encl U D N (N * U / D) 1.
Proof. intros U D N HD. pose proof (Z.div_mod (N * U) D ltac:(lia)). pose proof (Z.mod_pos_bound (N * U) D HD). split; lia. Qed.
Definition mpow (t : table) (j : nat) (p : nat * nat) : Z := (nth (fst p) (tb_ws t) 0 * 2 * nth (snd p) (tb_xs t) 0 ^ Z.of_nat (2 * j))%Z.
Lemma mpow_S : forall t j p, mpow t (S j) p = (nth (snd p) (tb_xs t) 0 * nth (snd p) (tb_xs t) 0 * mpow t j p)%Z.
Proof. intros. unfold mpow. replace (2 * S j)%nat with (S (S (2 * j))) by lia. rewrite !Nat2Z.inj_succ, !Z.pow_succ_r by lia. ring. Qed.
Lemma encl_sum : forall U M e t j ij (L : list (Z * Z)), Forall2 (fun p q => encl U M (mpow t j p) (snd q) e) ij L ->
  encl U M (fold_right (fun p s => mpow t j p + s)%Z 0%Z ij) (fold_right (fun p s => snd p + s)%Z 0%Z L) (Z.of_nat (length L) * e).
Proof.
  intros U M e t j ij L H. induction H as [|p r ij L [H1 H2] H [I1 I2]]; [split; cbn; lia|]. cbn [fold_right]. change (length (r :: L)) with (S (length L)). rewrite Nat2Z.inj_succ. split; lia.
Qed.
Lemma mom_loop_ok : forall B t tol n j c0 L, (0 <= B)%Z -> (0 <= tol)%Z ->
  encl (2 ^ B) ((10 ^ Z.of_nat (tb_d t)) ^ Z.of_nat (2 * j + 1)) (if (j =? 0)%nat then tb_w0 t else 0%Z) c0 1 ->
  Forall2 (fun p q => fst q = fst (mom_pair B t p) /\ pair_ok B q = true /\ (0 <= mpow t j p)%Z /\ encl (2 ^ B) ((10 ^ Z.of_nat (tb_d t)) ^ Z.of_nat (2 * j + 1)) (mpow t j p) (snd q) (Z.of_nat (2 * j + 1))) (tb_ij t) L ->
  mom_loop B tol (10 ^ Z.of_nat (tb_d t)) c0 L (Z.of_nat (2 * j)) n = true ->
  forall i, (i < n)%nat -> (0 < j + i)%nat -> mom_ok t tol (2 * (j + i)) = true.
Proof.
  intros B t tol n j c0 L HB Ht. revert j c0 L. assert (HU : (0 < 2 ^ B)%Z) by (apply Z.pow_pos_nonneg; lia). assert (HD : (0 < 10 ^ Z.of_nat (tb_d t))%Z) by (apply Z.pow_pos_nonneg; lia).
  set (U := (2 ^ B)%Z) in *. set (D := (10 ^ Z.of_nat (tb_d t))%Z) in *.
  induction n as [|n IH]; intros j c0 L H0 HL H i Hi Hp; [lia|]. cbn [mom_loop] in H. fold U in H. apply andb_true_iff in H. destruct H as [H12 H3].
  assert (HM : (0 < D ^ Z.of_nat (2 * j + 1))%Z) by (apply Z.pow_pos_nonneg; lia). destruct i as [|i].
  - rewrite Nat.add_0_r in *. destruct (Z.eqb_spec (Z.of_nat (2 * j)) 0) as [Z0|_]; [lia|]. cbn [orb] in H12. apply andb_true_iff in H12. destruct H12 as [H1 H2]. apply Z.leb_le in H1, H2. unfold mom_ok. apply orb_true_iff. right. apply Z.leb_le.
    assert (EP : forall m, (10 ^ Z.of_nat (tb_d t * m))%Z = (D ^ Z.of_nat m)%Z). { intros m. unfold D. rewrite Nat2Z.inj_mul, Z.pow_mul_r by lia. reflexivity. }
    rewrite !EP. replace (Z.of_nat (2 * j + 1)) with (Z.of_nat (2 * j) + 1)%Z in * by lia. rewrite Z.pow_add_r, Z.pow_1_r in * by lia.
    assert (HL' : Forall2 (fun p q => encl U (D ^ Z.of_nat (2 * j) * D) (mpow t j p) (snd q) (Z.of_nat (2 * j) + 1)) (tb_ij t) L). { clear - HL. induction HL as [|p q l l' (_ & _ & _ & X) HL I]; constructor; auto. }
    pose proof (encl_sum U _ _ t j _ _ HL') as [E1 E2]. destruct H0 as [F1 F2].
    assert (EM : momZ t (2 * j) = ((if (j =? 0)%nat then tb_w0 t else 0) + fold_right (fun p s => mpow t j p + s) 0 (tb_ij t))%Z). { unfold momZ. f_equal. destruct j; reflexivity. }
    rewrite EM. set (a := if (j =? 0)%nat then tb_w0 t else 0%Z) in *. set (b := fold_right (fun p s => mpow t j p + s)%Z 0%Z (tb_ij t)) in *. set (sL := fold_right (fun p s => snd p + s)%Z 0%Z L) in *. set (Dk := (D ^ Z.of_nat (2 * j))%Z) in *. set (k := Z.of_nat (2 * j)) in *. set (nL := Z.of_nat (length L)) in *.
    assert (Hk : (0 <= k)%Z) by (unfold k; lia). assert (HDk : (0 < Dk)%Z) by (apply Z.pow_pos_nonneg; lia).
    assert (G1 : ((k + 1) * ((c0 + sL) * (Dk * D)) <= (k + 1) * ((a + b) * U))%Z) by (apply Z.mul_le_mono_nonneg_l; lia).
    assert (G2 : ((k + 1) * ((a + b) * U) <= (k + 1) * ((c0 + sL + 1 + nL * (k + 1)) * (Dk * D)))%Z) by (apply Z.mul_le_mono_nonneg_l; lia).
    apply (Z.mul_le_mono_nonneg_l _ _ Dk) in H1, H2; [|lia..].
    apply Z.abs_le. split; apply Z.mul_le_mono_pos_r with U; auto; lia.
  - replace (2 * (j + S i))%nat with (2 * (S j + i))%nat by lia. apply IH with (c0 := 0%Z) (L := map (fun p => (fst p, Z.shiftr (fst p * snd p) B)) L); [| |replace (Z.of_nat (2 * S j)) with (Z.of_nat (2 * j) + 2)%Z by lia; exact H3|lia|lia].
    + cbn [Nat.eqb]. assert (0 < D ^ Z.of_nat (2 * S j + 1))%Z by (apply Z.pow_pos_nonneg; lia). split; lia.
    + clear - HL HB HU HD HM U D. induction HL as [|p q ij L (A1 & A2 & A3 & A4) HL I]; cbn [map]; constructor; auto. clear I HL. cbn [fst snd].
      unfold pair_ok in A2. cbn [fst snd] in *. fold U in A2. apply andb_true_iff in A2. destruct A2 as [A2 B4]. apply andb_true_iff in A2. destruct A2 as [A2 B3]. apply andb_true_iff in A2. destruct A2 as [B1 B2]. apply Z.leb_le in B1, B3, B4. apply Z.ltb_lt in B2.
      rewrite Z.shiftr_div_pow2 by auto. fold U. split; [auto|]. split; [|split].
      * unfold pair_ok. cbn [fst snd]. fold U. rewrite !andb_true_iff, !Z.leb_le, Z.ltb_lt. repeat split; auto; [apply Z.div_pos; auto; apply Z.mul_nonneg_nonneg; auto|]. apply Z.div_le_upper_bound; auto. apply Z.mul_le_mono_nonneg; lia.
      * rewrite mpow_S. apply Z.mul_nonneg_nonneg; auto. apply Z.square_nonneg.
      * rewrite mpow_S. replace (Z.of_nat (2 * S j + 1)) with (Z.of_nat (2 * j + 1) + 2)%Z at 2 by lia. replace (D ^ Z.of_nat (2 * S j + 1))%Z with (D * D * D ^ Z.of_nat (2 * j + 1))%Z. 2: { replace (2 * S j + 1)%nat with (S (S (2 * j + 1))) by lia. rewrite !Nat2Z.inj_succ, !Z.pow_succ_r by lia. ring. }
        assert (Hdd : (0 < D * D)%Z) by (apply Z.mul_pos_pos; auto). destruct (encl_div U (D * D) (nth (snd p) (tb_xs t) 0 * nth (snd p) (tb_xs t) 0)%Z Hdd) as [Q1 Q2].
        apply encl_step; auto; try lia; rewrite A1; unfold mom_pair; cbn [fst snd]; fold U; fold D; auto.
Qed.
Lemma mom_all_ok : forall t tol n, mom_all t tol n = true -> forallb (mom_ok t tol) (seq 0 (2 * n)) = true.
Proof.
  intros t tol n H. unfold mom_all in H. cbv zeta in H. apply andb_true_iff in H. destruct H as [H H3]. apply andb_true_iff in H. destruct H as [H H0]. apply andb_true_iff in H. destruct H as [H1 H2]. apply Z.leb_le in H2.
  apply forallb_forall. intros k Hk. apply in_seq in Hk. destruct (Nat.odd k) eqn:E; [unfold mom_ok; rewrite E; reflexivity|].
  assert (exists j, k = (2 * j)%nat) as [j ->]. { apply Nat.even_spec. rewrite <- Nat.negb_odd, E. reflexivity. }
  destruct j as [|j]; [exact H0|]. set (B := 160%Z) in *. assert (HB : (0 <= B)%Z) by (unfold B; lia). clearbody B.
  assert (HD : (0 < 10 ^ Z.of_nat (tb_d t))%Z) by (apply Z.pow_pos_nonneg; lia). assert (HU : (0 < 2 ^ B)%Z) by (apply Z.pow_pos_nonneg; lia).
  apply (mom_loop_ok B t tol n 0 _ _ HB H2) with (3 := H3); [| |lia|lia]; change (Z.of_nat (2 * 0 + 1)) with 1%Z; rewrite Z.pow_1_r; [apply encl_div; auto|].
  clear H3 Hk. induction (tb_ij t) as [|p ij IH]; cbn [map forallb] in *; constructor; apply andb_true_iff in H1; destruct H1 as [H1 H1']; auto.
  split; [reflexivity|]. split; [auto|]. unfold mpow. change (Z.of_nat (2 * 0)) with 0%Z. rewrite Z.pow_0_r, Z.mul_1_r.
  pose proof (encl_div (2 ^ B) (10 ^ Z.of_nat (tb_d t)) (nth (fst p) (tb_ws t) 0 * 2)%Z HD) as EE. split; [|exact EE].
  unfold pair_ok in H1. apply andb_true_iff in H1. destruct H1 as [H1 _]. apply andb_true_iff in H1. destruct H1 as [_ H1]. apply Z.leb_le in H1. unfold mom_pair in H1. cbn [fst snd] in H1. destruct EE as [EE _].
  destruct (Z_lt_ge_dec (nth (fst p) (tb_ws t) 0 * 2)%Z 0%Z) as [N|]; [exfalso|lia].
  assert (nth (fst p) (tb_ws t) 0 * 2 * 2 ^ B < 0)%Z by (apply Z.mul_neg_pos; auto). assert (0 <= nth (fst p) (tb_ws t) 0 * 2 * 2 ^ B / 10 ^ Z.of_nat (tb_d t) * 10 ^ Z.of_nat (tb_d t))%Z by (apply Z.mul_nonneg_nonneg; lia). lia.
Qed.
Lemma tab_moment_even : forall t k, Nat.odd k = false -> tab_rule t (fun s => s ^ k) = IZR (momZ t k) / IZR (10 ^ Z.of_nat (tb_d t)) ^ (k + 1).
Proof.
  intros t k Hk. pose proof (pow10_pos (tb_d t)) as P. unfold tab_rule, qrule, momZ. set (D := IZR (10 ^ Z.of_nat (tb_d t))) in *.
  assert (E0 : IZR (tb_w0 t) / D * 0 ^ k = IZR (if (k =? 0)%nat then tb_w0 t else 0) / D ^ (k + 1)).
  { destruct k as [|k]; [cbn; field; lra|]. cbn [Nat.eqb]. rewrite pow_i by lia. unfold Rdiv. ring. }
  rewrite E0, plus_IZR. unfold Rdiv at 2. rewrite Rmult_plus_distr_r. f_equal.
  unfold rpairs. induction (tb_ij t) as [|ij L IH]; cbn [map fold_right fst snd]; [unfold Rdiv; ring|]. rewrite IH, plus_IZR, Rmult_plus_distr_r. f_equal.
  unfold dec. rnum. fold D. rewrite !mult_IZR. set (x := nth (snd ij) (tb_xs t) 0%Z). set (w := nth (fst ij) (tb_ws t) 0%Z). rewrite <- (pow_IZR x k).
  assert (EV : (- (IZR x / D)) ^ k = (IZR x / D) ^ k).
  { assert (exists j, k = (2 * j)%nat) as [j ->]. { apply Nat.even_spec. rewrite <- Nat.negb_odd, Hk. reflexivity. } rewrite !pow_mult. f_equal. ring. }
  rewrite EV. unfold Rdiv. rewrite Rpow_mult_distr, pow_add, Rinv_mult, pow_1, pow_inv. ring.
Qed.
Lemma tab_moment : forall t tol k, mom_ok t tol k = true -> Rabs (tab_rule t (fun s => s ^ k) - (1 - (-1) ^ (k + 1)) / INR (k + 1)) <= IZR tol / IZR (10 ^ Z.of_nat (tb_d t)) \/ Nat.odd k = true.
Proof.
  intros t tol k H. unfold mom_ok in H. destruct (Nat.odd k) eqn:Hk; [auto|left]. cbn [orb] in H. apply Z.leb_le in H. rewrite tab_moment_even by auto.
  pose proof (pow10_pos (tb_d t)) as P.
  assert (E1 : (-1) ^ (k + 1) = -1). { assert (exists j, k = (2 * j)%nat) as [j ->]. { apply Nat.even_spec. rewrite <- Nat.negb_odd, Hk. reflexivity. } rewrite pow_add, pow_mult. replace ((-1) ^ 2) with 1 by ring. rewrite pow1. ring. }
  rewrite E1. replace (1 - -1) with 2 by ring.
  assert (K : 0 < INR (k + 1)) by (apply lt_0_INR; lia). set (D := IZR (10 ^ Z.of_nat (tb_d t))) in *. assert (PD : 0 < D ^ (k + 1)) by (apply pow_lt; auto).
  apply IZR_le in H. rewrite abs_IZR, minus_IZR, !mult_IZR, INR_IZR in H.
  assert (EP : forall m, IZR (10 ^ Z.of_nat (tb_d t * m)) = D ^ m). { intros m. unfold D. rewrite Nat2Z.inj_mul, Z.pow_mul_r by lia. rewrite <- pow_IZR. reflexivity. }
  rewrite !EP in H.
  replace (IZR (momZ t k) / D ^ (k + 1) - 2 / INR (k + 1)) with ((IZR (momZ t k) * INR (k + 1) - 2 * D ^ (k + 1)) * / (INR (k + 1) * D ^ (k + 1))) by (field; lra).
  rewrite Rabs_mult, (Rabs_right (/ _)). 2: { apply Rle_ge, Rlt_le, Rinv_0_lt_compat. apply Rmult_lt_0_compat; auto. }
  apply Rmult_le_reg_r with (INR (k + 1) * D ^ (k + 1)). { apply Rmult_lt_0_compat; auto. }
  rewrite Rmult_assoc, Rinv_l, Rmult_1_r. 2: { apply Rgt_not_eq, Rmult_lt_0_compat; auto. }
  eapply Rle_trans; [exact H|]. apply Req_le. rewrite pow_add, pow_1. field. lra.
Qed.
Lemma tab_moment' : forall t tol k, (0 <= tol)%Z -> mom_ok t tol k = true -> Rabs (tab_rule t (fun s => s ^ k) - (1 - (-1) ^ (k + 1)) / INR (k + 1)) <= IZR tol / IZR (10 ^ Z.of_nat (tb_d t)).
Proof.
  intros t tol k H0 H. destruct (tab_moment t tol k H) as [A|A]; auto. apply Nat.odd_spec in A. destruct A as [j ->].
  assert (E : tab_rule t (fun s => s ^ (2 * j + 1)) = 0). { apply qrule_odd. intros s. rewrite !pow_add, !pow_mult, !pow_1. replace ((- s) ^ 2) with (s ^ 2) by ring. ring. }
  rewrite E. replace ((-1) ^ (2 * j + 1 + 1)) with 1. 2: { replace (2 * j + 1 + 1)%nat with (2 * (j + 1))%nat by lia. rewrite pow_mult. replace ((-1) ^ 2) with 1 by ring. rewrite pow1. reflexivity. }
  replace (0 - (1 - 1) / INR (2 * j + 1 + 1)) with 0 by (unfold Rdiv; ring). rewrite Rabs_R0. apply Rmult_le_pos; [apply IZR_le; auto|]. apply Rlt_le, Rinv_0_lt_compat, pow10_pos.
Qed.
Lemma norm1_snoc : forall l c, norm1 (l ++ [c]) = norm1 l + Rabs c.
Proof. induction l as [|x l IH]; intros c; cbn [app norm1 fold_right]; [ring|]. unfold norm1 in IH. rewrite IH. ring. Qed.
Lemma tab_poly : forall t tol c, (0 <= tol)%Z -> forallb (mom_ok t tol) (seq 0 (length c)) = true ->
  Rabs (tab_rule t (horner Rnum c) - (horner_integral c 1 - horner_integral c (-1))) <= IZR tol / IZR (10 ^ Z.of_nat (tb_d t)) * norm1 c.
Proof.
  intros t tol c Ht. induction c as [|x c IH] using rev_ind; intros H.
  - unfold horner_integral. cbn [length norm1 fold_right]. assert (E : tab_rule t (horner Rnum []) = 0). { apply qrule_odd. intros. cbn. ring. } rewrite E. cbn. replace (0 - (0 - 0)) with 0 by ring. rewrite Rabs_R0. lra.
  - rewrite app_length in H. cbn [length] in H. rewrite seq_app, forallb_app in H. apply andb_true_iff in H. destruct H as [H1 H2]. cbn [seq forallb Nat.add] in H2. apply andb_true_iff in H2. destruct H2 as [H2 _].
    specialize (IH H1). pose proof (tab_moment' t tol (length c) Ht H2) as M. rewrite !horner_integral_snoc, norm1_snoc.
    assert (E : tab_rule t (horner Rnum (c ++ [x])) = tab_rule t (horner Rnum c) + x * tab_rule t (fun s => s ^ length c)). { unfold tab_rule. rewrite <- qrule_lin. apply qrule_ext. intros. apply horner_snoc. }
    rewrite E, pow1. set (q := IZR tol / IZR (10 ^ Z.of_nat (tb_d t))) in *.
    replace (tab_rule t (horner Rnum c) + x * tab_rule t (fun s => s ^ length c) - (horner_integral c 1 + x * 1 / INR (length c + 1) - (horner_integral c (-1) + x * (-1) ^ (length c + 1) / INR (length c + 1))))
      with (tab_rule t (horner Rnum c) - (horner_integral c 1 - horner_integral c (-1)) + x * (tab_rule t (fun s => s ^ length c) - (1 - (-1) ^ (length c + 1)) / INR (length c + 1))).
    2: { assert (0 < INR (length c + 1)) by (apply lt_0_INR; lia). field. lra. }
    eapply Rle_trans; [apply Rabs_triang|]. rewrite Rabs_mult, Rmult_plus_distr_l. apply Rplus_le_compat; auto. rewrite (Rmult_comm q). apply Rmult_le_compat_l; auto. apply Rabs_pos.
Qed.
Lemma forallb_seq_le : forall P n m, (m <= n)%nat -> forallb P (seq 0 n) = true -> forallb P (seq 0 m) = true.
Proof. intros P n m H HF. rewrite forallb_forall in *. intros x Hx. apply HF. apply in_seq in Hx. apply in_seq. lia. Qed.
Lemma integral_scaled : forall F f a b c, primitive F f a b -> (forall s, scaled f a b s = horner Rnum c s) -> F b - F a = (b - a) / 2 * (horner_integral c 1 - horner_integral c (-1)).
Proof.
  intros F f a b c HF HC.
  pose proof (primitive_unique (fun s => F ((a + b) / 2 + (b - a) / 2 * s)) (fun s => (b - a) / 2 * horner_integral c s) (fun s => (b - a) / 2 * horner Rnum c s) (-1) 1) as U. cbv beta in U.
  replace ((a + b) / 2 + (b - a) / 2 * 1) with b in U by field. replace ((a + b) / 2 + (b - a) / 2 * -1) with a in U by field. rewrite U; [ring| |].
  - intros s Hs. apply (between_le (-1) 1 s ltac:(lra)) in Hs. rewrite <- (HC s). unfold scaled. set (y := (a + b) / 2 + (b - a) / 2 * s) in *.
    rewrite Rmult_comm. apply (derivable_pt_lim_comp (fun s => (a + b) / 2 + (b - a) / 2 * s) F). 
    + apply (dl_ext (fun s => (a + b) / 2 + (b - a) / 2 * s) _ s (0 + (b - a) / 2 * 1)); [reflexivity|ring|]. apply (derivable_pt_lim_plus (fun _ => (a + b) / 2) (fun s => (b - a) / 2 * s)); [apply derivable_pt_lim_const|apply (derivable_pt_lim_scal (fun s => s)), derivable_pt_lim_id].
    + fold y. apply HF. unfold y, between, Rmin, Rmax. destruct (Rle_dec a b); split; nra.
  - intros s _. apply (derivable_pt_lim_scal (horner_integral c)). apply (horner_primitive c s s). apply between_l.
Qed.

(** ** Adaptive bisection *)
Lemma total_app : forall A (g : A -> R) l1 l2, total g (l1 ++ l2) = total g l1 + total g l2.
Proof. intros A g l1 l2. induction l1 as [|x l IH]; unfold total in *; cbn [app fold_right]; [ring|]. rewrite IH. ring. Qed.
Lemma total_ext : forall A (g h : A -> R) l, (forall x, In x l -> g x = h x) -> total g l = total h l.
Proof. intros A g h l H. induction l as [|x l IH]; auto. unfold total in *. cbn [fold_right]. rewrite H, IH; auto; [intros; apply H; right; auto|left; auto]. Qed.
Lemma total_le : forall A (g h : A -> R) l, (forall x, In x l -> g x <= h x) -> total g l <= total h l.
Proof. intros A g h l H. induction l as [|x l IH]; [unfold total; cbn; lra|]. unfold total in *. cbn [fold_right]. apply Rplus_le_compat; [apply H; left; auto|apply IH; intros; apply H; right; auto]. Qed.
Lemma total_lin : forall A (g h : A -> R) c l, total (fun x => g x + c * h x) l = total g l + c * total h l.
Proof. intros A g h c l. induction l as [|x l IH]; unfold total in *; cbn [fold_right]; [ring|]. rewrite IH. ring. Qed.
Lemma total_abs : forall A (g : A -> R) l, Rabs (total g l) <= total (fun x => Rabs (g x)) l.
Proof. intros A g l. induction l as [|x l IH]; unfold total in *; cbn [fold_right]; [rewrite Rabs_R0; lra|]. eapply Rle_trans; [apply Rabs_triang|]. lra. Qed.
Lemma partition_tele : forall F a b l, partition a b l -> total (fun p => F (snd (fst p)) - F (fst (fst p))) l = F b - F a.
Proof.
  intros F a b l H. induction H as [a b d|a m b l1 l2 H1 IH1 H2 IH2]; [cbn; ring|]. rewrite total_app, IH1, IH2. ring.
Qed.

Section Adaptive.
Context (f : R -> R) (rel : R) (rule : gkrule).
Definition piece (p : R * R * nat) : ires := gk_rule Rarith rule f (fst (fst p)) (snd (fst p)).
(** the piece is accepted: its estimate is within its share of the tolerance *)
Definition accepted (tol : R) (p : R * R * nat) : Prop := ir_err (piece p) <= Rmax (tol / 2 ^ snd p) (rel * Rabs (ir_value (piece p))).
Definition bump (p : R * R * nat) : R * R * nat := (fst p, S (snd p)).
Lemma partition_bump : forall a b l, partition a b l -> partition a b (map bump l).
Proof. intros a b l H. induction H; [apply part_one|]. rewrite map_app. econstructor; eauto. Qed.
Lemma total_map : forall A B (g : B -> R) (h : A -> B) l, total g (map h l) = total (fun x => g (h x)) l.
Proof. intros. induction l as [|x l IH]; auto. unfold total in *. cbn [map fold_right]. rewrite IH. reflexivity. Qed.
Lemma accepted_bump : forall tol p, accepted (tol / 2) p <-> accepted tol (bump p).
Proof.
  intros tol [[x y] d]. unfold accepted, piece, bump. cbn [fst snd]. replace (tol / 2 ^ S d) with (tol / 2 / 2 ^ d). { reflexivity. } cbn [pow]. assert (0 < 2 ^ d) by (apply pow_lt; lra). field. lra.
Qed.
Lemma adaptive_ok : forall depth a b tol, let r := IntegrateGKAdaptive Rarith f a b tol rel depth rule in
  exists l, partition a b l /\ ir_value r = total (fun p => ir_value (piece p)) l /\ ir_err r = total (fun p => ir_err (piece p)) l /\ ir_iters r = (kpoints rule * length l)%nat /\
    total (fun p => / 2 ^ snd p) l = 1 /\
    (forall p, In p l -> (snd p <= depth)%nat /\ snd (fst p) - fst (fst p) = (b - a) / 2 ^ snd p /\ between a b (fst (fst p)) /\ between a b (snd (fst p)) /\ ((snd p < depth)%nat -> accepted tol p)) /\
    (ir_conv r = true <-> forall p, In p l -> accepted tol p).
Proof.
  induction depth as [|depth IH]; intros a b tol; cbv zeta; cbn [IntegrateGKAdaptive].
  - set (loc := gk_rule Rarith rule f a b). rnum.
    assert (EM : (if Rltb tol (rel * Rabs (ir_value loc)) then rel * Rabs (ir_value loc) else tol) = Rmax tol (rel * Rabs (ir_value loc))).
    { unfold Rmax. destruct (Rltb_spec tol (rel * Rabs (ir_value loc))), (Rle_dec tol (rel * Rabs (ir_value loc))); lra. }
    rewrite EM. assert (EA : accepted tol (a, b, 0%nat) <-> ir_err loc <= Rmax tol (rel * Rabs (ir_value loc))).
    { unfold accepted, piece. cbn [fst snd pow]. fold loc. replace (tol / 1) with tol by field. reflexivity. }
    exists [(a, b, 0%nat)]. assert (EI : ir_iters loc = kpoints rule) by (apply (gk_ok rule f a b)).
    assert (G : partition a b [(a, b, 0%nat)] /\ ir_value loc = total (fun p => ir_value (piece p)) [(a, b, 0%nat)] /\ ir_err loc = total (fun p => ir_err (piece p)) [(a, b, 0%nat)] /\ ir_iters loc = (kpoints rule * length [(a, b, 0%nat)])%nat /\
      total (fun p => / 2 ^ snd p) [(a, b, 0%nat)] = 1 /\
      (forall p, In p [(a, b, 0%nat)] -> (snd p <= 0)%nat /\ snd (fst p) - fst (fst p) = (b - a) / 2 ^ snd p /\ between a b (fst (fst p)) /\ between a b (snd (fst p)) /\ ((snd p < 0)%nat -> accepted tol p))).
    { split; [apply part_one|]. unfold total, piece. cbn [fold_right fst snd length]. fold loc. split; [ring|]. split; [ring|]. split; [lia|]. split; [cbn [pow]; field|].
      intros p [<-|[]]. cbn [fst snd pow]. split; [lia|]. split; [field|]. split; [apply between_l|]. split; [apply between_r|]. lia. }
    destruct G as (G1 & G2 & G3 & G4 & G5 & G6).
    destruct (Rltb_spec (Rmax tol (rel * Rabs (ir_value loc))) (ir_err loc)) as [L|L]; cbn [negb ir_value ir_err ir_iters ir_conv]; (split; [exact G1|]; split; [exact G2|]; split; [exact G3|]; split; [exact G4|]; split; [exact G5|]; split; [exact G6|]).
    + split; [discriminate|]. intros H. specialize (H _ (or_introl eq_refl)). apply EA in H. lra.
    + split; auto. intros _ p [<-|[]]. apply EA. lra.
  - set (loc := gk_rule Rarith rule f a b). rnum.
    assert (EM : (if Rltb tol (rel * Rabs (ir_value loc)) then rel * Rabs (ir_value loc) else tol) = Rmax tol (rel * Rabs (ir_value loc))).
    { unfold Rmax. destruct (Rltb_spec tol (rel * Rabs (ir_value loc))), (Rle_dec tol (rel * Rabs (ir_value loc))); lra. }
    rewrite EM. assert (EI : ir_iters loc = kpoints rule) by (apply (gk_ok rule f a b)).
    destruct (Rltb_spec (Rmax tol (rel * Rabs (ir_value loc))) (ir_err loc)) as [L|L]; cbn [negb].
    + set (mid := 1 / 2 * (a + b)). destruct (IH a mid (tol / 2)) as (l1 & A1 & A2 & A3 & A4 & A5 & A6 & A7). destruct (IH mid b (tol / 2)) as (l2 & B1 & B2 & B3 & B4 & B5 & B6 & B7).
      set (r1 := IntegrateGKAdaptive Rarith f a mid (tol / 2) rel depth rule) in *. set (r2 := IntegrateGKAdaptive Rarith f mid b (tol / 2) rel depth rule) in *. clearbody r1 r2. cbn [ir_value ir_err ir_iters ir_conv].
      assert (PB : forall p, piece (bump p) = piece p) by reflexivity. assert (BM : between a b mid). { replace mid with (a + 1 / 2 * (b - a)) by (unfold mid; field). apply between_comb. lra. }
      exists (map bump l1 ++ map bump l2). split; [apply (part_app a mid b); apply partition_bump; auto|]. rewrite !total_app, !total_map. rewrite (total_ext _ (fun x => ir_value (piece (bump x))) (fun x => ir_value (piece x)) l1), (total_ext _ (fun x => ir_value (piece (bump x))) (fun x => ir_value (piece x)) l2) by auto.
      rewrite (total_ext _ (fun x => ir_err (piece (bump x))) (fun x => ir_err (piece x)) l1), (total_ext _ (fun x => ir_err (piece (bump x))) (fun x => ir_err (piece x)) l2) by auto.
      rewrite A2, B2, A3, B3. split; auto. split; auto. rewrite app_length, !map_length, A4, B4. split; [lia|].
      assert (HH : forall l : list (R * R * nat), total (fun x => / 2 ^ snd (bump x)) l = 0 + / 2 * total (fun x => / 2 ^ snd x) l).
      { intros l. rewrite <- (total_ext _ (fun x => 0 + / 2 * / 2 ^ snd x)). { rewrite (total_lin _ (fun _ => 0) (fun x => / 2 ^ snd x)). f_equal. unfold total. induction l as [|z l' IHl]; cbn [fold_right]; lra. }
        intros [[u v] d] _. cbn [bump snd pow fst]. assert (0 < 2 ^ d) by (apply pow_lt; lra). field. lra. }
      split; [rewrite !HH, A5, B5; field|]. split.
      * intros p Hp. apply in_app_or in Hp.
        assert (Q : exists q, p = bump q /\ (snd q <= depth)%nat /\ snd (fst q) - fst (fst q) = (b - a) / 2 / 2 ^ snd q /\ between a b (fst (fst q)) /\ between a b (snd (fst q)) /\ ((snd q < depth)%nat -> accepted (tol / 2) q)).
        { destruct Hp as [Hp|Hp]; apply in_map_iff in Hp; destruct Hp as (q & <- & Hq); exists q; (split; [reflexivity|]).
          - destruct (A6 q Hq) as (C1 & C2 & C3 & C4 & C5). split; auto. split. { rewrite C2. unfold mid. assert (0 < 2 ^ snd q) by (apply pow_lt; lra). field. lra. }
            split; [eapply between_trans; [apply between_l|exact BM|exact C3]|]. split; [eapply between_trans; [apply between_l|exact BM|exact C4]|exact C5].
          - destruct (B6 q Hq) as (C1 & C2 & C3 & C4 & C5). split; auto. split. { rewrite C2. unfold mid. assert (0 < 2 ^ snd q) by (apply pow_lt; lra). field. lra. }
            split; [eapply between_trans; [exact BM|apply between_r|exact C3]|]. split; [eapply between_trans; [exact BM|apply between_r|exact C4]|exact C5]. }
        destruct Q as (q & -> & C1 & C2 & C3 & C4 & C5). cbn [bump fst snd]. split; [lia|]. split. { rewrite C2. cbn [pow]. assert (0 < 2 ^ snd q) by (apply pow_lt; lra). field. lra. }
        split; auto. split; auto. intros Hd. apply accepted_bump. apply C5. lia.
      * rewrite andb_true_iff, A7, B7. split.
        -- intros [H1 H2] p Hp. apply in_app_or in Hp. destruct Hp as [Hp|Hp]; apply in_map_iff in Hp; destruct Hp as (q & <- & Hq); apply accepted_bump; auto.
        -- intros H. split; intros p Hp; apply accepted_bump; apply H; apply in_or_app; [left|right]; apply in_map; auto.
    + exists [(a, b, 0%nat)]. assert (EA : accepted tol (a, b, 0%nat)). { unfold accepted, piece. cbn [fst snd pow]. fold loc. replace (tol / 1) with tol by field. lra. }
      cbn [ir_value ir_err ir_iters ir_conv]. split; [apply part_one|]. unfold total, piece. cbn [fold_right fst snd length]. fold loc. split; [ring|]. split; [ring|]. split; [lia|]. split; [cbn [pow]; field|]. split.
      * intros p [<-|[]]. cbn [fst snd pow]. split; [lia|]. split; [field|]. split; [apply between_l|]. split; [apply between_r|]. auto.
      * split; auto. intros _ p [<-|[]]. auto.
Qed.
End Adaptive.
