(** * Trapezoidal rule and rule of Simpson: what the loops compute, and the error bounds *)

From Coq Require Import List Bool Arith ZArith Lia Reals Lra Psatz.
From Verif Require Import Base Num Mat_Proofs RootFind_Model RootFind_Proofs Tri_Model Interp_Model Interp_Bary Integ_Model Integ_Spec.
Import ListNotations.
Local Open Scope R_scope.
Local Notation sum := (sumn Rnum).

Lemma sumS_l : forall n f, sum (S n) f = f 0%nat + sum n (fun i => f (S i)).
Proof. intros. apply (sum_S_l Rnum Rring). Qed.
Lemma sum_plus : forall n f g, sum n (fun i => f i + g i) = sum n f + sum n g.
Proof. intros. apply (sum_add Rnum Rring). Qed.
Lemma sum_minus : forall n f g, sum n (fun i => f i - g i) = sum n f - sum n g.
Proof. intros. apply (sum_sub Rnum Rring). Qed.
Lemma sum_cst : forall n a, sum n (fun _ => a) = INR n * a.
Proof. induction n; intros; [cbn; ring|]. rewrite sumS, IHn, S_INR. ring. Qed.
Lemma sum_rev : forall n f, sum n (fun k => f (n - 1 - k)%nat) = sum n f.
Proof.
  induction n as [|n IH]; intros f; auto. rewrite sumS, sumS_l, <- (IH (fun i => f (S i))). replace (S n - 1 - n)%nat with 0%nat by lia.
  rewrite (sum_ext_R n _ (fun k => f (S (n - 1 - k)))) by (intros; f_equal; lia). ring.
Qed.
Lemma sum_two : forall n f, sum (2 * n) f = sum n (fun i => f (2 * i)%nat + f (2 * i + 1)%nat).
Proof.
  induction n as [|n IH]; intros f; auto. replace (2 * S n)%nat with (S (S (2 * n))) by lia. rewrite !sumS, IH. replace (2 * n + 1)%nat with (S (2 * n)) by lia. ring.
Qed.
Lemma sum_tele : forall n (g : nat -> R), sum n (fun i => g (S i) - g i) = g n - g 0%nat.
Proof. induction n as [|n IH]; intros g; [cbn; ring|]. rewrite sumS, IH. ring. Qed.
Lemma sum_bound : forall n f B, (forall i, (i < n)%nat -> Rabs (f i) <= B) -> Rabs (sum n f) <= INR n * B.
Proof.
  induction n as [|n IH]; intros f B H. { cbn. rewrite Rabs_R0. lra. }
  rewrite sumS, S_INR. eapply Rle_trans; [apply Rabs_triang|]. specialize (IH f B ltac:(intros; apply H; lia)). pose proof (H n ltac:(lia)). lra.
Qed.
Lemma INR_IZR : forall n, IZR (Z.of_nat n) = INR n. Proof. intros. symmetry. apply INR_IZR_INZ. Qed.
Lemma INR_pow2 : forall k, 0 < INR (2 ^ k). Proof. intros. apply lt_0_INR. apply Nat.neq_0_lt_0. apply Nat.pow_nonzero. lia. Qed.

Lemma node_even : forall a b n i, (0 < n)%nat -> node a b (2 * n) (2 * i) = node a b n i.
Proof. intros. unfold node. rewrite !mult_INR. change (INR 2) with (1 + 1). assert (0 < INR n) by (apply lt_0_INR; auto). field. lra. Qed.
Lemma node_odd : forall a b n i, (0 < n)%nat -> node a b (2 * n) (2 * i + 1) = a + / 2 * ((b - a) / INR n) + INR i * ((b - a) / INR n).
Proof. intros. unfold node. rewrite plus_INR, !mult_INR. change (INR 2) with (1 + 1). change (INR 1) with 1. assert (0 < INR n) by (apply lt_0_INR; auto). field. lra. Qed.
Lemma width_two : forall a b n, (0 < n)%nat -> (b - a) / INR (2 * n) = (b - a) / INR n / 2.
Proof. intros. rewrite mult_INR. change (INR 2) with (1 + 1). assert (0 < INR n) by (apply lt_0_INR; auto). field. lra. Qed.

(** ** The integrator *)
Section Trap.
Context (f : R -> R) (a b : R).
Local Notation T := (trapezoid f a b).
Local Notation next := (trap_next Rarith f a b).

Lemma mid_sum_ok : forall n x del s, mid_sum Rarith f x del n s = s + sum n (fun i => f (x + INR i * del)).
Proof.
  induction n as [|n IH]; intros x del s; [cbn; ring|]. cbn [mid_sum]. rewrite IH, sumS_l. rnum.
  replace (x + INR 0 * del) with x by (cbn; ring). rewrite (sum_ext_R n _ (fun i => f (x + INR (S i) * del))); [ring|]. intros i _. rewrite S_INR. f_equal. ring.
Qed.
Lemma node_next : forall n i, node a b n (S i) = node a b n i + (b - a) / INR n.
Proof. intros. unfold node. rewrite S_INR. ring. Qed.
Lemma T_double : forall n, (0 < n)%nat -> T (2 * n) = / 2 * (T n + (b - a) * sum n (fun i => f (a + / 2 * ((b - a) / INR n) + INR i * ((b - a) / INR n))) / INR n).
Proof.
  intros n Hn. assert (HN : 0 < INR n) by (apply lt_0_INR; auto). unfold trapezoid. rewrite sum_two. unfold Rdiv at 7. rewrite (sum_mul_R n (b - a)).
  rewrite Rmult_comm with (r2 := / INR n). rewrite (sum_mul_R n (/ INR n)). rewrite <- sum_plus, sum_mul_R. apply sum_ext_R. intros i _.
  rewrite width_two by auto. replace (S (2 * i)) with (2 * i + 1)%nat by lia. replace (S (2 * i + 1)) with (2 * (S i))%nat by lia. rewrite !node_even, node_odd by auto. field. lra.
Qed.
Lemma subdiv_ok : forall k, subdiv (S (S k)) = (2 ^ k)%nat.
Proof. intros k. unfold subdiv. replace (S (S k) - 2)%nat with k by lia. induction k as [|k IH]; auto. change (Nat.iter (S k) (fun n => (n * 2)%nat) 1%nat) with (Nat.iter k (fun n => (n * 2)%nat) 1%nat * 2)%nat. rewrite IH. rewrite Nat.pow_succ_r'. lia. Qed.
Lemma next_first : forall v, next (0%nat, v) = (1%nat, T 1).
Proof. intros v. unfold trap_next. cbn [Nat.eqb]. rnum. f_equal. unfold trapezoid, node. cbn. replace (a + 0 * ((b - a) / 1)) with a by field. replace (a + 1 * ((b - a) / 1)) with b by field. field. Qed.
Lemma next_ok : forall k, next (S k, T (2 ^ k)) = (S (S k), T (2 ^ S k)).
Proof.
  intros k. unfold trap_next. destruct (Nat.eqb_spec (S (S k)) 1); [lia|]. rewrite subdiv_ok. rewrite mid_sum_ok. rnum. f_equal.
  rewrite Nat.pow_succ_r'. rewrite T_double by (apply Nat.neq_0_lt_0, Nat.pow_nonzero; lia). rewrite INR_IZR. pose proof (INR_pow2 k). rewrite Rplus_0_l.
  replace (1 / 2) with (/ 2) by field. reflexivity.
Qed.
Lemma S_double : forall n, (0 < n)%nat -> (4 * T (2 * n) - T n) / 3 = simpson f a b n.
Proof.
  intros n Hn. assert (HN : 0 < INR n) by (apply lt_0_INR; auto). unfold trapezoid, simpson. rewrite sum_two. rewrite sum_mul_R. unfold Rdiv at 1. rewrite Rmult_comm. rewrite <- sum_minus, sum_mul_R. apply sum_ext_R. intros i _.
  rewrite width_two by auto. replace (S (2 * i)) with (2 * i + 1)%nat by lia. replace (S (2 * i + 1)) with (2 * (S i))%nat by lia. rewrite !node_even, node_odd by auto.
  replace ((node a b n i + node a b n (S i)) / 2) with (a + / 2 * ((b - a) / INR n) + INR i * ((b - a) / INR n)) by (unfold node; rewrite S_INR; field; lra). field. lra.
Qed.
End Trap.

(** ** The two loops *)
Lemma settled_dec : forall eps o v, reflect (settled eps o v) (Rltb (Rabs (v - o)) (eps * Rabs o + eps * mach_eps Rarith)).
Proof.
  intros. unfold settled, eps_machine, mach_eps. rnum. replace (1 / IZR (2 ^ 52)) with (/ 2 ^ 52). { apply Rltb_spec. }
  rewrite (pow_IZR 2 52). unfold Rdiv. rewrite Rmult_1_l. reflexivity.
Qed.
Section Loops.
Context (f : R -> R) (a b eps : R).
Local Notation T k := (trapezoid f a b (2 ^ k)).
Local Notation S' k := (simpson f a b (2 ^ k)).

Lemma trap_loop_ok : forall n j st c o, (1 <= n + j)%nat ->
  (match j with 0%nat => fst st = 0%nat /\ c = None | S i => st = (S i, T i) /\ c = Some (T i) /\ o = T i end) ->
  (forall i, (6 <= i < j)%nat -> ~ settled eps (T (i - 1)) (T i)) ->
  exists r, trap_loop Rarith f a b eps n j st c o = Ok r /\ stops (fun k => T k) eps (n + j) r.
Proof.
  induction n as [|n IH]; intros j st c o HN HJ HB; cbn [trap_loop].
  - destruct j as [|i]; [lia|]. destruct HJ as (-> & -> & ->). rnum. eexists. split; [reflexivity|]. unfold stops. cbn [ir_conv ir_iters ir_value ir_err]. cbn [Nat.add].
    split; auto. replace (S i - 1)%nat with i by lia. split; auto. split; auto. replace (T i - T i) with 0 by ring. apply Rabs_R0.
  - assert (E : trap_next Rarith f a b st = (S j, T j)).
    { destruct j as [|i]; [destruct HJ as [H1 _]; destruct st as [z v]; cbn [fst] in H1; subst z; apply next_first|]. destruct HJ as (-> & _ & _). apply next_ok. }
    rewrite E. cbn [snd]. rnum. destruct (Nat.ltb_spec 5 j) as [HJ5|HJ5]; cbn [andb].
    + destruct j as [|i]; [lia|]. destruct HJ as (_ & _ & ->). destruct (settled_dec eps (T i) (T (S i))) as [HS|HS].
      * eexists. split; [reflexivity|]. unfold stops. cbn [ir_conv ir_iters ir_value ir_err]. replace (S i - 1)%nat with i by lia. split; [lia|]. auto.
      * destruct (IH (S (S i)) (S (S i), T (S i)) (Some (T (S i))) (T (S i))) as (r & ER & HR); [lia|auto| |].
        { intros k Hk. destruct (Nat.eq_dec k (S i)) as [->|]; [replace (S i - 1)%nat with i by lia; auto|apply HB; lia]. }
        exists r. split; auto. replace (S n + S i)%nat with (n + S (S i))%nat by lia. auto.
    + destruct (IH (S j) (S j, T j) (Some (T j)) (T j)) as (r & ER & HR); [lia|auto|intros; lia|].
      exists r. split; auto. replace (S n + j)%nat with (n + S j)%nat by lia. auto.
Qed.
Local Notation V k := (simpson_seq f a b k).
Lemma simp_loop_ok : forall n j st c ost o, (1 <= n + j)%nat ->
  (match j with 0%nat => fst st = 0%nat /\ c = None /\ ost = 0 | S i => st = (S i, T i) /\ c = Some (V i) /\ o = V i /\ ost = T i end) ->
  (forall i, (6 <= i < j)%nat -> ~ settled eps (V (i - 1)) (V i)) ->
  exists r, simp_loop Rarith f a b eps n j st c ost o = Ok r /\ stops (fun k => V k) eps (n + j) r.
Proof.
  induction n as [|n IH]; intros j st c ost o HN HJ HB; cbn [simp_loop].
  - destruct j as [|i]; [lia|]. destruct HJ as (-> & -> & -> & ->). rnum. eexists. split; [reflexivity|]. unfold stops. cbn [ir_conv ir_iters ir_value ir_err]. cbn [Nat.add].
    split; auto. replace (S i - 1)%nat with i by lia. split; auto. split; auto. replace (V i - V i) with 0 by ring. apply Rabs_R0.
  - assert (E : trap_next Rarith f a b st = (S j, T j)).
    { destruct j as [|i]; [destruct HJ as [H1 _]; destruct st as [z v]; cbn [fst] in H1; subst z; apply next_first|]. destruct HJ as (-> & _). apply next_ok. }
    rewrite E. cbn [snd]. rnum.
    assert (EV : (4 * T j - ost) / 3 = V j).
    { destruct j as [|i]; [destruct HJ as (_ & _ & ->); cbn [simpson_seq]; rewrite Nat.pow_0_r; field|]. destruct HJ as (_ & _ & _ & ->). cbn [simpson_seq]. rewrite Nat.pow_succ_r'. apply S_double. apply Nat.neq_0_lt_0, Nat.pow_nonzero; lia. }
    rewrite EV. destruct (Nat.ltb_spec 5 j) as [HJ5|HJ5]; cbn [andb].
    + destruct j as [|i]; [lia|]. destruct HJ as (_ & _ & -> & _). destruct (settled_dec eps (V i) (V (S i))) as [HS|HS].
      * eexists. split; [reflexivity|]. unfold stops. cbn [ir_conv ir_iters ir_value ir_err]. replace (S i - 1)%nat with i by lia. split; [lia|]. auto.
      * destruct (IH (S (S i)) (S (S i), T (S i)) (Some (V (S i))) (T (S i)) (V (S i))) as (r & ER & HR); [lia|auto| |].
        { intros k Hk. destruct (Nat.eq_dec k (S i)) as [->|]; [replace (S i - 1)%nat with i by lia; auto|apply HB; lia]. }
        exists r. split; auto. replace (S n + S i)%nat with (n + S (S i))%nat by lia. auto.
    + destruct (IH (S j) (S j, T j) (Some (V j)) (T j) (V j)) as (r & ER & HR); [lia|auto|intros; lia|].
      exists r. split; auto. replace (S n + j)%nat with (n + S j)%nat by lia. auto.
Qed.
End Loops.

(** ** Error bounds *)
(** a function that starts at 0 and whose derivative is bounded by that of [B] is bounded by [B] *)
Lemma growth : forall (g g' B B' : R -> R) t, 0 <= t -> (forall s, 0 <= s <= t -> derivable_pt_lim g s (g' s)) -> (forall s, 0 <= s <= t -> derivable_pt_lim B s (B' s)) ->
  g 0 = 0 -> B 0 = 0 -> (forall s, 0 <= s <= t -> Rabs (g' s) <= B' s) -> Rabs (g t) <= B t.
Proof.
  intros g g' B B' t Ht Hg HB G0 B0 HL. destruct (Req_dec t 0) as [->|Hn]. { rewrite G0, B0, Rabs_R0. lra. }
  assert (L : forall e, e = 1 \/ e = -1 -> e * g t <= B t).
  { intros e He. destruct (MVT_cor2 (fun s => B s - e * g s) (fun s => B' s - e * g' s) 0 t) as (c & E & Hc); [lra| |].
    - intros s Hs. apply (derivable_pt_lim_minus B (fun s => e * g s)); auto. apply (derivable_pt_lim_scal g); auto.
    - rewrite G0, B0 in E. assert (0 <= B' c - e * g' c). { pose proof (HL c ltac:(lra)) as K. unfold Rabs in K. destruct (Rcase_abs (g' c)); destruct He; subst e; lra. }
      assert (0 <= (B' c - e * g' c) * (t - 0)) by (apply Rmult_le_pos; lra). lra. }
  pose proof (L 1 ltac:(auto)). pose proof (L (-1) ltac:(auto)). unfold Rabs. destruct (Rcase_abs (g t)); lra.
Qed.
Lemma shift_plus : forall (h h' : R -> R) c s, derivable_pt_lim h (c + s) (h' (c + s)) -> derivable_pt_lim (fun s => h (c + s)) s (h' (c + s)).
Proof.
  intros h h' c s H. replace (h' (c + s)) with (h' (c + s) * (0 + 1)) by ring. apply (derivable_pt_lim_comp (fun s => c + s) h); auto.
  apply (derivable_pt_lim_plus (fun _ => c) (fun s => s)); [apply derivable_pt_lim_const|apply derivable_pt_lim_id].
Qed.
Lemma shift_minus : forall (h h' : R -> R) c s, derivable_pt_lim h (c - s) (h' (c - s)) -> derivable_pt_lim (fun s => h (c - s)) s (- h' (c - s)).
Proof.
  intros h h' c s H. replace (- h' (c - s)) with (h' (c - s) * (0 - 1)) by ring. apply (derivable_pt_lim_comp (fun s => c - s) h); auto.
  apply (derivable_pt_lim_minus (fun _ => c) (fun s => s)); [apply derivable_pt_lim_const|apply derivable_pt_lim_id].
Qed.
Lemma dl_ext : forall (g h : R -> R) x l l', (forall y, g y = h y) -> l = l' -> derivable_pt_lim g x l -> derivable_pt_lim h x l'.
Proof. intros g h x l l' E <- H e He. destruct (H e He) as (d & Hd). exists d. intros k Hk Hk'. rewrite <- !E. auto. Qed.
Lemma dl_pow : forall c n s, derivable_pt_lim (fun s => c * s ^ n) s (c * (INR n * s ^ pred n)).
Proof. intros. apply (derivable_pt_lim_scal (fun s => s ^ n)). apply derivable_pt_lim_pow. Qed.

Section Panel.
Context (F f f' : R -> R) (c t M : R) (Ht : 0 <= t).
Context (HF : forall x, c - t <= x <= c + t -> derivable_pt_lim F x (f x)) (Hf : forall x, c - t <= x <= c + t -> derivable_pt_lim f x (f' x)).
Lemma trap_panel : (forall x y, c - t <= x <= c + t -> c - t <= y <= c + t -> Rabs (f' x - f' y) <= M * Rabs (x - y)) ->
  Rabs (F (c + t) - F (c - t) - t * (f (c + t) + f (c - t))) <= 2 / 3 * M * t ^ 3.
Proof.
  intros HL.
  apply (growth (fun s => F (c + s) - F (c - s) - s * (f (c + s) + f (c - s))) (fun s => - (s * (f' (c + s) - f' (c - s)))) (fun s => 2 / 3 * M * s ^ 3) (fun s => 2 * M * s ^ 2)); auto.
  - intros s Hs. eapply dl_ext; [intros; reflexivity| |apply derivable_pt_lim_minus; [apply derivable_pt_lim_minus; [apply (shift_plus F f), HF; lra|apply (shift_minus F f), HF; lra]|
      apply (derivable_pt_lim_mult (fun s => s)); [apply derivable_pt_lim_id|apply derivable_pt_lim_plus; [apply (shift_plus f f'), Hf; lra|apply (shift_minus f f'), Hf; lra]]]].
    cbv beta. ring.
  - intros s Hs. eapply dl_ext; [intros; reflexivity| |apply dl_pow]. cbn [INR pred]. field.
  - rewrite Rplus_0_r, Rminus_0_r. ring.
  - ring.
  - intros s Hs. rewrite Rabs_Ropp, Rabs_mult, (Rabs_right s) by lra. pose proof (HL (c + s) (c - s) ltac:(lra) ltac:(lra)) as K. replace (c + s - (c - s)) with (2 * s) in K by ring.
    rewrite (Rabs_right (2 * s)) in K by lra. replace (2 * M * s ^ 2) with (s * (M * (2 * s))) by ring. apply Rmult_le_compat_l; lra.
Qed.
Context (f2 f3 : R -> R) (Hf1 : forall x, c - t <= x <= c + t -> derivable_pt_lim f' x (f2 x)) (Hf2 : forall x, c - t <= x <= c + t -> derivable_pt_lim f2 x (f3 x)).
Lemma simpson_panel : (forall x y, c - t <= x <= c + t -> c - t <= y <= c + t -> Rabs (f3 x - f3 y) <= M * Rabs (x - y)) ->
  Rabs (F (c + t) - F (c - t) - t / 3 * (f (c + t) + 4 * f c + f (c - t))) <= / 90 * M * t ^ 5.
Proof.
  intros HL.
  set (g := fun s => F (c + s) - F (c - s) - s / 3 * (f (c + s) + 4 * f c + f (c - s))).
  set (g1 := fun s => 2 / 3 * (f (c + s) + f (c - s)) - 4 / 3 * f c - s / 3 * (f' (c + s) - f' (c - s))).
  set (g2 := fun s => 1 / 3 * (f' (c + s) - f' (c - s)) - s / 3 * (f2 (c + s) + f2 (c - s))).
  set (g3 := fun s => - (s / 3 * (f3 (c + s) - f3 (c - s)))).
  assert (D3 : forall s, derivable_pt_lim (fun s => s / 3) s (1 / 3)).
  { intros s. apply (dl_ext (mult_real_fct (1 / 3) (fun s => s)) _ s (1 / 3 * 1)); [intros y; unfold mult_real_fct; field|ring|]. apply derivable_pt_lim_scal. apply derivable_pt_lim_id. }
  assert (E3 : forall s, 0 <= s <= t -> Rabs (g3 s) <= 2 / 3 * M * s ^ 2).
  { intros s Hs. unfold g3. rewrite Rabs_Ropp, Rabs_mult, (Rabs_right (s / 3)) by lra. pose proof (HL (c + s) (c - s) ltac:(lra) ltac:(lra)) as K. replace (c + s - (c - s)) with (2 * s) in K by ring.
    rewrite (Rabs_right (2 * s)) in K by lra. replace (2 / 3 * M * s ^ 2) with (s / 3 * (M * (2 * s))) by field. apply Rmult_le_compat_l; lra. }
  assert (E2 : forall s, 0 <= s <= t -> Rabs (g2 s) <= 2 / 9 * M * s ^ 3).
  { intros s Hs. apply (growth g2 g3 (fun s => 2 / 9 * M * s ^ 3) (fun s => 2 / 3 * M * s ^ 2)); [lra| | | | |intros; apply E3; lra].
    - intros u Hu. unfold g2, g3. eapply dl_ext; [intros; reflexivity| |apply derivable_pt_lim_minus; [apply (derivable_pt_lim_scal (fun s => f' (c + s) - f' (c - s))); apply derivable_pt_lim_minus; [apply (shift_plus f' f2), Hf1; lra|apply (shift_minus f' f2), Hf1; lra]|
        apply (derivable_pt_lim_mult (fun s => s / 3)); [apply D3|apply derivable_pt_lim_plus; [apply (shift_plus f2 f3), Hf2; lra|apply (shift_minus f2 f3), Hf2; lra]]]].
      cbv beta. field.
    - intros u Hu. eapply dl_ext; [intros; reflexivity| |apply dl_pow]. cbn [INR pred]. field.
    - unfold g2. rewrite Rplus_0_r, Rminus_0_r. field.
    - ring. }
  assert (E1 : forall s, 0 <= s <= t -> Rabs (g1 s) <= 1 / 18 * M * s ^ 4).
  { intros s Hs. apply (growth g1 g2 (fun s => 1 / 18 * M * s ^ 4) (fun s => 2 / 9 * M * s ^ 3)); [lra| | | | |intros; apply E2; lra].
    - intros u Hu. unfold g1, g2. eapply dl_ext; [intros; reflexivity| |apply derivable_pt_lim_minus; [apply derivable_pt_lim_minus; [apply (derivable_pt_lim_scal (fun s => f (c + s) + f (c - s))); apply derivable_pt_lim_plus; [apply (shift_plus f f'), Hf; lra|apply (shift_minus f f'), Hf; lra]|apply derivable_pt_lim_const]|
        apply (derivable_pt_lim_mult (fun s => s / 3)); [apply D3|apply derivable_pt_lim_minus; [apply (shift_plus f' f2), Hf1; lra|apply (shift_minus f' f2), Hf1; lra]]]].
      cbv beta. field.
    - intros u Hu. eapply dl_ext; [intros; reflexivity| |apply dl_pow]. cbn [INR pred]. field.
    - unfold g1. rewrite Rplus_0_r, Rminus_0_r. field.
    - ring. }
  change (Rabs (g t) <= / 90 * M * t ^ 5).
  apply (growth g g1 (fun s => / 90 * M * s ^ 5) (fun s => 1 / 18 * M * s ^ 4)); auto.
  - intros u Hu. unfold g, g1. eapply dl_ext; [intros; reflexivity| |apply derivable_pt_lim_minus; [apply derivable_pt_lim_minus; [apply (shift_plus F f), HF; lra|apply (shift_minus F f), HF; lra]|
        apply (derivable_pt_lim_mult (fun s => s / 3)); [apply D3|apply derivable_pt_lim_plus; [apply derivable_pt_lim_plus; [apply (shift_plus f f'), Hf; lra|apply derivable_pt_lim_const]|apply (shift_minus f f'), Hf; lra]]]].
    cbv beta. field.
  - intros u Hu. eapply dl_ext; [intros; reflexivity| |apply dl_pow]. cbn [INR pred]. field.
  - unfold g. rewrite Rplus_0_r, Rminus_0_r. field.
  - ring.
Qed.
End Panel.

Lemma between_le : forall a b x, a <= b -> between a b x <-> a <= x <= b.
Proof. intros a b x H. unfold between. rewrite Rmin_left, Rmax_right by lra. tauto. Qed.
Lemma node_in : forall a b n i, a <= b -> (i <= n)%nat -> (0 < n)%nat -> a <= node a b n i <= b.
Proof.
  intros a b n i H Hi Hn. unfold node. assert (0 < INR n) by (apply lt_0_INR; auto). assert (0 <= INR i <= INR n) by (split; [apply pos_INR|apply le_INR; auto]).
  assert (0 <= (b - a) / INR n) by (apply Rmult_le_pos; [lra|apply Rlt_le, Rinv_0_lt_compat; auto]).
  assert (INR n * ((b - a) / INR n) = b - a) by (field; lra). split; nra.
Qed.
Lemma node_0 : forall a b n, node a b n 0 = a. Proof. intros. unfold node. cbn. ring. Qed.
Lemma node_n : forall a b n, (0 < n)%nat -> node a b n n = b. Proof. intros. unfold node. assert (0 < INR n) by (apply lt_0_INR; auto). field. lra. Qed.
Lemma node_rev : forall a b n i, (0 < n)%nat -> (i <= n)%nat -> node a b n i = node b a n (n - i).
Proof. intros. unfold node. rewrite minus_INR by auto. assert (0 < INR n) by (apply lt_0_INR; auto). field. lra. Qed.
Lemma trapezoid_rev : forall f a b n, (0 < n)%nat -> trapezoid f b a n = - trapezoid f a b n.
Proof.
  intros f a b n Hn. unfold trapezoid. rewrite <- (sum_rev n (fun i => (a - b) / INR n * _)). replace (- sum n _) with (-1 * sum n (fun i => (b - a) / INR n * ((f (node a b n i) + f (node a b n (S i))) / 2))) by ring. rewrite sum_mul_R.
  apply sum_ext_R. intros i Hi. assert (0 < INR n) by (apply lt_0_INR; auto). rewrite (node_rev b a n (n - 1 - i)), (node_rev b a n (S (n - 1 - i))) by lia.
  replace (n - (n - 1 - i))%nat with (S i) by lia. replace (n - S (n - 1 - i))%nat with i by lia. field. lra.
Qed.
Lemma simpson_rev : forall f a b n, (0 < n)%nat -> simpson f b a n = - simpson f a b n.
Proof.
  intros f a b n Hn. rewrite <- !S_double by auto. rewrite !(trapezoid_rev f a b) by lia. field.
Qed.
Lemma between_swap : forall a b x, between b a x <-> between a b x.
Proof. intros. split; apply between_sym. Qed.

(** the error of the composite rule, for a <= b, then in either order *)
Lemma trapezoid_error : forall F f f' a b M n, primitive F f a b -> primitive f f' a b -> lipschitz M f' a b -> (0 < n)%nat ->
  Rabs (trapezoid f a b n - (F b - F a)) <= M * Rabs (b - a) ^ 3 / (12 * INR n ^ 2).
Proof.
  assert (L : forall F f f' a b M n, a <= b -> primitive F f a b -> primitive f f' a b -> lipschitz M f' a b -> (0 < n)%nat ->
    Rabs (trapezoid f a b n - (F b - F a)) <= M * Rabs (b - a) ^ 3 / (12 * INR n ^ 2)).
  { intros F f f' a b M n H HF Hf HL Hn. assert (HN : 0 < INR n) by (apply lt_0_INR; auto). set (h := (b - a) / INR n).
    assert (Hh : 0 <= h) by (unfold h; apply Rmult_le_pos; [lra|apply Rlt_le, Rinv_0_lt_compat; auto]).
    assert (EF : F b - F a = sum n (fun i => F (node a b n (S i)) - F (node a b n i))) by (rewrite (sum_tele n (fun i => F (node a b n i))), node_n, node_0; auto). rewrite EF. unfold trapezoid. rewrite <- sum_minus.
    replace (M * Rabs (b - a) ^ 3 / (12 * INR n ^ 2)) with (INR n * (2 / 3 * M * (h / 2) ^ 3)). 2: { rewrite Rabs_right by lra. unfold h. field. lra. }
    apply sum_bound. intros i Hi. pose proof (node_in a b n i H ltac:(lia) Hn). pose proof (node_in a b n (S i) H ltac:(lia) Hn). pose proof (node_next a b n i) as EN. fold h in EN. fold h.
    pose proof (trap_panel F f f' (node a b n i + h / 2) (h / 2) M ltac:(lra)) as P.
    replace (node a b n i + h / 2 + h / 2) with (node a b n (S i)) in P by lra. replace (node a b n i + h / 2 - h / 2) with (node a b n i) in P by lra.
    rewrite Rabs_minus_sym. replace (F (node a b n (S i)) - F (node a b n i) - h * ((f (node a b n i) + f (node a b n (S i))) / 2)) with (F (node a b n (S i)) - F (node a b n i) - h / 2 * (f (node a b n (S i)) + f (node a b n i))) by field.
    apply P; intros; [apply HF|apply Hf|apply HL]; apply between_le; lra. }
  intros F f f' a b M n HF Hf HL Hn. destruct (Rle_dec a b) as [H|H]; [apply (L F f f'); auto|].
  specialize (L F f f' b a M n ltac:(lra)). rewrite trapezoid_rev in L by auto. replace (trapezoid f a b n - (F b - F a)) with (- (- trapezoid f a b n - (F a - F b))) by ring. rewrite Rabs_Ropp, (Rabs_minus_sym b a).
  apply L; auto; intros x; intros; [apply HF|apply Hf|apply HL]; apply between_swap; auto.
Qed.
Lemma simpson_error : forall F f f1 f2 f3 a b M n, primitive F f a b -> primitive f f1 a b -> primitive f1 f2 a b -> primitive f2 f3 a b -> lipschitz M f3 a b -> (0 < n)%nat ->
  Rabs (simpson f a b n - (F b - F a)) <= M * Rabs (b - a) ^ 5 / (2880 * INR n ^ 4).
Proof.
  assert (L : forall F f f1 f2 f3 a b M n, a <= b -> primitive F f a b -> primitive f f1 a b -> primitive f1 f2 a b -> primitive f2 f3 a b -> lipschitz M f3 a b -> (0 < n)%nat ->
    Rabs (simpson f a b n - (F b - F a)) <= M * Rabs (b - a) ^ 5 / (2880 * INR n ^ 4)).
  { intros F f f1 f2 f3 a b M n H HF Hf Hf1 Hf2 HL Hn. assert (HN : 0 < INR n) by (apply lt_0_INR; auto). set (h := (b - a) / INR n).
    assert (Hh : 0 <= h) by (unfold h; apply Rmult_le_pos; [lra|apply Rlt_le, Rinv_0_lt_compat; auto]).
    assert (EF : F b - F a = sum n (fun i => F (node a b n (S i)) - F (node a b n i))) by (rewrite (sum_tele n (fun i => F (node a b n i))), node_n, node_0; auto). rewrite EF. unfold simpson. rewrite <- sum_minus.
    replace (M * Rabs (b - a) ^ 5 / (2880 * INR n ^ 4)) with (INR n * (/ 90 * M * (h / 2) ^ 5)). 2: { rewrite Rabs_right by lra. unfold h. field. lra. }
    apply sum_bound. intros i Hi. pose proof (node_in a b n i H ltac:(lia) Hn). pose proof (node_in a b n (S i) H ltac:(lia) Hn). pose proof (node_next a b n i) as EN. fold h in EN. fold h.
    pose proof (simpson_panel F f f1 (node a b n i + h / 2) (h / 2) M ltac:(lra)) as P. replace ((node a b n i + node a b n (S i)) / 2) with (node a b n i + h / 2) by lra. set (mid := f (node a b n i + h / 2)) in *.
    replace (node a b n i + h / 2 + h / 2) with (node a b n (S i)) in P by lra. replace (node a b n i + h / 2 - h / 2) with (node a b n i) in P by lra.
    rewrite Rabs_minus_sym. replace (F (node a b n (S i)) - F (node a b n i) - h * ((f (node a b n i) + 4 * mid + f (node a b n (S i))) / 6)) with (F (node a b n (S i)) - F (node a b n i) - h / 2 / 3 * (f (node a b n (S i)) + 4 * mid + f (node a b n i))) by field.
    apply (P) with (f2 := f2) (f3 := f3); intros; [apply HF|apply Hf|apply Hf1|apply Hf2|apply HL]; apply between_le; lra. }
  intros F f f1 f2 f3 a b M n HF Hf Hf1 Hf2 HL Hn. destruct (Rle_dec a b) as [H|H]; [apply (L F f f1 f2 f3); auto|].
  specialize (L F f f1 f2 f3 b a M n ltac:(lra)). rewrite simpson_rev in L by auto. replace (simpson f a b n - (F b - F a)) with (- (- simpson f a b n - (F a - F b))) by ring. rewrite Rabs_Ropp, (Rabs_minus_sym b a).
  apply L; auto; intros x; intros; [apply HF|apply Hf|apply Hf1|apply Hf2|apply HL]; apply between_swap; auto.
Qed.
