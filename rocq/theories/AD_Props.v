(** * C81: automatic differentiation; consequences, assumptions, examples, findings *)
From Coq Require Import List Bool Arith ZArith Lia Reals Lra QArith Qcanon.
From Verif Require Import Base Num Mat_Model Mat_Proofs Mat_Props RootFind_Model RootFind_Proofs RootFind_Props AD_Model AD_Spec AD_Proofs.
Import ListNotations.
Local Open Scope nat_scope.
Local Open Scope R_scope.

Print Assumptions C81_forward.
(** a program in one variable (variable 0; the others are 0) *)
Definition only {X} (z x : X) (i : nat) : X := match i with O => x | S _ => z end.
(** derivative(f, x) returns f(x) and f'(x) *)
Theorem C81_derivative : forall p x, smooth p (only 0 x) ->
  exists l, derivative Rarith (fun d => run p (only (dconst Rarith 0) d)) x = (value p (only 0 x), l) /\ derivable_pt_lim (fun s => value p (only 0 s)) x l.
Proof.
  intros p x HS. assert (H : tracks x (fun s => value p (only 0 s)) (run p (only (dconst Rarith 0) (mkDual x 1)))).
  { apply C81_forward; [|exact HS]. intros [|i]; cbn [only]; [split; [reflexivity|apply derivable_pt_lim_id]|apply tracks_const]. }
  destruct H as [H1 H2]. exists (dder (run p (only (dconst Rarith 0) (mkDual x 1)))). split; [|exact H2]. unfold derivative. rnum. rewrite H1. reflexivity.
Qed.
Print Assumptions C81_derivative.
Lemma value_ext : forall q (e1 e2 : nat -> R), (forall i, e1 i = e2 i) -> value q e1 = value q e2.
Proof.
  intros q. induction q; intros e1 e2 E; cbn [value]; try (rewrite ?(IHq e1 e2 E), ?(IHq1 e1 e2 E), ?(IHq2 e1 e2 E), ?(IHq3 e1 e2 E), ?(IHq4 e1 e2 E); auto; fail).
  - rewrite (IHq1 e1 e2 E). apply IHq2. intros [|i]; cbn [push]; auto.
  - rewrite (IHq1 e1 e2 E). induction k as [|k IHk]; [reflexivity|]. cbn [Nat.iter nat_rect]. unfold Nat.iter in IHk. rewrite IHk. apply IHq2. intros [|i]; cbn [push]; auto.
Qed.
Lemma smooth_ext : forall q (e1 e2 : nat -> R), (forall i, e1 i = e2 i) -> smooth q e1 -> smooth q e2.
Proof.
  pose proof value_ext as E. intros q. induction q; intros e1 e2 HE H; cbn [smooth] in *; rewrite <- ?(E q e1 e2 HE), <- ?(E q1 e1 e2 HE), <- ?(E q2 e1 e2 HE); intuition eauto.
  - eapply IHq2; [|eassumption]. intros [|i]; cbn [push]; auto.
  - destruct (holds_dec _ _ _); eauto.
  - eapply IHq2; [|apply (H1 j); assumption]. intros [|i]; cbn [push]; auto. clear - E HE. induction j as [|j IH]; [reflexivity|]. cbn [Nat.iter nat_rect]. unfold Nat.iter in IH. rewrite IH. apply E. intros [|i]; cbn [push]; auto.
Qed.
(** seeding the variables with any direction gives the derivative in that direction *)
Theorem C81_direction : forall p (x v : nat -> R), smooth p x ->
  let d := run p (fun i => mkDual (x i) (v i)) in dval d = value p x /\ derivable_pt_lim (fun s => value p (fun i => x i + s * v i)) 0 (dder d).
Proof.
  intros p x v HS d. assert (H : tracks 0 (fun s => value p (fun i => x i + s * v i)) d).
  { apply (C81_forward p (fun s i => x i + s * v i)).
    - intros i. split; cbn [dval dder]; [ring|]. apply (dlim_eq _ _ (0 + v i)); [|ring]. apply (derivable_pt_lim_plus (fun _ => x i) (fun s => s * v i) 0 0 (v i)); [apply derivable_pt_lim_const|].
      apply (dlim_eq _ _ (1 * v i + 0 * 0)); [|ring]. apply (derivable_pt_lim_mult (fun s => s) (fun _ => v i)); [apply derivable_pt_lim_id|apply derivable_pt_lim_const].
    - eapply smooth_ext; [|exact HS]. intros i. cbv beta. ring. }
  destruct H as [H1 H2]. split; [|exact H2]. rewrite H1. apply value_ext. intros i. ring.
Qed.
Print Assumptions C81_direction.
(** gradient(f, x) returns all partial derivatives *)
Lemma nth_upd_gen : forall (X : Type) (l : list X) i a j d, (i < length l)%nat -> nth j (upd l i a) d = if (j =? i)%nat then a else nth j l d.
Proof. induction l as [|y l IH]; intros i a j d H; [cbn [length] in H; lia|]. destruct i, j; cbn [upd nth]; auto. change (S j =? S i)%nat with (j =? i)%nat. apply IH. cbn [length] in H. lia. Qed.
Lemma run_ext : forall q (e1 e2 : nat -> dual), (forall i, e1 i = e2 i) -> run q e1 = run q e2.
Proof.
  intros q. induction q; intros e1 e2 E; cbn [run]; try (rewrite ?(IHq e1 e2 E), ?(IHq1 e1 e2 E), ?(IHq2 e1 e2 E), ?(IHq3 e1 e2 E), ?(IHq4 e1 e2 E); auto; fail).
  - rewrite (IHq1 e1 e2 E). apply IHq2. intros [|i]; cbn [push]; auto.
  - rewrite (IHq1 e1 e2 E). induction k as [|k IHk]; [reflexivity|]. cbn [Nat.iter nat_rect]. unfold Nat.iter in IHk. rewrite IHk. apply IHq2. intros [|i]; cbn [push]; auto.
Qed.
Theorem C81_gradient : forall p x, smooth p (fun j => nth j x 0) ->
  exists g, gradient Rarith (fun xd => Ok (run p (fun i => nth i xd (dconst Rarith 0)))) x = Ok g /\ length g = length x /\
    forall i, (i < length x)%nat -> derivable_pt_lim (fun s => value p (fun j => if (j =? i)%nat then s else nth j x 0)) (nth i x 0) (nth i g 0).
Proof.
  intros p x HS. set (n := length x). set (seed := fun i j => mkDual (nth j x 0) (if (j =? i)%nat then 1 else 0)).
  assert (HT : forall i, tracks (nth i x 0) (fun s => value p (fun j => if (j =? i)%nat then s else nth j x 0)) (run p (seed i))).
  { intros i. apply (C81_forward p (fun s j => if (j =? i)%nat then s else nth j x 0)).
    - intros j. unfold seed. split; cbn [dval dder]; destruct (Nat.eqb_spec j i) as [->|N]; auto; [apply derivable_pt_lim_id|apply derivable_pt_lim_const].
    - eapply smooth_ext; [|exact HS]. intros j. cbv beta. destruct (Nat.eqb_spec j i) as [->|N]; auto. }
  apply wp_ex. unfold gradient. fold n. apply wp_bind. eapply wp_conseq; [|apply (for_range_inv _ _ (fun k '(grad, xd) => length grad = n /\ length xd = n /\ forall i, (i < k)%nat -> nth i grad 0 = dder (run p (seed i))))].
  - intros [g xd] (L1 & L2 & H). cbn [wp]. split; [exact L1|]. intros i Hi. rewrite (H i Hi). apply HT.
  - lia.
  - split; [apply repeat_length|]. split; [apply repeat_length|]. intros; lia.
  - intros i [grad xd] _ Hi (L1 & L2 & H). apply wp_bind. eapply wp_conseq; [|apply (for_range_inv _ _ (fun k xd => length xd = n /\ forall j, (j < k)%nat -> nth j xd (dconst Rarith 0) = mkDual (nth j x 0) 0))].
    + intros xd' (L3 & H3). apply wp_bind. apply vget_wp; [lia|]. intros a Ha. apply wp_bind. apply vset_wp; [lia|]. cbn [bind]. apply wp_bind. apply vset_wp; [lia|]. cbn [wp]. rewrite !upd_length. split; [exact L1|]. split; [exact L3|].
      intros j Hj. rewrite nth_upd_gen by lia. destruct (Nat.eqb_spec j i) as [->|N]; [|apply H; lia]. f_equal. apply run_ext. intros j. rewrite nth_upd_gen by lia. unfold seed.
      assert (EA : a = mkDual (nth i x 0) 0). { rewrite <- (H3 i Hi). symmetry. apply nth_error_nth. exact Ha. } subst a. cbn [dval]. rnum. destruct (Nat.eqb_spec j i) as [->|N']; [reflexivity|].
      destruct (Nat.lt_ge_cases j n) as [J|J]; [apply H3; exact J|]. rewrite !nth_overflow by (unfold n in *; lia). reflexivity.
    + lia.
    + split; [exact L2|]. intros; lia.
    + intros j xd' _ Hj (L3 & H3). apply wp_bind. apply vget_wp; [exact Hj|]. intros a Ha. apply vset_wp; [lia|]. rewrite upd_length. split; [exact L3|]. intros j' Hj'. rewrite nth_upd_gen by lia.
      destruct (Nat.eqb_spec j' j) as [->|N]; [|apply H3; lia]. rnum. f_equal. symmetry. apply nth_error_nth. exact Ha.
Qed.
Print Assumptions C81_gradient.

(** ** The arithmetic *)
(** compound assignments give the same as the operators; dual numbers are a commutative ring in which numbers with nonzero value have an inverse *)
Theorem C81_arithmetic : let D := dual (T := R) in
  (forall a b : D, dadd_assign Rarith a b = dadd Rarith a b /\ dsub_assign Rarith a b = dsub Rarith a b /\ dmul_assign Rarith a b = dmul Rarith a b /\ (dval b <> 0 -> ddiv_assign Rarith a b = ddiv Rarith a b)) /\
  (forall a b c : D, dadd Rarith a b = dadd Rarith b a /\ dadd Rarith a (dadd Rarith b c) = dadd Rarith (dadd Rarith a b) c /\ dadd Rarith a (dconst Rarith 0) = a /\ dadd Rarith a (dneg Rarith a) = dconst Rarith 0 /\
    dsub Rarith a b = dadd Rarith a (dneg Rarith b) /\ dmul Rarith a b = dmul Rarith b a /\ dmul Rarith a (dmul Rarith b c) = dmul Rarith (dmul Rarith a b) c /\ dmul Rarith a (dconst Rarith 1) = a /\
    dmul Rarith a (dadd Rarith b c) = dadd Rarith (dmul Rarith a b) (dmul Rarith a c)) /\
  (forall a b : D, dval b <> 0 -> dmul Rarith (ddiv Rarith a b) b = a) /\
  (forall a b : D, dmul Rarith (mkDual 0 (dder a)) (mkDual 0 (dder b)) = dconst Rarith 0).
Proof.
  cbv zeta. assert (E : forall v d v' d' : R, v = v' -> d = d' -> mkDual v d = mkDual v' d') by (intros; subst; auto).
  split; [|split; [|split]].
  - intros [a a'] [b b']. unfold dadd_assign, dsub_assign, dmul_assign, ddiv_assign, dadd, dsub, dmul, ddiv. cbn [dval dder]. rnum. repeat split. intros H. apply E; field; auto.
  - intros [a a'] [b b'] [c c']. unfold dadd, dsub, dmul, dneg, dconst. cbn [dval dder]. rnum. repeat split; apply E; ring.
  - intros [a a'] [b b']. unfold dmul, ddiv. cbn [dval dder]. rnum. intros H. apply E; field; auto.
  - intros [a a'] [b b']. unfold dmul, dconst. cbn [dval dder]. rnum. apply E; ring.
Qed.
Print Assumptions C81_arithmetic.

(** ** Examples *)
(** exp(sin(x y)) + pow(x, 3) / y at (1, 2), a loop (ten Newton steps for the square root of x, at 2), and a branch *)
Definition ex_prog : prog := PF2 Fadd (PF1 Fexp (PF1 Fsin (PF2 Fmul (PVar 0) (PVar 1)))) (PF2 Fdiv (P2S Fpow (PVar 0) 3) (PVar 1)).
Definition ex_loop : prog := PRepeat 10 (PVar 0) (P2S Fdiv (PF2 Fadd (PVar 0) (PF2 Fdiv (PVar 1) (PVar 0))) 2).
Definition ex_branch : prog := PIf Clt (PVar 0) (PConst 0) (PF1 Fneg (PVar 0)) (PLet (PF1 Fsqrt (PVar 0)) (PF2 Fmul (PVar 0) (PVar 1))).
Example C81_ex_smooth : smooth ex_prog (fun j => nth j [1; 2] 0) /\ smooth ex_loop (only 0 2) /\ smooth ex_branch (only 0 4).
Proof.
  split; [|split]; cbn [smooth ex_prog ex_branch ex_loop value smooth1 smooth2 smooth2s nth].
  - repeat split; auto; try lra; left; lra.
  - split; [exact I|]. cbn [push]. change (only 0 2 0) with 2.
    assert (P : forall j, 0 < Nat.iter j (fun v => value (P2S Fdiv (PF2 Fadd (PVar 0) (PF2 Fdiv (PVar 1) (PVar 0))) 2) (push v (only 0 2))) 2).
    { induction j as [|j IH]; [cbn; lra|]. cbn [Nat.iter nat_rect]. unfold Nat.iter in IH. set (v := nat_rect _ _ _ _) in *. cbn [value ap2 push only]. apply Rmult_lt_0_compat; [|lra]. apply Rplus_lt_0_compat; [exact IH|]. apply Rmult_lt_0_compat; [lra|apply Rinv_0_lt_compat; exact IH]. }
    intros j _. specialize (P j). cbn [value ap2 push only] in *. repeat split; auto; try lra; try (apply Rgt_not_eq; exact P).
  - repeat split; auto; cbn [only]; try lra. destruct (holds_dec _ _ _) as [H|H]; cbn [holds] in H; [lra|]. cbn [only push]. repeat split; auto. lra.
Qed.
(** the derivative of the square root computed by the loop exists and is returned *)
Example C81_ex_loop : exists l, derivative Rarith (fun d => run ex_loop (only (dconst Rarith 0) d)) 2 = (value ex_loop (only 0 2), l) /\ derivable_pt_lim (fun s => value ex_loop (only 0 s)) 2 l.
Proof. apply C81_derivative. apply C81_ex_smooth. Qed.
(** over the rationals: (x x + 1) / x at 2 is 5/2 with derivative 3/4; the gradient of x y y at (3, 5) is (25, 30) *)
Example C81_ex_compute : (let '(v, d) := derivative Qarith (fun x => ddiv Qarith (dadd_s Qarith (dmul Qarith x x) (q 1 1)) x) (q 2 1) in (showq v, showq d)) = ((5, 2%positive), (3, 4%positive))%Z /\
  match gradient Qarith (fun xd => x <- vget xd 0 ;; y <- vget xd 1 ;; Ok (dmul Qarith (dmul Qarith x y) y)) [q 3 1; q 5 1] with Ok g => map showq g = [(25, 1%positive); (30, 1%positive)]%Z | _ => False end.
Proof. vm_compute. split; reflexivity. Qed.

(** ** Findings *)
(** "the derivative of |x| is sign(x)": at 0, where |x| has no derivative, abs returns derivative 1 (and for -x, -1) without any sign of trouble *)
Theorem C81_abs_refuted : derivative Rarith (fun d => run (PF1 Fabs (PVar 0)) (only (dconst Rarith 0) d)) 0 = (0, 1) /\ derivative Rarith (fun d => run (PF1 Fabs (PF1 Fneg (PVar 0))) (only (dconst Rarith 0) d)) 0 = (0, -1) /\
  ~ exists l, derivable_pt_lim (fun s => value (PF1 Fabs (PVar 0)) (only 0 s)) 0 l.
Proof.
  split; [|split].
  - unfold derivative. cbn [run run1 only]. unfold dabs. cbn [dval dder]. rnum. destruct (Rltb_spec 0 0); [lra|]. reflexivity.
  - unfold derivative. cbn [run run1 only]. unfold dabs, dneg. cbn [dval dder]. rnum. destruct (Rltb_spec (- 0) 0); [lra|]. cbn [negb dval dder]. f_equal; ring.
  - intros [l H]. cbn [value ap1 only] in H. destruct (H (1 / 2) ltac:(lra)) as [[de Hde] HD]. cbn in HD.
    pose proof (HD (de / 2) ltac:(lra)) as H1. pose proof (HD (- (de / 2)) ltac:(lra)) as H2. rewrite Rplus_0_l, Rabs_R0, Rminus_0_r in H1, H2. rewrite Rabs_Ropp in H2. rewrite (Rabs_right (de / 2)) in H1, H2 by lra.
    specialize (H1 ltac:(lra)). specialize (H2 ltac:(lra)). replace (de / 2 / (de / 2)) with 1 in H1 by (field; lra). replace (de / 2 / - (de / 2)) with (-1) in H2 by (field; lra).
    apply Rabs_def2 in H1. apply Rabs_def2 in H2. lra.
Qed.
Print Assumptions C81_abs_refuted.
(** "the derivative returned is the derivative of the function computed": a function written with a special case at one point
    (x == 1 ? 1 : x x, which is x x for every x) gets the derivative of the special case at that point: 0 instead of 2 *)
Theorem C81_branch_refuted : let p := PIf Ceq (PVar 0) (PConst 1) (PConst 1) (PF2 Fmul (PVar 0) (PVar 0)) in
  (forall x, value p (only 0 x) = x * x) /\ derivative Rarith (fun d => run p (only (dconst Rarith 0) d)) 1 = (1, 0) /\ derivable_pt_lim (fun s => value p (only 0 s)) 1 2.
Proof.
  cbv zeta. assert (E : forall x, value (PIf Ceq (PVar 0) (PConst 1) (PConst 1) (PF2 Fmul (PVar 0) (PVar 0))) (only 0 x) = x * x).
  { intros x. cbn [value only ap2]. destruct (holds_dec Ceq x 1) as [H|H]; cbn [holds] in H; [subst; ring|reflexivity]. }
  split; [exact E|]. split.
  - unfold derivative. cbn [run only]. rewrite runc_ok. cbn [dval]. destruct (holds_dec Ceq _ _) as [H|H]; [reflexivity|]. exfalso. apply H. reflexivity.
  - apply (derivable_pt_lim_ext (fun s => s * s)); [intros; symmetry; apply E|]. replace 2 with (1 * 1 + 1 * 1) by ring. apply (derivable_pt_lim_mult (fun s => s) (fun s => s)); apply derivable_pt_lim_id.
Qed.
Print Assumptions C81_branch_refuted.
(** "atan2 is differentiated where it is differentiable": on the cut (second argument negative, first 0), where the angle jumps from -pi to pi, a finite derivative is returned *)
Theorem C81_atan2_refuted : let p := P2S Fatan2 (PVar 0) (-1) in
  derivative Rarith (fun d => run p (only (dconst Rarith 0) d)) 0 = (PI, -1) /\ ~ exists l, derivable_pt_lim (fun s => value p (only 0 s)) 0 l.
Proof.
  cbv zeta. split.
  - unfold derivative. cbn [run run2s only]. unfold datan2. cbn [dval dder dconst Rfuns m_atan2]. rnum. f_equal; [|field].
    unfold std_atan2. destruct (Rlt_dec 0 (-1)); [lra|]. destruct (Rlt_dec (-1) 0); [|lra]. destruct (Rlt_dec 0 0); [lra|]. unfold Rdiv. rewrite Rmult_0_l, atan_0. ring.
  - intros [l H]. cbn [value ap2 only] in H. assert (HC : continuity_pt (fun s => std_atan2 s (-1)) 0) by (apply derivable_continuous_pt; exists l; exact H).
    destruct (HC 1 ltac:(lra)) as (al & Hal & HA). specialize (HA (- (al / 2))). unfold dist in HA. cbn in HA. unfold R_dist in HA.
    assert (Q : Rabs (std_atan2 (- (al / 2)) (-1) - std_atan2 0 (-1)) < 1). { apply HA. split; [split; [exact I|lra]|]. rewrite Rminus_0_r, Rabs_Ropp, Rabs_right; lra. }
    apply Rabs_def2 in Q. unfold std_atan2 in Q. destruct (Rlt_dec 0 (-1)); [lra|]. destruct (Rlt_dec (-1) 0); [|lra]. destruct (Rlt_dec 0 0); [lra|]. destruct (Rlt_dec (- (al / 2)) 0); [|lra].
    pose proof (atan_bound (- (al / 2) / -1)). replace (0 / -1) with 0 in Q by field. rewrite atan_0 in Q. pose proof PI_RGT_0. pose proof PI2_1. lra.
Qed.
Print Assumptions C81_atan2_refuted.
