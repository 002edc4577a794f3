(** * C64: Brent's minimisation, with and without derivatives *)
From Coq Require Import List Arith Bool Lia ZArith Reals Lra Psatz.
From Verif Require Import Base Num RootFind_Model RootFind_Proofs Opt_Model Opt_Spec Opt_Proofs.
Import ListNotations.
Local Open Scope R_scope.

Lemma ZEPS_pos : 0 < ZEPS Rarith.
Proof. unfold ZEPS. onum. apply Rmult_lt_0_compat; [|lra]. apply Rdiv_lt_0_compat; [lra|]. apply (IZR_lt 0). reflexivity. Qed.
Lemma ZEPS_small : ZEPS Rarith < 1 / 1000.
Proof. unfold ZEPS. onum. assert (1 / IZR (2 ^ 52) < 1); [|lra]. apply (Rmult_lt_reg_r (IZR (2 ^ 52))); [apply (IZR_lt 0); reflexivity|]. replace (1 / IZR (2 ^ 52) * IZR (2 ^ 52)) with 1; [|field; apply not_0_IZR; discriminate]. rewrite Rmult_1_l. apply (IZR_lt 1). reflexivity. Qed.
Lemma CGOLD_val : CGOLD Rarith = 3819660 / 10000000. Proof. reflexivity. Qed.
Lemma csign : forall t b, 0 < t -> (b < 0 /\ acopysign Rarith t b = - t) \/ (0 <= b /\ acopysign Rarith t b = t).
Proof. intros t b H. unfold acopysign. onum. rewrite (Rabs_right t) by lra. destruct (Rltb_spec b 0); [left|right]; split; auto; lra. Qed.
Lemma half_max : forall a b x t, a <= b -> (Rabs (x - 1 / 2 * (a + b)) <= 2 * t - 1 / 2 * (b - a) <-> b - x <= 2 * t /\ x - a <= 2 * t).
Proof. intros a b x t H. split; intros K. - split; revert K; unfold Rabs; destruct Rcase_abs; lra. - destruct K. unfold Rabs. destruct Rcase_abs; lra. Qed.

Definition tol1_ (tol : R) (s : brs (T := R)) : R := tol * Rabs (b_x s) + ZEPS Rarith.
Lemma tol1_pos : forall tol s, 0 < tol -> 0 < tol1_ tol s.
Proof. intros tol s H. unfold tol1_. pose proof (Rabs_pos (b_x s)). pose proof ZEPS_pos. nra. Qed.
Lemma tol1_zeps : forall tol s, 0 < tol -> ZEPS Rarith <= tol1_ tol s.
Proof. intros tol s H. unfold tol1_. pose proof (Rabs_pos (b_x s)). nra. Qed.

(** the next trial point *)
Definition trial (tol1 x d : R) : R := if Rltb (Rabs d) tol1 then x + acopysign Rarith tol1 d else x + d.
Definition unconv (tol1 : R) (s : brs (T := R)) : Prop := 2 * tol1 < b_b s - b_x s \/ 2 * tol1 < b_x s - b_a s.
Lemma trial_ok : forall s tol1, 0 < tol1 -> b_a s <= b_x s <= b_b s -> unconv tol1 s ->
  let '(d, e) := brent_step Rarith s (1 / 2 * (b_a s + b_b s)) tol1 (2 * tol1) in
  let u := trial tol1 (b_x s) d in b_a s + tol1 <= u <= b_b s - tol1 /\ tol1 <= Rabs (u - b_x s).
Proof.
  intros s t Ht Hx Hu. unfold unconv in Hu.
  assert (G : let '(d, e) := brent_golden Rarith s (1 / 2 * (b_a s + b_b s)) in let u := trial t (b_x s) d in b_a s + t <= u <= b_b s - t /\ t <= Rabs (u - b_x s)).
  { unfold brent_golden. onum. rewrite CGOLD_val. destruct (Rltb_spec (b_x s) (1 / 2 * (b_a s + b_b s))) as [L|L]; cbn [negb]; unfold trial.
    - set (d := 3819660 / 10000000 * (b_b s - b_x s)). assert (0 < d) by (unfold d; lra). destruct (csign t d Ht) as [[? _]|[_ ->]]; [lra|].
      rewrite (Rabs_right d) by lra. destruct (Rltb_spec d t) as [K|K]; [replace (b_x s + t - b_x s) with t by ring|replace (b_x s + d - b_x s) with d by ring]; rewrite Rabs_right by lra; unfold d in *; lra.
    - set (d := 3819660 / 10000000 * (b_a s - b_x s)). assert (d < 0) by (unfold d; lra). destruct (csign t d Ht) as [[_ ->]|[? _]]; [|lra].
      rewrite (Rabs_left d) by lra. destruct (Rltb_spec (- d) t) as [K|K]; [replace (b_x s + - t - b_x s) with (- t) by ring|replace (b_x s + d - b_x s) with d by ring]; rewrite Rabs_left by lra; unfold d in *; lra. }
  unfold brent_step. onum. destruct (Rltb_spec t (Rabs (b_e s))) as [He|He]; [|exact G].
  set (r := (b_x s - b_w s) * (b_fx s - b_fv s)). set (q := (b_x s - b_v s) * (b_fx s - b_fw s)). set (q2 := 2 * (q - r)).
  match goal with |- context [if Rltb 0 q2 then ?a else ?b] => set (p := if Rltb 0 q2 then a else b) end. clearbody p.
  destruct (Rltb_spec (Rabs p) (Rabs (1 / 2 * Rabs q2 * b_e s))) as [C1|C1]; cbn [negb orb]; [|exact G].
  destruct (Rltb_spec (Rabs q2 * (b_a s - b_x s)) p) as [C2|C2]; cbn [negb orb]; [|exact G].
  destruct (Rltb_spec p (Rabs q2 * (b_b s - b_x s))) as [C3|C3]; cbn [negb orb]; [|exact G].
  assert (Hq : 0 < Rabs q2). { pose proof (Rabs_pos q2). pose proof (Rabs_pos p). destruct (Req_dec (Rabs q2) 0) as [Z|Z]; [|lra]. rewrite Z, Rmult_0_r, Rmult_0_l, Rabs_R0 in C1. lra. }
  set (d := p / Rabs q2). assert (Hd : b_a s - b_x s < d < b_b s - b_x s).
  { unfold d. split; apply (Rmult_lt_reg_r (Rabs q2)); auto; replace (p / Rabs q2 * Rabs q2) with p by (field; lra); lra. }
  clearbody d. unfold trial.
  destruct (Rltb_spec (b_x s + d - b_a s) (2 * t)) as [K1|K1]; cbn [orb]; [|destruct (Rltb_spec (b_b s - (b_x s + d)) (2 * t)) as [K2|K2]; cbn [orb]].
  1, 2: destruct (csign t (1 / 2 * (b_a s + b_b s) - b_x s) Ht) as [[? ->]|[? ->]]; rewrite ?Rabs_Ropp, (Rabs_right t) by lra; destruct (Rltb_spec t t); try lra;
    [replace (b_x s + - t - b_x s) with (- t) by ring; rewrite Rabs_left by lra|replace (b_x s + t - b_x s) with t by ring; rewrite Rabs_right by lra]; lra.
  destruct (Rltb_spec (Rabs d) t) as [K|K].
  - destruct (csign t d Ht) as [[? ->]|[? ->]]; [rewrite Rabs_left in K by lra|rewrite Rabs_right in K by lra]; [replace (b_x s + - t - b_x s) with (- t) by ring; rewrite Rabs_left by lra|replace (b_x s + t - b_x s) with t by ring; rewrite Rabs_right by lra]; lra.
  - replace (b_x s + d - b_x s) with d by ring. lra.
Qed.

(** one iteration *)
Lemma brent_loop_eq : forall f tol n it s, 0 < tol -> b_a s <= b_x s <= b_b s -> let t := tol1_ tol s in
  (b_b s - b_x s <= 2 * t /\ b_x s - b_a s <= 2 * t /\ brent_loop Rarith f tol (S n) it s = Ok (mkMin (b_x s) (b_fx s) (S it) true)) \/
  (unconv t s /\ exists d e u, b_a s + t <= u <= b_b s - t /\ t <= Rabs (u - b_x s) /\
     brent_loop Rarith f tol (S n) it s = brent_loop Rarith f tol n (S it) (brent_update Rarith s d e u (f u))).
Proof.
  intros f tol n it s Ht Hx t. cbn [brent_loop]. onum. fold (tol1_ tol s). fold t.
  pose proof (half_max (b_a s) (b_b s) (b_x s) t ltac:(lra)) as HM.
  destruct (Rltb_spec (2 * t - 1 / 2 * (b_b s - b_a s)) (Rabs (b_x s - 1 / 2 * (b_a s + b_b s)))) as [L|L]; cbn [negb].
  - right. assert (Hu : unconv t s). { unfold unconv. destruct (Rlt_dec (2 * t) (b_b s - b_x s)), (Rlt_dec (2 * t) (b_x s - b_a s)); auto. exfalso. assert (Rabs (b_x s - 1 / 2 * (b_a s + b_b s)) <= 2 * t - 1 / 2 * (b_b s - b_a s)) by (apply HM; lra). lra. }
    split; auto. pose proof (trial_ok s t (tol1_pos tol s Ht) Hx Hu) as T. destruct (brent_step Rarith s (1 / 2 * (b_a s + b_b s)) t (2 * t)) as [d e]. exists d, e, (trial t (b_x s) d).
    destruct T as [T1 T2]. split; auto. split; auto. unfold trial. rewrite ?Rabs_aabs. destruct (Rltb (Rabs d) t); reflexivity.
  - left. apply Rnot_lt_le in L || idtac. destruct (proj1 HM ltac:(lra)). auto.
Qed.
Lemma brent_update_cases : forall s d e u fu, let s' := brent_update Rarith s d e u fu in
  (fu <= b_fx s /\ b_x s' = u /\ b_fx s' = fu /\ ((b_x s <= u /\ b_a s' = b_x s /\ b_b s' = b_b s) \/ (u < b_x s /\ b_a s' = b_a s /\ b_b s' = b_x s))) \/
  (b_fx s < fu /\ b_x s' = b_x s /\ b_fx s' = b_fx s /\ ((u < b_x s /\ b_a s' = u /\ b_b s' = b_b s) \/ (b_x s <= u /\ b_a s' = b_a s /\ b_b s' = u))).
Proof.
  intros s d e u fu. unfold brent_update. onum. destruct (Rltb_spec (b_fx s) fu) as [L|L]; cbn [negb].
  - right. destruct (negb (Rltb (b_fw s) fu) || aeqb Rarith (b_w s) (b_x s)); [|destruct (negb (Rltb (b_fv s) fu) || aeqb Rarith (b_v s) (b_x s) || aeqb Rarith (b_v s) (b_w s))];
      destruct (Rltb_spec u (b_x s)); cbn [b_a b_b b_x b_fx]; repeat split; auto; lra.
  - left. destruct (Rltb_spec u (b_x s)); cbn [b_a b_b b_x b_fx negb]; repeat split; auto; lra.
Qed.

(** what stays true: the best point is inside the current interval, which is inside the first one; its value never rises *)
Definition binv2 (f : R -> R) (lo hi v : R) (s : brs (T := R)) : Prop :=
  lo <= b_a s /\ b_b s <= hi /\ b_a s < b_x s < b_b s /\ b_fx s = f (b_x s) /\ b_fx s <= v.
Lemma binv2_next : forall f lo hi v s d e u t, 0 < t -> binv2 f lo hi v s -> b_a s + t <= u <= b_b s - t -> t <= Rabs (u - b_x s) -> binv2 f lo hi v (brent_update Rarith s d e u (f u)).
Proof.
  intros f lo hi v s d e u t Ht (I1 & I2 & I3 & I4 & I5) Hu Hd.
  assert (Hn : u - b_x s >= t \/ u - b_x s <= - t) by (revert Hd; unfold Rabs; destruct Rcase_abs; lra).
  unfold binv2. destruct (brent_update_cases s d e u (f u)) as [(A1 & A2 & A3 & [(A4 & A5 & A6)|(A4 & A5 & A6)])|(A1 & A2 & A3 & [(A4 & A5 & A6)|(A4 & A5 & A6)])];
    rewrite A2, A3, A5, A6; repeat split; auto; lra.
Qed.
(** the minimiser of a unimodal function stays inside *)
Lemma uni_next : forall f lo hi v m s d e u t, 0 < t -> unimodal f m lo hi -> binv2 f lo hi v s -> b_a s + t <= u <= b_b s - t -> t <= Rabs (u - b_x s) -> b_a s <= m <= b_b s ->
  let s' := brent_update Rarith s d e u (f u) in b_a s' <= m <= b_b s'.
Proof.
  intros f lo hi v m s d e u t Ht (U1 & U2) (I1 & I2 & I3 & I4 & I5) Hu Hd Hm. cbv zeta.
  assert (Hn : u - b_x s >= t \/ u - b_x s <= - t) by (revert Hd; unfold Rabs; destruct Rcase_abs; lra).
  assert (W1 : within lo hi u) by (unfold within; lra). assert (W2 : within lo hi (b_x s)) by (unfold within; lra).
  destruct (brent_update_cases s d e u (f u)) as [(A1 & A2 & A3 & [(A4 & A5 & A6)|(A4 & A5 & A6)])|(A1 & A2 & A3 & [(A4 & A5 & A6)|(A4 & A5 & A6)])]; rewrite A5, A6; split; try lra.
  - destruct (Rle_dec (b_x s) m); auto. pose proof (U2 (b_x s) u W2 W1 ltac:(lra) ltac:(lra)). lra.
  - destruct (Rle_dec m (b_x s)); auto. pose proof (U1 u (b_x s) W1 W2 ltac:(lra) ltac:(lra)). lra.
  - destruct (Rle_dec u m); auto. pose proof (U2 u (b_x s) W1 W2 ltac:(lra) ltac:(lra)). lra.
  - destruct (Rle_dec m u); auto. pose proof (U1 (b_x s) u W2 W1 ltac:(lra) ltac:(lra)). lra.
Qed.
Lemma brent_loop_inv : forall (I : brs -> Prop) f tol, 0 < tol -> (forall s, I s -> b_a s <= b_x s <= b_b s) ->
  (forall s d e u, I s -> b_a s + tol1_ tol s <= u <= b_b s - tol1_ tol s -> tol1_ tol s <= Rabs (u - b_x s) -> I (brent_update Rarith s d e u (f u))) ->
  forall n it s r, I s -> brent_loop Rarith f tol n it s = Ok r ->
  exists s', I s' /\ b_b s' - b_x s' <= 2 * tol1_ tol s' /\ b_x s' - b_a s' <= 2 * tol1_ tol s' /\ mr_xmin r = b_x s' /\ mr_fmin r = b_fx s' /\ mr_conv r = true /\ (it < mr_iters r <= it + n)%nat.
Proof.
  intros I f tol Ht HI HN n. induction n as [|n IH]; intros it s r Hs E; [discriminate|].
  destruct (brent_loop_eq f tol n it s Ht (HI s Hs)) as [(C1 & C2 & E2)|(_ & d & e & u & U1 & U2 & E2)]; rewrite E2 in E.
  - injection E as <-. exists s. cbn [mr_xmin mr_fmin mr_conv mr_iters]. repeat split; auto; lia.
  - destruct (IH (S it) _ r (HN s d e u Hs U1 U2) E) as (s' & A1 & A2 & A3 & A4 & A5 & A6 & A7). exists s'. repeat split; auto; lia.
Qed.
Lemma init_inv : forall f br, inside (bk_ax br) (bk_cx br) (bk_bx br) ->
  let s := brent_init Rarith br (f (bk_bx br)) in binv2 f (Rmin (bk_ax br) (bk_cx br)) (Rmax (bk_ax br) (bk_cx br)) (f (bk_bx br)) s /\
  b_a s = Rmin (bk_ax br) (bk_cx br) /\ b_b s = Rmax (bk_ax br) (bk_cx br).
Proof.
  intros f br I. unfold brent_init, binv2. onum. cbn [b_a b_b b_x b_fx]. unfold Rmin, Rmax, inside in *.
  destruct (Rle_dec (bk_ax br) (bk_cx br)), (Rltb_spec (bk_ax br) (bk_cx br)), (Rltb_spec (bk_cx br) (bk_ax br)); repeat split; try lra.
Qed.
Lemma within_minmax : forall a c x, within a c x <-> Rmin a c <= x <= Rmax a c.
Proof. intros a c x. unfold within, Rmin, Rmax. destruct (Rle_dec a c); lra. Qed.
Lemma inside_minmax : forall a c x, inside a c x <-> Rmin a c < x < Rmax a c.
Proof. intros a c x. unfold inside, Rmin, Rmax. destruct (Rle_dec a c); lra. Qed.
Lemma unimodal_minmax : forall f m a c, unimodal f m a c -> unimodal f m (Rmin a c) (Rmax a c).
Proof.
  intros f m a c (U1 & U2). assert (W : forall x, within (Rmin a c) (Rmax a c) x -> within a c x). { intros x. unfold within, Rmin, Rmax. destruct (Rle_dec a c); lra. }
  split; intros; [apply U1|apply U2]; auto.
Qed.
Lemma brent_start : forall f br tol mi, bk_valid br = true -> 0 < tol -> (0 < mi)%Z ->
  BrentMinimize Rarith f br tol mi = brent_loop Rarith f tol (Z.to_nat mi) 0 (brent_init Rarith br (f (bk_bx br))).
Proof. intros f br tol mi V Ht Hm. unfold BrentMinimize. onum. rewrite V. destruct (Rltb_spec 0 tol); [cbn [negb]|lra]. destruct (Z.leb_spec mi 0); [lia|reflexivity]. Qed.

(** whatever the function, a result is a point strictly inside the bracket with its value, no higher than the middle point *)
Theorem C64_brent : forall f br tol mi r, bk_valid br = true -> 0 < tol -> (0 < mi)%Z -> inside (bk_ax br) (bk_cx br) (bk_bx br) -> BrentMinimize Rarith f br tol mi = Ok r ->
  mr_conv r = true /\ mr_fmin r = f (mr_xmin r) /\ inside (bk_ax br) (bk_cx br) (mr_xmin r) /\ mr_fmin r <= f (bk_bx br) /\ (1 <= mr_iters r)%nat /\ (Z.of_nat (mr_iters r) <= mi)%Z.
Proof.
  intros f br tol mi r V Ht Hm I E. rewrite brent_start in E by auto. destruct (init_inv f br I) as (H & _). set (lo := Rmin (bk_ax br) (bk_cx br)) in *. set (hi := Rmax (bk_ax br) (bk_cx br)) in *. set (v := f (bk_bx br)) in *.
  destruct (brent_loop_inv (binv2 f lo hi v) f tol Ht) with (3 := H) (4 := E) as (s' & (I1 & I2 & I3 & I4 & I5) & _ & _ & A4 & A5 & A6 & A7).
  - intros s (_ & _ & ? & _). lra.
  - intros s d e u Hs U1 U2. apply (binv2_next f lo hi v s d e u (tol1_ tol s)); auto using tol1_pos.
  - rewrite A4, A5. repeat split; auto; try lia. apply inside_minmax. fold lo hi. lra.
Qed.
Print Assumptions C64_brent.

(** on a unimodal function the result is within twice the tolerance of the minimiser *)
Theorem C64_brent_accuracy : forall f br tol mi r m, bk_valid br = true -> 0 < tol -> (0 < mi)%Z -> inside (bk_ax br) (bk_cx br) (bk_bx br) ->
  within (bk_ax br) (bk_cx br) m -> unimodal f m (bk_ax br) (bk_cx br) -> BrentMinimize Rarith f br tol mi = Ok r ->
  Rabs (mr_xmin r - m) <= 2 * (tol * Rabs (mr_xmin r) + ZEPS Rarith).
Proof.
  intros f br tol mi r m V Ht Hmi I Hm U E. rewrite brent_start in E by auto. destruct (init_inv f br I) as (H & Ha & Hb). apply unimodal_minmax in U. apply within_minmax in Hm.
  set (lo := Rmin (bk_ax br) (bk_cx br)) in *. set (hi := Rmax (bk_ax br) (bk_cx br)) in *. set (v := f (bk_bx br)) in *.
  destruct (brent_loop_inv (fun s => binv2 f lo hi v s /\ b_a s <= m <= b_b s) f tol Ht) with (4 := E) as (s' & (_ & Hm') & C1 & C2 & A4 & _).
  - intros s ((_ & _ & ? & _) & _). lra.
  - intros s d e u (Hs & Hsm) U1 U2. split; [apply (binv2_next f lo hi v s d e u (tol1_ tol s)); auto using tol1_pos|]. apply (uni_next f lo hi v m s d e u (tol1_ tol s)); auto using tol1_pos.
  - split; auto. rewrite Ha, Hb. lra.
  - rewrite A4. fold (tol1_ tol s'). unfold Rabs at 1. destruct Rcase_abs; lra.
Qed.
Print Assumptions C64_brent_accuracy.

(** it converges: every iteration removes at least a fixed length, so a large enough iteration limit is never reached, for any function *)
Theorem C64_brent_converges : forall f br tol, bk_valid br = true -> 0 < tol -> inside (bk_ax br) (bk_cx br) (bk_bx br) ->
  exists N, forall mi, (N <= mi)%Z -> exists r, BrentMinimize Rarith f br tol mi = Ok r.
Proof.
  intros f br tol V Ht I. destruct (init_inv f br I) as (H & Ha & Hb).
  set (lo := Rmin (bk_ax br) (bk_cx br)) in *. set (hi := Rmax (bk_ax br) (bk_cx br)) in *. set (v := f (bk_bx br)) in *. set (s0 := brent_init Rarith br v) in *.
  set (dl := Rmin (ZEPS Rarith) (Rmin (b_x s0 - b_a s0) (b_b s0 - b_x s0))).
  assert (D : 0 < dl /\ dl <= ZEPS Rarith /\ dl <= b_x s0 - b_a s0 /\ dl <= b_b s0 - b_x s0).
  { destruct H as (_ & _ & H & _). pose proof ZEPS_pos. unfold dl, Rmin. repeat destruct Rle_dec; lra. }
  destruct D as (D0 & D1 & D2 & D3).
  assert (L : forall n it s, dl <= b_x s - b_a s -> dl <= b_b s - b_x s -> b_b s - b_a s <= INR n * dl -> exists r, brent_loop Rarith f tol n it s = Ok r).
  { induction n as [|n IH]; intros it s K1 K2 K3; [cbn in K3; lra|].
    destruct (brent_loop_eq f tol n it s Ht ltac:(lra)) as [(C1 & C2 & E2)|(_ & d & e & u & U1 & U2 & E2)]; rewrite E2; [eauto|].
    pose proof (tol1_zeps tol s Ht) as Z. set (t := tol1_ tol s) in *. rewrite S_INR in K3.
    assert (Hn : u - b_x s >= t \/ u - b_x s <= - t) by (revert U2; unfold Rabs; destruct Rcase_abs; lra).
    destruct (brent_update_cases s d e u (f u)) as [(A1 & A2 & A3 & [(A4 & A5 & A6)|(A4 & A5 & A6)])|(A1 & A2 & A3 & [(A4 & A5 & A6)|(A4 & A5 & A6)])];
      apply IH; rewrite ?A2, ?A5, ?A6; lra. }
  set (w := b_b s0 - b_a s0) in *. destruct (archimed (w / dl)) as (HN & _). exists (Z.max 1 (up (w / dl))). intros mi Hmi. rewrite brent_start by (auto; lia).
  apply L; auto. fold w. rewrite INR_IZR_INZ, Z2Nat.id by lia. assert (IZR (up (w / dl)) <= IZR mi) by (apply IZR_le; lia).
  assert (W : w = w / dl * dl) by (field; lra). change (w <= IZR mi * dl). rewrite W. apply Rmult_le_compat_r; lra.
Qed.
Print Assumptions C64_brent_converges.

(** what is refused *)
Theorem C64_brent_errors : forall f df br tol mi a b,
  (tol <= 0 \/ bk_valid br = false \/ (mi <= 0)%Z -> BrentMinimize Rarith f br tol mi = Throw InvalidArgument /\ BrentMinimizeWithDeriv Rarith f df br tol mi = Throw InvalidArgument) /\
  (tol <= 0 \/ (mi <= 0)%Z -> BrentMinimizeAB Rarith f a b tol mi = Throw InvalidArgument) /\
  (0 < tol -> (0 < mi)%Z -> bk_valid (BracketMinimum Rarith f a b) = false -> BrentMinimizeAB Rarith f a b tol mi = Throw NumericalError).
Proof.
  intros f df br tol mi a b. unfold BrentMinimize, BrentMinimizeAB, BrentMinimizeWithDeriv. onum. destruct (Rltb_spec 0 tol); cbn [negb]; destruct (Z.leb_spec mi 0); repeat split; auto; try lra; try lia;
   try (destruct H0 as [H0|[H0|H0]]; [lra|rewrite H0|lia]; auto).
  - destruct (negb (bk_valid br)); auto.
  - intros [?|?]; [lra|lia].
  - intros _ _ ->. auto.
Qed.
Print Assumptions C64_brent_errors.

(** the version that brackets first: never worse than either starting point *)
Theorem C64_brent_ab : forall f a b tol mi r, a <> b -> BrentMinimizeAB Rarith f a b tol mi = Ok r ->
  mr_conv r = true /\ mr_fmin r = f (mr_xmin r) /\ mr_fmin r <= f a /\ mr_fmin r <= f b /\ (Z.of_nat (mr_iters r) <= mi)%Z.
Proof.
  intros f a b tol mi r N E. unfold BrentMinimizeAB in E. onum. destruct (Rltb_spec 0 tol) as [Ht|]; cbn [negb] in E; [|discriminate]. destruct (Z.leb_spec mi 0) as [|Hm]; [discriminate|].
  destruct (C62_bracket f a b N) as (B1 & B2 & B3 & _). set (br := BracketMinimum Rarith f a b) in *. destruct (bk_valid br) eqn:V; cbn [negb] in E; [|discriminate].
  destruct (B1 eq_refl) as (I & _ & Eb & _). destruct (C64_brent f br tol mi r V Ht Hm I E) as (G1 & G2 & _ & G4 & _ & G6). repeat split; auto; lra.
Qed.
Print Assumptions C64_brent_ab.
Theorem C64_brent_maximize : forall f a b tol mi r, a <> b -> BrentMaximize Rarith f a b tol mi = Ok r ->
  mr_conv r = true /\ mr_fmin r = f (mr_xmin r) /\ f a <= mr_fmin r /\ f b <= mr_fmin r.
Proof.
  intros f a b tol mi r N E. unfold BrentMaximize in E. destruct (BrentMinimizeAB Rarith (fun x => nopp (aops Rarith) (f x)) a b tol mi) as [r0| | |] eqn:E0; cbn [bind] in E; try discriminate.
  injection E as <-. apply C64_brent_ab in E0; auto. cbn [mr_conv mr_fmin mr_xmin]. onum. destruct E0 as (A1 & A2 & A3 & A4 & _). repeat split; auto; lra.
Qed.
Print Assumptions C64_brent_maximize.

(** ** With derivatives *)
Definition dinv (f df : R -> R) (v : R) (s : dbrs (T := R)) : Prop :=
  let t := d_s s in b_fx t = f (b_x t) /\ b_fx t <= v /\ d_dx s = df (b_x t) /\ d_dw s = df (b_w t) /\ d_dv s = df (b_v t).
Lemma dbrent_update_cases : forall s d e u fu du, let s' := d_s (dbrent_update Rarith s d e u fu du) in let t := d_s s in
  (fu <= b_fx t /\ b_x s' = u /\ b_fx s' = fu /\ ((b_x t <= u /\ b_a s' = b_x t /\ b_b s' = b_b t) \/ (u < b_x t /\ b_a s' = b_a t /\ b_b s' = b_x t))) \/
  (b_fx t < fu /\ b_x s' = b_x t /\ b_fx s' = b_fx t /\ ((u < b_x t /\ b_a s' = u /\ b_b s' = b_b t) \/ (b_x t <= u /\ b_a s' = b_a t /\ b_b s' = u))).
Proof.
  intros s d e u fu du. unfold dbrent_update. onum. set (t := d_s s). destruct (Rltb_spec (b_fx t) fu) as [L|L]; cbn [negb].
  - right. destruct (negb (Rltb (b_fw t) fu) || aeqb Rarith (b_w t) (b_x t)); [|destruct (Rltb fu (b_fv t) || aeqb Rarith (b_v t) (b_x t) || aeqb Rarith (b_v t) (b_w t))];
      destruct (Rltb_spec u (b_x t)); cbn [d_s b_a b_b b_x b_fx]; repeat split; auto; lra.
  - left. destruct (Rltb_spec u (b_x t)); cbn [d_s b_a b_b b_x b_fx negb]; repeat split; auto; lra.
Qed.
Lemma dinv_next : forall f df v s d e u, dinv f df v s -> dinv f df v (dbrent_update Rarith s d e u (f u) (df u)).
Proof.
  intros f df v s d e u (I1 & I2 & I3 & I4 & I5). unfold dinv, dbrent_update. onum. set (t := d_s s) in *. destruct (Rltb_spec (b_fx t) (f u)) as [L|L]; cbn [negb].
  - destruct (negb (Rltb (b_fw t) (f u)) || aeqb Rarith (b_w t) (b_x t)); [|destruct (Rltb (f u) (b_fv t) || aeqb Rarith (b_v t) (b_x t) || aeqb Rarith (b_v t) (b_w t))];
      cbn [d_s d_dx d_dw d_dv b_x b_w b_v b_fx]; repeat split; auto.
  - cbn [d_s d_dx d_dw d_dv b_x b_w b_v b_fx]; repeat split; auto. lra.
Qed.
(** a short step points against the derivative *)
Lemma dstep_dir : forall f df v m s tol1, 0 < tol1 -> dinv f df v s -> b_a (d_s s) <= m <= b_b (d_s s) -> (df (b_x (d_s s)) < 0 <-> b_x (d_s s) < m) -> (0 < df (b_x (d_s s)) <-> m < b_x (d_s s)) ->
  let '(d, e) := dbrent_step Rarith s (1 / 2 * (b_a (d_s s) + b_b (d_s s))) tol1 (2 * tol1) in
  Rabs d < tol1 -> (b_x (d_s s) < m -> 0 < d) /\ (m < b_x (d_s s) -> d < 0).
Proof.
  intros f df v m s t Ht (I1 & I2 & I3 & I4 & I5) Hm D1 D2. set (x := b_x (d_s s)) in *.
  assert (G : let '(d, e) := dbrent_bisect Rarith s in Rabs d < t -> (x < m -> 0 < d) /\ (m < x -> d < 0)).
  { unfold dbrent_bisect. onum. fold x. rewrite I3. intros _. destruct (Rltb_spec (df x) 0) as [L|L]; cbn [negb]; split; intros; lra. }
  unfold dbrent_step. onum. fold x. destruct (Rltb_spec t (Rabs (b_e (d_s s)))) as [He|He]; [|exact G].
  set (d0 := 2 * (b_b (d_s s) - b_a (d_s s))).
  assert (F : forall w dw, dw = df w -> let d1 := if aeqb Rarith dw (d_dx s) then d0 else (w - x) * d_dx s / (d_dx s - dw) in d_dx s * d1 <= 0 -> (x < m -> 0 < d1 \/ (d1 = d0 /\ d0 = 0)) /\ (m < x -> d1 < 0 \/ (d1 = d0 /\ d0 = 0))).
  { intros w dw Hw d1 Hd. assert (Hd0 : 0 <= d0) by (unfold d0; lra). unfold d1 in *. destruct (Raeqb dw (d_dx s)) as [E|E].
    - rewrite I3 in Hd. split; intros Hx; [apply D1 in Hx|apply D2 in Hx]; nra.
    - assert (Wx : w - x <> 0). { intros Z. apply E. rewrite Hw, I3. f_equal. lra. }
      rewrite I3 in *. assert (Nz : df x <> 0 -> (w - x) * df x / (df x - dw) <> 0).
      { intros Z. unfold Rdiv. apply Rmult_integral_contrapositive_currified; [apply Rmult_integral_contrapositive_currified; auto|]. apply Rinv_neq_0_compat. lra. }
      set (d := (w - x) * df x / (df x - dw)) in *. split; intros Hx; [apply D1 in Hx|apply D2 in Hx]; left; assert (Z := Nz ltac:(lra)); nra. }
  set (d1 := if aeqb Rarith (d_dw s) (d_dx s) then d0 else (b_w (d_s s) - x) * d_dx s / (d_dx s - d_dw s)).
  set (d2 := if aeqb Rarith (d_dv s) (d_dx s) then d0 else (b_v (d_s s) - x) * d_dx s / (d_dx s - d_dv s)).
  pose proof (F (b_w (d_s s)) (d_dw s) I4) as F1. pose proof (F (b_v (d_s s)) (d_dv s) I5) as F2. cbv zeta in F1, F2. fold d1 in F1. fold d2 in F2. clearbody d1 d2. clear F.
  assert (K : forall d, 0 < (b_a (d_s s) - (x + d)) * (x + d - b_b (d_s s)) -> d0 <> 0). { intros d Hd Z. unfold d0 in Z. assert (Z' : b_b (d_s s) = b_a (d_s s)) by lra. rewrite Z' in Hd. pose proof (Rle_0_sqr (b_a (d_s s) - (x + d))) as S. unfold Rsqr in S. replace ((b_a (d_s s) - (x + d)) * (x + d - b_a (d_s s))) with (- ((b_a (d_s s) - (x + d)) * (b_a (d_s s) - (x + d)))) in Hd by ring. lra. }
  destruct (Rltb_spec 0 ((b_a (d_s s) - (x + d1)) * (x + d1 - b_b (d_s s)))) as [P1|P1]; destruct (Rltb_spec 0 ((b_a (d_s s) - (x + d2)) * (x + d2 - b_b (d_s s)))) as [P2|P2];
  destruct (Rltb_spec 0 (d_dx s * d1)) as [Q1|Q1]; destruct (Rltb_spec 0 (d_dx s * d2)) as [Q2|Q2]; cbn [negb andb orb]; try exact G.
  all: repeat match goal with |- context [if Rltb (Rabs d1) (Rabs d2) then d1 else d2] => destruct (Rltb (Rabs d1) (Rabs d2)) end.
  all: match goal with |- context [Rltb ?a (Rabs ?b)] => destruct (Rltb a (Rabs b)) end; cbn [negb]; try exact G.
  all: match goal with |- context [?a || ?b] => destruct (a || b) end.
  all: try (intros C; exfalso; destruct (csign t (1 / 2 * (b_a (d_s s) + b_b (d_s s)) - x) Ht) as [[_ Ec]|[_ Ec]]; rewrite Ec in C; rewrite ?Rabs_Ropp in C; rewrite Rabs_right in C by lra; lra).
  all: intros _; try pose proof (F1 ltac:(lra)); try pose proof (F2 ltac:(lra)); try pose proof (K d1 ltac:(lra)); try pose proof (K d2 ltac:(lra)); split; intros Hx.
  all: repeat match goal with H : (_ < _ -> _) /\ (_ < _ -> _) |- _ => destruct H end; repeat match goal with H : ?P -> _, H' : ?P |- _ => specialize (H H') end; repeat match goal with H : _ \/ (_ = _ /\ _) |- _ => destruct H as [H|[_ H]] end.
  all: try lra. all: try (exfalso; tauto). all: match goal with |- context [if ?b then _ else _] => destruct b end; lra.
Qed.

(** one iteration *)
Lemma dbrent_loop_eq : forall f df tol n it s, 0 < tol -> b_a (d_s s) <= b_b (d_s s) -> let t := tol1_ tol (d_s s) in let x := b_x (d_s s) in
  (b_b (d_s s) - x <= 2 * t /\ x - b_a (d_s s) <= 2 * t /\ dbrent_loop Rarith f df tol (S n) it s = Ok (mkMin x (b_fx (d_s s)) (S it) true)) \/
  (exists d e, dbrent_step Rarith s (1 / 2 * (b_a (d_s s) + b_b (d_s s))) t (2 * t) = (d, e) /\ Rabs d < t /\ b_fx (d_s s) < f (x + acopysign Rarith t d) /\
     dbrent_loop Rarith f df tol (S n) it s = Ok (mkMin x (b_fx (d_s s)) (S it) true)) \/
  (exists d e u, t <= Rabs (u - x) /\ dbrent_loop Rarith f df tol (S n) it s = dbrent_loop Rarith f df tol n (S it) (dbrent_update Rarith s d e u (f u) (df u))).
Proof.
  intros f df tol n it s Ht Hab t x. cbn [dbrent_loop]. onum. fold (tol1_ tol (d_s s)). fold t. fold x. pose proof (half_max (b_a (d_s s)) (b_b (d_s s)) x t Hab) as HM.
  assert (Hp : 0 < t) by (apply tol1_pos; auto).
  destruct (Rltb_spec (2 * t - 1 / 2 * (b_b (d_s s) - b_a (d_s s))) (Rabs (x - 1 / 2 * (b_a (d_s s) + b_b (d_s s))))) as [L|L]; cbn [negb].
  - right. destruct (dbrent_step Rarith s (1 / 2 * (b_a (d_s s) + b_b (d_s s))) t (2 * t)) as [d e] eqn:E. rewrite ?Rabs_aabs. destruct (Rltb_spec (Rabs d) t) as [K|K]; cbn [negb].
    + destruct (Rltb_spec (b_fx (d_s s)) (f (x + acopysign Rarith t d))) as [M|M].
      * left. exists d, e. repeat (split; auto).
      * right. exists d, e, (x + acopysign Rarith t d). split; auto. destruct (csign t d Hp) as [[_ ->]|[_ ->]]; [replace (x + - t - x) with (- t) by ring; rewrite Rabs_Ropp|replace (x + t - x) with t by ring]; rewrite Rabs_right; lra.
    + right. exists d, e, (x + d). split; auto. replace (x + d - x) with d by ring. lra.
  - left. destruct (proj1 HM ltac:(lra)). auto.
Qed.
(** whatever the functions, a result carries the value of its point and is no higher than the middle point of the bracket *)
Theorem C64_deriv : forall f df br tol mi r, 0 < tol -> BrentMinimizeWithDeriv Rarith f df br tol mi = Ok r -> bk_ax br <> bk_cx br ->
  mr_conv r = true /\ mr_fmin r = f (mr_xmin r) /\ mr_fmin r <= f (bk_bx br) /\ (1 <= mr_iters r)%nat /\ (Z.of_nat (mr_iters r) <= mi)%Z.
Proof.
  intros f df br tol mi r Ht E N. unfold BrentMinimizeWithDeriv in E. onum. destruct (Rltb_spec 0 tol); [cbn [negb] in E|lra]. destruct (Z.leb_spec mi 0) as [|Hm]; [discriminate|]. destruct (bk_valid br); [cbn [negb] in E|discriminate].
  assert (L : forall n it s, dinv f df (f (bk_bx br)) s -> dbrent_loop Rarith f df tol n it s = Ok r -> mr_conv r = true /\ mr_fmin r = f (mr_xmin r) /\ mr_fmin r <= f (bk_bx br) /\ (it < mr_iters r <= it + n)%nat).
  { induction n as [|n IH]; intros it s I E'; [discriminate|]. cbn [dbrent_loop] in E'.
    match type of E' with (if ?c then _ else _) = _ => destruct c end.
    { injection E' as <-. cbn [mr_conv mr_fmin mr_xmin mr_iters]. destruct I as (I1 & I2 & _). repeat split; auto; lia. }
    match type of E' with (let '(_, _) := ?c in _) = _ => destruct c as [d e] end. cbv zeta in E'.
    match type of E' with (if ?c then _ else _) = _ => destruct c end.
    { apply IH in E'; [|now apply dinv_next]. destruct E' as (? & ? & ? & ?). repeat split; auto; lia. }
    match type of E' with (if ?c then _ else _) = _ => destruct c end.
    { injection E' as <-. cbn [mr_conv mr_fmin mr_xmin mr_iters]. destruct I as (I1 & I2 & _). repeat split; auto; lia. }
    apply IH in E'; [|now apply dinv_next]. destruct E' as (? & ? & ? & ?). repeat split; auto; lia. }
  apply L in E; [destruct E as (? & ? & ? & ?); repeat split; auto; lia|]. unfold dinv, brent_init. onum. cbn [d_s d_dx d_dw d_dv b_x b_w b_v b_fx]. repeat split; lra.
Qed.
Print Assumptions C64_deriv.

(** on a function that falls up to [m] and rises from [m] on, with a derivative of that sign, the result is within twice the tolerance of [m] *)
Theorem C64_deriv_accuracy : forall f df br tol mi r m, 0 < tol -> bk_ax br <> bk_cx br -> within (bk_ax br) (bk_cx br) m ->
  (forall lo hi, unimodal f m lo hi) -> (forall x, (df x < 0 <-> x < m) /\ (0 < df x <-> m < x)) -> BrentMinimizeWithDeriv Rarith f df br tol mi = Ok r ->
  Rabs (mr_xmin r - m) <= 2 * (tol * Rabs (mr_xmin r) + ZEPS Rarith).
Proof.
  intros f df br tol mi r m Ht N Hm U D E. unfold BrentMinimizeWithDeriv in E. onum. destruct (Rltb_spec 0 tol); [cbn [negb] in E|lra]. destruct (Z.leb_spec mi 0) as [|Hmi]; [discriminate|]. destruct (bk_valid br); [cbn [negb] in E|discriminate].
  assert (U1 : forall x y, x < y -> y <= m -> f y < f x). { intros x y H1 H2. destruct (U x y) as (V & _). apply V; auto; unfold within; lra. }
  assert (U2 : forall x y, x < y -> m <= x -> f x < f y). { intros x y H1 H2. destruct (U x y) as (_ & V). apply V; auto; unfold within; lra. }
  set (v := f (bk_bx br)) in *.
  assert (L : forall n it s, dinv f df v s -> b_a (d_s s) <= m <= b_b (d_s s) -> dbrent_loop Rarith f df tol n it s = Ok r -> Rabs (mr_xmin r - m) <= 2 * (tol * Rabs (mr_xmin r) + ZEPS Rarith)).
  { induction n as [|n IH]; intros it s I M E'; [discriminate|]. pose proof (tol1_pos tol (d_s s) Ht) as Hp.
    destruct (dbrent_loop_eq f df tol n it s Ht ltac:(lra)) as [(C1 & C2 & E2)|[(d & e & S1 & S2 & S3 & E2)|(d & e & u & C1 & E2)]]; rewrite E2 in E'.
    - injection E' as <-. cbn [mr_xmin]. fold (tol1_ tol (d_s s)). unfold Rabs at 1. destruct Rcase_abs; lra.
    - injection E' as <-. cbn [mr_xmin]. fold (tol1_ tol (d_s s)). set (t := tol1_ tol (d_s s)) in *. set (x := b_x (d_s s)) in *.
      destruct (D x) as (Dn & Dp). pose proof (dstep_dir f df v m s t Hp I M Dn Dp) as G. rewrite S1 in G. destruct (G S2) as (G1 & G2). fold x in G1, G2.
      destruct I as (I1 & _). fold x in I1. rewrite I1 in S3. destruct (Rtotal_order x m) as [C|[C|C]].
      + specialize (G1 C). destruct (csign t d Hp) as [[? _]|[_ Ec]]; [lra|]. rewrite Ec in S3. destruct (Rle_dec (x + t) m) as [K|K]; [pose proof (U1 x (x + t) ltac:(lra) K); lra|]. rewrite Rabs_left; lra.
      + rewrite C, Rminus_eq_0, Rabs_R0. lra.
      + specialize (G2 C). destruct (csign t d Hp) as [[_ Ec]|[? _]]; [|lra]. rewrite Ec in S3. destruct (Rle_dec m (x + - t)) as [K|K]; [pose proof (U2 (x + - t) x ltac:(lra) K); lra|]. rewrite Rabs_right; lra.
    - apply IH in E'; auto; [now apply dinv_next|]. destruct I as (I1 & _). set (x := b_x (d_s s)) in *. set (t := tol1_ tol (d_s s)) in *. assert (Hn : u - x >= t \/ u - x <= - t) by (revert C1; unfold Rabs; destruct Rcase_abs; lra).
      destruct (dbrent_update_cases s d e u (f u) (df u)) as [(A1 & A2 & A3 & [(A4 & A5 & A6)|(A4 & A5 & A6)])|(A1 & A2 & A3 & [(A4 & A5 & A6)|(A4 & A5 & A6)])]; fold x in A1, A2, A3, A4, A5, A6; rewrite A5, A6; rewrite I1 in A1; split; try lra.
      + destruct (Rle_dec x m); auto. pose proof (U2 x u ltac:(lra) ltac:(lra)). lra.
      + destruct (Rle_dec m x); auto. pose proof (U1 u x ltac:(lra) ltac:(lra)). lra.
      + destruct (Rle_dec u m); auto. pose proof (U2 u x ltac:(lra) ltac:(lra)). lra.
      + destruct (Rle_dec m u); auto. pose proof (U1 x u ltac:(lra) ltac:(lra)). lra. }
  apply L in E; auto.
  - unfold dinv, brent_init. onum. cbn [d_s d_dx d_dw d_dv b_x b_w b_v b_fx]. repeat split; lra.
  - unfold brent_init. onum. cbn [d_s b_a b_b]. unfold within in Hm. destruct (Rltb_spec (bk_ax br) (bk_cx br)), (Rltb_spec (bk_cx br) (bk_ax br)); lra.
Qed.
Print Assumptions C64_deriv_accuracy.

Definition cubic (x : R) : R := (x - 9) * (x - 10) * (21 / 2 - x).
Definition dcubic (x : R) : R := - 3 * x * x + 59 * x - 579 / 2.
Lemma dcubic_ok : forall x, derivable_pt_lim cubic x (dcubic x).
Proof.
  intros x. unfold dcubic. replace (-3 * x * x + 59 * x - 579 / 2) with (((1 - 0) * (x - 10) + (x - 9) * (1 - 0)) * (21 / 2 - x) + (x - 9) * (x - 10) * (0 - 1)) by field.
  apply (derivable_pt_lim_mult (fun x => (x - 9) * (x - 10)) (fun x => 21 / 2 - x)).
  - apply (derivable_pt_lim_mult (fun x => x - 9) (fun x => x - 10)); apply (derivable_pt_lim_minus id (fct_cte _)); try apply derivable_pt_lim_id; apply derivable_pt_lim_const.
  - apply (derivable_pt_lim_minus (fct_cte (21 / 2)) id); [apply derivable_pt_lim_const|apply derivable_pt_lim_id].
Qed.
(** The variant with derivatives can leave the bracket: near an end the minimum step [tol1] is taken even when it crosses the end, and the
    point outside is returned as the minimum. Here the bracket is (0, 9, 10), the function is a cubic, and the result is beyond 10. *)
Theorem C64_deriv_outside_refuted : let br := mkBracket 0 9 10 (cubic 0) (cubic 9) (cubic 10) true in brackets cubic br /\ (forall x, derivable_pt_lim cubic x (dcubic x)) /\
  exists r, BrentMinimizeWithDeriv Rarith cubic dcubic br (1 / 5) 100 = Ok r /\ mr_conv r = true /\ bk_cx br < mr_xmin r.
Proof.
  pose proof ZEPS_pos as Z0. pose proof ZEPS_small as Z1. set (z := ZEPS Rarith) in *. intros br. split; [|split; [exact dcubic_ok|]].
  { unfold br, brackets, inside, cubic. cbn [bk_ax bk_bx bk_cx bk_fa bk_fb bk_fc]. repeat split; lra. }
  exists (mkMin (9 + (1 / 5 * 9 + z)) (cubic (9 + (1 / 5 * 9 + z))) 2 true). cbn [mr_conv mr_xmin]. split; [|split; [auto|unfold br; cbn [bk_cx]; lra]].
  unfold BrentMinimizeWithDeriv. onum. destruct (Rltb_spec 0 (1 / 5)); [cbn [negb]|lra]. change ((100 <=? 0)%Z) with false. cbn [bk_valid br negb]. change (Z.to_nat 100) with 100%nat.
  unfold brent_init. onum. unfold br. cbn [bk_ax bk_bx bk_cx]. destruct (Rltb_spec 0 10); [|lra]. destruct (Rltb_spec 10 0); [lra|].
  set (s := mkDbrs _ _ _ _). assert (Hd : dcubic 9 < 0) by (unfold dcubic; lra).
  assert (S1 : forall t t2, 0 < t -> dbrent_step Rarith s (1 / 2 * (0 + 10)) t t2 = (1 / 2 * (10 - 9), 10 - 9)).
  { intros t t2 Htt. unfold dbrent_step, s. cbn [d_s b_e]. onum. rewrite Rabs_R0. destruct (Rltb_spec t 0); [lra|]. unfold dbrent_bisect. cbn [d_s d_dx b_x b_b b_a]. onum. destruct (Rltb_spec (dcubic 9) 0); [|lra]. reflexivity. }
  change 100%nat with (S (S 98)). generalize 98%nat. intros k. cbn [dbrent_loop]. onum. change (d_s s) with (mkBrs (T := R) 0 10 0 0 9 9 9 (cubic 9) (cubic 9) (cubic 9)). cbn [b_a b_b b_x b_fx].
  rewrite (Rabs_right 9) by lra. fold z. rewrite S1 by lra. rewrite !Rabs_aabs.
  replace (Rabs (9 - 1 / 2 * (0 + 10))) with 4 by (rewrite Rabs_right; lra). destruct (Rltb_spec (2 * (1 / 5 * 9 + z) - 1 / 2 * (10 - 0)) 4); [cbn [negb]|lra].
  replace (Rabs (1 / 2 * (10 - 9))) with (1 / 2) by (rewrite Rabs_right; lra). destruct (Rltb_spec (1 / 2) (1 / 5 * 9 + z)); [cbn [negb]|lra].
  destruct (csign (1 / 5 * 9 + z) (1 / 2 * (10 - 9)) ltac:(lra)) as [[? _]|[_ ->]]; [lra|]. set (u := 9 + (1 / 5 * 9 + z)) in *. assert (Hu : 54 / 5 < u < 54 / 5 + 1 / 1000) by (unfold u; lra).
  assert (Hf : cubic u < cubic 9). { unfold cubic. assert ((u - 9) * (u - 10) > 0) by nra. assert (21 / 2 - u < 0) by lra. nra. }
  destruct (Rltb_spec (cubic 9) (cubic u)); [lra|]. unfold dbrent_update. onum. change (d_s s) with (mkBrs (T := R) 0 10 0 0 9 9 9 (cubic 9) (cubic 9) (cubic 9)). cbn [b_a b_b b_x b_fx b_w b_v b_fw b_fv].
  destruct (Rltb_spec (cubic 9) (cubic u)); [lra|]. cbn [negb]. destruct (Rltb_spec u 9); [lra|]. cbn [negb d_s b_x b_a b_b b_fx].
  match goal with |- context [if ?c then _ else _] => replace c with true end; [reflexivity|].
  symmetry. rewrite ?Rabs_aabs. apply negb_true_iff. match goal with |- Rltb ?a ?b = false => destruct (Rltb_spec a b) as [K|K]; auto end. exfalso. revert K.
  rewrite (Rabs_right u) by lra. rewrite Rabs_right by lra. fold z. lra.
Qed.
Print Assumptions C64_deriv_outside_refuted.
