(** * Root finding over the reals: invariants *)

From Coq Require Import List Bool Arith ZArith Lia Reals Lra Psatz Ranalysis5.
From Verif Require Import Base Num RootFind_Model.
Import ListNotations.
Local Open Scope R_scope.

Definition Rltb (a b : R) : bool := if Rlt_dec a b then true else false.
Lemma Rltb_spec : forall a b, reflect (a < b) (Rltb a b).
Proof. intros a b. unfold Rltb. destruct (Rlt_dec a b); constructor; auto. Qed.
Definition Rarith : arith R := mkArith R Rnum Rltb IZR sqrt.

(** x lies in the bracket with end points x1 and x2, in either order *)
Definition between (x1 x2 x : R) : Prop := Rmin x1 x2 <= x <= Rmax x1 x2.

Lemma Rabs_aabs : forall a, aabs Rarith a = Rabs a.
Proof. intros a. unfold aabs. cbn. destruct (Rltb_spec a 0); unfold Rabs; destruct (Rcase_abs a); lra. Qed.
Lemma Raeqb : forall a b, reflect (a = b) (aeqb Rarith a b).
Proof.
  intros a b. unfold aeqb. cbn. destruct (Rltb_spec b a), (Rltb_spec a b); cbn; constructor; lra.
Qed.
Ltac rnum := cbn [Rarith aops altb alit asqrt Rnum nadd nmul nsub nopp ndiv n0 n1 ahalf] in *; rewrite ?Rabs_aabs in *.
Lemma between_l : forall a b, between a b a.
Proof. intros. unfold between, Rmin, Rmax. destruct (Rle_dec a b); lra. Qed.
Lemma between_r : forall a b, between a b b.
Proof. intros. unfold between, Rmin, Rmax. destruct (Rle_dec a b); lra. Qed.
Lemma between_sym : forall a b x, between a b x -> between b a x.
Proof. intros a b x. unfold between. rewrite (Rmin_comm b a), (Rmax_comm b a). auto. Qed.
Lemma between_trans : forall a b c d x, between a b c -> between a b d -> between c d x -> between a b x.
Proof.
  intros a b c d x. unfold between, Rmin, Rmax. destruct (Rle_dec a b), (Rle_dec c d); lra.
Qed.
Lemma between_comb : forall a b t, 0 <= t <= 1 -> between a b (a + t * (b - a)).
Proof. intros a b t H. unfold between, Rmin, Rmax. destruct (Rle_dec a b); split; nra. Qed.

(** the intermediate value theorem on a bracket, in either order *)
Lemma ivt : forall (g : R -> R) x y, (forall z, between x y z -> continuity_pt g z) -> g x <= 0 -> 0 <= g y ->
  exists r, between x y r /\ g r = 0.
Proof.
  intros g x y Hc Hx Hy. destruct (Req_dec (g x) 0) as [E|E]; [exists x; split; auto; apply between_l|].
  destruct (Req_dec (g y) 0) as [E'|E']; [exists y; split; auto; apply between_r|].
  destruct (Rtotal_order x y) as [H|[->|H]].
  - destruct (IVT_interv g x y) as (z & Hz & E0); try lra.
    + intros a Ha. apply Hc. unfold between, Rmin, Rmax. destruct (Rle_dec x y); lra.
    + exists z. split; auto. unfold between, Rmin, Rmax. destruct (Rle_dec x y); lra.
  - exists y. split; [apply between_l|lra].
  - destruct (IVT_interv (fun z => - g z) y x) as (z & Hz & E0); try lra.
    + intros a Ha. apply continuity_pt_opp. apply Hc. unfold between, Rmin, Rmax. destruct (Rle_dec x y); lra.
    + exists z. split; [|lra]. unfold between, Rmin, Rmax. destruct (Rle_dec x y); lra.
Qed.

(** ** Bisection *)
Section Bisection.
Context (f : R -> option R) (tol : R).
Notation loop := (bisect_loop Rarith f tol).

Lemma bisect_inv : forall n j dx rtb u w,
  f rtb = Some u -> u <= 0 -> f (rtb + dx) = Some w -> 0 < w ->
  let r := loop n j dx rtb in
  between rtb (rtb + dx) (rr_root r) /\ (j <= rr_iters r <= j + n)%nat /\
  (rr_conv r = false -> rr_err r = true) /\
  (rr_conv r = true -> exists v y w', f (rr_root r) = Some v /\ v <= 0 /\ rr_fval r = Some v /\ f y = Some w' /\ 0 < w' /\
     between rtb (rtb + dx) y /\ Rabs (y - rr_root r) = rr_tol r /\ (rr_tol r < tol \/ v = 0)).
Proof.
  induction n as [|n IH]; intros j dx rtb u w Hu Ku Hw Kw; cbn [bisect_loop]; rnum.
  - cbn. split; [apply between_l|]. split; [lia|]. split; auto. discriminate.
  - set (dx' := dx * (1 / 2)) in *. set (xm := rtb + dx') in *. assert (Hm : between rtb (rtb + dx) xm). { replace xm with (rtb + (1/2) * ((rtb + dx) - rtb)) by (unfold xm, dx'; field). apply between_comb. lra. }
    destruct (f xm) as [fm|] eqn:Em; [|cbn; split; [apply between_l|split; [lia|split; auto; discriminate]]].
    set (rtb' := if negb (Rltb 0 fm) then xm else rtb).
    assert (S1 : exists u' w', f rtb' = Some u' /\ u' <= 0 /\ f (rtb' + dx') = Some w' /\ 0 < w' /\ (fm = 0 -> u' = 0) /\ between rtb (rtb + dx) rtb' /\ between rtb (rtb + dx) (rtb' + dx')).
    { unfold rtb'. destruct (Rltb_spec 0 fm); cbn [negb].
      - exists u, fm. fold xm. repeat split; auto; try (apply between_l); try lra; apply Hm.
      - exists fm, w. replace (xm + dx') with (rtb + dx) by (unfold xm, dx'; field). split; [exact Em|]. split; [lra|]. split; [exact Hw|]. split; [lra|]. split; [auto|]. split; [exact Hm|apply between_r]. }
    destruct S1 as (u' & w' & A1 & A2 & A3 & A4 & A5 & A6 & A7).
    destruct (Rltb_spec (Rabs dx') tol) as [Ht|Ht]; [|destruct (Raeqb fm 0) as [Hz|Hz]]; cbn [orb].
    + cbn. split; auto. split; [lia|]. split; [discriminate|]. intros _. exists u', (rtb' + dx'), w'. repeat (split; auto). replace (rtb' + dx' - rtb') with dx' by ring. auto.
    + cbn. split; auto. split; [lia|]. split; [discriminate|]. intros _. exists u', (rtb' + dx'), w'. repeat (split; auto). replace (rtb' + dx' - rtb') with dx' by ring. auto.
    + destruct (IH (S j) dx' rtb' u' w') as (B1 & B2 & B3 & B4); auto. cbv zeta. split; [eapply between_trans; [exact A6|exact A7|exact B1]|]. split; [lia|]. split; auto.
      intros C. destruct (B4 C) as (v & y & w2 & ? & ? & ? & ? & ? & K & ? & ?). pose proof (between_trans _ _ _ _ _ A6 A7 K). exists v, y, w2. repeat (split; auto).
Qed.

Lemma bisect_converges : forall k n j dx rtb, (1 <= k <= n)%nat -> 0 < tol -> Rabs dx < 2 ^ k * tol ->
  (forall x, between rtb (rtb + dx) x -> exists v, f x = Some v) ->
  rr_conv (loop n j dx rtb) = true /\ (rr_iters (loop n j dx rtb) <= j + k)%nat.
Proof.
  induction k as [|k IH]; intros n j dx rtb Hk Ht Hd Hf; [lia|]. destruct n as [|n]; [lia|]. cbn [bisect_loop]. rnum.
  set (dx' := dx * (1 / 2)) in *. set (xm := rtb + dx') in *.
  assert (Hm : between rtb (rtb + dx) xm). { replace xm with (rtb + (1/2) * ((rtb + dx) - rtb)) by (unfold xm, dx'; field). apply between_comb. lra. }
  destruct (Hf xm Hm) as (fm & ->).
  set (rtb' := if negb (Rltb 0 fm) then xm else rtb).
  destruct (Rltb_spec (Rabs dx') tol) as [H1|H1]; [cbn; split; auto; lia|]. destruct (Raeqb fm 0) as [H2|H2]; [cbn; split; auto; lia|]. cbn [orb].
  assert (Hd' : Rabs dx' < 2 ^ k * tol). { unfold dx'. rewrite Rabs_mult, (Rabs_pos_eq (1/2)) by lra. cbn [pow] in Hd. lra. }
  destruct k as [|k']; [cbn in Hd'; lra|].
  destruct (IH n (S j) dx' rtb') as [C1 C2]; try lia; auto.
  - intros x Hx. apply Hf. apply (between_trans rtb (rtb + dx) rtb' (rtb' + dx')); auto; unfold rtb'; destruct (Rltb 0 fm); cbn [negb]; auto using between_l.
    replace (xm + dx') with (rtb + dx) by (unfold xm, dx'; field). apply between_r.
  - split; auto. lia.
Qed.
End Bisection.

(** ** False position *)
Lemma falsi_inv : forall (f : R -> option R) tol n j x1 f1 x2 f2 rtf,
  f x1 = Some f1 -> f x2 = Some f2 -> f1 < 0 -> 0 <= f2 -> between x1 x2 rtf ->
  let r := falsi_loop Rarith f tol n j x1 f1 x2 f2 rtf in
  between x1 x2 (rr_root r) /\ (j <= rr_iters r <= j + n)%nat /\ (rr_conv r = false -> rr_err r = true) /\ rr_fval r = f (rr_root r) /\
  (rr_conv r = true -> exists v, f (rr_root r) = Some v /\
     (Rabs v < tol \/ exists y w, f y = Some w /\ between x1 x2 y /\ ((v < 0 /\ 0 <= w) \/ (0 <= v /\ w < 0)) /\ Rabs (y - rr_root r) < tol)).
Proof.
  intros f tol. induction n as [|n IH]; intros j x1 f1 x2 f2 rtf E1 E2 K1 K2 Hb; cbn [falsi_loop]; rnum.
  - cbn. repeat (split; auto); try lia; try discriminate.
  - set (x := x1 + (x2 - x1) * f1 / (f1 - f2)).
    assert (Hx : between x1 x2 x). { replace x with (x1 + (f1 / (f1 - f2)) * (x2 - x1)) by (unfold x; field; lra). apply between_comb.
      replace (f1 / (f1 - f2)) with ((- f1) / (f2 - f1)) by (field; lra). split; [apply Rmult_le_pos; [lra|left; apply Rinv_0_lt_compat; lra]|]. apply (Rmult_le_reg_r (f2 - f1)); [lra|]. field_simplify; lra. }
    destruct (f x) as [v|] eqn:Ev; [|cbn; repeat (split; auto); try lia; discriminate].
    destruct (Rltb_spec v 0) as [Hv|Hv].
    + rewrite !Rabs_aabs. destruct (Rltb_spec (Rabs v) tol) as [T1|T1]; [|destruct (Rltb_spec (Rabs (x2 - x)) tol) as [T2|T2]]; cbn [orb].
      * cbn. split; [exact Hx|]. split; [lia|]. split; [discriminate|]. split; [auto|]. intros _. exists v. auto.
      * cbn. split; [exact Hx|]. split; [lia|]. split; [discriminate|]. split; [auto|]. intros _. exists v. split; auto. right. exists x2, f2. split; auto. split; [apply between_r|]. split; auto.
      * destruct (IH (S j) x v x2 f2 x) as (A1 & A2 & A3 & A4 & A5); auto using between_l. cbv zeta.
        assert (TR : forall z, between x x2 z -> between x1 x2 z) by (intros z; apply between_trans; auto using between_r).
        split; [apply TR; auto|]. split; [lia|]. split; auto. split; auto. intros C. destruct (A5 C) as (v' & B1 & [B2|(y & w & B2 & B3 & B4)]); exists v'; split; auto. right. exists y, w. auto.
    + rewrite !Rabs_aabs. destruct (Rltb_spec (Rabs v) tol) as [T1|T1]; [|destruct (Rltb_spec (Rabs (x - x1)) tol) as [T2|T2]]; cbn [orb].
      * cbn. split; [exact Hx|]. split; [lia|]. split; [discriminate|]. split; [auto|]. intros _. exists v. auto.
      * cbn. split; [exact Hx|]. split; [lia|]. split; [discriminate|]. split; [auto|]. intros _. exists v. split; auto. right. exists x1, f1. rewrite Rabs_minus_sym in T2. split; auto. split; [apply between_l|]. split; auto. right. lra.
      * destruct (IH (S j) x1 f1 x v x) as (A1 & A2 & A3 & A4 & A5); auto using between_r; try lra. cbv zeta.
        assert (TR : forall z, between x1 x z -> between x1 x2 z) by (intros z; apply between_trans; auto using between_l).
        split; [apply TR; auto|]. split; [lia|]. split; auto. split; auto. intros C. destruct (A5 C) as (v' & B1 & [B2|(y & w & B2 & B3 & B4)]); exists v'; split; auto. right. exists y, w. auto.
Qed.

(** ** Ridders *)
Lemma copysign_eq : forall a b, b <> 0 -> reflect (a = 0 \/ 0 < a * b) (aeqb Rarith (acopysign Rarith a b) a).
Proof.
  intros a b Hb. assert (E : acopysign Rarith a b = a <-> (a = 0 \/ 0 < a * b)).
  { unfold acopysign. cbn [Rarith altb alit nopp aops Rnum]. rewrite !Rabs_aabs. destruct (Rltb_spec b 0) as [L|L]; unfold Rabs; destruct (Rcase_abs a) as [K|K]; split; intros H.
    - right. nra.
    - lra.
    - left. lra.
    - destruct H as [H|H]; [lra|nra].
    - lra.
    - destruct H as [H|H]; [lra|nra].
    - destruct (Req_dec a 0); [auto|right; nra].
    - lra. }
  destruct (Raeqb (acopysign Rarith a b) a); constructor; tauto.
Qed.

(** the estimate Ridders' formula gives for a bracket (a, fa), (b, fb) whose mid point has value fm *)
Definition ridders_estimate (a fa b fb fm : R) : R :=
  (a + b) / 2 + ((a + b) / 2 - a) * ((if Rle_dec fb fa then 1 else -1) * fm / sqrt (fm * fm - fa * fb)).

Lemma ridders_between : forall a fa b fb fm, fa * fb < 0 -> between a b (ridders_estimate a fa b fb fm).
Proof.
  intros a fa b fb fm H. unfold ridders_estimate. set (s := sqrt (fm * fm - fa * fb)).
  assert (Hs : 0 < s) by (apply sqrt_lt_R0; nra). assert (Es : s * s = fm * fm - fa * fb) by (apply sqrt_sqrt; nra).
  set (t := (if Rle_dec fb fa then 1 else -1) * fm / s).
  assert (Ht : -1 <= t <= 1). { assert (t * s = (if Rle_dec fb fa then 1 else -1) * fm) by (unfold t; field; lra). assert (F : - s <= fm <= s) by (split; nra). split; apply (Rmult_le_reg_r s); auto; destruct (Rle_dec fb fa); lra. }
  replace ((a + b) / 2 + ((a + b) / 2 - a) * t) with (a + ((1 + t) / 2) * (b - a)) by field. apply between_comb. lra.
Qed.

Lemma ridders_inv : forall (f : R -> option R) tol n j x1 f1 x2 f2 ans,
  0 < tol -> f x1 = Some f1 -> f x2 = Some f2 -> f1 * f2 < 0 ->
  (ans = x1 \/ ans = x2 \/ forall z, between x1 x2 z -> tol < Rabs (z - ans)) ->
  let r := ridders_loop Rarith f tol n j x1 f1 x2 f2 ans in
  (rr_conv r = false -> rr_err r = true) /\ (j <= rr_iters r <= j + n)%nat /\
  (rr_conv r = true -> between x1 x2 (rr_root r) /\ exists v, f (rr_root r) = Some v /\ rr_fval r = Some v /\
     (Rabs v < tol \/
      exists a b fa fb, f a = Some fa /\ f b = Some fb /\ fa * fb < 0 /\ between x1 x2 a /\ between x1 x2 b /\
         (rr_root r = a \/ rr_root r = b) /\
         (Rabs (b - a) <= tol \/ exists fm, f ((a + b) / 2) = Some fm /\ Rabs (ridders_estimate a fa b fb fm - rr_root r) <= tol))).
Proof.
  intros f tol. induction n as [|n IH]; intros j x1 f1 x2 f2 ans Ht E1 E2 K Ha; cbn [ridders_loop]; rnum.
  - cbn. repeat (split; auto); try lia; discriminate.
  - replace (1 / 2 * (x1 + x2)) with ((x1 + x2) / 2) in * by field. set (xm := (x1 + x2) / 2) in *.
    assert (Hm : between x1 x2 xm). { replace xm with (x1 + (1/2) * (x2 - x1)) by (unfold xm; field). apply between_comb. lra. }
    destruct (f xm) as [fm|] eqn:Em; [|cbn; repeat (split; auto); try lia; discriminate].
    set (s := sqrt (fm * fm - f1 * f2)) in *. assert (Hs : 0 < s) by (apply sqrt_lt_R0; nra). destruct (Raeqb s 0) as [Z|_]; [lra|].
    assert (Hx : xm + (xm - x1) * ((if negb (Rltb f1 f2) then 1 else - (1)) * fm / s) = ridders_estimate x1 f1 x2 f2 fm).
    { unfold ridders_estimate. fold xm s. destruct (Rltb_spec f1 f2), (Rle_dec f2 f1); cbn [negb]; try lra; auto. }
    cbv zeta. rewrite Hx, ?Rabs_aabs. pose proof (ridders_between x1 f1 x2 f2 fm K) as Hb. remember (ridders_estimate x1 f1 x2 f2 fm) as xn eqn:Exn.
    destruct (Rltb_spec tol (Rabs (xn - ans))) as [T1|T1]; cbn [negb].
    2:{ cbn. split; [discriminate|]. split; [lia|]. intros _. destruct Ha as [->|[->|Ha]].
        - split; [apply between_l|]. exists f1. repeat (split; auto). right. exists x1, x2, f1, f2. repeat (split; auto); try apply between_l; try apply between_r. right. exists fm. rewrite <- Exn. split; auto. lra.
        - split; [apply between_r|]. exists f2. repeat (split; auto). right. exists x1, x2, f1, f2. repeat (split; auto); try apply between_l; try apply between_r. right. exists fm. rewrite <- Exn. split; auto. lra.
        - specialize (Ha xn Hb). lra. }
    destruct (f xn) as [fn|] eqn:En; [|cbn; repeat (split; auto); try lia; discriminate].
    rewrite ?Rabs_aabs. destruct (Rltb_spec (Rabs fn) tol) as [T2|T2].
    + cbn. split; [discriminate|]. split; [lia|]. intros _. split; auto. exists fn. auto.
    + assert (Hn : fn <> 0). { intros ->. rewrite Rabs_R0 in T2. lra. }
      assert (HU : let '(y1, g1, y2, g2) := if negb (aeqb Rarith (acopysign Rarith fm fn) fm) then (xm, fm, xn, fn)
                  else if negb (aeqb Rarith (acopysign Rarith f1 fn) f1) then (x1, f1, xn, fn) else (xn, fn, x2, f2) in
                f y1 = Some g1 /\ f y2 = Some g2 /\ g1 * g2 < 0 /\ between x1 x2 y1 /\ between x1 x2 y2 /\ (xn = y1 \/ xn = y2)).
      { destruct (copysign_eq fm fn Hn) as [C1|C1]; cbn [negb].
        - destruct (copysign_eq f1 fn Hn) as [C2|C2]; cbn [negb].
          + split; auto. split; auto. split; [destruct C2 as [->|C2]; nra|]. split; auto. split; [apply between_r|auto].
          + split; auto. split; auto. split; [|split; [apply between_l|split; auto]]. assert (f1 <> 0) by tauto. assert (f1 * fn <> 0) by (apply Rmult_integral_contrapositive; auto).
            assert (~ 0 < f1 * fn) by tauto. lra.
        - split; auto. split; auto. split; [|split; [auto|split; auto]]. assert (fm <> 0) by tauto. assert (fm * fn <> 0) by (apply Rmult_integral_contrapositive; auto).
          assert (~ 0 < fm * fn) by tauto. lra. }
      destruct (if negb (aeqb Rarith (acopysign Rarith fm fn) fm) then (xm, fm, xn, fn)
                  else if negb (aeqb Rarith (acopysign Rarith f1 fn) f1) then (x1, f1, xn, fn) else (xn, fn, x2, f2)) as [[[y1 g1] y2] g2].
      destruct HU as (U1 & U2 & U3 & U4 & U5 & U6). rewrite !Rabs_aabs. destruct (Rltb_spec tol (Rabs (y2 - y1))) as [T3|T3]; cbn [negb].
      * destruct (IH (S j) y1 g1 y2 g2 xn) as (A1 & A2 & A3); auto; [tauto|]. cbv zeta. split; auto. split; [lia|]. intros C. destruct (A3 C) as (B1 & v & B2 & B3 & B4).
        split; [exact (between_trans _ _ _ _ _ U4 U5 B1)|]. exists v. split; auto. split; auto. destruct B4 as [B4|(a & b & fa & fb & D1 & D2 & D3 & D4 & D5 & D6)]; auto.
        right. exists a, b, fa, fb. pose proof (between_trans _ _ _ _ _ U4 U5 D4). pose proof (between_trans _ _ _ _ _ U4 U5 D5). tauto.
      * cbn. split; [discriminate|]. split; [lia|]. intros _. split; auto. exists fn. split; auto. split; auto. right. exists y1, y2, g1, g2. repeat (split; auto). left. lra.
Qed.

(** ** Brent *)
Lemma brent_step_ok : forall a b c d e fa fb fc xm tol1, xm <> 0 ->
  let '(d', e') := brent_step Rarith a b c d e fa fb fc xm tol1 in exists t, 0 <= t <= 3 / 2 /\ d' = t * xm.
Proof.
  intros a b c d e fa fb fc xm tol1 Hx. unfold brent_step. rnum.
  assert (D : exists t, 0 <= t <= 3 / 2 /\ xm = t * xm) by (exists 1; lra).
  destruct (negb (Rltb (Rabs e) tol1) && Rltb (Rabs fb) (Rabs fa)); auto.
  match goal with |- context [if aeqb Rarith a c then ?u else ?v] => destruct (if aeqb Rarith a c then u else v) as [p q] end.
  cbv zeta. rewrite !Rabs_aabs. set (q' := if Rltb 0 p then - q else q). match goal with |- context [Rltb (2 * Rabs p) ?m] => destruct (Rltb_spec (2 * Rabs p) m) as [H|H] end; auto.
  assert (H' : 2 * Rabs p < 3 * xm * q' - Rabs (tol1 * q')).
  { revert H. match goal with |- context [if Rltb ?u ?v then _ else _] => destruct (Rltb_spec u v) end; intros; lra. }
  pose proof (Rabs_pos p). pose proof (Rabs_pos (tol1 * q')). assert (Hq : 0 < xm * q') by lra.
  assert (Q0 : q' <> 0) by (intros Z; rewrite Z in Hq; lra).
  exists (Rabs p / (xm * q')). split; [|field; auto]. split; [apply Rmult_le_pos; [lra|left; apply Rinv_0_lt_compat; lra]|].
  apply (Rmult_le_reg_r (xm * q')); auto. unfold Rdiv. rewrite Rmult_assoc, Rinv_l, Rmult_1_r by lra. lra.
Qed.

Lemma brent_inv : forall (f : R -> option R) eps tol X1 X2 n j a b c d e fa fb fc xm,
  f a = Some fa -> f b = Some fb -> f c = Some fc -> between X1 X2 a -> between X1 X2 b -> between X1 X2 c -> fc <> 0 ->
  (fb * fc > 0 -> fa * fb < 0) ->
  let r := brent_loop Rarith f eps tol n j a b c d e fa fb fc xm in
  between X1 X2 (rr_root r) /\ (j <= rr_iters r <= j + n)%nat /\ (rr_conv r = false -> rr_err r = true) /\ rr_fval r = f (rr_root r) /\
  (rr_conv r = true -> exists v y w, f (rr_root r) = Some v /\ f y = Some w /\ between X1 X2 y /\ Rabs v <= Rabs w /\
     (v = 0 \/ (v * w < 0 /\ Rabs (y - rr_root r) <= 4 * eps * Rabs (rr_root r) + tol))).
Proof.
  intros f eps tol X1 X2. induction n as [|n IH]; intros j a b c d e fa fb fc xm Ea Eb Ec Ha Hb Hc Hf Hs; cbn [brent_loop].
  { cbn. split; [exact Hb|]. split; [lia|]. split; auto. split; auto. discriminate. }
  set (st1 := if (altb Rarith (alit Rarith 0) fb && altb Rarith (alit Rarith 0) fc) || (altb Rarith fb (alit Rarith 0) && altb Rarith fc (alit Rarith 0)) then _ else _).
  assert (S1 : let '(c, fc, d, e) := st1 in f c = Some fc /\ between X1 X2 c /\ fc <> 0 /\ (fb = 0 \/ fb * fc < 0)).
  { unfold st1. rnum.
    assert (PP : forall u v, 0 < u -> 0 < v -> u * v > 0) by (intros; nra). assert (NN : forall u v, u < 0 -> v < 0 -> u * v > 0) by (intros; nra).
    assert (PN : forall u v, 0 < u -> v < 0 -> u * v < 0) by (intros; nra). assert (NP : forall u v, u < 0 -> 0 < v -> u * v < 0) by (intros; nra).
    assert (KA : fb * fc > 0 -> f a = Some fa /\ between X1 X2 a /\ fa <> 0 /\ (fb = 0 \/ fb * fa < 0)).
    { intros K. specialize (Hs K). split; auto. split; auto. split; [intros E; rewrite E in Hs; lra|right; lra]. }
    destruct (Rltb_spec 0 fb), (Rltb_spec 0 fc), (Rltb_spec fb 0), (Rltb_spec fc 0); cbn [andb orb]; try lra; auto; split; auto; split; auto; split; auto; left; lra. }
  destruct st1 as [[[c1 fc1] d1] e1]. destruct S1 as (P1 & P2 & P3 & P4).
  set (st2 := if altb Rarith (aabs Rarith fc1) (aabs Rarith fb) then _ else _).
  assert (S2 : let '(a, b, c, fa, fb, fc) := st2 in f a = Some fa /\ f b = Some fb /\ f c = Some fc /\ between X1 X2 b /\ between X1 X2 c /\ fc <> 0 /\ (fb = 0 \/ fb * fc < 0) /\ Rabs fb <= Rabs fc).
  { unfold st2. rnum. destruct (Rltb_spec (Rabs fc1) (Rabs fb)) as [L|L].
    - assert (fb <> 0). { intros ->. rewrite Rabs_R0 in L. pose proof (Rabs_pos fc1). lra. } repeat (split; auto). right. lra. lra.
    - repeat (split; auto). lra. }
  destruct st2 as [[[[[a2 b2] c2] fa2] fb2] fc2]. destruct S2 as (Q0 & Q1 & Q2 & Q3 & Q4 & Q5 & Q6 & Q7).
  rnum. set (tol1 := 2 * eps * Rabs b2 + 1 / 2 * tol). set (x := 1 / 2 * (c2 - b2)).
  destruct (Rltb_spec tol1 (Rabs x)) as [T1|T1]; cbn [negb orb].
  2:{ cbn. split; auto. split; [lia|]. split; [discriminate|]. split; auto. intros _. exists fb2, c2, fc2. repeat (split; auto). destruct Q6 as [Q6|Q6]; auto. right. split; auto.
      replace (c2 - b2) with (2 * x) by (unfold x; field). rewrite Rabs_mult, (Rabs_pos_eq 2) by lra. unfold tol1 in T1. lra. }
  destruct (Raeqb fb2 0) as [Z|Z].
  { cbn. split; auto. split; [lia|]. split; [discriminate|]. split; auto. intros _. exists fb2, c2, fc2. repeat (split; auto). }
  assert (Hne : x <> 0). { intros E. destruct Q6 as [Q6|Q6]; auto. assert (c2 = b2) by (unfold x in E; lra). subst c2. rewrite Q1 in Q2. inversion Q2; subst. nra. }
  pose proof (brent_step_ok a2 b2 c2 d1 e1 fa2 fb2 fc2 x tol1 Hne) as SO. destruct (brent_step Rarith a2 b2 c2 d1 e1 fa2 fb2 fc2 x tol1) as [d' e'].
  destruct SO as (t & Ht & Ed).
  rewrite ?Rabs_aabs. set (b3 := if Rltb tol1 (Rabs d') then b2 + d' else b2 + acopysign Rarith tol1 x).
  assert (B3 : between b2 c2 b3).
  { unfold b3. destruct (Rltb_spec tol1 (Rabs d')) as [L|L].
    - replace (b2 + d') with (b2 + (t / 2) * (c2 - b2)) by (rewrite Ed; unfold x; field). apply between_comb. lra.
    - assert (L0 : 0 <= tol1) by (pose proof (Rabs_pos d'); lra). unfold acopysign. rnum. rewrite (Rabs_pos_eq tol1) by lra.
      set (u := tol1 / Rabs x). assert (Hu : 0 <= u <= 1). { unfold u. assert (0 < Rabs x) by lra. split; [apply Rmult_le_pos; [lra|left; apply Rinv_0_lt_compat; lra]|]. apply (Rmult_le_reg_r (Rabs x)); auto. unfold Rdiv. rewrite Rmult_assoc, Rinv_l, Rmult_1_r by lra. lra. }
      assert (Eu : (if Rltb x 0 then - tol1 else tol1) = u * x). { unfold u. destruct (Rltb_spec x 0); [rewrite Rabs_left by lra|rewrite Rabs_pos_eq by lra]; field; lra. }
      rewrite Eu. replace (b2 + u * x) with (b2 + (u / 2) * (c2 - b2)) by (unfold x; field). apply between_comb. lra. }
  assert (B4 : between X1 X2 b3) by (eapply between_trans; [exact Q3|exact Q4|exact B3]).
  destruct (f b3) as [fb3|] eqn:E3; [|cbn; split; [auto|split; [lia|split; [auto|split; [auto|discriminate]]]]].
  destruct (IH (S j) b2 b3 c2 d' e' fb2 fb3 fc2 x) as (A1 & A2 & A3 & A4 & A5); auto.
  - intros K. destruct Q6 as [Q6|Q6]; [contradiction|]. nra.
  - cbv zeta. split; auto. split; [lia|]. auto.
Qed.

(** ** Newton and secant *)
Lemma newton_inv : forall (f : R -> R) der thr x1 x2 tol n j rtn dx,
  let r := newton_loop Rarith f der thr x1 x2 tol n j rtn dx in
  (rr_conv r = false -> rr_err r = true) /\ (j <= rr_iters r <= j + n)%nat /\ rr_fval r = Some (f (rr_root r)) /\
  (rr_conv r = true -> between x1 x2 (rr_root r) /\
     exists x df, der x = Some df /\ thr <= Rabs df /\ rr_root r = x - f x / df /\ Rabs (f x / df) < tol /\ rr_tol r = Rabs (f x / df)).
Proof.
  intros f der thr x1 x2 tol. induction n as [|n IH]; intros j rtn dx; cbn [newton_loop]; rnum.
  - cbn. repeat (split; auto); try lia; discriminate.
  - destruct (der rtn) as [df|] eqn:Ed; [|cbn; repeat (split; auto); try lia; discriminate].
    rewrite ?Rabs_aabs. destruct (Rltb_spec (Rabs df) thr) as [T1|T1]; [cbn; repeat (split; auto); try lia; discriminate|].
    destruct (Rltb_spec ((x1 - (rtn - f rtn / df)) * (rtn - f rtn / df - x2)) 0) as [T2|T2]; [cbn; repeat (split; auto); try lia; discriminate|].
    rewrite ?Rabs_aabs. destruct (Rltb_spec (Rabs (f rtn / df)) tol) as [T3|T3].
    + cbn. split; [discriminate|]. split; [lia|]. split; auto. intros _. split.
      * set (z := rtn - f rtn / df) in *. unfold between, Rmin, Rmax. destruct (Rle_dec x1 x2); split; nra.
      * exists rtn, df. repeat (split; auto). lra.
    + destruct (IH (S j) (rtn - f rtn / df) (f rtn / df)) as (A1 & A2 & A3 & A4). cbv zeta. split; auto. split; [lia|]. auto.
Qed.

Lemma secant_inv : forall (f : R -> option R) tol n j x1 f1 x2 f2 dx, f x2 = Some f2 ->
  let r := secant_loop Rarith f tol n j x1 f1 x2 f2 dx in
  (rr_conv r = false -> rr_err r = true) /\ (j <= rr_iters r <= j + n)%nat /\ rr_fval r = f (rr_root r) /\
  (rr_conv r = true -> rr_tol r < tol).
Proof.
  intros f tol. induction n as [|n IH]; intros j x1 f1 x2 f2 dx E2; cbn [secant_loop]; rnum.
  - cbn. repeat (split; auto); try lia; discriminate.
  - destruct (Raeqb f2 f1) as [Z|Z]; [cbn; repeat (split; auto); try lia; discriminate|].
    set (d := (x2 - x1) * f2 / (f2 - f1)). destruct (f (x2 - d)) as [v|] eqn:Ev; [|cbn; repeat (split; auto); try lia; discriminate].
    rewrite ?Rabs_aabs. destruct (Rltb_spec (Rabs d) tol) as [T|T]; [cbn; repeat (split; auto); try lia; discriminate|].
    destruct (IH (S j) x2 f2 (x2 - d) v d) as (A1 & A2 & A3 & A4); auto. cbv zeta. split; auto. split; [lia|]. auto.
Qed.
