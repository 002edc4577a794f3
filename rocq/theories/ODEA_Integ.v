(** * C80: adaptive integration with any stepper *)
From Coq Require Import List Bool Arith ZArith Reals Lia Lra.
From Verif Require Import Base Num Mat_Model Mat_Proofs Mat_Props RootFind_Model RootFind_Proofs ODE_Model ODE_Spec ODE_Solution ODE_RK ODE_Fixed ODEA_Model ODEA_Spec ODEA_Step.
Import ListNotations.
Local Open Scope R_scope.

Lemma path_incl : forall step t x L u y, path step t x L u y -> t <= u /\ forall l, In l L -> t <= l_t l /\ 0 < l_h l /\ l_t l + l_h l <= u /\ step (l_t l) (l_x l) (l_h l) (l_y l).
Proof.
  intros step t x L u y H. induction H as [t x|t x L u y h z H [I1 I2] Hh Hs]; [split; [lra|intros l []]|]. split; [lra|]. intros l Hl. apply in_app_or in Hl. destruct Hl as [Hl|[<-|[]]].
  - destruct (I2 l Hl) as (A & B & C & D). repeat split; auto. lra.
  - cbn [l_t l_h l_x l_y]. repeat split; auto; lra.
Qed.
Lemma path_len : forall step t x L u y, path step t x L u y -> u = t + fold_right (fun l s => l_h l + s) 0 L.
Proof.
  intros step t x L u y H. induction H as [t x|t x L u y h z H IH Hh Hs]; [cbn; ring|]. rewrite fold_right_app. cbn [fold_right l_h]. rewrite IH.
  assert (E : forall c, fold_right (fun l s => l_h l + s) c L = c + fold_right (fun l s => l_h l + s) 0 L). { clear. induction L as [|l L IH]; intros c; cbn [fold_right]; [ring|]. rewrite IH. ring. }
  rewrite (E (h + 0)). ring.
Qed.

Section Integrate.
Variables (n : nat) (f : sys) (St : Type) (sp : stepper (T := R) St) (ready : St -> R -> vec -> Prop) (tab : tableau) (bs : list R) (rlo lo hi : R).
Hypothesis (HF : system n f) (Hn : (0 < n)%nat) (HSP : stepper_spec n f sp ready tab bs rlo lo hi) (Hlo : 0 < lo).

(** ** One step's outputs *)
Lemma outputs_ok' : forall st p t0 dt tNew num, 0 < dt -> (forall u, sp_interp sp st u = Ok (p u)) -> (forall u, length (p u) = n) ->
  forall fuel S pts j, holds_pts S n num pts -> (length pts <= num)%nat -> tNew + Eps < t0 + INR (j + fuel) * dt ->
  exists S' a b, outputs Rarith sp fuel st S (t0 + INR j * dt) (length pts) tNew dt (Z.of_nat num) = Ok (S', t0 + INR (j + a + b) * dt, (length pts + a)%nat) /\
    holds_pts S' n num (pts ++ map (fun i => (t0 + INR i * dt, p (t0 + INR i * dt))) (seq j a)) /\ (length pts + a <= num)%nat /\
    s_t1 S' = s_t1 S /\ s_t2 S' = s_t2 S /\
    (forall i, (j <= i < j + a)%nat -> t0 + INR i * dt <= tNew) /\ (forall i, (j + a <= i < j + a + b)%nat -> tNew < t0 + INR i * dt <= tNew + Eps) /\
    (tNew + Eps < t0 + INR (j + a + b) * dt \/ (num <= length pts + a)%nat).
Proof.
  intros st p t0 dt tNew num Hdt HP HL. induction fuel as [|fuel IH]; intros S pts j HS Hp HN.
  - cbn [outputs]. rewrite Nat.add_0_r in HN. replace (negb _) with false. 2: { symmetry. apply negb_false_iff. apply altb_R. rewrite eps52_R. exact HN. } cbn [andb].
    exists S, 0%nat, 0%nat. rewrite !Nat.add_0_r. cbn [seq map]. rewrite app_nil_r. repeat split; auto; try (intros; lia).
  - cbn [outputs]. destruct (altb Rarith (nadd (aops Rarith) tNew (eps52 Rarith)) (t0 + INR j * dt)) eqn:E1; cbn [negb andb].
    { apply altb_R in E1. rewrite eps52_R in E1. rnum. exists S, 0%nat, 0%nat. rewrite !Nat.add_0_r. cbn [seq map]. rewrite app_nil_r. repeat split; auto; try (intros; lia). }
    apply altb_R' in E1. rewrite eps52_R in E1. rnum. destruct (Z.ltb_spec (Z.of_nat (length pts)) (Z.of_nat num)) as [L|L].
    2: { exists S, 0%nat, 0%nat. rewrite !Nat.add_0_r. cbn [seq map]. rewrite app_nil_r. repeat split; auto; try (intros; lia). }
    assert (EN : t0 + INR j * dt + dt = t0 + INR (j + 1) * dt) by (rewrite plus_INR; cbn [INR]; ring).
    destruct (Rltb tNew (t0 + INR j * dt)) eqn:E2; cbn [negb].
    + cbn [bind]. assert (E2' : tNew < t0 + INR j * dt) by (apply altb_R; exact E2). rewrite EN. destruct (IH S pts (j + 1)%nat HS Hp) as (S' & a & b & Q1 & Q2 & Q3 & Q4 & Q5 & Q6 & Q7 & Q8); [replace (j + 1 + fuel)%nat with (j + Datatypes.S fuel)%nat by lia; exact HN|].
      assert (a = 0)%nat as ->. { destruct a as [|a]; auto. exfalso. specialize (Q6 (j + 1)%nat ltac:(lia)). rewrite plus_INR in Q6. cbn [INR] in Q6. lra. }
      exists S', 0%nat, (b + 1)%nat. rewrite !Nat.add_0_r in *. replace (j + (b + 1))%nat with (j + 1 + b)%nat by lia. split; [exact Q1|]. split; [exact Q2|]. repeat split; auto; try (intros; lia); try (destruct (Nat.eq_dec i j) as [->|]; [lra|apply Q7; lia]).
    + rewrite HP. cbn [bind]. assert (E2' : t0 + INR j * dt <= tNew) by (apply altb_R'; exact E2).
      destruct (fill_next Rarith S n num pts (t0 + INR j * dt) (p (t0 + INR j * dt)) HS Hn (HL _)) as (S1 & F1 & F2 & F3 & F4 & _); [lia|]. rewrite F1. cbn [bind].
      destruct (Nat.ltb_spec (length pts) num) as [_|]; [|lia]. rewrite EN. replace (length pts + 1)%nat with (length (pts ++ [(t0 + INR j * dt, p (t0 + INR j * dt))])) by (rewrite app_length; reflexivity).
      destruct (IH S1 _ (j + 1)%nat F2) as (S' & a & b & Q1 & Q2 & Q3 & Q4 & Q5 & Q6 & Q7 & Q8); [rewrite app_length; cbn [length]; lia|replace (j + 1 + fuel)%nat with (j + Datatypes.S fuel)%nat by lia; exact HN|].
      rewrite app_length in *. cbn [length] in *. exists S', (a + 1)%nat, b. rewrite <- app_assoc in Q2. replace (a + 1)%nat with (Datatypes.S a) by lia. cbn [seq map]. replace (j + Datatypes.S a)%nat with (j + 1 + a)%nat by lia. replace (Datatypes.S j) with (j + 1)%nat by lia. replace (length pts + Datatypes.S a)%nat with (length pts + 1 + a)%nat by lia.
      split; [exact Q1|]. split; [exact Q2|]. split; [exact Q3|]. split; [congruence|]. split; [congruence|]. split; [intros i Hi; destruct (Nat.eq_dec i j) as [->|]; [exact E2'|apply Q6; lia]|]. split; [intros i Hi; apply Q7; lia|exact Q8].
Qed.

(** ** The main loop *)
Lemma sorted_app : forall js j a, (forall u v, (u < v < length js)%nat -> (nth u js 0 < nth v js 0)%nat) -> (forall i, In i js -> (i < j)%nat) ->
  forall u v, (u < v < length (js ++ seq j a))%nat -> (nth u (js ++ seq j a) 0 < nth v (js ++ seq j a) 0)%nat.
Proof.
  intros js j a H1 H2 u v Huv. rewrite app_length, seq_length in Huv. destruct (Nat.lt_ge_cases v (length js)) as [V|V].
  - rewrite !app_nth1 by lia. apply H1. lia.
  - rewrite (app_nth2 _ _ _ V), seq_nth by lia. destruct (Nat.lt_ge_cases u (length js)) as [U|U].
    + rewrite app_nth1 by auto. pose proof (H2 _ (nth_In js 0%nat U)). lia.
    + rewrite (app_nth2 _ _ _ U), seq_nth by lia. lia.
Qed.
Lemma output_at_incl : forall L L' t0 dt j p, incl L L' -> output_at n f L t0 dt j p -> output_at n f L' t0 dt j p.
Proof. intros L L' t0 dt j p H [H1 (l & Hl & H2)]. split; auto. exists l. split; auto. Qed.
Lemma near_miss_incl : forall L L' s, incl L L' -> near_miss L s -> near_miss L' s.
Proof. intros L L' s H (l & Hl & H1). exists l. split; auto. Qed.
(** why an integration stops early, at time t, state x: the stepper gave up, or the last step proposed a size below [hmin] *)
Definition stuck (t0 : R) (x0 : vec) (tEnd eps hmin : R) : Prop :=
  exists L t x, path (passes tab bs f n eps) t0 x0 L t x /\ t <= tEnd /\
    ((exists h, 0 < h <= tEnd - t /\ underflow n f tab bs rlo eps t x h) \/ (exists L' l, L = L' ++ [l] /\ lo * l_h l < hmin)).
Lemma advance_ok : forall t0 x0 tEnd dt eps hmin num fs fo dl, 0 < dt -> 0 < eps -> 0 < dl -> dl <= Eps -> dl <= hmin ->
  (0 < fs)%nat -> (9 / 10) ^ fs * (tEnd - t0) < Eps -> tEnd + Eps < t0 + INR fo * dt -> tEnd < t0 + INR num * dt ->
  forall fuel st Sl t x h L js outs j ev, path (passes tab bs f n eps) t0 x0 L t x -> ready st t x -> length x = n -> t <= tEnd -> dl <= h -> tEnd - t < INR fuel * dl ->
  holds_pts Sl n num ((t0, x0) :: outs) -> Forall2 (output_at n f L t0 dt) js outs -> (forall u v, (u < v < length js)%nat -> (nth u js 0 < nth v js 0)%nat) ->
  (forall i, In i js -> (1 <= i < j)%nat) -> (forall i, (1 <= i < j)%nat -> In i js \/ near_miss L (t0 + INR i * dt)) -> (S (length outs) <= j)%nat -> t < t0 + INR j * dt ->
  let r := advance Rarith sp fuel fs fo st Sl t x (f t x) h (t0 + INR j * dt) (S (length outs)) (length L) ev tEnd dt eps hmin (Z.of_nat num) in
  (r = Throw OtherError /\ stuck t0 x0 tEnd eps hmin) \/
  exists st' S' tm xm L' js' outs' ev', r = Ok (st', S', tm, xm, S (length outs'), length L', ev') /\ path (passes tab bs f n eps) t0 x0 L' tm xm /\ tEnd - Eps <= tm <= tEnd /\
    holds_pts S' n num ((t0, x0) :: outs') /\ outputs_ok n f L' t0 dt tm js' outs' /\ s_t1 S' = s_t1 Sl /\ s_t2 S' = s_t2 Sl /\ length xm = n.
Proof.
  intros t0 x0 tEnd dt eps hmin num fs fo dl Hdt HE Hdl D1 D2 Hfs HFS HFO HNUM. induction fuel as [|fuel IH]; intros st Sl t x h L js outs j ev HP HR HX Ht Hh HFU HS HO HJ HJ1 HJ2 HJ3 HTN; cbv zeta; cbn [advance]; rewrite eps52_R; rnum.
  1: { cbn [INR] in HFU. lra. }
  destruct (Rltb_spec t (tEnd - Eps)) as [HT|HT].
  2: { right. exists st, Sl, t, x, L, js, outs, ev. split; [reflexivity|]. split; [exact HP|]. split; [lra|]. split; [exact HS|]. split; [|auto]. split; [exact HO|]. split; [exact HJ|]. split; [intros i Hi; apply HJ1 in Hi; lia|].
       intros i Hi Hti. apply HJ2. split; auto. apply Nat.nle_gt. intros Hle. apply le_INR in Hle. apply (Rmult_le_compat_r dt) in Hle; lra. }
  set (h' := if Rltb tEnd (t + h) then tEnd - t else h). assert (Hh' : dl <= h' <= tEnd - t). { unfold h'. destruct (Rltb_spec tEnd (t + h)); lra. } clearbody h'. clear h Hh.
  destruct (path_incl _ _ _ _ _ _ HP) as [HP0 HPL].
  destruct (proj2 HSP st t x h' eps fs HR HX HE ltac:(lra) Hfs) as [[E U]|(st' & y & r & E & HR' & LY & Hd & [(q & Q1 & Q2) HC] & HPA & (g & G1 & G2) & p & P1 & P2)].
  { eapply Rle_lt_trans; [|exact HFS]. apply Rmult_le_compat_l; [apply pow_le; lra|]. rewrite Rabs_right by lra. lra. }
  { left. rewrite E. cbn [bind]. split; auto. exists L, t, x. split; [exact HP|]. split; [auto|]. left. exists h'. split; [lra|exact U]. }
  rewrite E. cbn [bind]. set (k := hDone r) in *. assert (HK : 0 < k <= h'). { rewrite Q2. split; [apply Rmult_lt_0_compat; lra|]. rewrite <- (Rmult_1_r h') at 2. apply Rmult_le_compat_l; lra. }
  assert (HKd : dl <= k). { destruct HC as [->|[HC _]]; [lra|]. rewrite Rabs_right in HC by lra. lra. }
  pose proof (path_snoc _ HP (proj1 HK) HPA) as HP'. set (l := {| l_t := t; l_x := x; l_h := k; l_y := y |}) in *.
  assert (IN : incl L (L ++ [l])) by (intros z Hz; apply in_or_app; auto).
  destruct (outputs_ok' st' p t0 dt (t + k) num Hdt P2 (proj1 P1) fo Sl ((t0, x0) :: outs) j HS) as (S' & a & b & O1 & O2 & O3 & O4 & O5 & O6 & O7 & O8).
  { destruct HS as (tf & xf & _ & HS & _). exact HS. }
  { rewrite plus_INR, Rmult_plus_distr_r. assert (0 <= INR j * dt) by (apply Rmult_le_pos; [apply pos_INR|lra]). lra. }
  cbn [length] in O1, O3, O8. rewrite O1. cbn [bind app] in O2 |- *.
  assert (HLe : t0 + INR j * dt <= t0 + INR (j + a + b) * dt). { apply Rplus_le_compat_l, Rmult_le_compat_r; [lra|]. apply le_INR. lia. }
  destruct (Rltb_spec (hNext r) hmin) as [HM|HM].
  { left. split; auto. exists (L ++ [l]), (t + k), y. split; [exact HP'|]. split; [lra|]. right. exists L, l. split; auto. cbn [l l_h]. eapply Rle_lt_trans; [|exact HM]. rewrite G2, Rmult_comm. apply Rmult_le_compat_l; lra. }
  set (outs' := outs ++ map (fun i => (t0 + INR i * dt, p (t0 + INR i * dt))) (seq j a)). assert (LO : length outs' = (length outs + a)%nat) by (unfold outs'; rewrite app_length, map_length, seq_length; reflexivity).
  assert (LJ : length js = length outs) by (clear - HO; induction HO; cbn [length]; congruence).
  specialize (IH st' S' (t + k) y (hNext r) (L ++ [l]) (js ++ seq j a) outs' (j + a + b)%nat (ev + funcEvals r)%nat HP' HR' LY).
  rewrite (app_length L [l]) in IH. rewrite LO in IH. destruct IH as [IH|IH].
  - lra.
  - lra.
  - rewrite S_INR in HFU. lra.
  - exact O2.
  - apply Forall2_app.
    + clear - HO IN. induction HO; constructor; auto. eapply output_at_incl; eauto.
    + assert (G : forall i, In i (seq j a) -> output_at n f (L ++ [l]) t0 dt i (t0 + INR i * dt, p (t0 + INR i * dt))).
      { intros i Hi. apply in_seq in Hi. split; [reflexivity|]. exists l. split; [apply in_or_app; right; left; reflexivity|]. cbn [l l_t l_h l_x l_y fst snd]. split.
        - specialize (O6 i ltac:(lia)). split; [|exact O6]. eapply Rlt_le_trans; [exact HTN|]. apply Rplus_le_compat_l, Rmult_le_compat_r; [lra|]. apply le_INR. lia.
        - exists p. split; [exact P1|reflexivity]. }
      clear - G. induction (seq j a); constructor; [apply G; left; reflexivity|apply IHl0; intros; apply G; right; auto].
  - apply sorted_app; auto. intros i Hi; apply HJ1 in Hi; lia.
  - intros i Hi. apply in_app_or in Hi. destruct Hi as [Hi|Hi]; [apply HJ1 in Hi; lia|apply in_seq in Hi; lia].
  - intros i Hi. destruct (Nat.lt_ge_cases i j) as [A|A].
    + destruct (HJ2 i ltac:(lia)) as [B|B]; [left; apply in_or_app; auto|right; eapply near_miss_incl; eauto].
    + destruct (Nat.lt_ge_cases i (j + a)) as [B|B]; [left; apply in_or_app; right; apply in_seq; lia|]. right. exists l. split; [apply in_or_app; right; left; reflexivity|]. cbn [l l_t l_h]. apply O7. lia.
  - lia.
  - destruct O8 as [O8|O8]; [pose proof Eps_pos; lra|]. apply Rle_lt_trans with tEnd; [lra|]. eapply Rlt_le_trans; [exact HNUM|]. apply Rplus_le_compat_l, Rmult_le_compat_r; [lra|]. apply le_INR. lia.
  - left. exact IH.
  - right. destruct IH as (st2 & S2 & tm & xm & L' & js' & outs2 & ev' & R1 & R2 & R3 & R4 & R5 & R6 & R7 & R8). exists st2, S2, tm, xm, L', js', outs2, ev'. split; [exact R1|]. repeat (split; [first [assumption|congruence|lra]|]). assumption.
Qed.

(** ** The first step *)
Theorem C80_initial_step : forall t0 x0 tEnd, length x0 = n -> t0 <> tEnd -> exists h, estimateInitialStep Rarith Rpower f n t0 x0 tEnd = Ok h /\ 0 < h <= Rabs (tEnd - t0).
Proof.
  intros t0 x0 tEnd HX Ht. pose proof (HF t0 x0 HX) as LF. unfold estimateInitialStep. assert (PT : 0 < Rabs (tEnd - t0)) by (apply Rabs_pos_lt; lra).
  assert (PS : forall a, 0 < aabs Rarith a + IZR 1 / IZR (10 ^ 10)). { intros a. rewrite Rabs_aabs. pose proof (Rabs_pos a). lra. }
  apply wp_ex. apply wp_bind. eapply wp_conseq; [|apply (for_range_inv _ _ (fun k '(d0, d1) => 0 <= d0 /\ 0 <= d1))].
  - intros [d0 d1] [P0 P1]. cbv zeta. set (h0 := amin Rarith _ _).
    assert (PH : 0 < h0).
    { unfold h0. rewrite amin_R, Rabs_aabs. apply Rmin_glb_lt; [|exact PT]. destruct (altb Rarith d0 _) eqn:E1; cbn [orb]; [rnum; lra|]. destruct (altb Rarith d1 _) eqn:E2; [rnum; lra|]. apply altb_R' in E1, E2. rnum.
      apply Rmult_lt_0_compat; [apply Rmult_lt_0_compat; lra|apply Rinv_0_lt_compat; lra]. }
    rewrite lin_Ok by (auto; apply zeros_length). cbn [bind]. set (x1 := move x0 h0 _ _). assert (L1 : length (f (nadd (aops Rarith) t0 h0) x1) = n) by (apply HF; unfold x1; rewrite move_length; auto).
    apply wp_bind. eapply wp_conseq; [|apply (for_range_inv _ _ (fun k d2 => 0 <= d2))].
    + intros d2 P2. cbn [wp]. rewrite !amin_R, !amax_R, !Rabs_aabs. split; [|apply Rmin_r]. apply Rmin_glb_lt; [|exact PT]. apply Rmin_glb_lt; [rnum; lra|]. clearbody h0. match goal with |- 0 < (if negb ?c then _ else _) => destruct c; cbn [negb] end; [apply exp_pos|]. rnum. eapply Rlt_le_trans; [|apply Rmax_l]. lra.
    + lia.
    + rnum. lra.
    + intros k d2 _ Hk P2. rewrite !vget_nth by lia. cbn [bind wp]. rewrite amax_R. eapply Rle_trans; [exact P2|apply Rmax_l].
  - lia.
  - rnum. lra.
  - intros k [d0 d1] _ Hk [P0 P1]. rewrite !vget_nth by lia. cbn [bind wp]. rewrite !amax_R. split; (eapply Rle_trans; [|apply Rmax_l]); auto.
Qed.

(** ** The integration *)
Definition is_ceil (ceil : R -> Z) : Prop := forall r, IZR (ceil r) - 1 < r <= IZR (ceil r).
Lemma pow_small : forall c, exists N, forall k, (N <= k)%nat -> (0 < k)%nat /\ (9 / 10) ^ k * c < Eps.
Proof.
  intros c. pose proof Eps_pos as PE. destruct (pow_lt_1_zero (9 / 10)) with (y := Eps / (Rabs c + 1)) as [N HN].
  - rewrite Rabs_right; lra.
  - apply Rmult_lt_0_compat; auto. apply Rinv_0_lt_compat. pose proof (Rabs_pos c). lra.
  - exists (S N). intros k Hk. split; [lia|]. specialize (HN k ltac:(lia)). pose proof (Rabs_pos c) as PC. rewrite Rabs_right in HN by (apply Rle_ge, pow_le; lra). apply Rle_lt_trans with ((9 / 10) ^ k * (Rabs c + 1)).
    + apply Rmult_le_compat_l; [apply pow_le; lra|]. pose proof (Rle_abs c). lra.
    + apply (Rmult_lt_compat_r (Rabs c + 1)) in HN; [|lra]. unfold Rdiv in HN. rewrite Rmult_assoc, Rinv_l, Rmult_1_r in HN by lra. exact HN.
Qed.
Lemma many : forall d c, 0 < d -> exists N, forall k, (N <= k)%nat -> c < INR k * d.
Proof. intros d c Hd. destruct (archimed (c / d)) as [A _]. exists (Z.to_nat (up (c / d))). intros k Hk. assert (B : c / d < INR k). { eapply Rlt_le_trans; [exact A|]. rewrite INR_IZR_INZ. apply IZR_le. lia. }
  apply (Rmult_lt_compat_r d) in B; auto. unfold Rdiv in B. rewrite Rmult_assoc, Rinv_l, Rmult_1_r in B by lra. exact B. Qed.
Theorem C80_integrate : forall ceil x0 t0 tEnd dt eps h0 hmin st, is_ceil ceil -> length x0 = n -> t0 < tEnd -> 0 < dt -> 0 < eps -> 0 < hmin ->
  let N := Z.to_nat (ceil ((tEnd - t0) / dt)) in dims_fit n (N + 1) ->
  exists F, forall fuel fs fo, (F <= fuel)%nat -> (F <= fs)%nat -> (F <= fo)%nat ->
  let r := integrate_adaptive Rarith Rpower ceil sp f n fuel fs fo st x0 t0 tEnd dt eps h0 hmin in
  (r = Throw OtherError /\ stuck t0 x0 tEnd eps hmin) \/
  exists st' S L tm xm js outs ev, r = Ok (st', S, length L, ev) /\ path (passes tab bs f n eps) t0 x0 L tm xm /\ tEnd - Eps <= tm <= tEnd /\ outputs_ok n f L t0 dt tm js outs /\
    shows Rarith S ((t0, x0) :: outs ++ if (length outs <? N)%nat then [(tEnd, xm)] else []) /\ s_t1 S = t0 /\ s_t2 S = tEnd.
Proof.
  intros ceil x0 t0 tEnd dt eps h0 hmin st HC HX Ht Hdt HE Hhm N HD. pose proof Eps_pos as PE.
  assert (HI : exists h, (if altb Rarith (alit Rarith 0) h0 then Ok h0 else estimateInitialStep Rarith Rpower f n t0 x0 tEnd) = Ok h /\ 0 < h).
  { destruct (altb Rarith (alit Rarith 0) h0) eqn:E; [apply altb_R in E; exists h0; split; [reflexivity|exact E]|]. destruct (C80_initial_step t0 x0 tEnd HX ltac:(lra)) as (h & E' & P & _). exists h. auto. }
  destruct HI as (h1 & EH & PH1). set (h := Rmin h1 (tEnd - t0)). assert (PH : 0 < h) by (apply Rmin_glb_lt; lra).
  set (dl := Rmin h (Rmin hmin Eps)). assert (PD : 0 < dl) by (apply Rmin_glb_lt; [exact PH|apply Rmin_glb_lt; auto]).
  destruct (pow_small (tEnd - t0)) as [F1 HF1]. destruct (many dt (tEnd + Eps - t0) Hdt) as [F2 HF2]. destruct (many dl (tEnd - t0) PD) as [F3 HF3].
  exists (Nat.max F1 (Nat.max F2 F3)). intros fuel fs fo L1 L2 L3. cbv zeta. destruct (HF1 fs ltac:(lia)) as [P1 P2]. specialize (HF2 fo ltac:(lia)). specialize (HF3 fuel ltac:(lia)).
  assert (HCZ : ceil ((tEnd - t0) / dt) = Z.of_nat N).
  { unfold N. rewrite Z2Nat.id; auto. apply le_IZR. destruct (HC ((tEnd - t0) / dt)) as [_ A]. assert (0 < (tEnd - t0) / dt) by (apply Rmult_lt_0_compat; [lra|apply Rinv_0_lt_compat; auto]). lra. }
  assert (HNum : tEnd < t0 + INR (N + 1) * dt).
  { destruct (HC ((tEnd - t0) / dt)) as [_ A]. rewrite HCZ, <- INR_IZR_INZ in A. apply (Rmult_le_compat_r dt) in A; [|lra]. unfold Rdiv in A. rewrite Rmult_assoc, Rinv_l, Rmult_1_r in A by lra. rewrite plus_INR. cbn [INR]. lra. }
  unfold integrate_adaptive. change (ndiv (aops Rarith) (nsub (aops Rarith) tEnd t0) dt) with ((tEnd - t0) / dt). rewrite HCZ. cbv zeta. replace (Z.of_nat N + 1 - 1)%Z with (Z.of_nat N) by lia.
  destruct (C74_new Rarith t0 tEnd n N Hn HD) as (S0 & E0 & H0 & _ & _ & _ & Q1 & Q2). rewrite E0. cbn [bind]. rewrite EH. cbn [bind].
  assert (HP0 : holds_pts S0 n (N + 1) []). { eexists. eexists. split; [exact H0|]. split; [apply Nat.le_0_l|]. intros k HK. cbn [length] in HK. lia. }
  destruct (fill_next Rarith S0 n (N + 1) [] t0 x0 HP0 Hn HX) as (S1 & E1 & H1 & Q3 & Q4 & _); [cbn [length]; lia|]. change (Z.of_nat (length (@nil (R * vec)))) with 0%Z in E1. rewrite E1. cbn [bind].
  destruct (Nat.ltb_spec (length (@nil (R * vec))) (N + 1)) as [_|A]; [|cbn [length] in A; lia]. cbn [app] in H1.
  rewrite amin_R. change (nsub (aops Rarith) tEnd t0) with (tEnd - t0). fold h. change (nadd (aops Rarith) t0 dt) with (t0 + dt). replace (Z.of_nat N + 1)%Z with (Z.of_nat (N + 1)) by lia.
  pose proof (advance_ok t0 x0 tEnd dt eps hmin (N + 1) fs fo dl Hdt HE PD (Rle_trans _ _ _ (Rmin_r _ _) (Rmin_r _ _)) (Rle_trans _ _ _ (Rmin_r _ _) (Rmin_l _ _)) P1 P2 ltac:(lra) HNum fuel (sp_reset sp st) S1 t0 x0 h [] [] [] 1%nat 0%nat) as A.
  cbv zeta in A. cbn [length INR] in A. rewrite Rmult_1_l in A.
  destruct A as [[A1 A2]|(st' & S' & tm & xm & L & js & outs & ev & A1 & A2 & A3 & A4 & A5 & A6 & A7 & A8)]; try (rewrite A1; cbn [bind]).
  - constructor.
  - apply HSP.
  - exact HX.
  - lra.
  - apply Rmin_l.
  - exact HF3.
  - exact H1.
  - constructor.
  - intros; lia.
  - intros i [].
  - intros; lia.
  - lia.
  - lra.
  - left. auto.
  - right. destruct (Nat.ltb_spec (length outs) N) as [LN|LN].
    + destruct (Z.ltb_spec (Z.of_nat (Datatypes.S (length outs))) (Z.of_nat (N + 1))); [|lia]. destruct (fill_next Rarith S' n (N + 1) _ tEnd xm A4 Hn A8) as (S2 & E2 & H2 & Q5 & Q6 & _); [cbn [length]; lia|]. cbn [length] in E2. rewrite E2. cbn [bind].
      exists st', S2, L, tm, xm, js, outs, ev. split; [reflexivity|]. split; [exact A2|]. split; [exact A3|]. split; [exact A5|]. split; [|split; congruence]. rewrite (proj2 (Nat.ltb_lt _ _) LN). eapply holds_pts_shows. exact H2.
    + destruct (Z.ltb_spec (Z.of_nat (Datatypes.S (length outs))) (Z.of_nat (N + 1))); [lia|]. cbn [bind]. exists st', S', L, tm, xm, js, outs, ev. split; [reflexivity|]. split; [exact A2|]. split; [exact A3|]. split; [exact A5|]. split; [|split; congruence].
      rewrite (proj2 (Nat.ltb_ge _ _) LN), app_nil_r. eapply holds_pts_shows. exact A4.
Qed.

(** ** Integration to given times *)
Lemma output_for_incl : forall L L' s p, incl L L' -> output_for n f L s p -> output_for n f L' s p.
Proof. intros L L' s p H (l & Hl & H1). exists l. split; auto. Qed.
Lemma firstn_S_nth : forall (l : list R) k, (k < length l)%nat -> firstn (S k) l = firstn k l ++ [nth k l 0].
Proof. induction l as [|a l IH]; intros [|k] H; cbn [length] in H; try lia; cbn [firstn nth app]; [reflexivity|]. rewrite <- IH by lia. reflexivity. Qed.
Lemma outputs_at_ok : forall st p t x k y times num, (forall u, sp_interp sp st u = Ok (p u)) -> (0 < k) -> length y = n -> hermite n t k x (f t x) y (f (t + k) y) p -> increasing times -> num = length times ->
  forall L, In (Leg t x k y) L -> forall fuel Sl outs idx, idx = S (length outs) -> (idx + fuel >= num)%nat -> forall pt0, holds_pts Sl n num (pt0 :: outs) -> Forall2 (output_for n f L) (firstn (length outs) (tl times)) outs -> ((idx < num)%nat -> t < nth idx times 0) ->
  exists S' outs', outputs_at Rarith sp fuel st Sl idx times (t + k) y = Ok (S', S (length outs')) /\ holds_pts S' n num (pt0 :: outs') /\ Forall2 (output_for n f L) (firstn (length outs') (tl times)) outs' /\
    (length outs <= length outs' < num)%nat /\ ((S (length outs') < num)%nat -> t + k + Eps < nth (S (length outs')) times 0) /\ s_t1 S' = s_t1 Sl /\ s_t2 S' = s_t2 Sl.
Proof.
  intros st p t x k y times num HP Hk LY HH HI HN L HL. induction fuel as [|fuel IH]; intros Sl outs idx Hidx Hf pt0 HS HO Ht; assert (HLN : (S (length outs) <= num)%nat) by (destruct HS as (tf & xf & _ & HS & _); exact HS); cbn [outputs_at]; rewrite <- HN.
  - destruct (Nat.ltb_spec idx num); [lia|]. rewrite Hidx. exists Sl, outs. split; [reflexivity|]. repeat split; auto; lia.
  - destruct (Nat.ltb_spec idx num) as [HLT|HGE].
    2: { rewrite Hidx. exists Sl, outs. split; [reflexivity|]. repeat split; auto; lia. }
    rewrite vget_nth by lia. cbn [bind]. set (tO := nth idx times 0) in *. specialize (Ht HLT). rewrite eps52_R. rnum. destruct (Rltb_spec (t + k + Eps) tO) as [HB|HB]; cbn [negb].
    { rewrite Hidx. exists Sl, outs. split; [reflexivity|]. split; [exact HS|]. split; [exact HO|]. split; [lia|]. split; [intros _; rewrite <- Hidx; exact HB|auto]. }
    assert (EN : nth (length outs) (tl times) 0 = tO). { unfold tO. rewrite Hidx. destruct times; [cbn [length] in HN; lia|reflexivity]. }
    assert (LT : (length outs < length (tl times))%nat). { destruct times; cbn [length tl] in *; lia. }
    assert (G : forall q, output_for n f L tO q -> length (snd q) = n -> exists S1, fillValues Rarith Sl (Z.of_nat idx) (fst q) (snd q) = Ok S1 /\
       exists S' outs', outputs_at Rarith sp fuel st S1 (idx + 1) times (t + k) y = Ok (S', S (length outs')) /\ holds_pts S' n num (pt0 :: outs') /\ Forall2 (output_for n f L) (firstn (length outs') (tl times)) outs' /\
    (length outs <= length outs' < num)%nat /\ ((S (length outs') < num)%nat -> t + k + Eps < nth (S (length outs')) times 0) /\ s_t1 S' = s_t1 Sl /\ s_t2 S' = s_t2 Sl).
    { intros [u v] HQ LQ. cbn [fst snd] in *. destruct (fill_next Rarith Sl n num _ u v HS Hn LQ) as (S1 & F1 & F2 & F3 & F4 & _); [cbn [length]; lia|]. cbn [length] in F1. rewrite <- Hidx in F1. exists S1. split; [exact F1|].
      cbn [length] in F2. rewrite <- Hidx in F2. destruct (Nat.ltb_spec idx num) as [_|]; [|lia]. cbn [app] in F2.
      destruct (IH S1 (outs ++ [(u, v)]) (idx + 1)%nat) with (pt0 := pt0) as (S' & outs' & R1 & R2 & R3 & R4 & R5 & R6 & R7); auto.
      - rewrite app_length. cbn [length]. lia.
      - lia.
      - rewrite app_length. cbn [length]. replace (length outs + 1)%nat with (S (length outs)) by lia. rewrite firstn_S_nth by exact LT. apply Forall2_app; auto. constructor; [|constructor]. rewrite EN. exact HQ.
      - intros HI1. apply Rlt_trans with tO; [exact Ht|]. apply HI. lia.
      - exists S', outs'. rewrite app_length in R4. cbn [length] in R4. split; [exact R1|]. split; [auto|]. split; [auto|]. split; [lia|]. split; [auto|]. split; congruence. }
    destruct (Rltb_spec (Rabs (tO - (t + k))) Eps) as [HA|HA].
    + destruct (G (t + k, y)) as (S1 & F1 & R); [|exact LY|].
      { exists (Leg t x k y). split; [exact HL|]. left. cbn [fst snd l_t l_h l_y]. auto. }
      cbn [fst snd] in F1. rewrite F1. cbn [bind]. exact R.
    + rewrite HP. cbn [bind]. destruct (G (tO, p tO)) as (S1 & F1 & R); [|apply (proj1 HH)|].
      { exists (Leg t x k y). split; [exact HL|]. right. cbn [fst snd l_t l_h l_y l_x]. split; [reflexivity|]. split; [exists p; split; [exact HH|reflexivity]|]. split; [exact Ht|]. apply Rnot_lt_le in HA, HB. unfold Rabs in HA. destruct (Rcase_abs (tO - (t + k))); [left; lra|right; lra]. }
      cbn [fst snd] in F1. rewrite F1. cbn [bind]. exact R.
Qed.
Lemma advance_at_ok : forall t0 x0 times tEnd eps hmin num fs dl, 0 < eps -> 0 < dl -> dl <= Eps -> dl <= hmin -> increasing times -> num = length times -> (2 <= num)%nat -> tEnd = nth (num - 1) times 0 ->
  (0 < fs)%nat -> (9 / 10) ^ fs * (tEnd - t0) < Eps ->
  forall fuel st Sl t x h L outs ev, path (passes tab bs f n eps) t0 x0 L t x -> ready st t x -> length x = n -> tEnd - t < INR fuel * dl ->
  holds_pts Sl n num ((t0, x0) :: outs) -> Forall2 (output_for n f L) (firstn (length outs) (tl times)) outs -> ((S (length outs) < num)%nat -> dl <= h /\ t + dl <= nth (S (length outs)) times 0) ->
  let r := advance_at Rarith sp fuel fs st Sl t x (f t x) h (S (length outs)) times tEnd eps hmin (length L) ev in
  (r = Throw OtherError /\ stuck t0 x0 tEnd eps hmin) \/
  exists st' S' tm xm L' outs' ev', r = Ok (st', S', length L', ev') /\ path (passes tab bs f n eps) t0 x0 L' tm xm /\ Forall2 (output_for n f L') (tl times) outs' /\ holds_pts S' n num ((t0, x0) :: outs') /\
    s_t1 S' = s_t1 Sl /\ s_t2 S' = s_t2 Sl.
Proof.
  intros t0 x0 times tEnd eps hmin num fs dl HE Hdl D1 D2 HI HN HN2 HTE Hfs HFS. pose proof Eps_pos as PE.
  induction fuel as [|fuel IH]; intros st Sl t x h L outs ev HP HR HX HFU HS HO HT; assert (HLN : (S (length outs) <= num)%nat) by (destruct HS as (tf & xf & _ & HS & _); exact HS); cbv zeta; cbn [advance_at]; rewrite <- HN;
    (destruct (Nat.ltb_spec (S (length outs)) num) as [HLT|HGE];
     [|right; exists st, Sl, t, x, L, outs, ev; split; [reflexivity|]; split; [exact HP|]; split; [|auto]; replace (tl times) with (firstn (length outs) (tl times)); [exact HO|]; apply firstn_all2; destruct times; cbn [length tl] in *; lia]).
  all: destruct (HT HLT) as [HT1 HT2]; assert (HTL : nth (S (length outs)) times 0 <= tEnd) by (rewrite HTE; destruct (Nat.eq_dec (S (length outs)) (num - 1)) as [->|]; [lra|left; apply HI; lia]).
  1: { cbn [INR] in HFU. lra. }
  rewrite vget_nth by lia. cbn [bind]. rnum. set (tT := nth (S (length outs)) times 0) in *. set (h' := if Rltb tT (t + h) then tT - t else h).
  assert (Hh' : dl <= h' <= tT - t). { unfold h'. destruct (Rltb_spec tT (t + h)); lra. } clearbody h'. clear h HT HT1. destruct (path_incl _ _ _ _ _ _ HP) as [HP0 HPL].
  destruct (proj2 HSP st t x h' eps fs HR HX HE ltac:(lra) Hfs) as [[E U]|(st' & y & r & E & HR' & LY & Hd & [(q & Q1 & Q2) HC] & HPA & (g & G1 & G2) & p & P1 & P2)].
  { eapply Rle_lt_trans; [|exact HFS]. apply Rmult_le_compat_l; [apply pow_le; lra|]. rewrite Rabs_right by lra. lra. }
  { left. rewrite E. cbn [bind]. split; auto. exists L, t, x. split; [exact HP|]. split; [lra|]. left. exists h'. split; [lra|exact U]. }
  rewrite E. cbn [bind]. set (k := hDone r) in *. assert (HK : 0 < k <= h'). { rewrite Q2. split; [apply Rmult_lt_0_compat; lra|]. rewrite <- (Rmult_1_r h') at 2. apply Rmult_le_compat_l; lra. }
  assert (HKd : dl <= k). { destruct HC as [->|[HC _]]; [lra|]. rewrite Rabs_right in HC by lra. lra. }
  pose proof (path_snoc _ HP (proj1 HK) HPA) as HP'. set (l := {| l_t := t; l_x := x; l_h := k; l_y := y |}) in *.
  assert (IN : incl L (L ++ [l])) by (intros z Hz; apply in_or_app; auto).
  destruct (outputs_at_ok st' p t x k y times num P2 (proj1 HK) LY P1 HI HN (L ++ [l]) ltac:(apply in_or_app; right; left; reflexivity) num Sl outs (S (length outs)) eq_refl ltac:(lia) (t0, x0) HS) as (S' & outs' & O1 & O2 & O3 & O4 & O5 & O6 & O7).
  { clear - HO IN. induction HO; constructor; auto. eapply output_for_incl; eauto. }
  { intros _. fold tT. lra. }
  rewrite O1. cbn [bind]. assert (EA : (length L + 1)%nat = length (L ++ [l])) by (rewrite app_length; reflexivity).
  rewrite eps52_R. destruct (Rltb_spec (hNext r) hmin) as [HM|HM]; [destruct (Rltb_spec (t + k) (tEnd - Eps)) as [HM2|HM2]|]; cbn [andb].
  { left. split; auto. exists (L ++ [l]), (t + k), y. split; [exact HP'|]. split; [lra|]. right. exists L, l. split; auto. cbn [l l_h]. eapply Rle_lt_trans; [|exact HM]. rewrite G2, Rmult_comm. apply Rmult_le_compat_l; lra. }
  all: rewrite EA; rewrite S_INR in HFU; specialize (IH st' S' (t + k) y (hNext r) (L ++ [l]) outs' (ev + funcEvals r)%nat HP' HR' LY ltac:(lra) O2 O3);
    (destruct IH as [IH|(st2 & S2 & tm & xm & L2 & outs2 & ev2 & R1 & R2 & R3 & R4 & R5 & R6)]; [|left; exact IH|right; exists st2, S2, tm, xm, L2, outs2, ev2; split; [exact R1|]; split; [exact R2|]; split; [exact R3|]; split; [exact R4|]; split; congruence]).
  - intros A. exfalso. specialize (O5 A). assert (nth (S (length outs')) times 0 <= tEnd) by (rewrite HTE; destruct (Nat.eq_dec (S (length outs')) (num - 1)) as [->|]; [lra|left; apply HI; lia]). lra.
  - intros A. specialize (O5 A). split; lra.
Qed.
Theorem C80_integrate_at : forall x0 times eps h0 hmin st, length x0 = n -> increasing times -> (2 <= length times)%nat -> 0 < eps -> 0 < hmin -> dims_fit n (length times) ->
  let t0 := nth 0 times 0 in let tEnd := nth (length times - 1) times 0 in
  exists F, forall fuel fs, (F <= fuel)%nat -> (F <= fs)%nat ->
  let r := integrateAt Rarith Rpower sp f n fuel fs st x0 times eps h0 hmin in
  (r = Throw OtherError /\ stuck t0 x0 tEnd eps hmin) \/
  exists st' S L tm xm outs ev, r = Ok (st', S, length L, ev) /\ path (passes tab bs f n eps) t0 x0 L tm xm /\ Forall2 (output_for n f L) (tl times) outs /\
    shows Rarith S ((t0, x0) :: outs) /\ s_t1 S = t0 /\ s_t2 S = tEnd.
Proof.
  intros x0 times eps h0 hmin st HX HI HL HE Hhm HD t0 tEnd. pose proof Eps_pos as PE. assert (Ht : t0 < tEnd) by (apply HI; lia). assert (Ht1 : t0 < nth 1 times 0) by (apply HI; lia).
  assert (HIn : exists h, (if altb Rarith (alit Rarith 0) h0 then Ok h0 else estimateInitialStep Rarith Rpower f n t0 x0 tEnd) = Ok h /\ 0 < h).
  { destruct (altb Rarith (alit Rarith 0) h0) eqn:E; [apply altb_R in E; exists h0; split; [reflexivity|exact E]|]. destruct (C80_initial_step t0 x0 tEnd HX ltac:(lra)) as (h & E' & P & _). exists h. auto. }
  destruct HIn as (h & EH & PH). set (dl := Rmin (Rmin h (nth 1 times 0 - t0)) (Rmin hmin Eps)). assert (PD : 0 < dl) by (apply Rmin_glb_lt; apply Rmin_glb_lt; lra).
  assert (D1 : dl <= h) by (eapply Rle_trans; [apply Rmin_l|apply Rmin_l]). assert (D2 : dl <= nth 1 times 0 - t0) by (eapply Rle_trans; [apply Rmin_l|apply Rmin_r]).
  destruct (pow_small (tEnd - t0)) as [F1 HF1]. destruct (many dl (tEnd - t0) PD) as [F3 HF3].
  exists (Nat.max F1 F3). intros fuel fs L1 L2. cbv zeta. destruct (HF1 fs ltac:(lia)) as [P1 P2]. specialize (HF3 fuel ltac:(lia)).
  unfold integrateAt. destruct (Nat.ltb_spec (length times) 2); [lia|]. rewrite !vget_nth by lia. cbn [bind]. fold t0 tEnd. replace (Z.of_nat (length times) - 1)%Z with (Z.of_nat (length times - 1)) by lia.
  replace (length times) with (length times - 1 + 1)%nat in HD by lia. destruct (C74_new Rarith t0 tEnd n (length times - 1) Hn HD) as (S0 & E0 & H0 & _ & _ & _ & Q1 & Q2). rewrite E0. cbn [bind]. rewrite EH. cbn [bind].
  replace (length times - 1 + 1)%nat with (length times) in H0 by lia.
  assert (HP0 : holds_pts S0 n (length times) []). { eexists. eexists. split; [exact H0|]. split; [apply Nat.le_0_l|]. intros k HK. cbn [length] in HK. lia. }
  destruct (fill_next Rarith S0 n (length times) [] t0 x0 HP0 Hn HX) as (S1 & E1 & H1 & Q3 & Q4 & _); [cbn [length]; lia|]. change (Z.of_nat (length (@nil (R * vec)))) with 0%Z in E1. rewrite E1. cbn [bind].
  destruct (Nat.ltb_spec (length (@nil (R * vec))) (length times)) as [_|A]; [|cbn [length] in A; lia]. cbn [app] in H1.
  pose proof (advance_at_ok t0 x0 times tEnd eps hmin (length times) fs dl HE PD (Rle_trans _ _ _ (Rmin_r _ _) (Rmin_r _ _)) (Rle_trans _ _ _ (Rmin_r _ _) (Rmin_l _ _)) HI eq_refl HL eq_refl P1 P2 fuel (sp_reset sp st) S1 t0 x0 h [] [] 0%nat) as A.
  cbv zeta in A. cbn [length] in A. destruct A as [[A1 A2]|(st' & S' & tm & xm & L & outs & ev & A1 & A2 & A3 & A4 & A5 & A6)].
  - constructor.
  - apply HSP.
  - exact HX.
  - exact HF3.
  - exact H1.
  - constructor.
  - intros _. split; [exact D1|lra].
  - left. auto.
  - right. exists st', S', L, tm, xm, outs, ev. split; [exact A1|]. split; [exact A2|]. split; [exact A3|]. split; [|split; congruence]. eapply holds_pts_shows. exact A4.
Qed.
End Integrate.
