(** * C79: the adaptive steppers *)
From Coq Require Import List Bool Arith ZArith Reals Lia Lra.
From Verif Require Import Base Num Mat_Model Mat_Proofs Mat_Props RootFind_Model RootFind_Proofs ODE_Model ODE_Spec ODE_Solution ODE_RK ODEA_Model ODEA_Spec.
Import ListNotations.
Local Open Scope R_scope.
Local Notation len n := (Forall (fun k : list R => length k = n)).

(** ** Arithmetic *)
Lemma eps52_R : eps52 Rarith = Eps.
Proof. unfold eps52, Eps. rnum. unfold Rdiv. rewrite Rmult_1_l. f_equal. change (2 ^ 52)%Z with (2 ^ Z.of_nat 52)%Z. rewrite <- pow_IZR. reflexivity. Qed.
Lemma tiny_R : tiny Rarith = Tiny.
Proof. unfold tiny, Tiny. rnum. unfold Rdiv. rewrite Rmult_1_l. f_equal. change (10 ^ 30)%Z with (10 ^ Z.of_nat 30)%Z. rewrite <- pow_IZR. reflexivity. Qed.
Lemma Eps_pos : 0 < Eps.
Proof. apply Rinv_0_lt_compat, pow_lt. lra. Qed.
Lemma Tiny_pos : 0 < Tiny.
Proof. apply Rinv_0_lt_compat, pow_lt. lra. Qed.
Lemma altb_R : forall a b, altb Rarith a b = true <-> a < b.
Proof. intros. change (altb Rarith a b) with (Rltb a b). destruct (Rltb_spec a b); split; intros; auto; try discriminate; lra. Qed.
Lemma altb_R' : forall a b, altb Rarith a b = false <-> b <= a.
Proof. intros. change (altb Rarith a b) with (Rltb a b). destruct (Rltb_spec a b); split; intros; auto; try discriminate; lra. Qed.
Lemma amax_R : forall a b, amax Rarith a b = Rmax a b.
Proof. intros a b. unfold amax. destruct (altb Rarith a b) eqn:E; [apply altb_R in E; rewrite Rmax_right by lra|apply altb_R' in E; rewrite Rmax_left by lra]; reflexivity. Qed.
Lemma amin_R : forall a b, amin Rarith a b = Rmin a b.
Proof. intros a b. unfold amin. destruct (altb Rarith b a) eqn:E; [apply altb_R in E; rewrite Rmin_right by lra|apply altb_R' in E; rewrite Rmin_left by lra]; reflexivity. Qed.

(** ** The error ratio *)
Lemma err_ratio_ok : forall n x k1 h eps es ks, length x = n -> length k1 = n -> len n ks -> 0 < eps ->
  exists e, err_ratio Rarith n x k1 h eps es ks = Ok e /\ 0 <= e /\ forall d, 0 <= d ->
    (e <= d <-> forall i, (i < n)%nat -> Rabs (h * comb es ks i) <= d * eps * (Rabs (nth i x 0) + Rabs (h * nth i k1 0) + Tiny)).
Proof.
  intros n x k1 h eps es ks HX HK HS HE. unfold err_ratio. apply wp_ex. apply wp_bind.
  eapply wp_conseq; [|apply (for_range_inv _ _ (fun k m => 0 <= m /\ forall d, 0 <= d -> (m <= d <-> forall i, (i < k)%nat -> Rabs (h * comb es ks i) <= d * (Rabs (nth i x 0) + Rabs (h * nth i k1 0) + Tiny))))].
  - intros m [M0 M]. cbn [wp]. rnum. split; [apply Rmult_le_pos; auto; apply Rlt_le, Rinv_0_lt_compat; auto|]. intros d Hd. rewrite <- (M (d * eps)) by (apply Rmult_le_pos; lra).
    split; intros H; [apply (Rmult_le_compat_r eps) in H; [|lra]|apply (Rmult_le_reg_r eps); auto]; unfold Rdiv in *; rewrite Rmult_assoc, Rinv_l, Rmult_1_r in * by lra; exact H.
  - lia.
  - cbn [Rarith alit]. split; [lra|]. intros d Hd. split; [intros; lia|intros; lra].
  - intros k m _ Hk [M0 M]. rewrite wsum_Ok by (eapply len_lt; eauto). cbn [bind]. rewrite !vget_nth by lia. cbn [bind wp]. rewrite amax_R, !Rabs_aabs, tiny_R. rnum.
    set (sc := Rabs (nth k x 0) + Rabs (h * nth k k1 0) + Tiny). assert (HSC : 0 < sc). { unfold sc. pose proof (Rabs_pos (nth k x 0)). pose proof (Rabs_pos (h * nth k k1 0)). pose proof Tiny_pos. lra. }
    split; [eapply Rle_trans; [exact M0|apply Rmax_l]|]. intros d Hd. split.
    + intros H i Hi. destruct (Nat.eq_dec i k) as [->|Ni].
      * fold sc. assert (H' : Rabs (h * comb es ks k) / sc <= d) by (eapply Rle_trans; [apply Rmax_r|exact H]). apply (Rmult_le_compat_r sc) in H'; [|lra]. unfold Rdiv in H'. rewrite Rmult_assoc, Rinv_l, Rmult_1_r in H' by lra. exact H'.
      * apply M; auto; [|lia]. eapply Rle_trans; [apply Rmax_l|exact H].
    + intros H. apply Rmax_lub; [apply M; auto; intros; apply H; lia|]. apply (Rmult_le_reg_r sc); auto. unfold Rdiv. rewrite Rmult_assoc, Rinv_l, Rmult_1_r by lra. apply H. lia.
Qed.

(** ** Cubic Hermite interpolation *)
Lemma hermite_ok : forall n t h x0 d0 x1 d1, length x0 = n -> length d0 = n -> length x1 = n -> length d1 = n -> h <> 0 ->
  exists p, hermite n t h x0 d0 x1 d1 p /\ forall s, hermite_at Rarith n s t h x0 d0 x1 d1 = Ok (p s).
Proof.
  intros n t h x0 d0 x1 d1 L1 L2 L3 L4 Hh.
  set (g := fun s i => let th := (s - t) / h in (2 * (th * th * th) - 3 * (th * th) + 1) * nth i x0 0 + (th * th * th - 2 * (th * th) + th) * (h * nth i d0 0) + (-2 * (th * th * th) + 3 * (th * th)) * nth i x1 0 + (th * th * th - th * th) * (h * nth i d1 0)).
  exists (fun s => map (g s) (seq 0 n)). split; [split; [intros; apply mk_length|]|].
  - intros i Hi. exists ((3 * (nth i x1 0 - nth i x0 0) / h - 2 * nth i d0 0 - nth i d1 0) / h), ((nth i d0 0 + nth i d1 0 - 2 * (nth i x1 0 - nth i x0 0) / h) / (h * h)).
    split; [intros s; rewrite mk_nth by auto; unfold g; cbv zeta; field; auto|]. split; [rewrite mk_nth by auto; unfold g; cbv zeta; field; auto|field; auto].
  - intros s. unfold hermite_at. cbv zeta. apply fill_Ok; [apply zeros_length|]. intros i Hi. rewrite !vget_nth by lia. cbn [bind]. unfold g. rnum. reflexivity.
Qed.
(** the cubic is determined by the four conditions *)
Lemma hermite_unique : forall n t h x0 d0 x1 d1 p p', h <> 0 -> hermite n t h x0 d0 x1 d1 p -> hermite n t h x0 d0 x1 d1 p' -> forall s, p s = p' s.
Proof.
  intros n t h x0 d0 x1 d1 p p' Hh [L H] [L' H'] s. apply (vec_eq n); auto. intros i Hi. destruct (H i Hi) as (c2 & c3 & A & B & C). destruct (H' i Hi) as (c2' & c3' & A' & B' & C').
  rewrite A, A'. rewrite A in B. rewrite A' in B'. replace (t + h - t) with h in * by ring.
  assert (E1 : (c2 - c2') * h + (c3 - c3') * h ^ 2 = 0). { apply (Rmult_eq_reg_r h); auto. rewrite Rmult_0_l. ring_simplify. ring_simplify in B. ring_simplify in B'. lra. }
  assert (E2 : 2 * ((c2 - c2') * h) + 3 * ((c3 - c3') * h ^ 2) = 0) by lra.
  assert (E3 : (c3 - c3') * h ^ 2 = 0) by lra. assert (E4 : (c2 - c2') * h = 0) by lra. apply Rmult_integral in E3, E4. destruct E3 as [E3|E3]; [|exfalso; revert E3; apply pow_nonzero; auto]. destruct E4 as [E4|]; [|contradiction].
  replace c2' with c2 by lra. replace c3' with c3 by lra. reflexivity.
Qed.

(** ** Powers *)
Lemma rp_neg_le1 : forall e a, 1 <= e -> 0 <= a -> 0 < Rpower e (- a) <= 1.
Proof. intros e a He Ha. split; [apply exp_pos|]. unfold Rpower. rewrite <- exp_0. assert (0 <= ln e) by (rewrite <- ln_1; destruct (Req_dec e 1) as [->|]; [lra|left; apply ln_increasing; lra]). destruct (Req_dec (- a * ln e) 0) as [->|N]; [lra|]. left. apply exp_increasing. assert (0 <= a * ln e) by (apply Rmult_le_pos; auto). lra. Qed.
Lemma rp_neg_ge1 : forall e a, 0 < e <= 1 -> 0 <= a -> 1 <= Rpower e (- a).
Proof. intros e a He Ha. unfold Rpower. rewrite <- exp_0. assert (ln e <= 0) by (rewrite <- ln_1; destruct (Req_dec e 1) as [->|]; [lra|left; apply ln_increasing; lra]). destruct (Req_dec (- a * ln e) 0) as [->|N]; [lra|]. left. apply exp_increasing. assert (0 <= a * - ln e) by (apply Rmult_le_pos; lra). lra. Qed.
Lemma rp_fifth : forall e, 0 < e -> Rpower e (-1 / 5) ^ 5 = / e.
Proof. intros e He. rewrite <- Rpower_pow by apply exp_pos. rewrite Rpower_mult. replace (-1 / 5 * INR 5) with (- (1)) by (cbn; field). rewrite Rpower_Ropp, Rpower_1 by auto. reflexivity. Qed.

(** ** Dormand-Prince *)
Section Steppers.
Variables (n : nat) (f : sys).
Hypothesis HF : system n f.
Lemma dp5_try : forall t x h, length x = n -> let w := map (fun j => nth j (dp5_b Rarith) (alit Rarith 0)) [0; 2; 3; 4; 5]%nat in
  exists ks, stages Rarith f n t x h (firstn 5 (dp5_c Rarith)) (firstn 5 (dp5_a Rarith)) [f t x] (zeros Rarith n) = Ok ks /\ len n (sel ks [0; 2; 3; 4; 5]%nat) /\
    let y := move x h w (sel ks [0; 2; 3; 4; 5]%nat) in let ks7 := ks ++ [f (t + h) y] in
    length y = n /\ len n ks7 /\ length ks7 = 7%nat /\ nth 0 ks7 [] = f t x /\ nth 6 ks7 [] = f (t + h) y /\ sel ks7 [0; 2; 3; 4; 5]%nat = sel ks [0; 2; 3; 4; 5]%nat /\
    rk_stages dp5_tab f t x h ks7 /\ y = move x h (dp5_b Rarith) ks7.
Proof.
  intros t x h HX w. destruct (stages_rk n f t x h (firstn 5 (dp5_c Rarith)) (firstn 5 (dp5_a Rarith)) [] (zeros Rarith n) HF HX) as (ks & E & LK & LL & HL & HK); [reflexivity|apply zeros_length| |].
  { intros i HI. cbn [dp5_a firstn length] in HI. do 5 (destruct i as [|i]; [cbn; lia|]). lia. }
  exists ks. split; [exact E|]. clear E HL. cbn [dp5_c firstn length] in LL. destruct ks as [|k1 [|k2 [|k3 [|k4 [|k5 [|k6 [|k7 ks]]]]]]]; try discriminate LL. clear LL.
  repeat match goal with H : Forall _ (_ :: _) |- _ => inversion_clear H end. cbn [length] in HK.
  assert (LS : len n (sel [k1; k2; k3; k4; k5; k6] [0; 2; 3; 4; 5]%nat)) by (unfold sel; cbn [map nth]; repeat constructor; auto). split; [exact LS|]. cbv zeta. set (y := move x h w _).
  assert (LY : length y = n) by (unfold y; rewrite move_length; auto). assert (L7 : length (f (t + h) y) = n) by (apply HF; auto).
  split; [exact LY|]. cbn [app]. split; [repeat constructor; auto|]. split; [reflexivity|].
  assert (K1 : k1 = f t x). { specialize (HK 0%nat ltac:(lia)). cbn [nth tab_c tab_a] in HK. rewrite move_nil in HK. rewrite HK. f_equal. ring. }
  split; [exact K1|]. split; [reflexivity|]. split; [reflexivity|].
  assert (EY : y = move x h (dp5_b Rarith) [k1; k2; k3; k4; k5; k6; f (t + h) y]). { unfold y at 1. apply move_eq. intros i HI. unfold w, sel. cbn [dp5_b map nth comb]. rnum. ring. }
  split; [|exact EY]. split; [reflexivity|]. intros [|[|[|[|[|[|[|i]]]]]]] HI; cbn [length] in HI; [..|lia];
    try (match goal with |- nth ?k _ _ = _ => etransitivity; [exact (HK k ltac:(lia))|f_equal; apply move_eq; intros j Hj; reflexivity] end).
  cbn [nth]. f_equal; [unfold dp5_tab; cbn [tab_c dp5_c nth]; rnum; ring|]. unfold y at 1. apply move_eq. intros j Hj. unfold w, sel, dp5_tab. cbn [tab_a dp5_a dp5_b map nth comb]. rnum. ring.
Qed.
(** what the loop yields: [r] the accepted size and the proposal, [e] the relative error *)
Definition dp5_done (t : R) (x : vec) (eps htry : R) (s : dp5 (T := R)) (out : dp5 (T := R) * vec * vec * step_result (T := R)) : Prop :=
  let '(s', y, d, r) := out in
  chosen dp5_tab (dp5_bstar Rarith) (1 / 5) f n eps t x htry (hDone r) /\ hDone r <> 0 /\ length y = n /\ d = f (t + hDone r) y /\
  d_fsal s' = true /\ nth 6 (d_ks s') [] = d /\ d_err s' = Rmax (errMax r) (1 / 10000) /\
  (exists v, rk_pair dp5_tab (dp5_bstar Rarith) f t x (hDone r) y v /\ relative_error eps n f t x (hDone r) v (errMax r) /\ errMax r <= 1) /\
  (hNext r = hDone r * if Req_EM_T (errMax r) 0 then 10 else Rmax (1 / 5) (Rmin 10 (9 / 10 * Rpower (errMax r) (-17 / 100) * Rpower (d_err s) (4 / 100)))) /\
  exists p, hermite n t (hDone r) x (f t x) y d p /\ forall u, dp5_interpolate Rarith n s' u = Ok (p u).
Definition underflow (tab : tableau) (bs : list R) (rlo eps t : R) (x : vec) (htry : R) : Prop :=
  exists h q, 0 < q <= 1 /\ h = htry * q /\ fails tab bs f n eps t x h /\ rlo * Rabs h < Eps.
Lemma aeqb_R : forall a b, aeqb Rarith a b = if Req_EM_T a b then true else false.
Proof. intros a b. destruct (Raeqb a b), (Req_EM_T a b); auto; contradiction. Qed.
Lemma dp5_loop_ok : forall t x eps htry, length x = n -> 0 < eps -> forall fuel s h ev, (d_fsal s = true -> nth 6 (d_ks s) [] = f t x) -> h <> 0 ->
  chosen dp5_tab (dp5_bstar Rarith) (1 / 5) f n eps t x htry h -> (0 < fuel)%nat -> (9 / 10) ^ fuel * Rabs h < Eps ->
  (dp5_loop Rarith Rpower f n fuel s t x (f t x) h eps ev = Throw OtherError /\ underflow dp5_tab (dp5_bstar Rarith) (1 / 5) eps t x htry) \/
  exists out, dp5_loop Rarith Rpower f n fuel s t x (f t x) h eps ev = Ok out /\ dp5_done t x eps htry s out.
Proof.
  intros t x eps htry HX HE. induction fuel as [|fuel IH]; intros s h ev HS Hh HC Hf HN; [lia|]. cbn [dp5_loop].
  replace (if d_fsal s then nth 6 (d_ks s) [] else f t x) with (f t x) by (destruct (d_fsal s) eqn:ED; [symmetry; apply HS|]; reflexivity). set (ev1 := if d_fsal s then ev else (ev + 1)%nat).
  destruct (dp5_try t x h HX) as (ks & E & LS & LY & LK & LL & K1 & K7 & KS & HK & EY). rewrite E. cbn [bind]. rewrite lin_Ok by (auto; apply zeros_length). cbn [bind].
  set (y := move x h _ (sel ks _)) in *. change (nadd (aops Rarith) t h) with (t + h). set (ks7 := ks ++ [f (t + h) y]) in *.
  assert (LE : len n (sel ks7 [0; 2; 3; 4; 5; 6]%nat)). { unfold sel. apply Forall_map. rewrite Forall_forall in LK. repeat constructor; apply LK, nth_In; lia. }
  destruct (err_ratio_ok n x (f t x) h eps (map (fun j => nth j (diff_w Rarith (dp5_b Rarith) (dp5_bstar Rarith)) (alit Rarith 0)) [0; 2; 3; 4; 5; 6]%nat) _ HX (HF t x HX) LE HE) as (e & Ee & E0 & E1).
  rewrite Ee. cbn [bind]. pose proof (pair_ok n f t x h x x HF HX HX HX dp5_tab (dp5_bstar Rarith) ks7 HK eq_refl) as HP. cbn [dp5_tab tab_b] in HP. fold dp5_tab in HP. rewrite <- EY in HP. set (v := map _ (seq 0 n)) in HP.
  assert (HR : relative_error eps n f t x h v e).
  { split; auto. intros d Hd. rewrite E1 by auto. unfold within.
    assert (EQ : forall i, (i < n)%nat -> nth i v 0 = h * comb (map (fun j => nth j (diff_w Rarith (dp5_b Rarith) (dp5_bstar Rarith)) (alit Rarith 0)) [0; 2; 3; 4; 5; 6]%nat) (sel ks7 [0; 2; 3; 4; 5; 6]%nat) i).
    { intros i Hi. unfold v. rewrite mk_nth by auto. f_equal. clear - LL. destruct ks7 as [|k1 [|k2 [|k3 [|k4 [|k5 [|k6 [|k7 [|? ?]]]]]]]]; try discriminate LL. unfold sel. cbn [dp5_b dp5_bstar diff_w combine map nth comb]. rnum. ring. }
    split; intros H i Hi; [rewrite EQ by auto|rewrite <- EQ by auto]; apply H; auto. }
  destruct (altb Rarith (alit Rarith 1) e) eqn:EB; cbn [negb].
  - apply altb_R in EB. change (alit Rarith 1) with 1 in EB. set (q := amax Rarith _ _). assert (HQ : 1 / 5 <= q <= 9 / 10).
    { unfold q. rewrite amax_R. rnum. replace (IZR (-17) / IZR 100) with (- (17 / 100)) by field. destruct (rp_neg_le1 e (17 / 100)) as [A B]; [lra|lra|]. split; [apply Rmax_l|]. apply Rmax_lub; lra. }
    assert (HFa : fails dp5_tab (dp5_bstar Rarith) f n eps t x h). { exists y, v. split; auto. intros W. destruct HR as [_ HR]. assert (e <= 1); [|lra]. apply HR; [lra|]. replace (1 * eps) with eps by ring. exact W. }
    change (nmul (aops Rarith) h q) with (h * q). rewrite Rabs_aabs, eps52_R. cbv zeta. assert (AQ : Rabs (h * q) = Rabs h * q) by (rewrite Rabs_mult, (Rabs_right q) by lra; reflexivity). pose proof (Rabs_pos_lt h Hh) as AH. destruct HC as [(q0 & Q0 & EQ0) HC].
    destruct (altb Rarith (Rabs (h * q)) Eps) eqn:EU.
    + left. split; auto. apply altb_R in EU. rewrite AQ in EU. exists h, q0. split; [exact Q0|]. split; [exact EQ0|]. split; [exact HFa|]. eapply Rle_lt_trans; [|exact EU]. rewrite Rmult_comm. apply Rmult_le_compat_l; lra.
    + apply altb_R' in EU. assert (HL : Rabs (h * q) <= 9 / 10 * Rabs h) by (rewrite AQ, Rmult_comm; apply Rmult_le_compat_r; lra).
      assert (HN' : (9 / 10) ^ fuel * Rabs (h * q) < Eps). { eapply Rle_lt_trans; [|exact HN]. cbn [pow]. replace (9 / 10 * (9 / 10) ^ fuel * Rabs h) with ((9 / 10) ^ fuel * (9 / 10 * Rabs h)) by ring. apply Rmult_le_compat_l; auto. apply pow_le. lra. }
      edestruct (IH (mkDP ks7 (d_t s) (d_h s) (d_x s) (d_ready s) false (d_err s)) (h * q)) as [R|R]; [discriminate| | | |exact HN'|left; exact R|right; exact R].
      * apply Rmult_integral_contrapositive_currified; lra.
      * split.
        -- exists (q0 * q). split; [split; [apply Rmult_lt_0_compat; lra|]|rewrite EQ0; ring]. rewrite <- (Rmult_1_l 1). apply Rmult_le_compat; lra.
        -- right. split; [exact EU|]. exists h, q. split; [exact HFa|]. split; [exact HQ|reflexivity].
      * destruct fuel as [|fuel]; [|lia]. cbn [pow] in HN'. lra.
  - apply altb_R' in EB. change (alit Rarith 1) with 1 in EB. right. eexists. split; [reflexivity|]. cbn [dp5_done hDone hNext errMax d_fsal d_ks d_err]. rewrite K7.
    split; [exact HC|]. split; [exact Hh|]. split; [exact LY|]. split; [reflexivity|]. split; [reflexivity|]. split; [reflexivity|]. rewrite amax_R. rnum.
    split; [reflexivity|].
    split; [exists v; auto|]. split.
    + f_equal. rewrite aeqb_R. destruct (Req_EM_T e 0); [reflexivity|]. rewrite amax_R, amin_R. reflexivity.
    + unfold dp5_interpolate. cbn [d_ready negb d_x d_h d_ks d_t]. rewrite KS. rewrite lin_Ok by (auto; apply zeros_length). cbn [bind]. fold y. rewrite K1, K7.
      apply hermite_ok; auto; apply HF; auto.
Qed.

(** ** Cash-Karp *)
Lemma ck_try : forall t x h, length x = n -> let w := map (fun j => nth j (ck_b Rarith) (alit Rarith 0)) [0; 2; 3; 5]%nat in
  exists ks, stages Rarith f n t x h (ck_c Rarith) (ck_a Rarith) [f t x] (zeros Rarith n) = Ok ks /\ len n (sel ks [0; 2; 3; 5]%nat) /\ len n (sel ks [0; 2; 3; 4; 5]%nat) /\
    let y := move x h w (sel ks [0; 2; 3; 5]%nat) in
    length y = n /\ nth 0 ks [] = f t x /\ length ks = 6%nat /\ rk_stages ck_tab f t x h ks /\ y = move x h (ck_b Rarith) ks.
Proof.
  intros t x h HX w. destruct (stages_rk n f t x h (ck_c Rarith) (ck_a Rarith) (ck_b Rarith) (zeros Rarith n) HF HX) as (ks & E & LK & LL & HK); [reflexivity|apply zeros_length| |].
  { intros i HI. cbn [ck_a length] in HI. do 5 (destruct i as [|i]; [cbn; lia|]). lia. }
  exists ks. split; [exact E|]. clear E. cbn [ck_c length] in LL. destruct ks as [|k1 [|k2 [|k3 [|k4 [|k5 [|k6 [|k7 ks]]]]]]]; try discriminate LL. clear LL.
  repeat match goal with H : Forall _ (_ :: _) |- _ => inversion_clear H end.
  split; [unfold sel; cbn [map nth]; repeat constructor; auto|]. split; [unfold sel; cbn [map nth]; repeat constructor; auto|]. cbv zeta. split; [rewrite move_length; auto|].
  split. { destruct HK as [_ HK]. specialize (HK 0%nat ltac:(cbn [length]; lia)). cbn [nth tab_c tab_a] in HK. rewrite move_nil in HK. cbn [nth]. rewrite HK. f_equal. ring. }
  split; [reflexivity|]. split; [exact HK|]. apply move_eq. intros i HI. unfold w, sel. cbn [ck_b map nth comb]. rnum. ring.
Qed.
Definition ck_done (t : R) (x : vec) (eps htry : R) (out : ck (T := R) * vec * vec * step_result (T := R)) : Prop :=
  let '(s', y, d, r) := out in
  chosen ck_tab (ck_bstar Rarith) (1 / 10) f n eps t x htry (hDone r) /\ hDone r <> 0 /\ length y = n /\ d = f (t + hDone r) y /\
  (exists v, rk_pair ck_tab (ck_bstar Rarith) f t x (hDone r) y v /\ relative_error eps n f t x (hDone r) v (errMax r) /\ errMax r <= 1) /\
  (if Rle_dec (errMax r) (189 / 1000000) then hNext r = hDone r * 5 else exists g, hNext r = hDone r * g /\ 9 / 10 <= g <= 5 /\ errMax r * g ^ 5 = (9 / 10) ^ 5) /\
  exists p, hermite n t (hDone r) x (f t x) y d p /\ forall u, ck_interpolate Rarith n s' u = Ok (p u).
Lemma ck_next : forall e, 189 / 1000000 < e <= 1 -> let g := 9 / 10 * Rpower e (-1 / 5) in 9 / 10 <= g <= 5 /\ e * g ^ 5 = (9 / 10) ^ 5.
Proof.
  intros e He g. assert (P : 0 < Rpower e (-1 / 5)) by apply exp_pos. pose proof (rp_fifth e ltac:(lra)) as F. unfold g. rewrite Rpow_mult_distr, F. split; [|field; lra]. split.
  - pose proof (rp_neg_ge1 e (1 / 5) ltac:(lra) ltac:(lra)). replace (-1 / 5) with (- (1 / 5)) in * by field. lra.
  - assert (Rpower e (-1 / 5) <= 50 / 9); [|lra]. destruct (Rle_lt_dec (Rpower e (-1 / 5)) (50 / 9)) as [L|L]; auto. exfalso.
    assert ((50 / 9) ^ 5 <= Rpower e (-1 / 5) ^ 5) by (apply pow_incr; lra). rewrite F in H. apply (Rmult_le_compat_l e) in H; [|lra]. rewrite Rinv_r in H by lra. lra.
Qed.
Lemma ck_loop_ok : forall t x eps htry, length x = n -> 0 < eps -> forall fuel s h, h <> 0 ->
  chosen ck_tab (ck_bstar Rarith) (1 / 10) f n eps t x htry h -> (0 < fuel)%nat -> (9 / 10) ^ fuel * Rabs h < Eps ->
  (ck_loop Rarith Rpower f n fuel s t x (f t x) h eps = Throw OtherError /\ underflow ck_tab (ck_bstar Rarith) (1 / 10) eps t x htry) \/
  exists out, ck_loop Rarith Rpower f n fuel s t x (f t x) h eps = Ok out /\ ck_done t x eps htry out.
Proof.
  intros t x eps htry HX HE. induction fuel as [|fuel IH]; intros s h Hh HC Hf HN; [lia|]. cbn [ck_loop].
  destruct (ck_try t x h HX) as (ks & E & LS & LE & LY & K1 & LL & HK & EY). rewrite E. cbn [bind]. rewrite lin_Ok by (auto; apply zeros_length). cbn [bind].
  set (y := move x h _ (sel ks _)) in *.
  destruct (err_ratio_ok n x (f t x) h eps (map (fun j => nth j (diff_w Rarith (ck_b Rarith) (ck_bstar Rarith)) (alit Rarith 0)) [0; 2; 3; 4; 5]%nat) _ HX (HF t x HX) LE HE) as (e & Ee & E0 & E1).
  rewrite Ee. cbn [bind]. pose proof (pair_ok n f t x h x x HF HX HX HX ck_tab (ck_bstar Rarith) ks HK eq_refl) as HP. cbn [ck_tab tab_b] in HP. fold ck_tab in HP. rewrite <- EY in HP. set (v := map _ (seq 0 n)) in HP.
  assert (HR : relative_error eps n f t x h v e).
  { split; auto. intros d Hd. rewrite E1 by auto. unfold within.
    assert (EQ : forall i, (i < n)%nat -> nth i v 0 = h * comb (map (fun j => nth j (diff_w Rarith (ck_b Rarith) (ck_bstar Rarith)) (alit Rarith 0)) [0; 2; 3; 4; 5]%nat) (sel ks [0; 2; 3; 4; 5]%nat) i).
    { intros i Hi. unfold v. rewrite mk_nth by auto. f_equal. clear - LL. destruct ks as [|k1 [|k2 [|k3 [|k4 [|k5 [|k6 [|? ?]]]]]]]; try discriminate LL. unfold sel. cbn [ck_b ck_bstar diff_w combine map nth comb]. rnum. ring. }
    split; intros H i Hi; [rewrite EQ by auto|rewrite <- EQ by auto]; apply H; auto. }
  destruct (altb Rarith (alit Rarith 1) e) eqn:EB; cbn [negb].
  - apply altb_R in EB. change (alit Rarith 1) with 1 in EB. set (g := 9 / 10 * Rpower e (- (1 / 4))). assert (HG : 0 < g <= 9 / 10). { unfold g. destruct (rp_neg_le1 e (1 / 4)) as [A B]; [lra|lra|]. lra. }
    set (q := Rmax g (1 / 10)). assert (HQ : 1 / 10 <= q <= 9 / 10). { unfold q. split; [apply Rmax_r|apply Rmax_lub; lra]. }
    match goal with |- context [if negb (altb Rarith h (alit Rarith 0)) then ?a else ?b] => replace (if negb (altb Rarith h (alit Rarith 0)) then a else b) with (h * q) end.
    2: { rewrite amax_R, amin_R. rnum. replace (IZR (-1) / IZR 4) with (- (1 / 4)) by field. replace (9 / 10 * h * Rpower e (- (1 / 4))) with (h * g) by (unfold g; ring). replace (1 / 10 * h) with (h * (1 / 10)) by ring. unfold q.
         destruct (Rltb_spec h 0); cbn [negb]; unfold Rmax, Rmin; destruct (Rle_dec g (1 / 10)) as [G|G].
         - destruct (Rle_dec (h * g) (h * (1 / 10))) as [L|L]; auto. assert (g = 1 / 10); [|rewrite H; ring]. apply Rle_antisym; auto. apply Rmult_le_reg_l with (- h); lra.
         - destruct (Rle_dec (h * g) (h * (1 / 10))) as [L|L]; auto. exfalso. apply L. apply Rlt_le. apply Rnot_le_lt in G. apply Ropp_lt_cancel. replace (- (h * (1 / 10))) with (- h * (1 / 10)) by ring. replace (- (h * g)) with (- h * g) by ring. apply Rmult_lt_compat_l; lra.
         - destruct (Rle_dec (h * g) (h * (1 / 10))) as [L|L]; auto. exfalso. apply L. apply Rmult_le_compat_l; lra.
         - destruct (Rle_dec (h * g) (h * (1 / 10))) as [L|L]; auto. exfalso. apply G. apply Rmult_le_reg_l with h; lra. }
    assert (HFa : fails ck_tab (ck_bstar Rarith) f n eps t x h). { exists y, v. split; auto. intros W. destruct HR as [_ HR]. assert (e <= 1); [|lra]. apply HR; [lra|]. replace (1 * eps) with eps by ring. exact W. }
    rewrite Rabs_aabs, eps52_R. cbv zeta. assert (AQ : Rabs (h * q) = Rabs h * q) by (rewrite Rabs_mult, (Rabs_right q) by lra; reflexivity). pose proof (Rabs_pos_lt h Hh) as AH. destruct HC as [(q0 & Q0 & EQ0) HC].
    destruct (altb Rarith (Rabs (h * q)) Eps) eqn:EU.
    + left. split; auto. apply altb_R in EU. rewrite AQ in EU. exists h, q0. split; [exact Q0|]. split; [exact EQ0|]. split; [exact HFa|]. eapply Rle_lt_trans; [|exact EU]. rewrite Rmult_comm. apply Rmult_le_compat_l; lra.
    + apply altb_R' in EU. assert (HL : Rabs (h * q) <= 9 / 10 * Rabs h) by (rewrite AQ, Rmult_comm; apply Rmult_le_compat_r; lra).
      assert (HN' : (9 / 10) ^ fuel * Rabs (h * q) < Eps). { eapply Rle_lt_trans; [|exact HN]. cbn [pow]. replace (9 / 10 * (9 / 10) ^ fuel * Rabs h) with ((9 / 10) ^ fuel * (9 / 10 * Rabs h)) by ring. apply Rmult_le_compat_l; auto. apply pow_le. lra. }
      edestruct (IH (mkCK ks (c_t s) (c_h s) (c_x s) y (c_dxnew s) (c_ready s)) (h * q)) as [R|R]; [| | |exact HN'|left; exact R|right; exact R].
      * apply Rmult_integral_contrapositive_currified; lra.
      * split.
        -- exists (q0 * q). split; [split; [apply Rmult_lt_0_compat; lra|]|rewrite EQ0; ring]. rewrite <- (Rmult_1_l 1). apply Rmult_le_compat; lra.
        -- right. split; [exact EU|]. exists h, q. split; [exact HFa|]. split; [exact HQ|reflexivity].
      * destruct fuel as [|fuel]; [|lia]. cbn [pow] in HN'. lra.
  - apply altb_R' in EB. change (alit Rarith 1) with 1 in EB. right. eexists. split; [reflexivity|]. cbn [ck_done hDone hNext errMax]. change (nadd (aops Rarith) t h) with (t + h).
    split; [exact HC|]. split; [exact Hh|]. split; [exact LY|]. split; [reflexivity|]. split; [exists v; auto|]. split.
    + destruct (Rle_dec e (189 / 1000000)) as [L|L].
      * replace (altb Rarith _ e) with false by (symmetry; apply altb_R'; rnum; exact L). rnum. ring.
      * apply Rnot_le_lt in L. replace (altb Rarith _ e) with true by (symmetry; apply altb_R; rnum; exact L). destruct (ck_next e ltac:(lra)) as [G1 G2]. eexists. split; [|split; [exact G1|exact G2]]. rnum. ring.
    + unfold ck_interpolate. cbn [c_ready negb c_x c_h c_ks c_t c_xnew c_dxnew]. rewrite K1. apply hermite_ok; auto; apply HF; auto.
Qed.

(** ** The contract *)
(** [ready s t x]: the stepper is in a state from which a step may start at time t, state x.  A step either throws - then some size no larger
    than the one asked for failed the error test and is below Eps / rlo - or it is a step of the pair whose error estimate passes, and leaves
    state, derivative and interpolant at the end of the step; the size it proposes is between [lo] and [hi] times the one it took *)
Definition stepper_spec {St : Type} (sp : stepper (T := R) St) (ready : St -> R -> vec -> Prop) (tab : tableau) (bs : list R) (rlo lo hi : R) : Prop :=
  (forall s t x, ready (sp_reset sp s) t x) /\
  forall s t x htry eps fuel, ready s t x -> length x = n -> 0 < eps -> htry <> 0 -> (0 < fuel)%nat -> (9 / 10) ^ fuel * Rabs htry < Eps ->
    (sp_step sp fuel s t x (f t x) htry eps = Throw OtherError /\ underflow tab bs rlo eps t x htry) \/
    exists s' y r, sp_step sp fuel s t x (f t x) htry eps = Ok (s', y, f (t + hDone r) y, r) /\ ready s' (t + hDone r) y /\ length y = n /\ hDone r <> 0 /\
      chosen tab bs rlo f n eps t x htry (hDone r) /\ passes tab bs f n eps t x (hDone r) y /\ (exists g, lo <= g <= hi /\ hNext r = hDone r * g) /\
      exists p, hermite n t (hDone r) x (f t x) y (f (t + hDone r) y) p /\ forall u, sp_interp sp s' u = Ok (p u).
Lemma passes_of : forall tab bs eps t x h y e, (exists v, rk_pair tab bs f t x h y v /\ relative_error eps n f t x h v e /\ e <= 1) -> passes tab bs f n eps t x h y.
Proof. intros tab bs eps t x h y e (v & H1 & [_ H2] & H3). exists v. split; auto. apply H2 in H3; [|lra]. replace (1 * eps) with eps in H3 by ring. exact H3. Qed.
Lemma chosen_refl : forall tab bs rlo eps t x h, chosen tab bs rlo f n eps t x h h.
Proof. intros. split; [exists 1; split; [lra|ring]|left; reflexivity]. Qed.
Theorem C79_dormand_prince : stepper_spec (dp5_stepper Rarith Rpower f n) (fun s t x => d_fsal s = true -> nth 6 (d_ks s) [] = f t x) dp5_tab (dp5_bstar Rarith) (1 / 5) (1 / 5) 10.
Proof.
  split; [intros s t x H; discriminate H|]. intros s t x htry eps fuel HS HX HE Hh Hf HN. cbn [sp_step sp_interp dp5_stepper]. unfold dp5_doStep.
  destruct (dp5_loop_ok t x eps htry HX HE fuel s htry 0 HS Hh (chosen_refl _ _ _ _ _ _ _) Hf HN) as [R|(out & E & D)]; [left; exact R|right]. destruct out as [[[s' y] d] r]. destruct D as (D1 & D2 & D3 & -> & D5 & D6 & D7 & D9 & D10 & D11).
  exists s', y, r. split; [exact E|]. split; [auto|]. split; [auto|]. split; [auto|]. split; [auto|]. split; [eapply passes_of; exact D9|]. split; [|exact D11].
  eexists. split; [|exact D10]. destruct (Req_EM_T (errMax r) 0); [lra|]. split; [apply Rmax_l|]. apply Rmax_lub; [lra|apply Rmin_l].
Qed.
Theorem C79_cash_karp : stepper_spec (ck_stepper Rarith Rpower f n) (fun s t x => True) ck_tab (ck_bstar Rarith) (1 / 10) (9 / 10) 5.
Proof.
  split; [auto|]. intros s t x htry eps fuel HS HX HE Hh Hf HN. cbn [sp_step sp_interp ck_stepper].
  destruct (ck_loop_ok t x eps htry HX HE fuel s htry Hh (chosen_refl _ _ _ _ _ _ _) Hf HN) as [R|(out & E & D)]; [left; exact R|right]. destruct out as [[[s' y] d] r]. destruct D as (D1 & D2 & D3 & -> & D5 & D6 & D7).
  exists s', y, r. split; [exact E|]. split; [auto|]. split; [auto|]. split; [auto|]. split; [auto|]. split; [eapply passes_of; exact D5|]. split; [|exact D7].
  destruct (Rle_dec (errMax r) (189 / 1000000)); [exists 5; split; [lra|exact D6]|]. destruct D6 as (g & G1 & G2 & _). exists g. split; [lra|exact G1].
Qed.
(** the step-size controllers: Cash-Karp aims at 9/10 of the size at which an error proportional to h^5 reaches the tolerance, up to 5 times the size;
    Dormand-Prince takes 9/10 e^-0.17 e'^0.04 with the errors of this step and the one before, cut to between 1/5 and 10; the error reported is the relative error *)
Theorem C79_controllers : forall t x eps htry fuel, length x = n -> 0 < eps -> htry <> 0 -> (0 < fuel)%nat -> (9 / 10) ^ fuel * Rabs htry < Eps ->
  (forall s s' y d r, ck_loop Rarith Rpower f n fuel s t x (f t x) htry eps = Ok (s', y, d, r) ->
    (exists v, rk_pair ck_tab (ck_bstar Rarith) f t x (hDone r) y v /\ relative_error eps n f t x (hDone r) v (errMax r)) /\
    if Rle_dec (errMax r) (189 / 1000000) then hNext r = hDone r * 5 else exists g, hNext r = hDone r * g /\ 9 / 10 <= g <= 5 /\ errMax r * g ^ 5 = (9 / 10) ^ 5) /\
  (forall s s' y d r, (d_fsal s = true -> nth 6 (d_ks s) [] = f t x) -> dp5_doStep Rarith Rpower f n fuel s t x (f t x) htry eps = Ok (s', y, d, r) ->
    (exists v, rk_pair dp5_tab (dp5_bstar Rarith) f t x (hDone r) y v /\ relative_error eps n f t x (hDone r) v (errMax r)) /\ d_err s' = Rmax (errMax r) (1 / 10000) /\
    hNext r = hDone r * if Req_EM_T (errMax r) 0 then 10 else Rmax (1 / 5) (Rmin 10 (9 / 10 * Rpower (errMax r) (-17 / 100) * Rpower (d_err s) (4 / 100)))).
Proof.
  intros t x eps htry fuel HX HE Hh Hf HN. split.
  - intros s s' y d r E. destruct (ck_loop_ok t x eps htry HX HE fuel s htry Hh (chosen_refl _ _ _ _ _ _ _) Hf HN) as [[R _]|(out & E' & D)]; [congruence|]. rewrite E in E'. injection E' as <-. destruct D as (D1 & D2 & D3 & -> & (v & V1 & V2 & _) & D6 & D7). split; [exists v; auto|exact D6].
  - intros s s' y d r HS E. unfold dp5_doStep in E. destruct (dp5_loop_ok t x eps htry HX HE fuel s htry 0 HS Hh (chosen_refl _ _ _ _ _ _ _) Hf HN) as [[R _]|(out & E' & D)]; [congruence|]. rewrite E in E'. injection E' as <-.
    destruct D as (D1 & D2 & D3 & -> & D5 & D6 & D7 & (v & V1 & V2 & _) & D10 & D11). split; [exists v; auto|]. split; [exact D7|exact D10].
Qed.
End Steppers.
