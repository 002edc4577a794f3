(** * C77: the fixed-step solutions converge to the solution of the system *)
From Coq Require Import List Bool Arith ZArith Reals Lia Lra Psatz.
From Verif Require Import Base Num Mat_Model Mat_Proofs Mat_Props RootFind_Model RootFind_Proofs ODE_Model ODE_Spec ODE_Solution ODE_RK ODE_Order ODE_Conseq ODE_Fixed.
Import ListNotations.
Local Open Scope R_scope.

(** ** Specification *)
(** [f] is Lipschitz in the state, with constant [L] in the maximum norm *)
Definition lipschitz_system (n : nat) (f : sys) (L t1 t2 : R) : Prop :=
  forall t x y e, t1 <= t <= t2 -> length x = n -> length y = n -> close n e x y -> close n (L * e) (f t x) (f t y).
(** the derivative of the solution [y] is Lipschitz with constant [M] *)
Definition smooth_solution (n : nat) (f : sys) (M t1 t2 : R) (y : R -> vec) : Prop :=
  forall s t, t1 <= s <= t2 -> t1 <= t <= t2 -> close n (M * Rabs (s - t)) (f s (y s)) (f t (y t)).
(** weights with sum 1, nodes inside the step *)
Definition consistent (tab : tableau) : Prop :=
  explicit tab /\ row_sums tab /\ sum_list (tab_b tab) = 1 /\ forall i, (i < length (tab_c tab))%nat -> 0 <= nth i (tab_c tab) 0 <= 1.

(** ** Weighted sums of vectors close to one vector *)
Definition asum (l : list R) : R := fold_right (fun a r => Rabs a + r) 0 l.
Lemma asum_pos : forall l, 0 <= asum l.
Proof. induction l; cbn; [lra|]. pose proof (Rabs_pos a). fold (asum l). lra. Qed.
Lemma comb_close : forall ws ks i v D, (length ws <= length ks)%nat -> (forall j, (j < length ws)%nat -> Rabs (nth i (nth j ks []) 0 - v) <= D) -> Rabs (comb ws ks i - sum_list ws * v) <= asum ws * D.
Proof.
  induction ws as [|w ws IH]; intros [|k ks] i v D HL H; cbn [length] in HL; try lia.
  - cbn. rewrite Rmult_0_l, Rminus_0_r, Rabs_R0. lra.
  - cbn. rewrite Rmult_0_l, Rminus_0_r, Rabs_R0. lra.
  - cbn [comb sum_list asum fold_right]. fold (sum_list ws). fold (asum ws). replace (w * nth i k 0 + comb ws ks i - (w + sum_list ws) * v) with (w * (nth i k 0 - v) + (comb ws ks i - sum_list ws * v)) by ring.
    eapply Rle_trans; [apply Rabs_triang|]. rewrite Rabs_mult, Rmult_plus_distr_r. apply Rplus_le_compat.
    + apply Rmult_le_compat_l; [apply Rabs_pos|]. apply (H 0%nat). cbn [length]. lia.
    + apply IH; [lia|]. intros j HJ. apply (H (S j)). cbn [length]. lia.
Qed.
Lemma rows_bound : forall (rows : list (list R)), exists a, 0 <= a /\ forall i, asum (nth i rows []) <= a.
Proof.
  induction rows as [|r rows (a & Ha & H)]; [exists 0; split; [lra|]; intros [|i]; cbn; lra|]. exists (asum r + a). pose proof (asum_pos r). split; [lra|]. intros [|i]; cbn [nth]; [lra|]. specialize (H i). lra.
Qed.

Section Conv.
Variables (tab : tableau) (n : nat) (f : sys) (L M t1 t2 : R) (y : R -> vec).
Hypothesis (HT : consistent tab) (HF : system n f) (HL : lipschitz_system n f L t1 t2) (HL0 : 0 <= L) (HM0 : 0 <= M) (HY : solves n f t1 t2 y) (HM : smooth_solution n f M t1 t2 y) (H12 : t1 < t2).
Let T := t2 - t1.

Lemma taylor1 : forall t d i, t1 <= t -> 0 <= d -> t + d <= t2 -> (i < n)%nat -> Rabs (nth i (y (t + d)) 0 - nth i (y t) 0 - d * nth i (f t (y t)) 0) <= M * (d * d).
Proof.
  intros t d i Ht Hd Htd Hi. destruct (Req_dec d 0) as [->|Hne].
  - rewrite Rplus_0_r. replace (_ - _ - _) with 0 by ring. rewrite Rabs_R0. lra.
  - destruct (MVT_cor2 (fun s => nth i (y s) 0) (fun s => nth i (f s (y s)) 0) t (t + d)) as (c & E & HC); [lra|intros c HC; apply HY; [lra|exact Hi]|]. rewrite E.
    replace (nth i (f c (y c)) 0 * (t + d - t) - d * nth i (f t (y t)) 0) with ((nth i (f c (y c)) 0 - nth i (f t (y t)) 0) * d) by ring. rewrite Rabs_mult, (Rabs_pos_eq d) by exact Hd.
    pose proof (HM c t ltac:(lra) ltac:(lra) i Hi) as HB. rewrite (Rabs_pos_eq (c - t)) in HB by lra. rewrite <- Rmult_assoc. apply Rmult_le_compat_r; [exact Hd|]. eapply Rle_trans; [exact HB|]. apply Rmult_le_compat_l; lra.
Qed.

Definition started (t h : R) (x : vec) (E : R) (ks : list vec) : Prop :=
  t1 <= t /\ 0 < h /\ t + h <= t2 /\ 0 <= E /\ length x = n /\ close n E x (y t) /\ rk_stages tab f t x h ks.
(** the update with weights [ws] whose sum is [c], against the solution at t + c h *)
Lemma move_close : forall t h x E ks ws c K i, started t h x E ks -> (length ws <= length ks)%nat -> sum_list ws = c -> 0 <= c <= 1 -> (i < n)%nat -> 0 <= K ->
  (forall j, (j < length ws)%nat -> close n (K * (E + h)) (nth j ks []) (f t (y t))) ->
  Rabs (nth i (move x h ws ks) 0 - nth i (y (t + c * h)) 0) <= E + h * (asum ws * (K * (E + h))) + M * (h * h).
Proof.
  intros t h x E ks ws c K i (S1 & S2 & S3 & S4 & S5 & S6 & S7) HW HC H01 Hi HK HS. rewrite move_nth by lia.
  pose proof (comb_close ws ks i (nth i (f t (y t)) 0) (K * (E + h)) HW ltac:(intros j HJ; apply HS; auto)) as B1. rewrite HC in B1.
  pose proof (taylor1 t (c * h) i S1 ltac:(nra) ltac:(nra) Hi) as B2. pose proof (S6 i Hi) as B3. set (v := nth i (f t (y t)) 0) in *. set (cb := comb ws ks i) in *. set (A := asum ws * (K * (E + h))) in *.
  replace (nth i x 0 + h * cb - nth i (y (t + c * h)) 0) with ((nth i x 0 - nth i (y t) 0) + h * (cb - c * v) + - (nth i (y (t + c * h)) 0 - nth i (y t) 0 - c * h * v)) by ring.
  eapply Rle_trans; [apply Rabs_triang|]. rewrite Rabs_Ropp. eapply Rle_trans; [apply Rplus_le_compat_r, Rabs_triang|]. rewrite (Rabs_mult h), (Rabs_pos_eq h) by lra. assert (M * (c * h * (c * h)) <= M * (h * h)) by (apply Rmult_le_compat_l; [exact HM0|]; assert (0 <= c * h <= h) by nra; apply Rmult_le_compat; lra). assert (h * Rabs (cb - c * v) <= h * A) by (apply Rmult_le_compat_l; lra). lra.
Qed.
Lemma stages_close : forall m, (m <= length (tab_c tab))%nat -> exists K, 0 <= K /\ forall t h x E ks, started t h x E ks -> forall j, (j < m)%nat -> close n (K * (E + h)) (nth j ks []) (f t (y t)).
Proof.
  destruct HT as ((E1 & E2 & E3) & HR & HB & HC). destruct (rows_bound (tab_a tab)) as (al & Hal & Hrow).
  induction m as [|m IH]; intros Hm; [exists 0; split; [lra|intros; lia]|]. destruct (IH ltac:(lia)) as (K & HK & IH'). clear IH.
  exists (K + (L * (1 + T * (al * K) + M * T) + M)). assert (HT0 : 0 < T) by (unfold T; lra).
  assert (P0 : 0 <= L * (1 + T * (al * K) + M * T) + M). { assert (0 <= T * (al * K)) by (apply Rmult_le_pos; [lra|apply Rmult_le_pos; auto]). assert (0 <= M * T) by (apply Rmult_le_pos; lra). assert (0 <= L * (1 + T * (al * K) + M * T)) by (apply Rmult_le_pos; lra). lra. }
  split; [lra|]. intros t h x E ks HS j HJ. pose proof HS as (S1 & S2 & S3 & S4 & S5 & S6 & [SL S7]). assert (HTh : h <= T) by (unfold T; lra).
  destruct (Nat.eq_dec j m) as [->|NE].
  - rewrite S7 by lia. set (c := nth m (tab_c tab) 0). pose proof (HC m ltac:(lia)) as Hc. fold c in Hc. set (X := move x h (nth m (tab_a tab) []) ks). intros i Hi.
    assert (HX : close n (E + h * (al * (K * (E + h))) + M * (h * h)) X (y (t + c * h))).
    { intros a Ha. unfold X. eapply Rle_trans; [eapply (move_close t h x E ks (nth m (tab_a tab) []) c K a HS); auto|].
      - rewrite SL. pose proof (E3 m ltac:(lia)). lia.
      - symmetry. apply HR. lia.
      - intros j HJ2. apply (IH' t h x E ks HS). pose proof (E3 m ltac:(lia)). lia.
      - apply Rplus_le_compat_r, Rplus_le_compat_l. apply Rmult_le_compat_l; [lra|]. apply Rmult_le_compat_r; [apply Rmult_le_pos; lra|apply Hrow]. }
    pose proof (HL (t + c * h) X (y (t + c * h)) _ ltac:(nra) ltac:(unfold X; rewrite move_length; exact S5) ltac:(apply HY; nra) HX i Hi) as B1.
    pose proof (HM (t + c * h) t ltac:(nra) ltac:(lra) i Hi) as B2. replace (t + c * h - t) with (c * h) in B2 by ring. rewrite (Rabs_pos_eq (c * h)) in B2 by nra.
    replace (nth i (f (t + c * h) X) 0 - nth i (f t (y t)) 0) with ((nth i (f (t + c * h) X) 0 - nth i (f (t + c * h) (y (t + c * h))) 0) + (nth i (f (t + c * h) (y (t + c * h))) 0 - nth i (f t (y t)) 0)) by ring.
    eapply Rle_trans; [apply Rabs_triang|]. assert (Q1 : h * (al * (K * (E + h))) <= T * (al * K) * (E + h)).
    { replace (T * (al * K) * (E + h)) with (T * (al * (K * (E + h)))) by ring. apply Rmult_le_compat_r; [|lra]. apply Rmult_le_pos; [lra|]. apply Rmult_le_pos; lra. }
    assert (Q2 : M * (h * h) <= M * T * (E + h)). { rewrite Rmult_assoc. apply Rmult_le_compat_l; [lra|]. nra. }
    assert (Q3 : M * (c * h) <= M * (E + h)). { apply Rmult_le_compat_l; [lra|]. nra. }
    assert (Q4 : L * (E + h * (al * (K * (E + h))) + M * (h * h)) <= L * ((1 + T * (al * K) + M * T) * (E + h))). { apply Rmult_le_compat_l; [exact HL0|]. lra. }
    assert (0 <= K * (E + h)) by (apply Rmult_le_pos; lra). lra.
  - intros i Hi. pose proof (IH' t h x E ks HS j ltac:(lia) i Hi). assert (0 <= (L * (1 + T * (al * K) + M * T) + M) * (E + h)) by (apply Rmult_le_pos; lra). lra.
Qed.
Lemma one_step : exists a c, 0 <= a /\ 0 <= c /\ forall t h x E y1, t1 <= t -> 0 < h -> t + h <= t2 -> 0 <= E -> length x = n -> close n E x (y t) -> rk_step tab f t x h y1 ->
  close n ((1 + a * h) * E + c * (h * h)) y1 (y (t + h)).
Proof.
  destruct (stages_close (length (tab_c tab)) (Nat.le_refl _)) as (K & HK & HS). destruct HT as ((E1 & E2 & E3) & HR & HB & HC). pose proof (asum_pos (tab_b tab)) as HA. exists (asum (tab_b tab) * K), (asum (tab_b tab) * K + M).
  assert (0 <= asum (tab_b tab) * K) by (apply Rmult_le_pos; auto). split; [auto|]. split; [lra|]. intros t h x E y1 S1 S2 S3 S4 S5 S6 (ks & S7 & ->) i Hi.
  assert (HST : started t h x E ks) by (repeat split; auto; apply S7). pose proof S7 as [SL _].
  pose proof (move_close t h x E ks (tab_b tab) 1 K i HST ltac:(lia) HB ltac:(lra) Hi HK ltac:(intros j HJ; apply (HS t h x E ks HST); lia)) as B. rewrite Rmult_1_l in B. eapply Rle_trans; [exact B|]. apply Req_le. ring.
Qed.
Lemma gronwall : forall a c, 0 <= a -> 0 <= c -> forall h N e, 0 < h -> (forall k, (k < N)%nat -> e (S k) <= (1 + a * h) * e k + c * (h * h)) -> e 0%nat = 0 -> forall k, (k <= N)%nat -> e k <= c * (h * h) * INR k * (1 + a * h) ^ k.
Proof.
  intros a c Ha Hc h N e Hh HS H0. induction k as [|k IH]; intros HK; [cbn [INR]; rewrite H0; lra|]. specialize (HS k ltac:(lia)). specialize (IH ltac:(lia)). eapply Rle_trans; [exact HS|].
  assert (P : 1 <= 1 + a * h) by nra. assert (PK : 1 <= (1 + a * h) ^ k) by (apply pow_R1_Rle; exact P). rewrite S_INR. cbn [pow]. set (u := 1 + a * h) in *. set (w := u ^ k) in *.
  assert (U : u * e k <= u * (c * (h * h) * INR k * w)) by (apply Rmult_le_compat_l; lra). assert (V : c * (h * h) <= c * (h * h) * (u * w)) by (assert (1 <= u * w) by nra; assert (0 <= c * (h * h)) by (apply Rmult_le_pos; nra); nra).
  replace (c * (h * h) * (INR k + 1) * (u * w)) with (u * (c * (h * h) * INR k * w) + c * (h * h) * (u * w)) by ring. lra.
Qed.
Lemma converge : exists C, 0 <= C /\ forall N xs, (0 < N)%nat -> chain (fun t x z => rk_step tab f t x (T / INR N) z) (y t1) t1 (T / INR N) N xs -> (forall k, (k <= N)%nat -> length (xs k) = n) ->
  forall k, (k <= N)%nat -> close n (C / INR N) (xs k) (y (t1 + INR k * (T / INR N))).
Proof.
  destruct one_step as (a & c & Ha & Hc & HS). exists (c * (T * T) * exp (a * T)). assert (HT0 : 0 < T) by (unfold T; lra). pose proof (exp_pos (a * T)) as HE.
  split; [apply Rmult_le_pos; [apply Rmult_le_pos; [exact Hc|nra]|lra]|]. intros N xs HN [C0 CS] CL.
  assert (HI : 0 < INR N) by (apply lt_0_INR; exact HN). set (h := T / INR N) in *. assert (Hh : 0 < h) by (apply Rdiv_lt_0_compat; auto). assert (ET : INR N * h = T) by (unfold h; field; lra).
  set (e := fun k => Nat.iter k (fun E => (1 + a * h) * E + c * (h * h)) 0). 
  assert (Pc : 0 <= c * (h * h)) by (apply Rmult_le_pos; [exact Hc|nra]). assert (Pa : 0 <= a * h) by (apply Rmult_le_pos; lra).
  assert (ES : forall k, e (S k) = (1 + a * h) * e k + c * (h * h)) by reflexivity.
  assert (EP : forall k, 0 <= e k). { induction k as [|k IHk]; [unfold e; cbn; lra|]. rewrite ES. assert (0 <= (1 + a * h) * e k) by (apply Rmult_le_pos; lra). lra. }
  assert (EC : forall k, (k <= N)%nat -> close n (e k) (xs k) (y (t1 + INR k * h))).
  { induction k as [|k IH]; intros HK.
    - intros i Hi. cbn [INR]. rewrite Rmult_0_l, Rplus_0_r, C0, Rminus_eq_0, Rabs_R0. apply EP.
    - assert (HKN : INR (S k) <= INR N) by (apply le_INR; lia). pose proof (pos_INR k). replace (t1 + INR (S k) * h) with (t1 + INR k * h + h) by (rewrite S_INR; ring). rewrite S_INR in HKN.
      assert (INR k * h + h <= T) by (rewrite <- ET; nra). apply (HS (t1 + INR k * h) h (xs k) (e k)); try (unfold T in *; nra); [apply EP|apply CL; lia|apply IH; lia|apply CS; lia]. }
  intros k HK i Hi. eapply Rle_trans; [apply EC; auto|]. eapply Rle_trans; [apply (gronwall a c Ha Hc h N e Hh); [intros; rewrite ES; lra|reflexivity|exact HK]|].
  assert (HKN : INR k <= INR N) by (apply le_INR; lia). pose proof (pos_INR k) as HK0. assert (KH : INR k * h <= T) by (rewrite <- ET; nra).
  assert (PE : (1 + a * h) ^ k <= exp (a * T)).
  { assert (Q : (1 + a * h) ^ k <= exp (INR k * (a * h))).
    { clear - Ha Hh. induction k as [|k IH]; [cbn [pow INR]; rewrite Rmult_0_l, exp_0; lra|]. rewrite S_INR, Rmult_plus_distr_r, Rmult_1_l, exp_plus. cbn [pow]. pose proof (exp_ineq1_le (a * h)). assert (0 <= a * h) by nra. rewrite (Rmult_comm (exp _)). apply Rmult_le_compat; auto; try lra. apply pow_le. lra. }
    eapply Rle_trans; [exact Q|]. assert (QQ : INR k * (a * h) <= a * T) by nra. destruct QQ as [QQ|QQ]; [left; apply exp_increasing; exact QQ|rewrite QQ; lra]. }
  replace (c * (T * T) * exp (a * T) / INR N) with (c * (h * T) * exp (a * T)) by (unfold h; field; lra).
  assert (0 <= (1 + a * h) ^ k) by (apply pow_le; nra). apply Rmult_le_compat; auto.
  - apply Rmult_le_pos; [apply Rmult_le_pos; nra|exact HK0].
  - rewrite Rmult_assoc. apply Rmult_le_compat_l; [exact Hc|]. nra.
Qed.
End Conv.

(** ** The theorem: with any step calculator that computes a consistent method, the error at every saved point is at most C / N *)
Theorem C77_convergence : forall tab step n f L M t1 t2 y, consistent tab -> system n f -> (0 < n)%nat -> 0 <= L -> 0 <= M -> t1 < t2 ->
  lipschitz_system n f L t1 t2 -> solves n f t1 t2 y -> smooth_solution n f M t1 t2 y ->
  (forall h, implements step n f h (fun t x z => rk_step tab f t x h z)) ->
  exists C, 0 <= C /\ forall N, (0 < N)%nat -> dims_fit n (N + 1) -> exists S, integrate Rarith step f n (y t1) t1 t2 (Z.of_nat N) = Ok S /\
    forall k i, (k <= N)%nat -> (i < n)%nat -> exists v, getTValue S (Z.of_nat k) = Ok (t1 + INR k * ((t2 - t1) / INR N)) /\ getXValue S (Z.of_nat k) (Z.of_nat i) = Ok v /\
      Rabs (v - nth i (y (t1 + INR k * ((t2 - t1) / INR N))) 0) <= C / INR N.
Proof.
  intros tab step n f L M t1 t2 y HT HF Hn HL0 HM0 H12 HL HY HM HI. destruct (converge tab n f L M t1 t2 y HT HL HL0 HM0 HY HM H12) as (C & HC & H). exists C. split; [exact HC|]. intros N HN HD.
  destruct (C75_integrate step n f _ (y t1) t1 t2 N Hn HD (proj1 (HY t1 ltac:(lra))) (HI _)) as (S & E & xs & HCh & HLen & HSh & _). exists S. split; [exact E|]. intros k i HK Hi.
  destruct HSh as (_ & SG & _). destruct (SG (Z.of_nat k)) as (t & x & EN & ET & EX).
  { unfold points. rewrite map_length, seq_length. lia. }
  unfold points in EN. rewrite Nat2Z.id, nth_error_map, (nth_error_nth' _ 0%nat) in EN by (rewrite seq_length; lia). rewrite seq_nth in EN by lia. cbn [option_map Nat.add] in EN. injection EN as <- <-.
  destruct (EX (Z.of_nat i)) as (v & EV & EG). { rewrite HLen by exact HK. lia. }
  exists v. split; [exact ET|]. split; [exact EG|]. rewrite Nat2Z.id in EV. rewrite <- (nth_error_nth _ _ 0 EV). apply (H N xs HN HCh HLen k HK i Hi).
Qed.
Theorem C77_methods : consistent euler_tab /\ consistent heun_tab /\ consistent midpoint_tab /\ consistent rk4_tab /\ consistent ck_tab /\ consistent dp5_tab.
Proof.
  destruct C76_explicit as (X1 & X2 & X3 & X4 & X5 & X6 & _). destruct C76_row_sums as (R1 & R2 & R3 & R4 & R5 & R6).
  repeat (split; [split; [assumption|split; [assumption|split; [cbn; lra|intros i HI; cbn in HI; do 8 (destruct i as [|i]; [cbn; lra|]); lia]]]|]).
  split; [assumption|split; [assumption|split; [cbn; lra|intros i HI; cbn in HI; do 8 (destruct i as [|i]; [cbn; lra|]); lia]]].
Qed.
