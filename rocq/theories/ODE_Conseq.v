(** * C76 (third part): what the order conditions give — exact quadrature, and Taylor polynomials on linear systems *)
From Coq Require Import List Bool Arith ZArith Reals Lia Lra.
From Verif Require Import Base Num Mat_Model Mat_Proofs RootFind_Model RootFind_Proofs Interp_Bary Integ_Trap ODE_Model ODE_Spec ODE_RK ODE_Order.
Import ListNotations.
Local Open Scope R_scope.
Local Notation sum := (sumn Rnum).

Lemma comb_dot : forall ws ks i, comb ws ks i = dot ws (map (fun k => nth i k 0) ks).
Proof. induction ws as [|w ws IH]; intros [|k ks] i; cbn [comb dot map]; try reflexivity. rewrite IH. reflexivity. Qed.
Lemma dot_ext : forall ws X (g h : X -> R) l, (forall x, In x l -> g x = h x) -> dot ws (map g l) = dot ws (map h l).
Proof. intros ws X g h l H. f_equal. apply map_ext_in. exact H. Qed.
Lemma dot_sum : forall ws X N (g : nat -> X -> R) l, dot ws (map (fun x => sum N (fun m => g m x)) l) = sum N (fun m => dot ws (map (g m) l)).
Proof.
  intros ws X N g. induction ws as [|w ws IH]; intros [|x l]; cbn [dot map]; try (symmetry; apply sum_zero_R; reflexivity). rewrite IH, sum_mul_R, <- sum_plus. reflexivity.
Qed.
Lemma dot_scal : forall ws X a (g : X -> R) l, dot ws (map (fun x => a * g x) l) = a * dot ws (map g l).
Proof. induction ws as [|w ws IH]; intros X a g [|x l]; cbn [dot map]; try ring. rewrite IH. ring. Qed.
Lemma dot_seq : forall s ws (g : nat -> R), (length ws <= s)%nat -> dot ws (map g (seq 0 s)) = sum (length ws) (fun j => nth j ws 0 * g j).
Proof.
  assert (G : forall ws s b (g : nat -> R), (length ws <= s)%nat -> dot ws (map g (seq b s)) = sum (length ws) (fun j => nth j ws 0 * g (b + j)%nat)).
  { induction ws as [|w ws IH]; intros [|s] b g H; cbn [length] in *; try lia; [reflexivity|reflexivity|]. cbn [seq map dot]. rewrite IH by lia. rewrite sumS_l. cbn [nth]. rewrite Nat.add_0_r. f_equal.
    apply sum_ext_R. intros i HI. replace (b + S i)%nat with (S b + i)%nat by lia. reflexivity. }
  intros s ws g H. rewrite G by auto. reflexivity.
Qed.
Lemma comb_seq : forall ws ks i s, (length ks <= s)%nat -> (length ws <= length ks)%nat -> comb ws ks i = dot ws (map (fun j => nth i (nth j ks []) 0) (seq 0 s)).
Proof.
  intros ws ks i s HS HW. rewrite comb_dot. rewrite (map_nth_seq _ _ (fun k => nth i k 0) [] ks). rewrite !dot_seq by lia. reflexivity.
Qed.

(** ** Quadrature: right-hand sides that are polynomials in t *)
Definition bushy (k : nat) : tree := Node (repeat (Node []) k).
Lemma bushy_order : forall k, order (bushy k) = S k.
Proof. intros k. cbn [bushy order]. f_equal. induction k; cbn [repeat fold_right order]; [reflexivity|]. rewrite IHk. reflexivity. Qed.
Lemma bushy_density : forall k, density (bushy k) = Z.of_nat (S k).
Proof.
  intros k. pose proof (bushy_order k) as HO. unfold bushy in *. cbn [density]. rewrite HO. assert (E : fold_right (fun t n => (density t * n)%Z) 1%Z (repeat (Node []) k) = 1%Z) by (clear; induction k; cbn [repeat fold_right]; [reflexivity|]; rewrite IHk; reflexivity). rewrite E. lia.
Qed.
Lemma dot_ones : forall l s, (length l <= s)%nat -> dot l (map (fun _ => 1) (seq 0 s)) = sum_list l.
Proof.
  assert (G : forall l s b, (length l <= s)%nat -> dot l (map (fun _ => 1) (seq b s)) = sum_list l).
  { induction l as [|a l IH]; intros [|s] b H; cbn [length] in *; try lia; [reflexivity|reflexivity|]. cbn [seq map dot sum_list fold_right]. rewrite IH by lia. unfold sum_list. ring. }
  intros. apply G. auto.
Qed.
Lemma bushy_stage : forall tab, explicit tab -> row_sums tab -> forall k i, (i < length (tab_c tab))%nat -> stage_weight (tab_a tab) (bushy k) i = nth i (tab_c tab) 0 ^ k.
Proof.
  intros tab (H1 & H2 & H3) HR k i HI. unfold bushy. cbn [stage_weight]. induction k as [|k IH]; cbn [repeat fold_right]; [reflexivity|]. rewrite IH. cbn [pow]. f_equal.
  rewrite HR by exact HI. apply dot_ones. specialize (H3 i HI). lia.
Qed.
Lemma bushy_weight : forall tab k, explicit tab -> row_sums tab -> elementary_weight tab (bushy k) = dot (tab_b tab) (map (fun c => c ^ k) (tab_c tab)).
Proof.
  intros tab k HE HR. unfold elementary_weight. rewrite (map_nth_seq _ _ (fun c => c ^ k) 0). pose proof HE as (-> & H2 & _). apply dot_ext. intros i HI. apply in_seq in HI. apply bushy_stage; auto. lia.
Qed.
Theorem C76_quadrature : forall tab p f t x h y i a, explicit tab -> row_sums tab -> has_order tab p -> rk_step tab f t x h y -> (i < length x)%nat ->
  (forall s v, nth i (f (t + s) v) 0 = sum p (fun k => a k * s ^ k)) -> nth i y 0 = nth i x 0 + sum p (fun k => a k * h ^ S k / INR (S k)).
Proof.
  intros tab p f t x h y i a HE HR HO (ks & [HL HK] & ->) HI HF. rewrite move_nth by exact HI. f_equal. pose proof HE as (E1 & E2 & _). rewrite comb_dot, (map_nth_seq _ _ (fun k => nth i k 0) [] ks), HL.
  rewrite (dot_ext _ _ _ (fun j => sum p (fun k => (a k * h ^ k) * nth j (tab_c tab) 0 ^ k))).
  - rewrite dot_sum, sum_mul_R. apply sum_ext_R. intros k HK'. rewrite dot_scal. specialize (HO (bushy k)). rewrite bushy_order, bushy_density, bushy_weight in HO by auto.
    rewrite (map_nth_seq _ _ (fun c => c ^ k) 0) in HO. rewrite HO by lia. rewrite <- INR_IZR_INZ. cbn [pow]. field. apply not_0_INR. lia.
  - intros j HJ. apply in_seq in HJ. rewrite HK by lia. rewrite HF. apply sum_ext_R. intros k _. rewrite Rpow_mult_distr. ring.
Qed.

(** ** Linear systems x' = M x *)
Definition linear_system (n : nat) (m : nat -> nat -> R) (f : sys) : Prop :=
  system n f /\ forall t x i, length x = n -> (i < n)%nat -> nth i (f t x) 0 = sum n (fun j => m i j * nth j x 0).
(** M^k x *)
Fixpoint power (f : sys) (k : nat) (x : vec) : vec := match k with O => x | S k => f 0 (power f k x) end.
Fixpoint tall (k : nat) : tree := match k with O => Node [] | S k => Node [tall k] end.
Lemma tall_order : forall k, order (tall k) = S k.
Proof. induction k; cbn [tall order fold_right]; [reflexivity|]. rewrite IHk. lia. Qed.
Lemma tall_density : forall k, density (tall k) = Z.of_nat (fact (S k)).
Proof.
  induction k; [reflexivity|]. pose proof (tall_order (S k)) as HO. cbn [tall] in *. cbn [density fold_right]. rewrite HO, IHk. change (fact (S (S k))) with (S (S k) * fact (S k))%nat. rewrite Nat2Z.inj_mul. ring.
Qed.
Section Linear.
Variables (tab : tableau) (n : nat) (m : nat -> nat -> R) (f : sys) (t : R) (x : vec) (h : R) (ks : list vec).
Hypothesis (HE : explicit tab) (HF : linear_system n m f) (HX : length x = n) (HK : rk_stages tab f t x h ks).
Let s := length (tab_c tab).
Let W (k j : nat) : R := stage_weight (tab_a tab) (tall k) j.
Lemma power_length : forall k, length (power f k x) = n.
Proof. induction k; [exact HX|]. cbn [power]. apply (proj1 HF). exact IHk. Qed.
Lemma W_S : forall k j, W (S k) j = dot (nth j (tab_a tab) []) (map (W k) (seq 0 s)).
Proof. intros k j. unfold W. cbn [tall stage_weight fold_right]. rewrite (proj1 HE). rewrite Rmult_1_r. reflexivity. Qed.
Lemma W_0 : forall j, W 0 j = 1. Proof. reflexivity. Qed.
Lemma W_zero : forall k j, (j < s)%nat -> (j < k)%nat -> W k j = 0.
Proof.
  induction k as [|k IH]; intros j HJ HJK; [lia|]. rewrite W_S. destruct HE as (E1 & E2 & E3). specialize (E3 j HJ). rewrite dot_seq by (fold s in E3; lia). apply sum_zero_R. intros i HI. rewrite IH by lia. ring.
Qed.
Lemma stage_linear : forall j i, (j < s)%nat -> (i < n)%nat -> nth i (nth j ks []) 0 = sum (S s) (fun k => h ^ k * W k j * nth i (power f (S k) x) 0).
Proof.
  induction j as [j IH] using (well_founded_induction lt_wf). intros i HJ HI. destruct HK as [HL HK']. destruct HE as (E1 & E2 & E3). pose proof (E3 j HJ) as E4. fold s in HL.
  rewrite HK' by lia. destruct HF as [HS HM]. rewrite HM by (auto; rewrite move_length; exact HX).
  assert (EA : forall a, (a < n)%nat -> comb (nth j (tab_a tab) []) ks a = sum (S s) (fun k => h ^ k * W (S k) j * nth a (power f (S k) x) 0)).
  { intros a HA. rewrite (comb_seq _ _ _ s) by lia. rewrite dot_seq by lia.
    rewrite (sum_ext_R _ _ (fun i0 => sum (S s) (fun k => h ^ k * nth a (power f (S k) x) 0 * (nth i0 (nth j (tab_a tab) []) 0 * W k i0)))).
    - rewrite sum_swap_R. apply sum_ext_R. intros k _. rewrite W_S, dot_seq by lia. rewrite <- sum_mul_R. ring.
    - intros i0 HI0. rewrite IH by (lia || assumption). rewrite sum_mul_R. apply sum_ext_R. intros k _. ring. }
  rewrite (sum_ext_R _ _ (fun a => m i a * nth a x 0 + sum (S s) (fun k => h * h ^ k * W (S k) j * (m i a * nth a (power f (S k) x) 0)))).
  2:{ intros a HA. rewrite move_nth by lia. rewrite EA by exact HA. rewrite sum_mul_R, Rmult_plus_distr_l, sum_mul_R. f_equal. apply sum_ext_R. intros k _. ring. }
  rewrite sum_plus, sum_swap_R. rewrite (sumS_l s (fun k => h ^ k * W k j * nth i (power f (S k) x) 0)). f_equal.
  - rewrite W_0. cbn [pow power]. rewrite HM by auto. ring.
  - rewrite sumS, W_zero by lia. rewrite (sum_zero_R n (fun i0 => h * h ^ s * 0 * _)) by (intros; ring). rewrite Rplus_0_r. apply sum_ext_R. intros k HK2. cbn [power]. rewrite (HM 0 (f 0 (power f k x))) by (auto; apply (power_length (S k))).
    rewrite <- sum_mul_R. cbn [pow]. ring.
Qed.
End Linear.
(** one step multiplies by a polynomial in h M whose coefficients up to the order are those of the exponential *)
Theorem C76_linear : forall tab p, explicit tab -> has_order tab p -> exists w : nat -> R, (forall k, (k <= p)%nat -> w k = / INR (fact k)) /\
  forall n m f t x h y i, linear_system n m f -> length x = n -> rk_step tab f t x h y -> (i < n)%nat ->
    nth i y 0 = sum (length (tab_c tab) + 2) (fun k => w k * h ^ k * nth i (power f k x) 0).
Proof.
  intros tab p HE HO. exists (fun k => match k with O => 1 | S k => elementary_weight tab (tall k) end). split.
  - intros [|k] HK; [cbn; lra|]. rewrite HO by (rewrite tall_order; lia). rewrite tall_density, <- INR_IZR_INZ. reflexivity.
  - intros n m f t x h y i HF HX (ks & HK & ->) HI. rewrite move_nth by lia. rewrite Nat.add_comm. change (2 + length (tab_c tab))%nat with (S (S (length (tab_c tab)))). rewrite (sumS_l (S _)). f_equal; [cbn [pow power]; ring|].
    pose proof HE as (E1 & E2 & _). pose proof HK as [HL _]. rewrite (comb_seq _ _ _ (length (tab_c tab))) by lia. rewrite dot_seq by lia.
    rewrite (sum_ext_R _ _ (fun j => sum (S (length (tab_c tab))) (fun k => h ^ k * nth i (power f (S k) x) 0 * (nth j (tab_b tab) 0 * stage_weight (tab_a tab) (tall k) j)))).
    + rewrite sum_swap_R, sum_mul_R. apply sum_ext_R. intros k _. rewrite <- sum_mul_R. unfold elementary_weight. rewrite E1, dot_seq by lia. cbn [pow]. ring.
    + intros j HJ. rewrite (stage_linear tab n m f t x h ks HE HF HX HK j i) by lia. rewrite sum_mul_R. apply sum_ext_R. intros k _. ring.
Qed.

(** ** Shape of the tableaus *)
Ltac rows := intros i HI; cbn in HI; do 14 (destruct i as [|i]; [cbn; first [lia|lra]|]); lia.
Theorem C76_explicit : explicit euler_tab /\ explicit heun_tab /\ explicit midpoint_tab /\ explicit rk4_tab /\ explicit ck_tab /\ explicit dp5_tab /\ explicit dp8_tab.
Proof. repeat split; rows. Qed.
Theorem C76_row_sums : row_sums euler_tab /\ row_sums heun_tab /\ row_sums midpoint_tab /\ row_sums rk4_tab /\ row_sums ck_tab /\ row_sums dp5_tab.
Proof. repeat split; rows. Qed.
(** the last stage of Dormand-Prince 5 is the derivative at the result, ready for the next step *)
Theorem C76_fsal : forall f t x h ks, rk_stages dp5_tab f t x h ks -> nth 6 ks [] = f (t + h) (move x h (tab_b dp5_tab) ks).
Proof.
  intros f t x h ks [HL HK]. cbn [dp5_tab tab_c dp5_c length] in HL. rewrite (HK 6%nat) by lia. cbn [dp5_tab tab_c tab_a tab_b dp5_c dp5_a nth].
  destruct ks as [|k1 [|k2 [|k3 [|k4 [|k5 [|k6 [|k7 [|k8 ks]]]]]]]]; try discriminate HL. f_equal; [rnum; ring|]. apply move_eq. intros i HI. cbn [dp5_b comb]. rnum. ring.
Qed.
