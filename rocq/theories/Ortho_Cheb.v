(** * C90: the Chebyshev weights; associated Legendre functions; the loops of the code *)

From Coq Require Import List Arith ZArith Reals Lia Lra Psatz.
From Verif Require Import Base Num RootFind_Model RootFind_Proofs Fourier_Model Fourier_Spec Interp_Linear Interp_Bary Cheb_Spec Cheb_Math Ortho_Model Ortho_Spec Ortho_Math Ortho_Fam.
Import ListNotations.
Local Open Scope R_scope.

(** ** Integrals in the angle *)
Lemma acos_lim : forall x, -1 < x < 1 -> derivable_pt_lim acos x (-1 / sqrt (1 - x * x)).
Proof. intros x Hx. pose proof (derive_pt_acos x Hx) as E. apply derive_pt_eq_1 in E. exact E. Qed.
Lemma acos_hi : forall G l e, derivable_pt_lim G 0 l -> 0 < e -> near_hi (Fin 1) (fun x => Rabs (G (acos x) - G 0) < e).
Proof.
  intros G l e HG He. pose proof PI_RGT_0. destruct (cont_lo G 0 l HG e He) as (d & Hd & HD). set (d' := Rmin d PI). assert (0 < d' <= PI /\ d' <= d) as [? ?].
  { unfold d'. pose proof (Rmin_l d PI). pose proof (Rmin_r d PI). split; [split|]; auto. apply Rmin_pos; auto. }
  assert (C1 : cos d' < 1) by (rewrite <- cos_0; apply cos_decreasing_1; lra). pose proof (COS_bound d').
  exists (1 - cos d'). split; [lra|]. intros x Hx. pose proof (acos_bound_lt x ltac:(lra)) as B. apply HD. split; [lra|].
  destruct (Rlt_dec (acos x) d') as [|N]; [lra|]. exfalso. assert (cos (acos x) <= cos d') by (apply cos_decr_1; lra). rewrite cos_acos in H3 by lra. lra.
Qed.
Lemma acos_lo : forall G l e, derivable_pt_lim G PI l -> 0 < e -> near_lo (Fin (-1)) (fun x => Rabs (G (acos x) - G PI) < e).
Proof.
  intros G l e HG He. pose proof PI_RGT_0. destruct (cont_hi G PI l HG e He) as (d & Hd & HD). set (d' := Rmin d PI). assert (0 < d' <= PI /\ d' <= d) as [? ?].
  { unfold d'. pose proof (Rmin_l d PI). pose proof (Rmin_r d PI). split; [split|]; auto. apply Rmin_pos; auto. }
  assert (C1 : -1 < cos (PI - d')) by (rewrite <- cos_PI; apply cos_decreasing_1; lra). pose proof (COS_bound (PI - d')).
  exists (cos (PI - d') + 1). split; [lra|]. intros x Hx. pose proof (acos_bound_lt x ltac:(lra)) as B. apply HD. split; [|lra].
  destruct (Rlt_dec (PI - d') (acos x)) as [|N]; [lra|]. exfalso. assert (cos (PI - d') <= cos (acos x)) by (apply cos_decr_1; lra). rewrite cos_acos in H3 by lra. lra.
Qed.
Lemma angle_integral : forall G g, (forall t, derivable_pt_lim G t (g t)) -> integral (Fin (-1)) (Fin 1) (fun x => - g (acos x) / sqrt (1 - x * x)) (G 0 - G PI).
Proof.
  intros G g HG. exists (fun x => G (acos x)), (G PI), (G 0). split; [|split; [|split; [|reflexivity]]].
  - intros x [H1 H2]. replace (- g (acos x) / sqrt (1 - x * x)) with (g (acos x) * (-1 / sqrt (1 - x * x))) by (unfold Rdiv; ring). apply (derivable_pt_lim_comp acos G); [apply acos_lim; split; auto|apply HG].
  - intros e He. apply (acos_lo G _ e (HG PI) He).
  - intros e He. apply (acos_hi G _ e (HG 0) He).
Qed.

(** ** Chebyshev polynomials *)
Definition ta (n : nat) : R := match n with 0%nat => 1 | S _ => 2 end.
Definition ua (n : nat) : R := 2.
Definition tc (n : nat) : R := -1.
Lemma ta_nz : forall n, ta n <> 0. Proof. intros [|n]; cbn; lra. Qed.
Lemma ttr_T : forall n x, ttr ta zero_c tc n x = cT n x.
Proof.
  intros n x. enough (ttr ta zero_c tc n x = cT n x /\ ttr ta zero_c tc (S n) x = cT (S n) x) by tauto. induction n as [|n [I1 I2]]; [cbn; unfold zero_c; split; ring|]. split; auto.
  rewrite ttr_S. cbn [prev]. rewrite I1, I2, cT_SS. cbn [ta]. unfold zero_c, tc. ring.
Qed.
Lemma ttr_U : forall n x, ttr ua zero_c tc n x = cU n x.
Proof.
  intros n x. enough (ttr ua zero_c tc n x = cU n x /\ ttr ua zero_c tc (S n) x = cU (S n) x) by tauto. induction n as [|n [I1 I2]]; [cbn; unfold zero_c, ua; split; ring|]. split; auto.
  rewrite ttr_S. cbn [prev]. rewrite I1, I2, cU_SS. unfold zero_c, tc, ua. ring.
Qed.
Lemma cU_sin : forall k t, cU k (cos t) * sin t = sin ((INR k + 1) * t).
Proof.
  intros k t. enough (cU k (cos t) * sin t = sin ((INR k + 1) * t) /\ cU (S k) (cos t) * sin t = sin ((INR (S k) + 1) * t)) by tauto. induction k as [|k [I1 I2]].
  - cbn. split; [rewrite Rmult_1_l; f_equal; ring|]. replace ((1 + 1) * t) with (2 * t) by ring. rewrite sin_2a. ring.
  - split; auto. rewrite cU_SS. replace ((2 * cos t * cU (S k) (cos t) - cU k (cos t)) * sin t) with (2 * cos t * (cU (S k) (cos t) * sin t) - cU k (cos t) * sin t) by ring. rewrite I1, I2.
    replace ((INR (S (S k)) + 1) * t) with ((INR (S k) + 1) * t + t) by (rewrite (S_INR (S k)); ring). replace ((INR k + 1) * t) with ((INR (S k) + 1) * t - t) by (rewrite S_INR; ring). rewrite sin_plus, sin_minus. ring.
Qed.
Lemma sinc_deriv : forall k t, derivable_pt_lim (fun t => match k with 0%nat => t | S _ => sin (INR k * t) / INR k end) t (cos (INR k * t)).
Proof.
  intros [|k] t; [cbn [INR]; rewrite Rmult_0_l, cos_0; apply derivable_pt_lim_id|]. assert (INR (S k) <> 0) by (apply not_0_INR; lia).
  replace (cos (INR (S k) * t)) with (/ INR (S k) * (cos (INR (S k) * t) * (INR (S k) * 1))) by (field; auto).
  replace (fun t => sin (INR (S k) * t) / INR (S k)) with (fun t => / INR (S k) * sin (INR (S k) * t)) by (apply FunctionalExtensionality.functional_extensionality; intros; unfold Rdiv; ring).
  apply (derivable_pt_lim_scal (fun t => sin (INR (S k) * t))). apply (derivable_pt_lim_comp (fun t => INR (S k) * t) sin); [apply (derivable_pt_lim_scal id); apply derivable_pt_lim_id|apply derivable_pt_lim_sin].
Qed.
Lemma sin_kPI : forall k, sin (INR k * PI) = 0.
Proof. intros k. apply sin_eq_0_1. exists (Z.of_nat k). rewrite <- INR_IZR_INZ. reflexivity. Qed.
Lemma sinc_PI : forall k, match k with 0%nat => PI | S _ => sin (INR k * PI) / INR k end = if (k =? 0)%nat then PI else 0.
Proof. intros [|k]; auto. rewrite sin_kPI. cbn [Nat.eqb]. unfold Rdiv. ring. Qed.
Lemma sinc_0 : forall k, match k with 0%nat => 0 | S _ => sin (INR k * 0) / INR k end = 0.
Proof. intros [|k]; auto. rewrite Rmult_0_r, sin_0. unfold Rdiv. ring. Qed.
Lemma sin_acos' : forall x, -1 < x < 1 -> sin (acos x) = sqrt (1 - x * x) /\ 0 < sqrt (1 - x * x).
Proof. intros x Hx. split; [rewrite sin_acos by lra; reflexivity|]. apply sqrt_lt_R0. nra. Qed.
Lemma T_base : forall n, integral (Fin (-1)) (Fin 1) (fun x => ttr ta zero_c tc n x * (1 / sqrt (1 - x * x))) (if (n =? 0)%nat then PI else 0).
Proof.
  intros n. set (G := fun t => match n with 0%nat => t | S _ => sin (INR n * t) / INR n end).
  apply (integral_ext _ _ (fun x => (-1) * (- cos (INR n * acos x) / sqrt (1 - x * x))) _ (-1 * (G 0 - G PI))).
  - intros x [H1 H2]. rewrite ttr_T. pose proof (cT_cos n (acos x)) as C. rewrite cos_acos in C by lra. rewrite C. unfold Rdiv. ring.
  - unfold G. rewrite sinc_PI, sinc_0. ring.
  - apply (integral_scal _ _ (fun x => - cos (INR n * acos x) / sqrt (1 - x * x))). apply (angle_integral G (fun t => cos (INR n * t))). intros t. apply sinc_deriv.
Qed.
Lemma U_base : forall n, integral (Fin (-1)) (Fin 1) (fun x => ttr ua zero_c tc n x * sqrt (1 - x * x)) (if (n =? 0)%nat then PI / 2 else 0).
Proof.
  intros n. set (G := fun k t => match k with 0%nat => t | S _ => sin (INR k * t) / INR k end).
  apply (integral_ext _ _ (fun x => / 2 * (- cos (INR (S (S n)) * acos x) / sqrt (1 - x * x)) + - / 2 * (- cos (INR n * acos x) / sqrt (1 - x * x))) _
          (/ 2 * (G (S (S n)) 0 - G (S (S n)) PI) + - / 2 * (G n 0 - G n PI))).
  - intros x [H1 H2]. rewrite ttr_U. destruct (sin_acos' x ltac:(lra)) as [E P0]. pose proof (cU_sin n (acos x)) as U1. rewrite cos_acos in U1 by lra. rewrite E in U1.
    replace (INR (S (S n)) * acos x) with ((INR n + 1) * acos x + acos x) by (rewrite !S_INR; ring). replace (INR n * acos x) with ((INR n + 1) * acos x - acos x) by ring.
    rewrite cos_plus, cos_minus, E, <- U1. field. lra.
  - pose proof (sinc_PI n) as E1. pose proof (sinc_0 n) as E2. pose proof (sinc_PI (S (S n))) as E3. pose proof (sinc_0 (S (S n))) as E4. unfold G. rewrite E1, E2, E3, E4. cbn [Nat.eqb]. destruct (n =? 0)%nat; field.
  - apply integral_lin; [apply (angle_integral (G (S (S n))) (fun t => cos (INR (S (S n)) * t))); intros t; apply (sinc_deriv (S (S n)))|apply (angle_integral (G n) (fun t => cos (INR n * t))); intros t; apply (sinc_deriv n)].
Qed.
Lemma T_hh : forall n, hh ta tc PI n = if (n =? 0)%nat then PI else PI / 2.
Proof. induction n as [|n IH]; auto. cbn [hh]. rewrite IH. unfold tc. destruct n as [|n]; cbn [Nat.eqb ta]; field. Qed.
Lemma U_hh : forall n, hh ua tc (PI / 2) n = PI / 2.
Proof. induction n as [|n IH]; auto. cbn [hh]. rewrite IH. unfold tc, ua. field. Qed.

(** ** Associated Legendre functions *)
Local Notation dP := (dtt la zero_c lc).
Lemma dtt_high : forall a b c n m x, (n < m)%nat -> dtt a b c m n x = 0.
Proof.
  intros a b c n. enough (forall m x, ((n < m)%nat -> dtt a b c m n x = 0) /\ ((S n < m)%nat -> dtt a b c m (S n) x = 0)) by (intros; apply H; auto). induction n as [|n IH]; intros m x.
  - split; intros Hm; destruct m as [|[|m]]; try lia; cbn; ring.
  - split; [apply IH|]. intros Hm. rewrite dtt_S. rewrite (proj2 (IH m x)) by lia. rewrite (proj1 (IH m x)) by lia. rewrite (proj2 (IH (m - 1)%nat x)) by lia. ring.
Qed.
Lemma assoc_rec : forall m n x, (INR n + 2 - INR m) * dP m (S (S n)) x = (2 * INR n + 3) * x * dP m (S n) x - (INR n + 1 + INR m) * dP m n x.
Proof.
  intros m n x. pose proof (pos_INR n). assert (E : (INR n + 2) * dP m (S (S n)) x = (2 * INR n + 3) * (x * dP m (S n) x + INR m * dP (m - 1) (S n) x) - (INR n + 1) * dP m n x).
  { rewrite dtt_S, la_S, lc_S, zc_S. field. lra. }
  destruct m as [|m]; [cbn [INR] in *; lra|]. replace (S m - 1)%nat with m in E by lia. pose proof (leg_diff m n x) as D. nra.
Qed.
Lemma assoc_diag : forall m x, dP (S m) (S m) x = (2 * INR m + 1) * dP m m x.
Proof.
  intros [|m] x; [cbn; unfold la, zero_c, lc; cbn; field|]. pose proof (leg_diff (S m) m x) as D. rewrite (dtt_high _ _ _ m (S (S m))) in D by lia. rewrite S_INR. lra.
Qed.
Lemma assoc_next : forall m x, dP m (S m) x = (2 * INR m + 1) * x * dP m m x.
Proof.
  intros [|m] x; [cbn; unfold la, zero_c, lc; cbn; field|]. pose proof (assoc_rec (S m) m x) as D. rewrite (dtt_high _ _ _ m (S m)) in D by lia. rewrite S_INR in *. lra.
Qed.
