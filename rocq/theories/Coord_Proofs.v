(** * Facts used for C89: polar form, limits of difference quotients *)
From Coq Require Import List Arith Bool Lia ZArith Reals Lra Psatz.
From Verif Require Import Base Num RootFind_Model RootFind_Proofs Fourier_Model Fourier_Spec Quat_Model Quat_Spec Quat_Proofs Quat_Euler Coord_Model Coord_Spec.
Import ListNotations.
Local Open Scope R_scope.

Lemma Ratan2_range : forall y x, - PI < Ratan2 y x <= PI.
Proof.
  intros y x. unfold Ratan2. assert (HP := PI_RGT_0). destruct (atan_bound (y / x)) as [L U].
  assert (E : PI / 2 < PI) by lra.
  destruct (Rlt_dec 0 x) as [X|X]; [lra|]. destruct (Rlt_dec x 0) as [X'|X'].
  - destruct (Rle_dec 0 y) as [Y|Y].
    + assert (y / x <= 0). { unfold Rdiv. assert (/ x < 0) by (apply Rinv_lt_0_compat; lra). nra. }
      assert (atan (y / x) <= 0). { destruct H as [H|H]; [apply atan_increasing in H; rewrite atan_0 in H; lra | rewrite H, atan_0; lra]. }
      lra.
    + assert (0 < y / x). { unfold Rdiv. assert (/ x < 0) by (apply Rinv_lt_0_compat; lra). nra. }
      apply atan_increasing in H. rewrite atan_0 in H. lra.
  - repeat match goal with |- context [Rlt_dec ?a ?b] => destruct (Rlt_dec a b) end; lra.
Qed.

Lemma sqrt_polar : forall x y, x <> 0 -> sqrt (x * x + y * y) = Rabs x * sqrt (1 + (y / x)²).
Proof.
  intros x y X. replace (x * x + y * y) with (Rsqr x * (1 + (y / x)²)) by (unfold Rsqr; field; auto).
  rewrite sqrt_mult; [rewrite sqrt_Rsqr_abs; auto | apply Rle_0_sqr | assert (H := Rle_0_sqr (y / x)); lra].
Qed.
(** the angle is a polar angle of the point *)
Lemma Ratan2_point : forall y x, sqrt (x * x + y * y) * cos (Ratan2 y x) = x /\ sqrt (x * x + y * y) * sin (Ratan2 y x) = y.
Proof.
  intros y x. unfold Ratan2. assert (P : forall u, 0 < sqrt (1 + u²)). { intros u. apply sqrt_lt_R0. assert (H := Rle_0_sqr u). lra. }
  destruct (Rlt_dec 0 x) as [X|X].
  - rewrite sqrt_polar, Rabs_right by lra. rewrite cos_atan, sin_atan. assert (H := P (y / x)). split; field; lra.
  - destruct (Rlt_dec x 0) as [X'|X'].
    + rewrite sqrt_polar, Rabs_left by lra. assert (H := P (y / x)). destruct (Rle_dec 0 y).
      * rewrite cos_plus, sin_plus, cos_PI, sin_PI, cos_atan, sin_atan. split; field; lra.
      * rewrite cos_minus, sin_minus, cos_PI, sin_PI, cos_atan, sin_atan. split; field; lra.
    + assert (x = 0) by lra. subst x. replace (0 * 0 + y * y) with (Rsqr y) by (unfold Rsqr; ring). rewrite sqrt_Rsqr_abs.
      destruct (Rlt_dec 0 y); [rewrite Rabs_right, cos_PI2, sin_PI2 by lra; lra|].
      destruct (Rlt_dec y 0); [rewrite Rabs_left, cos_neg, sin_neg, cos_PI2, sin_PI2 by lra; lra|].
      assert (y = 0) by lra. subst y. rewrite Rabs_R0. lra.
Qed.

(** the model over the reals *)
Ltac cn := cbn [Rm mtr Rtrig tar Rarith aops altb alit asqrt tcos tsin tpi macos masin matan2 Rnum nadd nmul nsub nopp ndiv n0 n1 vx vy vz p0 p1 w0 w1 w2 w3 m00 m01 m02 m10 m11 m12 m20 m21 m22 fst snd v3get v3set v3of tf tinv]; rewrite ?Rabs_aabs.

Lemma clamp_id : forall x, -1 <= x <= 1 -> clamp Rm x (- (1)) 1 = x.
Proof. intros x H. unfold clamp. cn. destruct (Rltb_spec x (- (1))); [lra|]. destruct (Rltb_spec 1 x); [lra|]. auto. Qed.
Lemma sph_radius : forall p, sph_r Rm p = len3 p.
Proof. intros [x y z]. unfold sph_r, len3, dot3. cn. auto. Qed.
Lemma len3_pos : forall p, 0 <= len3 p. Proof. intros. apply sqrt_pos. Qed.
Lemma len3_sq : forall p, len3 p * len3 p = dot3 p p.
Proof. intros [x y z]. unfold len3, dot3. cbn [vx vy vz]. apply sqrt_sqrt. nra. Qed.
Lemma z_ratio : forall x y z, 0 < len3 (V3 x y z) -> -1 <= z / len3 (V3 x y z) <= 1.
Proof.
  intros x y z H. assert (S := len3_sq (V3 x y z)). unfold dot3 in S. cbn [vx vy vz] in S. set (r := len3 (V3 x y z)) in *. clearbody r.
  assert (E : z = (z / r) * r) by (field; lra). set (w := z / r) in *. clearbody w. subst z.
  assert (w * w <= 1). { apply Rmult_le_reg_r with (r * r); nra. } split; nra.
Qed.
Lemma theta_ok : forall eps x y z, 0 < eps -> eps * 100 <= len3 (V3 x y z) -> sph_theta Rm eps (V3 x y z) = acos (z / len3 (V3 x y z)).
Proof.
  intros eps x y z He H. unfold sph_theta. cn. change (sqrt (x * x + y * y + z * z)) with (len3 (V3 x y z)). cbn [IZR].
  destruct (Rltb_spec (len3 (V3 x y z)) (eps * IZR 100)); [lra|]. rewrite clamp_id; auto. apply z_ratio. lra.
Qed.
Lemma theta_small : forall eps p, len3 p < eps * 100 -> sph_theta Rm eps p = 0.
Proof.
  intros eps [x y z] H. unfold sph_theta. cn. change (sqrt (x * x + y * y + z * z)) with (len3 (V3 x y z)).
  destruct (Rltb_spec (len3 (V3 x y z)) (eps * IZR 100)); [auto|lra].
Qed.

(** ** limits *)
Lemma tends_const : forall c, tends (fun _ => c) c.
Proof. intros c e He. exists 1. split; [lra|]. intros h _. rewrite Rminus_diag_eq, Rabs_R0 by auto. auto. Qed.
Lemma tends_add : forall X Y a b, tends X a -> tends Y b -> tends (fun h => X h + Y h) (a + b).
Proof.
  intros X Y a b HX HY e He. destruct (HX (e / 2) ltac:(lra)) as (d1 & D1 & H1). destruct (HY (e / 2) ltac:(lra)) as (d2 & D2 & H2).
  exists (Rmin d1 d2). split; [apply Rmin_pos; auto|]. intros h [L U]. assert (U1 : h < d1) by (eapply Rlt_le_trans; [apply U | apply Rmin_l]). assert (U2 : h < d2) by (eapply Rlt_le_trans; [apply U | apply Rmin_r]).
  specialize (H1 h (Logic.conj L U1)). specialize (H2 h (Logic.conj L U2)). replace (X h + Y h - (a + b)) with ((X h - a) + (Y h - b)) by ring.
  eapply Rle_lt_trans; [apply Rabs_triang|]. lra.
Qed.
Lemma tends_mul : forall X Y a b, tends X a -> tends Y b -> tends (fun h => X h * Y h) (a * b).
Proof.
  intros X Y a b HX HY e He. set (M := 1 + Rabs a + Rabs b). assert (HM : 1 <= M) by (unfold M; assert (A := Rabs_pos a); assert (A' := Rabs_pos b); lra).
  assert (Q : 0 < Rmin 1 (e / (2 * M))). { apply Rmin_pos; [lra|]. apply Rdiv_lt_0_compat; lra. }
  destruct (HX _ Q) as (d1 & D1 & H1). destruct (HY _ Q) as (d2 & D2 & H2).
  exists (Rmin d1 d2). split; [apply Rmin_pos; auto|]. intros h [L U]. assert (U1 : h < d1) by (eapply Rlt_le_trans; [apply U | apply Rmin_l]). assert (U2 : h < d2) by (eapply Rlt_le_trans; [apply U | apply Rmin_r]).
  specialize (H1 h (Logic.conj L U1)). specialize (H2 h (Logic.conj L U2)).
  assert (B1 : Rabs (X h - a) < e / (2 * M)) by (eapply Rlt_le_trans; [apply H1 | apply Rmin_r]).
  assert (B2 : Rabs (Y h - b) < e / (2 * M)) by (eapply Rlt_le_trans; [apply H2 | apply Rmin_r]).
  assert (B3 : Rabs (Y h - b) < 1) by (eapply Rlt_le_trans; [apply H2 | apply Rmin_l]).
  set (u := X h - a) in *. set (v := Y h - b) in *. replace (X h * Y h - a * b) with (u * v + (u * b + a * v)) by (unfold u, v; ring).
  eapply Rle_lt_trans; [apply Rabs_triang|]. eapply Rle_lt_trans; [apply Rplus_le_compat_l, Rabs_triang|]. rewrite !Rabs_mult.
  set (k := e / (2 * M)) in *. assert (K : e = k * (2 * M)) by (unfold k; field; lra).
  assert (K0 : 0 < k) by (unfold k; apply Rdiv_lt_0_compat; lra). clearbody k.
  assert (A := Rabs_pos u). assert (A' := Rabs_pos v). assert (A1 := Rabs_pos a). assert (A2 := Rabs_pos b).
  assert (Rabs u * Rabs v <= k * 1) by (apply Rmult_le_compat; lra). assert (Rabs u * Rabs b <= k * Rabs b) by (apply Rmult_le_compat_r; lra).
  assert (Rabs a * Rabs v <= Rabs a * k) by (apply Rmult_le_compat_l; lra). assert (HM2 : k * (2 * M) = k * M + k * (1 + Rabs a + Rabs b)) by (unfold M; ring). assert (0 < k * M) by (apply Rmult_lt_0_compat; lra). nra.
Qed.
Lemma tends_ext : forall X Y a, (forall h, 0 < h -> X h = Y h) -> tends X a -> tends Y a.
Proof. intros X Y a E HX e He. destruct (HX e He) as (d & D & H). exists d. split; auto. intros h Hh. rewrite <- E by lra. auto. Qed.
Lemma tends_unique_lim : forall X a b, tends X a -> tends X b -> a = b.
Proof.
  intros X a b HX HY. destruct (Req_dec a b) as [|N]; auto. exfalso. set (e := Rabs (a - b) / 2).
  assert (E : 0 < e) by (unfold e; assert (0 < Rabs (a - b)) by (apply Rabs_pos_lt; lra); lra).
  destruct (HX e E) as (d1 & D1 & H1). destruct (HY e E) as (d2 & D2 & H2). set (h := Rmin d1 d2 / 2).
  assert (D : 0 < Rmin d1 d2) by (apply Rmin_pos; auto). assert (L1 := Rmin_l d1 d2). assert (L2 := Rmin_r d1 d2).
  specialize (H1 h ltac:(unfold h; lra)). specialize (H2 h ltac:(unfold h; lra)).
  assert (T := Rabs_triang (X h - b) (- (X h - a))). rewrite Rabs_Ropp in T. replace (X h - b + - (X h - a)) with (a - b) in T by ring. unfold e in *. lra.
Qed.
(** the five-point rule tends to the derivative *)
Definition five (g : R -> R) (x h : R) : R := ((g (x - 2 * h) - g (x + 2 * h)) + 8 * (g (x + h) - g (x - h))) / (12 * h).
Lemma five_tends : forall g x l, derivable_pt_lim g x l -> tends (five g x) l.
Proof.
  intros g x l D e He. destruct (D (e / 4) ltac:(lra)) as [[d Hd] H]. cbn in H. exists (d / 2). split; [lra|]. intros h Hh.
  assert (Q : forall k, k <> 0 -> Rabs k < d -> g (x + k) = g x + k * (l + ((g (x + k) - g x) / k - l)) /\ Rabs ((g (x + k) - g x) / k - l) < e / 4).
  { intros k Hk Kd. split; [field; auto | apply H; auto]. }
  destruct (Q h ltac:(lra) ltac:(rewrite Rabs_right; lra)) as [E1 B1]. destruct (Q (- h) ltac:(lra) ltac:(rewrite Rabs_left; lra)) as [E2 B2].
  destruct (Q (2 * h) ltac:(lra) ltac:(rewrite Rabs_right; lra)) as [E3 B3]. destruct (Q (- (2 * h)) ltac:(lra) ltac:(rewrite Rabs_left; lra)) as [E4 B4].
  unfold five. replace (x - 2 * h) with (x + - (2 * h)) by ring. replace (x - h) with (x + - h) by ring.
  set (a1 := (g (x + h) - g x) / h - l) in *. set (a2 := (g (x + - h) - g x) / - h - l) in *.
  set (a3 := (g (x + 2 * h) - g x) / (2 * h) - l) in *. set (a4 := (g (x + - (2 * h)) - g x) / - (2 * h) - l) in *. clearbody a1 a2 a3 a4.
  rewrite E1, E2, E3, E4. match goal with |- Rabs ?t < _ => replace t with ((8 * a1 + 8 * a2 - 2 * a3 - 2 * a4) / 12) by (field; lra) end.
  apply Rabs_def2 in B1. apply Rabs_def2 in B2. apply Rabs_def2 in B3. apply Rabs_def2 in B4. apply Rabs_def1; lra.
Qed.
Lemma tends_scale : forall X l c, 0 < c -> tends X l -> tends (fun h => X (h * c)) l.
Proof.
  intros X l c C HX e He. destruct (HX e He) as (d & D & H). exists (d / c). split; [apply Rdiv_lt_0_compat; auto|]. intros h [L U]. apply H. split; [nra|].
  apply Rmult_lt_reg_r with (/ c). { apply Rinv_0_lt_compat; auto. } rewrite Rmult_assoc, Rinv_r, Rmult_1_r by lra. auto.
Qed.
Definition stepf (x : R) : R := if Rlt_dec 1 (Rabs x) then Rabs x else 1.
Lemma stepf_pos : forall x, 0 < stepf x. Proof. intros x. unfold stepf. destruct (Rlt_dec 1 (Rabs x)); lra. Qed.
Lemma Partial_five : forall h f i p, Partial Rm h f i p = five (fun t => f (v3set p i t)) (v3get p i) (h * stepf (v3get p i)).
Proof.
  intros h f i p. unfold Partial, NDer4Partial, five, stepf. cbn [Rm mtr Rtrig tar Rarith aops altb alit asqrt tcos tsin tpi macos masin matan2 Rnum nadd nmul nsub nopp ndiv n0 n1]. rewrite ?Rabs_aabs.
  destruct (Rltb_spec 1 (Rabs (v3get p i))); destruct (Rlt_dec 1 (Rabs (v3get p i))); try lra; auto.
Qed.
Lemma Partial_tends : forall f i p l, derivable_pt_lim (fun t => f (v3set p i t)) (v3get p i) l -> tends (fun h => Partial Rm h f i p) l.
Proof.
  intros f i p l D. eapply tends_ext; [intros; symmetry; apply Partial_five|]. apply (tends_scale (five _ _)); [apply stepf_pos|]. apply five_tends, D.
Qed.
(** affine functions are differentiated exactly *)
Lemma Partial_affine : forall h f i p a b, 0 < h -> (forall t, f (v3set p i t) = a + b * t) -> Partial Rm h f i p = b.
Proof. intros h f i p a b Hh E. rewrite Partial_five. unfold five. rewrite !E. assert (S := stepf_pos (v3get p i)). field. split; lra. Qed.

(** ** derivatives of the transformations *)
Lemma dl_scal : forall f x l a, derivable_pt_lim f x l -> derivable_pt_lim (fun t => a * f t) x (a * l).
Proof. intros f x l a H. apply (derivable_pt_lim_scal f a x l H). Qed.
Lemma dl_eq : forall f g x l l', (forall t, f t = g t) -> l = l' -> derivable_pt_lim f x l -> derivable_pt_lim g x l'.
Proof. intros f g x l l' E <- H e He. destruct (H e He) as [d D]. exists d. intros h Hh Hd. rewrite <- !E. auto. Qed.
Lemma dl_lin : forall x a b, derivable_pt_lim (fun t => a * t + b) x a.
Proof.
  intros x a b. eapply dl_eq with (f := (fun t => a * t + b)) (l := a * 1 + 0); [auto | ring |].
  apply (derivable_pt_lim_plus (fun t => a * t) (fun _ => b)); [apply dl_scal, derivable_pt_lim_id | apply derivable_pt_lim_const].
Qed.
Lemma dl_sin : forall x a, derivable_pt_lim (fun t => a * sin t) x (a * cos x). Proof. intros. apply dl_scal, derivable_pt_lim_sin. Qed.
Lemma dl_cos : forall x a, derivable_pt_lim (fun t => a * cos t) x (- (a * sin x)).
Proof. intros. eapply dl_eq with (l := a * - sin x); [reflexivity | ring | apply dl_scal, derivable_pt_lim_cos]. Qed.

Lemma sph_partial : forall i p, (i < 3)%nat -> partial (sph_to_cart Rm) i p (sph_basis Rm (Z.of_nat i) p).
Proof.
  intros i [r t p] Hi k Hk. destruct i as [|[|[|i]]]; [..|lia]; destruct k as [|[|[|k]]]; try lia; unfold sph_to_cart, sph_basis; cbn [Z.of_nat Pos.of_succ_nat Pos.succ]; cn.
  - eapply dl_eq; [..|apply (dl_lin r (sin t * cos p) 0)]; intros; cbv beta; ring.
  - eapply dl_eq; [..|apply (dl_lin r (sin t * sin p) 0)]; intros; cbv beta; ring.
  - eapply dl_eq; [..|apply (dl_lin r (cos t) 0)]; intros; cbv beta; ring.
  - eapply dl_eq; [..|apply (dl_sin t (r * cos p))]; intros; cbv beta; ring.
  - eapply dl_eq; [..|apply (dl_sin t (r * sin p))]; intros; cbv beta; ring.
  - eapply dl_eq; [..|apply (dl_cos t r)]; intros; cbv beta; ring.
  - eapply dl_eq; [..|apply (dl_cos p (r * sin t))]; intros; cbv beta; ring.
  - eapply dl_eq; [..|apply (dl_sin p (r * sin t))]; intros; cbv beta; ring.
  - eapply dl_eq; [..|apply (dl_lin p 0 (r * cos t))]; intros; cbv beta; ring.
Qed.
Definition cyl_basis (i : nat) (p : vec3 R) : vec3 R :=
  match i with 0%nat => V3 (cos (vy p)) (sin (vy p)) 0 | 1%nat => V3 (- (vx p * sin (vy p))) (vx p * cos (vy p)) 0 | _ => V3 0 0 1 end.
Lemma cyl_partial : forall i p, (i < 3)%nat -> partial (cyl_to_cart Rm) i p (cyl_basis i p).
Proof.
  intros i [r t z] Hi k Hk. destruct i as [|[|[|i]]]; [..|lia]; destruct k as [|[|[|k]]]; try lia; unfold cyl_to_cart, cyl_basis; cn.
  - eapply dl_eq; [..|apply (dl_lin r (cos t) 0)]; intros; cbv beta; ring.
  - eapply dl_eq; [..|apply (dl_lin r (sin t) 0)]; intros; cbv beta; ring.
  - eapply dl_eq; [..|apply (dl_lin r 0 z)]; intros; cbv beta; ring.
  - eapply dl_eq; [..|apply (dl_cos t r)]; intros; cbv beta; ring.
  - eapply dl_eq; [..|apply (dl_sin t r)]; intros; cbv beta; ring.
  - eapply dl_eq; [..|apply (dl_lin t 0 z)]; intros; cbv beta; ring.
  - eapply dl_eq; [..|apply (dl_lin z 0 (r * cos t))]; intros; cbv beta; ring.
  - eapply dl_eq; [..|apply (dl_lin z 0 (r * sin t))]; intros; cbv beta; ring.
  - eapply dl_eq; [..|apply (dl_lin z 1 0)]; intros; cbv beta; ring.
Qed.
