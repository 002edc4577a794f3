(** * C67 continued: Euler angles and spherical interpolation; C68: vectors of space *)
From Coq Require Import List Arith Bool Lia ZArith Reals Lra Psatz.
From Verif Require Import Base Num RootFind_Model RootFind_Proofs Fourier_Model Fourier_Spec Quat_Model Quat_Spec Quat_Proofs Quat_Conv.
Import ListNotations.
Local Open Scope R_scope.

Lemma Ratan2_polar : forall k t, 0 < k -> - PI < t <= PI -> Ratan2 (k * sin t) (k * cos t) = t.
Proof.
  intros k t K T. assert (HP := PI2_1). assert (PI = 2 * (PI / 2)) by field. unfold Ratan2.
  assert (Q : cos t <> 0 -> k * sin t / (k * cos t) = tan t). { intros C. unfold tan. field. split; lra. }
  destruct (Rlt_dec (- (PI / 2)) t) as [L|L]; [destruct (Rlt_dec t (PI / 2)) as [L'|L']|].
  - assert (C : 0 < cos t) by (apply cos_gt_0; lra). destruct (Rlt_dec 0 (k * cos t)) as [_|N]; [|exfalso; nra].
    rewrite Q by lra. apply atan_tan. lra.
  - destruct (Req_dec t (PI / 2)) as [->|NE].
    + rewrite cos_PI2, sin_PI2, Rmult_0_r, Rmult_1_r. destruct (Rlt_dec 0 0); [lra|]. destruct (Rlt_dec 0 0); [lra|]. destruct (Rlt_dec 0 k); lra.
    + assert (C : cos t < 0) by (apply cos_lt_0; lra). destruct (Rlt_dec 0 (k * cos t)) as [N|_]; [exfalso; nra|]. destruct (Rlt_dec (k * cos t) 0) as [_|N]; [|exfalso; nra].
      assert (S : 0 <= sin t) by (apply sin_ge_0; lra). destruct (Rle_dec 0 (k * sin t)) as [_|N]; [|exfalso; nra].
      rewrite Q by lra. replace (tan t) with (tan (t - PI)). { rewrite atan_tan; lra. }
      unfold tan. rewrite sin_minus, cos_minus, cos_PI, sin_PI. field. lra.
  - destruct (Req_dec t (- (PI / 2))) as [->|NE].
    + rewrite cos_neg, sin_neg, cos_PI2, sin_PI2, Rmult_0_r. repeat match goal with |- context [Rlt_dec ?a ?b] => destruct (Rlt_dec a b) end; lra.
    + assert (C : cos t < 0). { rewrite <- cos_neg. apply cos_lt_0; lra. } destruct (Rlt_dec 0 (k * cos t)) as [N|_]; [exfalso; nra|]. destruct (Rlt_dec (k * cos t) 0) as [_|N]; [|exfalso; nra].
      assert (S : sin t < 0). { assert (0 < sin (- t)) by (apply sin_gt_0; lra). rewrite sin_neg in H0. lra. } destruct (Rle_dec 0 (k * sin t)) as [N|_]; [exfalso; nra|].
      rewrite Q by lra. replace (tan t) with (tan (t + PI)). { rewrite atan_tan; lra. }
      unfold tan. rewrite sin_plus, cos_plus, cos_PI, sin_PI. field. lra.
Qed.

Lemma rod_x : forall t a b c, rodrigues (V3 1 0 0) t (V3 a b c) = V3 a (b * cos t - c * sin t) (b * sin t + c * cos t).
Proof. intros. unfold rodrigues, lin3, cross3, dot3. fieldsg. f_equal; ring. Qed.
Lemma rod_y : forall t a b c, rodrigues (V3 0 1 0) t (V3 a b c) = V3 (a * cos t + c * sin t) b (c * cos t - a * sin t).
Proof. intros. unfold rodrigues, lin3, cross3, dot3. fieldsg. f_equal; ring. Qed.
Lemma rod_z : forall t a b c, rodrigues (V3 0 0 1) t (V3 a b c) = V3 (a * cos t - b * sin t) (a * sin t + b * cos t) c.
Proof. intros. unfold rodrigues, lin3, cross3, dot3. fieldsg. f_equal; ring. Qed.
Lemma euler_entries : forall yaw pitch roll, let q := FromEulerZYX Rm yaw pitch roll in
  2 * (qw q * qx q + qy q * qz q) = cos pitch * sin roll /\ 1 - 2 * (qx q * qx q + qy q * qy q) = cos pitch * cos roll /\
  2 * (qw q * qy q - qz q * qx q) = sin pitch /\ 2 * (qw q * qz q + qx q * qy q) = cos pitch * sin yaw /\ 1 - 2 * (qy q * qy q + qz q * qz q) = cos pitch * cos yaw.
Proof.
  intros yaw pitch roll q.
  destruct (C66_euler yaw pitch roll (V3 1 0 0)) as (_ & E1 & _). destruct (C66_euler yaw pitch roll (V3 0 1 0)) as (_ & E2 & _). destruct (C66_euler yaw pitch roll (V3 0 0 1)) as (_ & E3 & _).
  fold q in E1, E2, E3. clearbody q.
  repeat split.
  - transitivity (vz (Rotate Rm q (V3 0 1 0))); [qsimp; ring|]. rewrite E2. rewrite rod_x, rod_y, rod_z. fieldsg. ring.
  - transitivity (vz (Rotate Rm q (V3 0 0 1))); [qsimp; ring|]. rewrite E3. rewrite rod_x, rod_y, rod_z. fieldsg. ring.
  - transitivity (- vz (Rotate Rm q (V3 1 0 0))); [qsimp; ring|]. rewrite E1. rewrite rod_x, rod_y, rod_z. fieldsg. ring.
  - transitivity (vy (Rotate Rm q (V3 1 0 0))); [qsimp; ring|]. rewrite E1. rewrite rod_x, rod_y, rod_z. fieldsg. ring.
  - transitivity (vx (Rotate Rm q (V3 1 0 0))); [qsimp; ring|]. rewrite E1. rewrite rod_x, rod_y, rod_z. fieldsg. ring.
Qed.

(** yaw, pitch and roll come back when the pitch is short of a quarter turn *)
Theorem C67_euler : forall yaw pitch roll, - PI < yaw <= PI -> - (PI / 2) < pitch < PI / 2 -> - PI < roll <= PI -> ToEulerZYX Rm (FromEulerZYX Rm yaw pitch roll) = V3 yaw pitch roll.
Proof.
  intros yaw pitch roll HY HP HR. destruct (euler_entries yaw pitch roll) as (E1 & E2 & E3 & E4 & E5). unfold ToEulerZYX. qng. rewrite E1, E2, E3, E4, E5.
  assert (C : 0 < cos pitch) by (apply cos_gt_0; lra). rewrite !Ratan2_polar by auto. f_equal.
  assert (S := sin2_cos2 pitch). unfold Rsqr in S. assert (A : Rabs (sin pitch) < 1) by (apply Rabs_def1; nra).
  destruct (Rltb_spec (Rabs (sin pitch)) 1) as [_|N]; [|lra]. cbn [negb]. apply asin_sin. lra.
Qed.
Print Assumptions C67_euler.

(** At a pitch of a quarter turn both atan2 calls are given (0, 0): yaw and roll come out 0 and the rotation is lost. *)
Theorem C67_gimbal_refuted : exists yaw pitch roll v, - PI < yaw <= PI /\ - (PI / 2) <= pitch <= PI / 2 /\ - PI < roll <= PI /\
  let q := FromEulerZYX Rm yaw pitch roll in let e := ToEulerZYX Rm q in
  e = V3 0 (PI / 2) 0 /\ Rotate Rm (FromEulerZYX Rm (vx e) (vy e) (vz e)) v <> Rotate Rm q v.
Proof.
  assert (HP := PI2_1). assert (PI = 2 * (PI / 2)) by field.
  exists (PI / 2), (PI / 2), 0, (V3 0 1 0). split; [lra|]. split; [lra|]. split; [lra|]. intros q e.
  assert (E : e = V3 0 (PI / 2) 0).
  { destruct (euler_entries (PI / 2) (PI / 2) 0) as (E1 & E2 & E3 & E4 & E5). unfold e, q, ToEulerZYX. qng. rewrite E1, E2, E3, E4, E5. rewrite cos_PI2, sin_PI2, !Rmult_0_l.
    assert (A : Ratan2 0 0 = 0). { unfold Ratan2. destruct (Rlt_dec 0 0); lra. } rewrite A. f_equal.
    rewrite Rabs_R1. destruct (Rltb_spec 1 1) as [L|_]; [lra|]. cbn [negb]. unfold acopysign. qng. destruct (Rltb_spec 1 0) as [L|_]; [lra|]. apply Rabs_right. lra. }
  split; auto. rewrite E. fieldsg. unfold q. destruct (C66_euler 0 (PI / 2) 0 (V3 0 1 0)) as (_ & -> & _). destruct (C66_euler (PI / 2) (PI / 2) 0 (V3 0 1 0)) as (_ & -> & _).
  rewrite !rod_x, !rod_y, !rod_z. rewrite cos_PI2, sin_PI2, cos_0, sin_0. intros F. injection F. intros. lra.
Qed.
Print Assumptions C67_gimbal_refuted.

(** ** interpolation *)
Definition shorter (q1 q2 : quat R) : quat R := if Rlt_dec (Dot Rm q1 q2) 0 then q_neg Rm q2 else q2.

Lemma Dot_lin : forall p q1 q2 a b, Dot Rm p (q_add Rm (q_scale Rm q1 a) (q_scale Rm q2 b)) = a * Dot Rm p q1 + b * Dot Rm p q2.
Proof. intros. unfold Dot, q_add, q_scale. qng. fieldsg. ring. Qed.
Lemma NS_lin : forall q1 q2 a b, NormSquared Rm (q_add Rm (q_scale Rm q1 a) (q_scale Rm q2 b)) = a * a * NormSquared Rm q1 + b * b * NormSquared Rm q2 + 2 * a * b * Dot Rm q1 q2.
Proof. intros. unfold NormSquared, Dot, q_add, q_scale. qng. fieldsg. ring. Qed.

Lemma slerp_unfold : forall q1 q2 t, unit4 q1 -> unit4 q2 -> let s := shorter q1 q2 in let d := Dot Rm q1 s in
  unit4 s /\ 0 <= d <= 1 /\ d = Rabs (Dot Rm q1 q2) /\
  Slerp Rm q1 q2 t = if Rlt_dec (9995 / 10000) d then Normalized Rm (Lerp Rm q1 s t) else Ok (q_add Rm (q_scale Rm q1 (sin ((1 - t) * acos d) / sin (acos d))) (q_scale Rm s (sin (t * acos d) / sin (acos d)))).
Proof.
  intros q1 q2 t U1 U2 s d.
  assert (US : unit4 s). { unfold s, shorter. destruct Rlt_dec; auto. unfold unit4, q_neg in *. qng. fieldsg. lra. }
  assert (D : d = Rabs (Dot Rm q1 q2)).
  { unfold d, s, shorter. destruct Rlt_dec as [L|L]; [rewrite Rabs_left by auto; unfold Dot, q_neg; qng; fieldsg; ring|rewrite Rabs_right by lra; auto]. }
  assert (CS := proj2 (proj2 (proj2 (proj2 (proj2 (proj2 (proj2 (proj2 (proj2 (proj2 (C65_norm q1 s)))))))))) ). rewrite (proj1 (unit_NS q1) U1), (proj1 (unit_NS s) US) in CS. fold d in CS.
  assert (B : 0 <= d <= 1). { pose proof (Rabs_pos (Dot Rm q1 q2)). split; [lra|]. nra. }
  split; auto. split; auto. split; auto.
  unfold Slerp. replace (altb (tar (mtr Rm)) (Dot Rm q1 q2) (alit (tar (mtr Rm)) 0)) with (Rltb (Dot Rm q1 q2) 0) by reflexivity.
  replace (if Rltb (Dot Rm q1 q2) 0 then (q_neg Rm q2, nopp (aops (tar (mtr Rm))) (Dot Rm q1 q2)) else (q2, Dot Rm q1 q2)) with (s, d).
  2:{ unfold d, s, shorter. destruct (Rltb_spec (Dot Rm q1 q2) 0) as [L|L]; destruct Rlt_dec; try lra; auto. f_equal. unfold Dot, q_neg. qng. fieldsg. ring. }
  qng. destruct (Rltb_spec (9995 / 10000) d) as [L|L]; destruct Rlt_dec; try lra; auto.
  destruct (Rltb_spec (Rabs (sin (acos d))) (1 / IZR (10 ^ 6))) as [N|_]; auto. exfalso.
  rewrite sin_acos in N by lra. rewrite Rabs_right in N by (apply Rle_ge, sqrt_pos).
  assert (Q := sqrt_sqrt (1 - d²)). unfold Rsqr in *. assert (H0 : 0 <= 1 - d * d) by nra. specialize (Q H0). set (x := sqrt (1 - d * d)) in *. assert (P := sqrt_pos (1 - d * d)). fold x in P.
  assert (T : 1 / IZR (10 ^ 6) < 1 / 100). { apply Rmult_lt_compat_l; [lra|]. apply Rinv_lt_contravar; [apply Rmult_lt_0_compat; [lra|apply (IZR_lt 0); reflexivity]|apply (IZR_lt 100); reflexivity]. }
  nra.
Qed.

(** Slerp from one unit quaternion to another: always defined, of unit length, in the plane of the two; from the first to the second (or its negative, whichever is the nearer);
    and unless the two are nearly equal the angle from the first grows in proportion to t. *)
Theorem C67_slerp : forall q1 q2 t, unit4 q1 -> unit4 q2 ->
  exists r, Slerp Rm q1 q2 t = Ok r /\ unit4 r /\ (exists a b, r = q_add Rm (q_scale Rm q1 a) (q_scale Rm (shorter q1 q2) b) /\ (0 <= t <= 1 -> 0 <= a /\ 0 <= b)) /\
    (t = 0 -> r = q1) /\ (t = 1 -> r = shorter q1 q2) /\
    (Rabs (Dot Rm q1 q2) <= 9995 / 10000 -> let theta := acos (Rabs (Dot Rm q1 q2)) in 0 < theta <= PI / 2 /\ Dot Rm q1 r = cos (t * theta) /\ Dot Rm (shorter q1 q2) r = cos ((1 - t) * theta)).
Proof.
  intros q1 q2 t U1 U2. destruct (slerp_unfold q1 q2 t U1 U2) as (US & B & D & ->). rewrite <- D. set (s := shorter q1 q2) in *. set (d := Dot Rm q1 s) in *.
  assert (N1 := proj1 (unit_NS q1) U1). assert (N2 := proj1 (unit_NS s) US). assert (HP := PI2_1). assert (PI = 2 * (PI / 2)) by field.
  destruct (Rlt_dec (9995 / 10000) d) as [L|L].
  - assert (N : NormSquared Rm (Lerp Rm q1 s t) = 1 - 2 * (t * (1 - t)) * (1 - d)). { unfold Lerp. rewrite NS_lin, N1, N2. fold d. qng. ring. }
    assert (T : t * (1 - t) <= 1 / 4) by (clear; pose proof (Rle_0_sqr (t - 1 / 2)) as Q; unfold Rsqr in Q; lra).
    assert (P : 1 / 4 <= NormSquared Rm (Lerp Rm q1 s t)) by (rewrite N; assert (2 * (t * (1 - t)) * (1 - d) <= 1 / 2 * (1 - d)) by (apply Rmult_le_compat_r; lra); lra).
    assert (S : / 10 ^ 12 <= Norm Rm (Lerp Rm q1 s t)).
    { unfold Norm. qng. apply Rle_trans with (1 / 2). { rewrite <- (Rmult_1_l (/ 10 ^ 12)). apply Rmult_le_compat_l; [lra|]. apply Rinv_le_contravar; lra. } rewrite <- (sqrt_square (1 / 2)) by lra. apply sqrt_le_1_alt. lra. }
    destruct (proj2 (C65_normalized _) S) as (r & E & U & K). exists r. split; auto. split; auto. set (n := Norm Rm (Lerp Rm q1 s t)) in *. assert (Hn : 0 < n). { apply Rlt_le_trans with (2 := S). apply Rinv_0_lt_compat. lra. }
    assert (R : r = q_add Rm (q_scale Rm q1 ((1 - t) / n)) (q_scale Rm s (t / n))).
    { assert (K' := f_equal (fun q => q_scale Rm q (/ n)) K). cbv beta in K'. unfold Lerp, q_scale, q_add in *. qn. fields. destruct r as [w x y z]. fields. injection K' as K1 K2 K3 K4. f_equal.
      - transitivity (w * n * / n); [field; lra|]. rewrite K1. field. lra.
      - transitivity (x * n * / n); [field; lra|]. rewrite K2. field. lra.
      - transitivity (y * n * / n); [field; lra|]. rewrite K3. field. lra.
      - transitivity (z * n * / n); [field; lra|]. rewrite K4. field. lra. }
    split. { exists ((1 - t) / n), (t / n). split; auto. intros Ht. split; (apply Rmult_le_pos; [lra|left; apply Rinv_0_lt_compat; lra]). }
    assert (En : t * (1 - t) = 0 -> n = 1). { intros Z. unfold n, Norm. qng. rewrite N, Z. replace (1 - 2 * 0 * (1 - d)) with 1 by ring. apply sqrt_1. }
    split; [|split; [|lra]].
    + intros ->. rewrite R, En by ring. unfold q_add, q_scale. qng. fieldsg. destruct q1. fieldsg. f_equal; field.
    + intros ->. rewrite R, En by ring. unfold q_add, q_scale. qng. fieldsg. destruct s. fieldsg. f_equal; field.
  - set (th := acos d) in *. assert (C : cos th = d) by (apply cos_acos; lra). assert (A := acos_bound d). fold th in A.
    assert (T0 : 0 < th). { destruct (Req_dec th 0) as [Z|Z]; [|lra]. exfalso. rewrite Z, cos_0 in C. lra. }
    assert (T1 : th <= PI / 2). { destruct (Rle_dec th (PI / 2)) as [G|G]; auto. exfalso. assert (cos th < 0) by (apply cos_lt_0; lra). lra. }
    assert (SN : 0 < sin th) by (apply sin_gt_0; lra).
    eexists. split; [reflexivity|]. set (a := sin ((1 - t) * th) / sin th). set (b := sin (t * th) / sin th).
    assert (Fa : a * sin th = sin th * cos (t * th) - cos th * sin (t * th)). { unfold a. replace ((1 - t) * th) with (th - t * th) by ring. rewrite sin_minus. field. lra. }
    assert (Fb : b * sin th = sin (t * th)) by (unfold b; field; lra).
    assert (Z0 : t = 0 -> a = 1 /\ b = 0). { intros Z. unfold a, b. rewrite Z. replace ((1 - 0) * th) with th by ring. replace (0 * th) with 0 by ring. rewrite sin_0. split; field; lra. }
    assert (Z1 : t = 1 -> a = 0 /\ b = 1). { intros Z. unfold a, b. rewrite Z. replace ((1 - 1) * th) with 0 by ring. replace (1 * th) with th by ring. rewrite sin_0. split; field; lra. }
    assert (S2 := sin2_cos2 th). assert (S3 := sin2_cos2 (t * th)). unfold Rsqr in S2, S3. set (sn := sin th) in *. set (u := sin (t * th)) in *. set (v := cos (t * th)) in *. rewrite C in *.
    assert (X1 : a + b * d = v). { apply (Rmult_eq_reg_l sn); [|lra]. transitivity (a * sn + b * sn * d); [ring|]. rewrite Fa, Fb. ring. }
    assert (X2 : b + a * d = cos ((1 - t) * th)).
    { replace ((1 - t) * th) with (th - t * th) by ring. rewrite cos_minus. fold sn u v. rewrite C. apply (Rmult_eq_reg_l sn); [|lra]. transitivity (b * sn + a * sn * d); [ring|]. rewrite Fa, Fb. transitivity (u * (1 - d * d) + sn * v * d); [ring|]. replace (1 - d * d) with (sn * sn) by lra. ring. }
    split; [|split; [|split; [|split]]].
    + apply unit_NS. rewrite NS_lin, N1, N2. fold d. replace (a * a * 1 + b * b * 1 + 2 * a * b * d) with ((a + b * d) * (a + b * d) + (b * sn) * (b * sn)). 2:{ transitivity (a * a + 2 * a * b * d + b * b * (sn * sn + d * d)); [ring|]. rewrite S2. ring. } rewrite X1, Fb. lra.
    + exists a, b. split; auto. intros Ht. split; (apply Rmult_le_pos; [apply sin_ge_0; nra|left; apply Rinv_0_lt_compat; lra]).
    + intros Z. destruct (Z0 Z) as [-> ->]. unfold q_add, q_scale. qng. fieldsg. destruct q1. fieldsg. f_equal; ring.
    + intros Z. destruct (Z1 Z) as [-> ->]. unfold q_add, q_scale. qng. fieldsg. destruct s. fieldsg. f_equal; ring.
    + intros _. cbv zeta. fold v. split; [lra|]. rewrite !Dot_lin. fold d. replace (Dot Rm q1 q1) with 1 by (rewrite <- N1; unfold NormSquared, Dot; reflexivity). replace (Dot Rm s q1) with d by (unfold d, Dot; qng; ring). replace (Dot Rm s s) with 1 by (rewrite <- N2; reflexivity). split; lra.
Qed.
Print Assumptions C67_slerp.
