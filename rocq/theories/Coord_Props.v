(** * C89: coordinate transformations, their bases, metrics and inverses *)
From Coq Require Import List Arith Bool Lia ZArith Reals Lra Psatz.
From Verif Require Import Base Num RootFind_Model RootFind_Proofs Fourier_Model Fourier_Spec Quat_Model Quat_Spec Quat_Proofs Quat_Euler Coord_Model Coord_Spec Coord_Proofs.
Import ListNotations.
Local Open Scope R_scope.

(** ** Spherical, cylindrical and polar coordinates *)
Theorem C89_spherical : forall eps, 0 < eps ->
  (** the coordinates of a point: its distance, an angle from the axis in [0, PI], an azimuth in (-PI, PI] *)
  (forall p, vx (tf (CartesianToSpherical Rm eps) p) = len3 p /\ 0 <= vy (tf (CartesianToSpherical Rm eps) p) <= PI /\ - PI < vz (tf (CartesianToSpherical Rm eps) p) <= PI) /\
  (** a point at least 100 eps from the origin comes back from its coordinates *)
  (forall p, 100 * eps <= len3 p -> tf (SphericalToCartesian Rm eps) (tf (CartesianToSpherical Rm eps) p) = p) /\
  (** coordinates come back from the point: r and theta always, phi off the axis *)
  (forall r th ph, 100 * eps <= r -> 0 <= th <= PI -> - PI < ph <= PI ->
     let q := tf (CartesianToSpherical Rm eps) (tf (SphericalToCartesian Rm eps) (V3 r th ph)) in
     vx q = r /\ vy q = th /\ (0 < th < PI -> vz q = ph)) /\
  (** the two classes are each other's inverses *)
  tinv (SphericalToCartesian Rm eps) = tf (CartesianToSpherical Rm eps) /\ tinv (CartesianToSpherical Rm eps) = tf (SphericalToCartesian Rm eps).
Proof.
  intros eps He. assert (HP := PI_RGT_0). split; [|split; [|split; [|split; reflexivity]]].
  - intros [x y z]. unfold CartesianToSpherical, cart_to_sph. cbn [tf vx vy vz]. split; [apply sph_radius|]. split; [|apply Ratan2_range].
    destruct (Rlt_dec (len3 (V3 x y z)) (eps * 100)) as [L|L]; [rewrite theta_small by auto; lra|]. rewrite theta_ok by lra. apply acos_bound.
  - intros [x y z] H. unfold SphericalToCartesian, CartesianToSpherical, cart_to_sph, sph_to_cart. cbn [tf]. rewrite sph_radius, theta_ok by lra. unfold sph_phi. cn.
    set (r := len3 (V3 x y z)) in *. assert (R0 : 0 < r) by lra. assert (Z := z_ratio x y z R0). fold r in Z.
    assert (E : r * sin (acos (z / r)) = sqrt (x * x + y * y)).
    { rewrite sin_acos by auto. assert (S := len3_sq (V3 x y z)). unfold dot3 in S. cbn [vx vy vz] in S. fold r in S.
      replace r with (sqrt (r * r)) at 1 by (rewrite sqrt_square; lra). rewrite <- sqrt_mult by (unfold Rsqr; nra). f_equal. unfold Rsqr. field_simplify; [|lra]. nra. }
    rewrite E. destruct (Ratan2_point y x) as [P1 P2]. rewrite P1, P2. rewrite cos_acos by auto. f_equal. field. lra.
  - intros r th ph Hr Ht Hp q. subst q. unfold SphericalToCartesian, CartesianToSpherical, cart_to_sph, sph_to_cart. cbn [tf vx vy vz]. cn.
    assert (S1 := sin2_cos2 th). assert (S2 := sin2_cos2 ph). unfold Rsqr in S1, S2.
    assert (L : len3 (V3 (r * sin th * cos ph) (r * sin th * sin ph) (r * cos th)) = r).
    { unfold len3, dot3. cbn [vx vy vz]. replace (r * sin th * cos ph * (r * sin th * cos ph) + r * sin th * sin ph * (r * sin th * sin ph) + r * cos th * (r * cos th)) with (r * r * (sin th * sin th * (sin ph * sin ph + cos ph * cos ph) + cos th * cos th)) by ring.
      rewrite S2, Rmult_1_r, S1, Rmult_1_r. apply sqrt_square. lra. }
    rewrite sph_radius, L. split; [auto|]. split.
    + rewrite theta_ok by (rewrite ?L; lra). rewrite L. replace (r * cos th / r) with (cos th) by (field; lra). apply acos_cos. lra.
    + intros Ht'. unfold sph_phi. cn. assert (0 < sin th) by (apply sin_gt_0; lra). replace (r * sin th * sin ph) with ((r * sin th) * sin ph) by ring. apply Ratan2_polar; nra.
Qed.
Print Assumptions C89_spherical.
Example C89_spherical_case : tf (CartesianToSpherical Rm (1 / 1000)) (V3 0 3 0) = V3 3 (PI / 2) (PI / 2) /\ tf (SphericalToCartesian Rm (1 / 1000)) (V3 3 (PI / 2) (PI / 2)) = V3 0 3 0.
Proof.
  assert (HP := PI_RGT_0). assert (E : tf (SphericalToCartesian Rm (1 / 1000)) (V3 3 (PI / 2) (PI / 2)) = V3 0 3 0).
  { unfold SphericalToCartesian, sph_to_cart. cn. rewrite sin_PI2, cos_PI2. f_equal; ring. }
  split; auto. destruct (C89_spherical (1 / 1000) ltac:(lra)) as (_ & _ & H & _). specialize (H 3 (PI / 2) (PI / 2) ltac:(lra) ltac:(lra) ltac:(lra)). cbv zeta in H.
  rewrite E in H. destruct H as (H1 & H2 & H3). specialize (H3 ltac:(lra)). revert H1 H2 H3. generalize (tf (CartesianToSpherical Rm (1 / 1000)) (V3 0 3 0)). intros [a b c]. cbn [vx vy vz]. congruence.
Qed.

(** Nearer to the origin than 100 eps the polar angle is reported as 0: a point below the origin comes back above it. *)
Theorem C89_origin_refuted : forall eps, 0 < eps -> exists p, p <> zero3 /\ tf (SphericalToCartesian Rm eps) (tf (CartesianToSpherical Rm eps) p) <> p.
Proof.
  intros eps He. exists (V3 0 0 (- eps)). split; [unfold zero3; intros E; injection E; lra|].
  assert (L : len3 (V3 0 0 (- eps)) = eps). { unfold len3, dot3. cbn [vx vy vz]. replace (0 * 0 + 0 * 0 + - eps * - eps) with (eps * eps) by ring. apply sqrt_square. lra. }
  unfold SphericalToCartesian, CartesianToSpherical, cart_to_sph, sph_to_cart. cbn [tf]. rewrite sph_radius, theta_small by lra. rewrite L. cn. rewrite sin_0, cos_0. intros E. injection E. lra.
Qed.
Print Assumptions C89_origin_refuted.

Theorem C89_cylindrical :
  (forall p, let q := tf (CartesianToCylindrical Rm) p in 0 <= vx q /\ vx q * vx q = vx p * vx p + vy p * vy p /\ - PI < vy q <= PI /\ vz q = vz p) /\
  (forall p, tf (CylindricalToCartesian Rm) (tf (CartesianToCylindrical Rm) p) = p) /\
  (forall r ph z, 0 < r -> - PI < ph <= PI -> tf (CartesianToCylindrical Rm) (tf (CylindricalToCartesian Rm) (V3 r ph z)) = V3 r ph z) /\
  (forall p, tinv (CylindricalToCartesian Rm) p = tf (CartesianToCylindrical Rm) p /\ tinv (CartesianToCylindrical Rm) p = tf (CylindricalToCartesian Rm) p) /\
  (forall p, let q := polar_inverse Rm p in 0 <= p0 q /\ p0 q * p0 q = dot2 p p /\ - PI < p1 q <= PI /\ polar_transf Rm q = p) /\
  (forall r ph, 0 < r -> - PI < ph <= PI -> polar_inverse Rm (polar_transf Rm (P2 r ph)) = P2 r ph).
Proof.
  assert (S : forall r ph, 0 < r -> sqrt (r * cos ph * (r * cos ph) + r * sin ph * (r * sin ph)) = r).
  { intros r ph Hr. assert (S := sin2_cos2 ph). unfold Rsqr in S. replace (r * cos ph * (r * cos ph) + r * sin ph * (r * sin ph)) with (r * r * (sin ph * sin ph + cos ph * cos ph)) by ring. rewrite S, Rmult_1_r. apply sqrt_square. lra. }
  split; [|split; [|split; [|split; [|split]]]].
  - intros [x y z] q. subst q. unfold CartesianToCylindrical, cart_to_cyl. cn. split; [apply sqrt_pos|]. split; [apply sqrt_sqrt; nra|]. split; [apply Ratan2_range|auto].
  - intros [x y z]. unfold CartesianToCylindrical, CylindricalToCartesian, cart_to_cyl, cyl_to_cart. cn. destruct (Ratan2_point y x) as [-> ->]. auto.
  - intros r ph z Hr Hp. unfold CartesianToCylindrical, CylindricalToCartesian, cart_to_cyl, cyl_to_cart. cn. rewrite S, Ratan2_polar by auto. auto.
  - intros p. split; reflexivity.
  - intros [x y] q. subst q. unfold polar_inverse, polar_transf, dot2. cn. split; [apply sqrt_pos|]. split; [apply sqrt_sqrt; nra|]. split; [apply Ratan2_range|]. destruct (Ratan2_point y x) as [-> ->]. auto.
  - intros r ph Hr Hp. unfold polar_inverse, polar_transf. cn. rewrite S, Ratan2_polar by auto. auto.
Qed.
Print Assumptions C89_cylindrical.
Example C89_cylindrical_case : tf (CartesianToCylindrical Rm) (V3 0 (-2) 5) = V3 2 (- (PI / 2)) 5.
Proof.
  assert (HP := PI_RGT_0). destruct C89_cylindrical as (_ & _ & H & _). specialize (H 2 (- (PI / 2)) 5 ltac:(lra) ltac:(lra)).
  rewrite <- H. f_equal. unfold CylindricalToCartesian, cyl_to_cart. cn. rewrite cos_neg, sin_neg, cos_PI2, sin_PI2. f_equal; ring.
Qed.

(** ** The basis vectors of spherical coordinates *)
Theorem C89_basis : forall eps i p, (i < 3)%nat ->
  (** getBasisVec(i, p) is the derivative of the position with respect to the coordinate i *)
  partial (tf (SphericalToCartesian Rm eps)) i p (sph_basis Rm (Z.of_nat i) p) /\
  (** its scalar products are the components of MetricTensorSpherical *)
  (forall j, (j < 3)%nat -> dot3 (sph_basis Rm (Z.of_nat i) p) (sph_basis Rm (Z.of_nat j) p) = metric_spherical Rm i j p) /\
  (** the unit basis is an orthonormal right-handed frame along the basis *)
  right_handed_frame (sph_unit_basis Rm 0 p) (sph_unit_basis Rm 1 p) (sph_unit_basis Rm 2 p) /\
  (0 < vx p -> 0 < sin (vy p) -> sph_basis Rm (Z.of_nat i) p = lin3 (len3 (sph_basis Rm (Z.of_nat i) p)) (sph_unit_basis Rm (Z.of_nat i) p) 0 zero3) /\
  (** getInverseBasisVec(i, p) and its unit version hold the i-th Cartesian components of the three vectors *)
  (forall j, (j < 3)%nat -> v3get (sph_inverse_basis Rm (Z.of_nat i) p) j = v3get (sph_basis Rm (Z.of_nat j) p) i /\
     v3get (sph_inverse_unit_basis Rm (Z.of_nat i) p) j = v3get (sph_unit_basis Rm (Z.of_nat j) p) i) /\
  (** other indices give the zero vector *)
  (forall k, (k < 0 \/ 2 < k)%Z -> sph_basis Rm k p = zero3 /\ sph_unit_basis Rm k p = zero3 /\ sph_inverse_basis Rm k p = zero3 /\ sph_inverse_unit_basis Rm k p = zero3).
Proof.
  intros eps i p Hi. split; [apply sph_partial; auto|]. destruct p as [r t p]. assert (S1 := sin2_cos2 t). assert (S2 := sin2_cos2 p). unfold Rsqr in S1, S2.
  assert (C1 : cos t * cos t = 1 - sin t * sin t) by lra. assert (C2 : cos p * cos p = 1 - sin p * sin p) by lra.
  assert (D : forall i j, (i < 3)%nat -> (j < 3)%nat -> dot3 (sph_basis Rm (Z.of_nat i) (V3 r t p)) (sph_basis Rm (Z.of_nat j) (V3 r t p)) = metric_spherical Rm i j (V3 r t p)).
  { intros a b Ha Hb. destruct a as [|[|[|a]]]; try lia; destruct b as [|[|[|b]]]; try lia; unfold sph_basis, metric_spherical, dot3; cbn [Z.of_nat Pos.of_succ_nat Pos.succ]; cn; ring [C1 C2]. }
  split; [intros j Hj; apply D; auto|]. split; [|split; [|split]].
  - unfold right_handed_frame, sph_unit_basis, dot3, cross3. cn. repeat split; try (ring [C1 C2]). f_equal; ring [C1 C2].
  - cbn [vx vy]. intros R0 S0. assert (L : forall a v, 0 <= a -> dot3 v v = a * a -> len3 v = a). { intros a v A E. unfold len3. rewrite E. apply sqrt_square; auto. }
    specialize (D i i Hi Hi). destruct i as [|[|[|i]]]; try lia; cbn [Z.of_nat Pos.of_succ_nat Pos.succ] in *.
    + rewrite (L 1) by (rewrite ?D; unfold metric_spherical; cn; lra). unfold sph_basis, sph_unit_basis, lin3, zero3. cn. f_equal; ring.
    + rewrite (L r) by (rewrite ?D; unfold metric_spherical; cn; lra). unfold sph_basis, sph_unit_basis, lin3, zero3. cn. f_equal; ring.
    + rewrite (L (r * sin t)) by (rewrite ?D; unfold metric_spherical; cn; nra). unfold sph_basis, sph_unit_basis, lin3, zero3. cn. f_equal; ring.
  - intros j Hj. destruct i as [|[|[|i]]]; try lia; destruct j as [|[|[|j]]]; try lia; split; reflexivity.
  - intros k Hk. destruct k as [|k|k]; [lia| |repeat split; reflexivity]. destruct k as [k|k|]; [| |lia]; destruct k; try lia; repeat split; reflexivity.
Qed.
Print Assumptions C89_basis.
Example C89_basis_case : sph_basis Rm 2 (V3 2 (PI / 2) 0) = V3 0 2 0 /\ metric_spherical Rm 2 2 (V3 2 (PI / 2) 0) = 4.
Proof. unfold sph_basis, metric_spherical. cn. rewrite sin_PI2, sin_0, cos_0. split; [f_equal|]; ring. Qed.

(** getInverseBasisVec is documented as the contravariant (dual) basis; its scalar products with the basis are not the Kronecker delta. *)
Theorem C89_dual_refuted : exists p i j, 0 < vx p /\ 0 < sin (vy p) /\ (i < 3)%nat /\ (j < 3)%nat /\ dot3 (sph_inverse_basis Rm (Z.of_nat i) p) (sph_basis Rm (Z.of_nat j) p) <> kron i j.
Proof.
  exists (V3 2 (PI / 2) 0), 1%nat, 1%nat. cbn [vx vy]. rewrite sin_PI2. repeat split; try lra; try lia.
  unfold sph_inverse_basis, sph_basis, dot3, kron. cbn [Z.of_nat Pos.of_succ_nat Pos.succ Nat.eqb]. cn. rewrite sin_PI2, cos_PI2, sin_0, cos_0. lra.
Qed.
Print Assumptions C89_dual_refuted.

(** ** Metric tensors *)
Theorem C89_metric :
  (** line elements *)
  (forall p v, sum3 (fun i => sum3 (fun j => metric_spherical Rm i j p * v3get v i * v3get v j)) = vx v * vx v + (vx p * vy v) * (vx p * vy v) + (vx p * sin (vy p) * vz v) * (vx p * sin (vy p) * vz v)) /\
  (forall p v, sum3 (fun i => sum3 (fun j => metric_cylindrical Rm i j p * v3get v i * v3get v j)) = vx v * vx v + (vx p * vy v) * (vx p * vy v) + vz v * vz v) /\
  (forall v, sum3 (fun i => sum3 (fun j => metric_cartesian Rm i j * v3get v i * v3get v j)) = dot3 v v) /\
  (forall a b, mink a b = metric_minkowski Rm 0 0 * w0 a * w0 b + metric_minkowski Rm 1 1 * w1 a * w1 b + metric_minkowski Rm 2 2 * w2 a * w2 b + metric_minkowski Rm 3 3 * w3 a * w3 b /\
     forall i j, i <> j -> metric_minkowski Rm i j = 0) /\
  (** the contravariant spherical metric: defined unless r^2 or r^2 sin^2 theta is below the tolerance, and then the inverse *)
  (forall tol p i j, 0 < tol -> (i < 3)%nat -> (j < 3)%nat ->
     (metric_spherical_contravar Rm tol i j p = Throw DomainError <-> i = j /\ (i <> 0)%nat /\ metric_spherical Rm i i p < tol) /\
     (~ (i = j /\ (i <> 0)%nat /\ metric_spherical Rm i i p < tol) -> exists g, metric_spherical_contravar Rm tol i j p = Ok g /\ g * metric_spherical Rm j j p = kron i j)).
Proof.
  split; [|split; [|split; [|split]]].
  - intros [r t p] [a b c]. unfold sum3, metric_spherical. cn. ring.
  - intros [r t p] [a b c]. unfold sum3, metric_cylindrical. cn. ring.
  - intros [a b c]. unfold sum3, metric_cartesian, dot3. cbn [Nat.eqb]. cn. ring.
  - intros [a0 a1 a2 a3] [b0 b1 b2 b3]. split; [unfold mink, metric_minkowski; cn; ring|]. intros i j N. unfold metric_minkowski.
    destruct i as [|[|[|[|i]]]]; destruct j as [|[|[|[|j]]]]; try reflexivity; lia.
  - intros tol [r t p] i j Ht Hi Hj. unfold metric_spherical_contravar, metric_spherical, safe_divide, kron.
    assert (P1 : 0 <= r * r) by nra. assert (P2 : 0 <= r * r * sin t * sin t). { replace (r * r * sin t * sin t) with ((r * r) * (sin t * sin t)) by ring. apply Rmult_le_pos; nra. }
    destruct i as [|[|[|i]]]; try lia; destruct j as [|[|[|j]]]; try lia; cbn [Nat.eqb]; cn.
    all: try (split; [split; [discriminate | intros (? & ? & _); lia] | intros _; eexists; split; [reflexivity | ring]]).
    + rewrite Rabs_right by lra. destruct (Rltb_spec (r * r) tol) as [L|L]; (split; [split; [try discriminate; intros _; repeat split; auto; lra | intros (_ & _ & H); try lra; auto] |]).
      * intros H. exfalso. apply H. repeat split; auto.
      * intros _. eexists; split; [reflexivity|]. field. nra.
    + rewrite Rabs_right by lra. destruct (Rltb_spec (r * r * sin t * sin t) tol) as [L|L]; (split; [split; [try discriminate; intros _; repeat split; auto; lra | intros (_ & _ & H); try lra; auto] |]).
      * intros H. exfalso. apply H. repeat split; auto.
      * intros _. eexists; split; [reflexivity|]. set (s := sin t) in *. field. split; intros E; rewrite E in L; rewrite ?Rmult_0_r, ?Rmult_0_l in L; nra.
Qed.
Print Assumptions C89_metric.
Example C89_metric_case : metric_spherical_contravar Rm (1 / 1000) 1 1 (V3 2 0 0) = Ok (1 / 4) /\ metric_spherical_contravar Rm (1 / 1000) 2 2 (V3 2 0 0) = Throw DomainError.
Proof.
  unfold metric_spherical_contravar, safe_divide. cn. rewrite sin_0. split.
  - destruct (Rltb_spec (Rabs (2 * 2)) (1 / 1000)) as [L|L]; [rewrite Rabs_right in L; lra|]. f_equal; lra.
  - rewrite Rmult_0_r, Rabs_R0. destruct (Rltb_spec 0 (1 / 1000)); [auto|lra].
Qed.

(** ** Rotations *)
Definition mutual_inverses {X : Type} (f g : X -> X) : Prop := (forall x, g (f x) = x) /\ (forall x, f (g x) = x).
Lemma rod_zero_inv : forall u t, (u = V3 1 0 0 \/ u = V3 0 1 0 \/ u = V3 0 0 1) -> mutual_inverses (rodrigues u t) (rodrigues u (- t)).
Proof.
  intros u t H. assert (S := sin2_cos2 t). unfold Rsqr in S. assert (C : cos t * cos t = 1 - sin t * sin t) by lra.
  destruct H as [->|[->| ->]]; split; intros [a b c]; rewrite ?rod_x, ?rod_y, ?rod_z, ?cos_neg, ?sin_neg; f_equal; ring [C].
Qed.
Lemma rod_rotation : forall u t, (u = V3 1 0 0 \/ u = V3 0 1 0 \/ u = V3 0 0 1) -> rotation (rodrigues u t).
Proof.
  intros u t H. assert (S := sin2_cos2 t). unfold Rsqr in S. assert (C : cos t * cos t = 1 - sin t * sin t) by lra.
  destruct H as [->|[->| ->]]; (split; [|split]); intros; repeat match goal with v : vec3 R |- _ => destruct v end; unfold lin3, cross3, dot3; fieldsg; rewrite ?rod_x, ?rod_y, ?rod_z; fieldsg; try (f_equal; ring [C]); ring [C].
Qed.
Lemma rotation_comp : forall f g, rotation f -> rotation g -> rotation (fun v => f (g v)).
Proof.
  intros f g (L1 & D1 & X1) (L2 & D2 & X2). split; [|split]; intros.
  - rewrite L2, L1. auto.
  - rewrite D1, D2. auto.
  - rewrite X2, X1. auto.
Qed.
Theorem C89_rotations : forall t,
  (** the three axis rotations are the right-handed rotations by the angle, their inverses those by its negative *)
  (forall v, rotX_transf Rm t v = rodrigues (V3 1 0 0) t v /\ rotX_inverse Rm t v = rodrigues (V3 1 0 0) (- t) v) /\
  (forall v, rotY_transf Rm t v = rodrigues (V3 0 1 0) t v /\ rotY_inverse Rm t v = rodrigues (V3 0 1 0) (- t) v) /\
  (forall v, rotZ_transf Rm t v = rodrigues (V3 0 0 1) t v /\ rotZ_inverse Rm t v = rodrigues (V3 0 0 1) (- t) v) /\
  rotation (rotX_transf Rm t) /\ rotation (rotY_transf Rm t) /\ rotation (rotZ_transf Rm t) /\
  mutual_inverses (rotX_transf Rm t) (rotX_inverse Rm t) /\ mutual_inverses (rotY_transf Rm t) (rotY_inverse Rm t) /\ mutual_inverses (rotZ_transf Rm t) (rotZ_inverse Rm t) /\
  (** Euler angles: about z by gamma, then y by beta, then z by alpha *)
  (forall al be v, euler_transf Rm al be t v = rodrigues (V3 0 0 1) al (rodrigues (V3 0 1 0) be (rodrigues (V3 0 0 1) t v))) /\
  (forall al be, rotation (euler_transf Rm al be t) /\ mutual_inverses (euler_transf Rm al be t) (euler_inverse Rm al be t)) /\
  (** the plane: the point at angle s goes to angle s + t; products are kept and the inverse undoes it *)
  (forall k s, rot2_transf Rm t (P2 (k * cos s) (k * sin s)) = P2 (k * cos (s + t)) (k * sin (s + t))) /\
  (forall a b, dot2 (rot2_transf Rm t a) (rot2_transf Rm t b) = dot2 a b) /\ mutual_inverses (rot2_transf Rm t) (rot2_inverse Rm t).
Proof.
  intros t. assert (EX : forall f g : vec3 R -> vec3 R, (forall v, f v = g v) -> rotation g -> rotation f).
  { intros f g E (L & D & X). split; [|split]; intros; rewrite ?E; auto. }
  assert (EI : forall f g f' g' : vec3 R -> vec3 R, (forall v, f v = f' v) -> (forall v, g v = g' v) -> mutual_inverses f' g' -> mutual_inverses f g).
  { intros f g f' g' E1 E2 [I1 I2]. split; intros; rewrite ?E1, ?E2; rewrite ?E1; auto. }
  assert (X : forall v, rotX_transf Rm t v = rodrigues (V3 1 0 0) t v /\ rotX_inverse Rm t v = rodrigues (V3 1 0 0) (- t) v).
  { intros [a b c]. rewrite !rod_x, cos_neg, sin_neg. unfold rotX_transf, rotX_inverse. cn. split; f_equal; ring. }
  assert (Y : forall v, rotY_transf Rm t v = rodrigues (V3 0 1 0) t v /\ rotY_inverse Rm t v = rodrigues (V3 0 1 0) (- t) v).
  { intros [a b c]. rewrite !rod_y, cos_neg, sin_neg. unfold rotY_transf, rotY_inverse. cn. split; f_equal; ring. }
  assert (Z : forall v, rotZ_transf Rm t v = rodrigues (V3 0 0 1) t v /\ rotZ_inverse Rm t v = rodrigues (V3 0 0 1) (- t) v).
  { intros [a b c]. rewrite !rod_z, cos_neg, sin_neg. unfold rotZ_transf, rotZ_inverse. cn. split; f_equal; ring. }
  assert (E : forall al be ga v, euler_transf Rm al be ga v = rodrigues (V3 0 0 1) al (rodrigues (V3 0 1 0) be (rodrigues (V3 0 0 1) ga v))).
  { intros al be ga [a b c]. rewrite rod_z, rod_y, rod_z. unfold euler_transf, euler_matrix, m3_app. cn. f_equal; ring. }
  split; [exact X|]. split; [exact Y|]. split; [exact Z|].
  split; [eapply EX; [intros; apply X | apply rod_rotation; auto]|]. split; [eapply EX; [intros; apply Y | apply rod_rotation; auto]|]. split; [eapply EX; [intros; apply Z | apply rod_rotation; auto]|].
  split; [eapply EI; [intros; apply X | intros; apply X | apply rod_zero_inv; auto]|]. split; [eapply EI; [intros; apply Y | intros; apply Y | apply rod_zero_inv; auto]|]. split; [eapply EI; [intros; apply Z | intros; apply Z | apply rod_zero_inv; auto]|].
  split; [intros; apply E|]. split; [|split; [|split]].
  - intros al be. split; [eapply EX; [intros; apply E|]; apply (rotation_comp (rodrigues _ al)); [apply rod_rotation; auto|]; apply (rotation_comp (rodrigues _ be)); apply rod_rotation; auto|].
    assert (E' : forall v, euler_inverse Rm al be t v = rodrigues (V3 0 0 1) (- t) (rodrigues (V3 0 1 0) (- be) (rodrigues (V3 0 0 1) (- al) v))) by (intros v; apply E).
    destruct (rod_zero_inv (V3 0 0 1) t ltac:(auto)) as [I1 I2]. destruct (rod_zero_inv (V3 0 1 0) be ltac:(auto)) as [J1 J2]. destruct (rod_zero_inv (V3 0 0 1) al ltac:(auto)) as [K1 K2].
    split; intros v; rewrite E, E'; rewrite ?K1, ?J1, ?I1, ?I2, ?J2, ?K2; auto.
  - intros k s. unfold rot2_transf. cn. rewrite cos_plus, sin_plus. f_equal; ring.
  - intros [a b] [c d]. unfold rot2_transf, dot2. cn. assert (S := sin2_cos2 t). unfold Rsqr in S. assert (C : cos t * cos t = 1 - sin t * sin t) by lra. ring [C].
  - assert (S := sin2_cos2 t). unfold Rsqr in S. assert (C : cos t * cos t = 1 - sin t * sin t) by lra. split; intros [a b]; unfold rot2_transf, rot2_inverse; cn; f_equal; ring [C].
Qed.
Print Assumptions C89_rotations.
Example C89_rotations_case : rotX_transf Rm (PI / 2) (V3 1 2 3) = V3 1 (-3) 2 /\ rot2_transf Rm (PI / 2) (P2 1 2) = P2 (-2) 1.
Proof. unfold rotX_transf, rot2_transf. cn. rewrite cos_PI2, sin_PI2. split; f_equal; lra. Qed.

(** The class is documented with the ZXZ convention (alpha about z, beta about x', gamma about z''); the matrix is that of ZYZ. *)
Theorem C89_euler_refuted : exists al be ga v, euler_transf Rm al be ga v <> rodrigues (V3 0 0 1) al (rodrigues (V3 1 0 0) be (rodrigues (V3 0 0 1) ga v)) /\
  euler_transf Rm al be ga v <> rodrigues (V3 0 0 1) ga (rodrigues (V3 1 0 0) be (rodrigues (V3 0 0 1) al v)).
Proof.
  exists 0, (PI / 2), 0, (V3 1 0 0). destruct (C89_rotations 0) as (_ & _ & _ & _ & _ & _ & _ & _ & _ & E & _).
  rewrite !E, !rod_z, !rod_y, !rod_x, !rod_z, cos_0, sin_0, cos_PI2, sin_PI2. split; intros H; injection H; lra.
Qed.
Print Assumptions C89_euler_refuted.

(** ** Orthogonal and oblique axes *)
Definition orthonormal3 (b1 b2 b3 : vec3 R) : Prop := dot3 b1 b1 = 1 /\ dot3 b2 b2 = 1 /\ dot3 b3 b3 = 1 /\ dot3 b1 b2 = 0 /\ dot3 b1 b3 = 0 /\ dot3 b2 b3 = 0.
Lemma expand3 : forall b1 b2 b3 v, orthonormal3 b1 b2 b3 -> lin3 1 (lin3 (dot3 b1 v) b1 (dot3 b2 v) b2) (dot3 b3 v) b3 = v.
Proof.
  intros b1 b2 b3 v (N1 & N2 & N3 & O12 & O13 & O23).
  set (c1 := cross3 b2 b3). set (c2 := cross3 b3 b1). set (c3 := cross3 b1 b2). set (D := dot3 b1 c1).
  assert (Q : forall w, lin3 D w 0 zero3 = lin3 1 (lin3 (dot3 w c1) b1 (dot3 w c2) b2) (dot3 w c3) b3).
  { intros w. unfold D, c1, c2, c3, lin3, cross3, dot3, zero3. fieldsg. f_equal; ring. }
  assert (W : lin3 D v 0 zero3 = lin3 1 (lin3 (dot3 b1 v) c1 (dot3 b2 v) c2) (dot3 b3 v) c3).
  { unfold D, c1, c2, c3, lin3, cross3, dot3, zero3. fieldsg. f_equal; ring. }
  assert (L : forall a b c d, dot3 (cross3 a b) (cross3 c d) = dot3 a c * dot3 b d - dot3 a d * dot3 b c). { intros. unfold cross3, dot3. fieldsg. ring. }
  assert (Sy : forall a b, dot3 a b = dot3 b a) by (intros; unfold dot3; ring).
  assert (X1 : lin3 D c1 0 zero3 = b1). { rewrite Q. unfold c1, c2, c3. rewrite !L. rewrite ?(Sy b2 b1), ?(Sy b3 b1), ?(Sy b3 b2), ?N1, ?N2, ?N3, ?O12, ?O13, ?O23. destruct b1, b2, b3; unfold lin3; fieldsg; f_equal; ring. }
  assert (X2 : lin3 D c2 0 zero3 = b2). { rewrite Q. unfold c1, c2, c3. rewrite !L. rewrite ?(Sy b2 b1), ?(Sy b3 b1), ?(Sy b3 b2), ?N1, ?N2, ?N3, ?O12, ?O13, ?O23. destruct b1, b2, b3; unfold lin3; fieldsg; f_equal; ring. }
  assert (X3 : lin3 D c3 0 zero3 = b3). { rewrite Q. unfold c1, c2, c3. rewrite !L. rewrite ?(Sy b2 b1), ?(Sy b3 b1), ?(Sy b3 b2), ?N1, ?N2, ?N3, ?O12, ?O13, ?O23. destruct b1, b2, b3; unfold lin3; fieldsg; f_equal; ring. }
  assert (D2 : D * D = 1). { rewrite <- N1. rewrite <- X1 at 2. unfold D. unfold dot3, lin3, zero3. fieldsg. ring. }
  assert (V1 : lin3 1 (lin3 (dot3 b1 v) b1 (dot3 b2 v) b2) (dot3 b3 v) b3 = lin3 D (lin3 1 (lin3 (dot3 b1 v) c1 (dot3 b2 v) c2) (dot3 b3 v) c3) 0 zero3).
  { rewrite <- X1 at 2. rewrite <- X2 at 2. rewrite <- X3 at 2. generalize (dot3 b1 v) (dot3 b2 v) (dot3 b3 v). intros. unfold lin3, zero3. fieldsg. f_equal; ring. }
  rewrite V1, <- W. destruct v as [x y z]. unfold lin3, zero3. fieldsg. f_equal; ring [D2].
Qed.
Theorem C89_axes :
  (** any three mutually orthogonal vectors, and no others up to the tolerance, are accepted as orthogonal axes *)
  (forall b1 b2 b3, (exists o, orthogonal_new Rm b1 b2 b3 = Ok o) <-> Rabs (dot3 b1 b2) <= 1 / 10 ^ 10 /\ Rabs (dot3 b1 b3) <= 1 / 10 ^ 10 /\ Rabs (dot3 b2 b3) <= 1 / 10 ^ 10) /\
  (forall b1 b2 b3, (exists o, orthogonal_new Rm b1 b2 b3 = Ok o) \/ orthogonal_new Rm b1 b2 b3 = Throw DomainError) /\
  (** the transformed coordinates are the scalar products with the axes; unit axes make the inverse an inverse and keep products *)
  (forall b1 b2 b3 o, orthogonal_new Rm b1 b2 b3 = Ok o ->
     (forall v, orthogonal_transf Rm o v = V3 (dot3 b1 v) (dot3 b2 v) (dot3 b3 v)) /\
     (forall q, orthogonal_inverse Rm o q = lin3 1 (lin3 (vx q) b1 (vy q) b2) (vz q) b3) /\
     (orthonormal3 b1 b2 b3 -> mutual_inverses (orthogonal_transf Rm o) (orthogonal_inverse Rm o) /\ forall a b, dot3 (orthogonal_transf Rm o a) (orthogonal_transf Rm o b) = dot3 a b)) /\
  (forall b1 b2 b3, is_right_handed Rm b1 b2 b3 = true <-> 0 < dot3 (cross3 b1 b2) b3) /\
  (** oblique axes in space: rejected when the volume is below the tolerance; the dual vectors are dual and the maps inverse *)
  (forall inv b1 b2 b3, Rabs (dot3 b1 (cross3 b2 b3)) < 1 / 10 ^ 12 -> oblique3_new Rm inv b1 b2 b3 = Throw SingularError) /\
  (forall inv b1 b2 b3, 1 / 10 ^ 12 <= Rabs (dot3 b1 (cross3 b2 b3)) -> (forall m, exists m', inv m = Ok m') -> exists o, oblique3_new Rm inv b1 b2 b3 = Ok o) /\
  (forall inv b1 b2 b3 bm d1 d2 d3, oblique3_new Rm inv b1 b2 b3 = Ok (bm, (d1, d2, d3)) ->
     (dot3 d1 b1 = 1 /\ dot3 d1 b2 = 0 /\ dot3 d1 b3 = 0 /\ dot3 d2 b1 = 0 /\ dot3 d2 b2 = 1 /\ dot3 d2 b3 = 0 /\ dot3 d3 b1 = 0 /\ dot3 d3 b2 = 0 /\ dot3 d3 b3 = 1) /\
     (forall q, oblique3_inverse Rm (bm, (d1, d2, d3)) q = lin3 1 (lin3 (vx q) b1 (vy q) b2) (vz q) b3) /\
     mutual_inverses (oblique3_transf Rm (bm, (d1, d2, d3))) (oblique3_inverse Rm (bm, (d1, d2, d3)))) /\
  (** oblique axes in the plane *)
  (forall eps t, oblique2_new Rm eps t = (if Rlt_dec (Rabs (sin t)) eps then Throw InvalidArgument else Ok tt)) /\
  (forall eps t, 0 < eps -> oblique2_new Rm eps t = Ok tt -> mutual_inverses (oblique2_to_cart Rm t) (cart_to_oblique2 Rm t) /\
     forall q, oblique2_to_cart Rm t q = P2 (p0 q * 1 + p1 q * cos t) (p0 q * 0 + p1 q * sin t)).
Proof.
  assert (TO : OrthogonalityTolerance Rm = 1 / 10 ^ 10). { unfold OrthogonalityTolerance. cn. rewrite (pow_IZR 10 10). reflexivity. }
  assert (TL : LinearDependenceTolerance Rm = 1 / 10 ^ 12). { unfold LinearDependenceTolerance. cn. rewrite (pow_IZR 10 12). reflexivity. }
  assert (VD : forall a b, v_dot Rm a b = dot3 a b) by reflexivity. assert (VP : forall a b, VectorProduct Rm a b = cross3 a b) by reflexivity.
  assert (OC : forall b1 b2 b3, (Rabs (dot3 b1 b2) <= 1 / 10 ^ 10 /\ Rabs (dot3 b1 b3) <= 1 / 10 ^ 10 /\ Rabs (dot3 b2 b3) <= 1 / 10 ^ 10) /\ (exists o, orthogonal_new Rm b1 b2 b3 = Ok o)
     \/ ~ (Rabs (dot3 b1 b2) <= 1 / 10 ^ 10 /\ Rabs (dot3 b1 b3) <= 1 / 10 ^ 10 /\ Rabs (dot3 b2 b3) <= 1 / 10 ^ 10) /\ orthogonal_new Rm b1 b2 b3 = Throw DomainError).
  { intros b1 b2 b3. unfold orthogonal_new. rewrite (VD b1 b2), (VD b1 b3), (VD b2 b3), TO. cn.
    destruct (Rltb_spec (1 / 10 ^ 10) (Rabs (dot3 b1 b2))) as [H1|H1]; [right; split; [lra|auto]|].
    destruct (Rltb_spec (1 / 10 ^ 10) (Rabs (dot3 b1 b3))) as [H2|H2]; [right; split; [lra|auto]|].
    destruct (Rltb_spec (1 / 10 ^ 10) (Rabs (dot3 b2 b3))) as [H3|H3]; [right; split; [lra|auto]|]. left. split; [lra|]. eexists. reflexivity. }
  split; [|split; [|split; [|split; [|split; [|split; [|split; [|split]]]]]]].
  - intros b1 b2 b3. destruct (OC b1 b2 b3) as [[H O]|[H O]]; split; auto; [intros [o E]; congruence | intros; contradiction].
  - intros b1 b2 b3. destruct (OC b1 b2 b3) as [[H O]|[H O]]; auto.
  - intros b1 b2 b3 o E. destruct (OC b1 b2 b3) as [[H _]|[_ O]]; [|congruence]. unfold orthogonal_new in E. destruct (_ || _ || _) in E; [discriminate|]. injection E as <-.
    assert (T1 : forall v, orthogonal_transf Rm (M3 (vx b1) (vy b1) (vz b1) (vx b2) (vy b2) (vz b2) (vx b3) (vy b3) (vz b3), M3 (vx b1) (vx b2) (vx b3) (vy b1) (vy b2) (vy b3) (vz b1) (vz b2) (vz b3)) v = V3 (dot3 b1 v) (dot3 b2 v) (dot3 b3 v)) by reflexivity.
    assert (T2 : forall q, orthogonal_inverse Rm (M3 (vx b1) (vy b1) (vz b1) (vx b2) (vy b2) (vz b2) (vx b3) (vy b3) (vz b3), M3 (vx b1) (vx b2) (vx b3) (vy b1) (vy b2) (vy b3) (vz b1) (vz b2) (vz b3)) q = lin3 1 (lin3 (vx q) b1 (vy q) b2) (vz q) b3).
    { intros [x y z]. unfold orthogonal_inverse, m3_app, lin3. cn. f_equal; ring. }
    split; [exact T1|]. split; [exact T2|]. intros ON. assert (I1 := expand3 b1 b2 b3). split.
    + split; intros v; rewrite T1, T2.
      * cbn [vx vy vz]. apply I1; auto.
      * destruct ON as (N1 & N2 & N3 & O12 & O13 & O23). assert (Lr : forall a s b t c u d, dot3 a (lin3 1 (lin3 s b t c) u d) = s * dot3 a b + t * dot3 a c + u * dot3 a d). { intros. unfold dot3, lin3. fieldsg. ring. }
        assert (Sy : forall a b, dot3 a b = dot3 b a) by (intros; unfold dot3; ring). rewrite !Lr. rewrite ?(Sy b2 b1), ?(Sy b3 b1), ?(Sy b3 b2), N1, N2, N3, O12, O13, O23. destruct v; fieldsg. f_equal; ring.
    + intros a b. rewrite !T1. rewrite <- (I1 b ON) at 4. unfold dot3 at 1. fieldsg. assert (Lr : forall a s b t c u d, dot3 a (lin3 1 (lin3 s b t c) u d) = s * dot3 a b + t * dot3 a c + u * dot3 a d). { intros. unfold dot3, lin3. fieldsg. ring. }
      assert (Sy : forall a b, dot3 a b = dot3 b a) by (intros; unfold dot3; ring). rewrite Lr, !(Sy a). ring.
  - intros b1 b2 b3. unfold is_right_handed. rewrite VD, VP. cn. destruct (Rltb_spec 0 (dot3 (cross3 b1 b2) b3)); split; intros; auto; try lra; discriminate.
  - intros inv b1 b2 b3 H. unfold oblique3_new. rewrite VD, VP, TL. cn. destruct (Rltb_spec (Rabs (dot3 b1 (cross3 b2 b3))) (1 / 10 ^ 12)); [auto|lra].
  - intros inv b1 b2 b3 H Hi. unfold oblique3_new. rewrite VD, VP, TL. cn. destruct (Rltb_spec (Rabs (dot3 b1 (cross3 b2 b3))) (1 / 10 ^ 12)); [lra|].
    match goal with |- context [inv ?m] => destruct (Hi m) as [m' ->] end. eexists. reflexivity.
  - intros inv b1 b2 b3 bm d1 d2 d3 E. unfold oblique3_new in E. rewrite VD, !VP, TL in E.
    assert (NZ : dot3 b1 (cross3 b2 b3) <> 0).
    { intros Z. rewrite Z in E. revert E. cn. rewrite Rabs_R0. destruct (Rltb_spec 0 (1 / 10 ^ 12)) as [_|N]; [discriminate|]. exfalso. apply N. apply Rdiv_lt_0_compat; [lra|]. apply pow_lt. lra. }
    destruct (altb _ _ _) in E; [discriminate|]. match type of E with context [inv ?m] => destruct (inv m) as [m'| | |] end; try discriminate. cbn [bind] in E. injection E as <- <- <- <-.
    clear VD VP OC. destruct b1 as [a1 a2 a3]. destruct b2 as [e1 e2 e3]. destruct b3 as [c1 c2 c3]. unfold VectorProduct, v_scale, dot3, cross3 in *. revert NZ. cn. fieldsg. intros NZ.
    split; [repeat split; field; lra|]. split.
    + intros [x y z]. unfold oblique3_inverse, m3_app, lin3. cn. f_equal; ring.
    + split; intros [x y z]; unfold oblique3_inverse, oblique3_transf, m3_app, v_dot; cn; f_equal; field; lra.
  - intros eps t. unfold oblique2_new. cn. destruct (Rltb_spec (Rabs (sin t)) eps); destruct (Rlt_dec (Rabs (sin t)) eps); auto; lra.
  - intros eps t He. unfold oblique2_new. cn. destruct (Rltb_spec (Rabs (sin t)) eps) as [|N]; [discriminate|]. intros _.
    assert (S : sin t <> 0) by (intros E; rewrite E, Rabs_R0 in N; lra). split.
    + split; intros [x y]; unfold oblique2_to_cart, cart_to_oblique2; cn; f_equal; field; auto.
    + intros [x y]. unfold oblique2_to_cart. cn. f_equal; ring.
Qed.
Print Assumptions C89_axes.
Example C89_axes_case : orthonormal3 (V3 0 1 0) (V3 (-1) 0 0) (V3 0 0 1) /\ is_right_handed Rm (V3 0 1 0) (V3 (-1) 0 0) (V3 0 0 1) = true /\
  exists o, oblique3_new Rm (fun m => Ok m) (V3 1 0 0) (V3 1 1 0) (V3 1 1 2) = Ok o /\ oblique3_transf Rm o (V3 3 2 2) = V3 1 1 1.
Proof.
  split; [unfold orthonormal3, dot3; fieldsg; lra|]. split; [apply (proj1 (proj2 (proj2 (proj2 C89_axes)))); unfold dot3, cross3; fieldsg; lra|].
  assert (Q : 1 / 10 ^ 12 < 2). { apply Rmult_lt_reg_r with (10 ^ 12); [apply pow_lt; lra|]. field_simplify; lra. }
  unfold oblique3_new, v_dot, VectorProduct, v_scale. replace (LinearDependenceTolerance Rm) with (1 / 10 ^ 12) by (unfold LinearDependenceTolerance; cn; rewrite (pow_IZR 10 12); reflexivity).
  cn. fieldsg. match goal with |- context [Rltb ?x ?y] => destruct (Rltb_spec x y) as [N|N] end; [exfalso; rewrite Rabs_right in N; lra|].
  eexists. split; [reflexivity|]. unfold oblique3_transf, v_dot. cn. f_equal; lra.
Qed.

(** Orthogonal axes that are not of unit length are accepted, and then transfInverse does not undo transf; even three zero vectors are accepted. *)
Theorem C89_unit_axes_refuted :
  (exists b1 b2 b3 o v, dot3 b1 b2 = 0 /\ dot3 b1 b3 = 0 /\ dot3 b2 b3 = 0 /\ orthogonal_new Rm b1 b2 b3 = Ok o /\ orthogonal_inverse Rm o (orthogonal_transf Rm o v) <> v) /\
  (exists o, orthogonal_new Rm zero3 zero3 zero3 = Ok o /\ forall v, orthogonal_transf Rm o v = zero3).
Proof.
  destruct C89_axes as (H & _ & T & _). assert (Q : 0 <= 1 / 10 ^ 10) by (apply Rlt_le, Rdiv_lt_0_compat; [lra|apply pow_lt; lra]).
  assert (Z : forall b1 b2 b3, dot3 b1 b2 = 0 -> dot3 b1 b3 = 0 -> dot3 b2 b3 = 0 -> exists o, orthogonal_new Rm b1 b2 b3 = Ok o).
  { intros b1 b2 b3 E1 E2 E3. apply H. rewrite E1, E2, E3, Rabs_R0. auto. }
  split.
  - destruct (Z (V3 2 0 0) (V3 0 2 0) (V3 0 0 2)) as [o E]; try (unfold dot3; fieldsg; ring). exists (V3 2 0 0), (V3 0 2 0), (V3 0 0 2), o, (V3 1 0 0).
    repeat split; try (unfold dot3; fieldsg; ring); auto. destruct (T _ _ _ _ E) as (T1 & T2 & _). rewrite T2, T1. unfold lin3, dot3. fieldsg. intros X. injection X. lra.
  - destruct (Z zero3 zero3 zero3) as [o E]; try (unfold dot3, zero3; fieldsg; ring). exists o. split; auto. intros v. destruct (T _ _ _ _ E) as (T1 & _). rewrite T1. unfold dot3, zero3. fieldsg. f_equal; ring.
Qed.
Print Assumptions C89_unit_axes_refuted.

(** ** Lorentz boosts *)
Theorem C89_lorentz :
  (forall v, (exists o, lorentz_new Rm v = Ok o) <-> 0 <= v < 1) /\ (forall v, ~ 0 <= v < 1 -> lorentz_new Rm v = Throw OtherError) /\
  (forall v o, lorentz_new Rm v = Ok o ->
     mutual_inverses (lorentz_transf Rm o) (lorentz_inverse Rm o) /\
     (** the interval is kept *)
     (forall a b, mink (lorentz_transf Rm o a) (lorentz_transf Rm o b) = mink a b) /\
     (** a clock moving along the x axis with velocity v stays at the new origin and runs slow; y and z are unchanged *)
     (forall t y z, lorentz_transf Rm o (V4 t (v * t) y z) = V4 (t * sqrt (1 - v * v)) 0 y z) /\
     (** the direction of time is kept for timelike and lightlike vectors *)
     (forall q, mink q q <= 0 -> 0 < w0 q -> 0 < w0 (lorentz_transf Rm o q))) /\
  (** boosts compose by the addition law of velocities *)
  (forall v1 v2 o1 o2, lorentz_new Rm v1 = Ok o1 -> lorentz_new Rm v2 = Ok o2 ->
     exists o, lorentz_new Rm ((v1 + v2) / (1 + v1 * v2)) = Ok o /\ forall q, lorentz_transf Rm o2 (lorentz_transf Rm o1 q) = lorentz_transf Rm o q).
Proof.
  assert (N : forall v, 0 <= v < 1 -> lorentz_new Rm v = Ok (1 / sqrt (1 - v * v), v)).
  { intros v H. unfold lorentz_new. cn. destruct (Rltb_spec v 0); [lra|]. destruct (Rltb_spec v 1); [|lra]. reflexivity. }
  assert (M : forall v, ~ 0 <= v < 1 -> lorentz_new Rm v = Throw OtherError).
  { intros v H. unfold lorentz_new. cn. destruct (Rltb_spec v 0); [auto|]. destruct (Rltb_spec v 1); [lra|]. reflexivity. }
  assert (I : forall v, (exists o, lorentz_new Rm v = Ok o) <-> 0 <= v < 1).
  { intros v. split; [intros [o E]|intros H; eexists; apply N; auto]. destruct (Rle_dec 0 v) as [A|A]; [destruct (Rlt_dec v 1) as [B|B]; [lra|]|]; rewrite M in E by lra; discriminate. }
  assert (G : forall v, 0 <= v < 1 -> 0 < sqrt (1 - v * v) /\ sqrt (1 - v * v) * sqrt (1 - v * v) = 1 - v * v).
  { intros v H. split; [apply sqrt_lt_R0; nra | apply sqrt_sqrt; nra]. }
  split; [exact I|]. split; [exact M|]. split.
  - intros v o E. assert (V : 0 <= v < 1) by (apply I; eauto). rewrite N in E by auto. injection E as <-. destruct (G v V) as [S0 S2]. set (s := sqrt (1 - v * v)) in *. clearbody s.
    assert (V2 : v * v = 1 - s * s) by lra.
    split; [|split; [|split]].
    + split; intros [a b c d]; unfold lorentz_transf, lorentz_inverse; cn; f_equal; field_simplify_eq; try lra; try (ring [V2]).
    + intros [a b c d] [a' b' c' d']. unfold mink, lorentz_transf. cn. field_simplify_eq; [|lra]. ring [V2].
    + intros t y z. unfold lorentz_transf. cn. f_equal; try ring; field_simplify_eq; try lra; ring [V2].
    + intros [a b c d]. unfold mink, lorentz_transf. cn. intros Hm Ha.
      replace (0 + 1 / s * a + - v * (1 / s) * b + 0 * c + 0 * d) with ((a - v * b) / s) by (field; lra). apply Rdiv_lt_0_compat; auto.
      assert (b * b <= a * a) by nra. assert (b <= a) by nra. destruct (Rle_dec b 0); nra.
  - intros v1 v2 o1 o2 E1 E2. assert (V1 : 0 <= v1 < 1) by (apply I; eauto). assert (V2 : 0 <= v2 < 1) by (apply I; eauto). rewrite N in E1, E2 by auto. injection E1 as <-. injection E2 as <-.
    assert (D : 0 < 1 + v1 * v2) by nra. set (w := (v1 + v2) / (1 + v1 * v2)).
    assert (W : 0 <= w < 1). { assert (E : w * (1 + v1 * v2) = v1 + v2) by (unfold w; field; lra). split; [apply Rmult_le_reg_r with (1 + v1 * v2); nra | apply Rmult_lt_reg_r with (1 + v1 * v2); nra]. }
    exists (1 / sqrt (1 - w * w), w). split; [apply N; auto|]. destruct (G v1 V1) as [A0 A2]. destruct (G v2 V2) as [B0 B2].
    assert (SW : sqrt (1 - w * w) = sqrt (1 - v1 * v1) * sqrt (1 - v2 * v2) / (1 + v1 * v2)).
    { apply sqrt_lem_1; [nra | apply Rlt_le, Rdiv_lt_0_compat; nra |]. set (a := sqrt (1 - v1 * v1)) in *. set (b := sqrt (1 - v2 * v2)) in *.
      replace (a * b / (1 + v1 * v2) * (a * b / (1 + v1 * v2))) with ((a * a) * (b * b) / ((1 + v1 * v2) * (1 + v1 * v2))) by (field; lra). rewrite A2, B2. unfold w. field. lra. }
    rewrite SW. unfold w. set (a := sqrt (1 - v1 * v1)) in *. set (b := sqrt (1 - v2 * v2)) in *. intros [q0 q1 q2 q3]. unfold lorentz_transf. cn. f_equal; field; repeat split; lra.
Qed.
Print Assumptions C89_lorentz.
Example C89_lorentz_case : exists o, lorentz_new Rm (3 / 5) = Ok o /\ lorentz_transf Rm o (V4 5 3 1 2) = V4 4 0 1 2.
Proof.
  destruct C89_lorentz as (I & _ & H & _). destruct (proj2 (I (3 / 5)) ltac:(lra)) as [o E]. exists o. split; auto. destruct (H _ _ E) as (_ & _ & T & _).
  replace (V4 5 3 1 2) with (V4 5 (3 / 5 * 5) 1 2) by (f_equal; lra). rewrite T. f_equal. replace (1 - 3 / 5 * (3 / 5)) with (4 / 5 * (4 / 5)) by lra. rewrite sqrt_square by lra. lra.
Qed.

(** ** The inherited methods, which differentiate numerically *)
(** [e i] are the derivatives of the transformation at [p] *)
Definition bases (t : transf3 R) (p : vec3 R) (e : nat -> vec3 R) : Prop := forall i, (i < 3)%nat -> partial (tf t) i p (e i).
Theorem C89_numeric : forall t p e, bases t p e ->
  (** as the step tends to 0: basis vectors, Jacobian, transformed vectors, metric and contravariant tensors tend to the true ones *)
  (forall i k, (i < 3)%nat -> (k < 3)%nat -> tends (fun h => v3get (ct_basis Rm h t i p) k) (v3get (e i) k) /\ tends (fun h => ct_jacobian Rm h t p k i) (v3get (e i) k)) /\
  (forall v k, (k < 3)%nat -> tends (fun h => v3get (ct_contravariant Rm h t v p) k) (sum3 (fun i => v3get v i * v3get (e i) k))) /\
  (forall v i, (i < 3)%nat -> tends (fun h => v3get (ct_inverse_covariant Rm h t v p) i) (dot3 v (e i))) /\
  (forall i j, (i < 3)%nat -> (j < 3)%nat -> tends (fun h => metric_from_transf Rm h t i j p) (dot3 (e i) (e j))) /\
  (forall g i j, (i < 3)%nat -> (j < 3)%nat -> tends (fun h => ct_tensor2 Rm h t true true g p i j) (sum3 (fun k => sum3 (fun l => v3get (e k) i * v3get (e l) j * g k l)))).
Proof.
  intros t p e HB.
  assert (P : forall i k, (i < 3)%nat -> (k < 3)%nat -> tends (fun h => Partial Rm h (fun q => v3get (tf t q) k) i p) (v3get (e i) k)).
  { intros i k Hi Hk. apply (Partial_tends (fun q => v3get (tf t q) k)). apply (HB i Hi k Hk). }
  assert (C : forall X a b, a = b -> tends X a -> tends X b) by (intros; subst; auto).
  split; [|split; [|split; [|split]]].
  - intros i k Hi Hk. split; [|apply P; auto]. eapply tends_ext; [|apply (P i k); auto]. intros h _. unfold ct_basis. destruct k as [|[|[|k]]]; try lia; reflexivity.
  - intros v k Hk. eapply tends_ext with (X := fun h => 0 + Partial Rm h (fun q => v3get (tf t q) k) 0 p * v3get v 0 + Partial Rm h (fun q => v3get (tf t q) k) 1 p * v3get v 1 + Partial Rm h (fun q => v3get (tf t q) k) 2 p * v3get v 2).
    { intros h _. unfold ct_contravariant. destruct k as [|[|[|k]]]; try lia; reflexivity. }
    eapply C; [|repeat apply tends_add; [apply tends_const | apply tends_mul; [apply P; lia | apply tends_const]..]]. unfold sum3. ring.
  - intros v i Hi. eapply tends_ext with (X := fun h => 0 + Partial Rm h (fun q => v3get (tf t q) 0) i p * v3get v 0 + Partial Rm h (fun q => v3get (tf t q) 1) i p * v3get v 1 + Partial Rm h (fun q => v3get (tf t q) 2) i p * v3get v 2).
    { intros h _. unfold ct_inverse_covariant. destruct i as [|[|[|i]]]; try lia; reflexivity. }
    eapply C; [|repeat apply tends_add; [apply tends_const | apply tends_mul; [apply P; lia | apply tends_const]..]]. unfold dot3. cbn [v3get]. ring.
  - intros i j Hi Hj. unfold metric_from_transf. cbn [Rm mtr Rtrig tar Rarith aops altb alit Rnum nadd nmul].
    eapply C; [|repeat apply tends_add; [apply tends_const | apply tends_mul; apply P; lia ..]]. unfold dot3. cbn [v3get]. ring.
  - intros g i j Hi Hj. unfold ct_tensor2, ct_coef. cbn [fold_left Rm mtr Rtrig tar Rarith aops altb alit Rnum nadd nmul].
    eapply C; [|repeat apply tends_add; [apply tends_const | apply tends_mul; [apply tends_mul; apply P; lia | apply tends_const] ..]]. unfold sum3. ring.
Qed.
Print Assumptions C89_numeric.
Theorem C89_numeric_metrics : forall eps i j p, (i < 3)%nat -> (j < 3)%nat ->
  tends (fun h => metric_from_transf Rm h (SphericalToCartesian Rm eps) i j p) (metric_spherical Rm i j p) /\
  tends (fun h => metric_from_transf Rm h (CylindricalToCartesian Rm) i j p) (metric_cylindrical Rm i j p).
Proof.
  intros eps i j p Hi Hj. split.
  - assert (B : bases (SphericalToCartesian Rm eps) p (fun i => sph_basis Rm (Z.of_nat i) p)) by (intros k Hk; apply sph_partial; auto).
    destruct (C89_numeric _ _ _ B) as (_ & _ & _ & M & _). destruct (C89_basis eps i p Hi) as (_ & D & _). rewrite <- D by auto. apply M; auto.
  - assert (B : bases (CylindricalToCartesian Rm) p (fun i => cyl_basis i p)) by (intros k Hk; apply cyl_partial; auto).
    destruct (C89_numeric _ _ _ B) as (_ & _ & _ & M & _). specialize (M i j Hi Hj). replace (metric_cylindrical Rm i j p) with (dot3 (cyl_basis i p) (cyl_basis j p)); auto.
    assert (S := sin2_cos2 (vy p)). unfold Rsqr in S. assert (C : cos (vy p) * cos (vy p) = 1 - sin (vy p) * sin (vy p)) by lra.
    destruct i as [|[|[|i]]]; try lia; destruct j as [|[|[|j]]]; try lia; unfold dot3, cyl_basis, metric_cylindrical; cn; ring [C].
Qed.
Print Assumptions C89_numeric_metrics.
(** for every step, not only in the limit: the pairing of a covector and a vector is kept; affine maps are differentiated exactly *)
Theorem C89_numeric_exact :
  (forall h t v w p, dot3 w (ct_contravariant Rm h t v p) = dot3 (ct_inverse_covariant Rm h t w p) v) /\
  (forall h m c f p, 0 < h -> let t := mkTransf (fun q => lin3 1 (app3 m q) 1 c) f in
     (forall k, (k < 3)%nat -> ct_jacobian Rm h t p k 0 = v3get (V3 (m00 m) (m10 m) (m20 m)) k /\ ct_jacobian Rm h t p k 1 = v3get (V3 (m01 m) (m11 m) (m21 m)) k /\ ct_jacobian Rm h t p k 2 = v3get (V3 (m02 m) (m12 m) (m22 m)) k) /\
     (forall v, ct_contravariant Rm h t v p = app3 m v)).
Proof.
  split.
  - intros h t [a b c] [x y z] p. unfold ct_contravariant, ct_inverse_covariant, dot3. cn. ring.
  - intros h m c f p Hh t.
    assert (J : forall k, (k < 3)%nat -> ct_jacobian Rm h t p k 0 = v3get (V3 (m00 m) (m10 m) (m20 m)) k /\ ct_jacobian Rm h t p k 1 = v3get (V3 (m01 m) (m11 m) (m21 m)) k /\ ct_jacobian Rm h t p k 2 = v3get (V3 (m02 m) (m12 m) (m22 m)) k).
    { intros k Hk. destruct k as [|[|[|k]]]; try lia; unfold ct_jacobian, t; cbn [tf v3get vx vy vz]; (repeat split); (eapply Partial_affine; [auto|]); intros s; unfold lin3, app3, row0, row1, row2, dot3; cbn [v3get v3set vx vy vz].
      - instantiate (1 := m01 m * vy p + m02 m * vz p + vx c). ring.
      - instantiate (1 := m00 m * vx p + m02 m * vz p + vx c). ring.
      - instantiate (1 := m00 m * vx p + m01 m * vy p + vx c). ring.
      - instantiate (1 := m11 m * vy p + m12 m * vz p + vy c). ring.
      - instantiate (1 := m10 m * vx p + m12 m * vz p + vy c). ring.
      - instantiate (1 := m10 m * vx p + m11 m * vy p + vy c). ring.
      - instantiate (1 := m21 m * vy p + m22 m * vz p + vz c). ring.
      - instantiate (1 := m20 m * vx p + m22 m * vz p + vz c). ring.
      - instantiate (1 := m20 m * vx p + m21 m * vy p + vz c). ring. }
    split; [exact J|]. intros [x y z]. unfold ct_contravariant, ct_jacobian in *. clearbody t. destruct (J 0%nat ltac:(lia)) as (J1 & J2 & J3). destruct (J 1%nat ltac:(lia)) as (K1 & K2 & K3). destruct (J 2%nat ltac:(lia)) as (L1 & L2 & L3).
    unfold v3of. rewrite J1, J2, J3, K1, K2, K3, L1, L2, L3. unfold app3, row0, row1, row2, dot3. cn. f_equal; ring.
Qed.
Print Assumptions C89_numeric_exact.
Example C89_numeric_case : tends (fun h => metric_from_transf Rm h (SphericalToCartesian Rm 1) 2 2 (V3 2 (PI / 2) 0)) 4.
Proof. destruct (C89_numeric_metrics 1 2 2 (V3 2 (PI / 2) 0) ltac:(lia) ltac:(lia)) as [H _]. rewrite (proj2 C89_basis_case) in H. exact H. Qed.

Lemma dl_local : forall f g x l d, 0 < d -> (forall t, Rabs (t - x) < d -> f t = g t) -> derivable_pt_lim f x l -> derivable_pt_lim g x l.
Proof.
  intros f g x l d Hd E H e He. destruct (H e He) as [[a Ha] A]. assert (Q : 0 < Rmin a d) by (apply Rmin_pos; auto). exists (mkposreal _ Q). cbn. intros h Hh Hl.
  rewrite <- !E; [apply A; auto; cbn; eapply Rlt_le_trans; [apply Hl | apply Rmin_l] | rewrite Rminus_diag_eq, Rabs_R0 by auto; auto | replace (x + h - x) with h by ring; eapply Rlt_le_trans; [apply Hl | apply Rmin_r]].
Qed.
(** transfTensor2 takes the derivatives of the inverse at the source coordinates instead of at the image point: the covariant metric of cylindrical coordinates at (1, 1, 0) should become the Cartesian one with component 1, the result tends to 3/4. *)
Theorem C89_tensor_refuted : exists p, let g := fun k l => metric_cylindrical Rm k l p in
  tends (fun h => ct_tensor2 Rm h (CylindricalToCartesian Rm) false false g p 0 0) (3 / 4) /\ metric_cartesian Rm 0 0 = 1.
Proof.
  exists (V3 1 1 0). cbv zeta. split; [|reflexivity]. assert (S2 : sqrt 2 * sqrt 2 = 2) by (apply sqrt_sqrt; lra). assert (S0 : 0 < sqrt 2) by (apply sqrt_lt_R0; lra).
  assert (D0 : tends (fun h => Partial Rm h (fun q => v3get (tinv (CylindricalToCartesian Rm) q) 0) 0 (V3 1 1 0)) (1 / sqrt 2)).
  { apply (Partial_tends (fun q => v3get (tinv (CylindricalToCartesian Rm) q) 0)). unfold CylindricalToCartesian, cart_to_cyl. cn.
    eapply dl_eq with (f := comp sqrt (fun t => t * t + 1)) (l := / (2 * sqrt (1 * 1 + 1)) * (1 * 1 + 1 * 1 + 0)); [intros; unfold comp; f_equal; ring | replace (1 * 1 + 1) with 2 by ring; field; lra |].
    apply derivable_pt_lim_comp; [|apply derivable_pt_lim_sqrt; lra].
    apply (derivable_pt_lim_plus (fun t => t * t) (fun _ => 1)); [apply (derivable_pt_lim_mult id id); apply derivable_pt_lim_id | apply derivable_pt_lim_const]. }
  assert (D1 : tends (fun h => Partial Rm h (fun q => v3get (tinv (CylindricalToCartesian Rm) q) 1) 0 (V3 1 1 0)) (- (1 / 2))).
  { apply (Partial_tends (fun q => v3get (tinv (CylindricalToCartesian Rm) q) 1)). unfold CylindricalToCartesian, cart_to_cyl. cn.
    eapply dl_local with (f := fun t => PI / 2 - atan t) (d := 1 / 2); [lra| |].
    { intros t H. apply Rabs_def2 in H. unfold Ratan2. destruct (Rlt_dec 0 t); [|lra]. unfold Rdiv at 2. rewrite Rmult_1_l, atan_inv by lra. auto. }
    eapply dl_eq with (f := (fct_cte (PI / 2) - atan)%F) (l := 0 - / (1 + 1 ^ 2)); [reflexivity | lra |].
    apply derivable_pt_lim_minus; [apply derivable_pt_lim_const | apply derivable_pt_lim_atan]. }
  assert (D2 : tends (fun h => Partial Rm h (fun q => v3get (tinv (CylindricalToCartesian Rm) q) 2) 0 (V3 1 1 0)) 0).
  { apply (Partial_tends (fun q => v3get (tinv (CylindricalToCartesian Rm) q) 2)). unfold CylindricalToCartesian, cart_to_cyl. cn. apply derivable_pt_lim_const. }
  unfold ct_tensor2, ct_coef. cbn [fold_left Rm mtr Rtrig tar Rarith aops altb alit Rnum nadd nmul].
  assert (C : forall X a b, a = b -> tends X a -> tends X b) by (intros; subst; auto).
  eapply C; [|repeat apply tends_add; [apply tends_const | apply tends_mul; [apply tends_mul; [first [exact D0 | exact D1 | exact D2] ..] | apply tends_const] ..]].
  unfold metric_cylindrical. cn. replace (1 / sqrt 2 * (1 / sqrt 2)) with (1 / 2) by (rewrite <- S2 at 1; field; lra). lra.
Qed.
Print Assumptions C89_tensor_refuted.
