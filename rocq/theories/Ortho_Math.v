(** * C90: integrals with primitives, and the three-term recurrence: orthogonality follows from the integrals of the single functions *)

From Coq Require Import List Arith ZArith Reals Lia Lra.
From Verif Require Import Base Num RootFind_Model RootFind_Proofs Fourier_Model Fourier_Spec Interp_Linear Interp_Bary Fourier_DCT Ortho_Model Ortho_Spec.
Import ListNotations.
Local Open Scope R_scope.

(** ** Integrals *)
Lemma near_lo_and : forall a (P Q : R -> Prop), near_lo a P -> near_lo a Q -> near_lo a (fun x => P x /\ Q x).
Proof.
  intros [|a|] P Q; cbn [near_lo]; [|intros (d & Hd & H) (d' & Hd' & H')|tauto].
  - intros (M & H) (M' & H'). exists (Rmin M M'). intros x Hx. pose proof (Rmin_l M M'). pose proof (Rmin_r M M'). split; [apply H|apply H']; lra.
  - exists (Rmin d d'). split; [apply Rmin_pos; auto|]. intros x Hx. pose proof (Rmin_l d d'). pose proof (Rmin_r d d'). split; [apply H|apply H']; lra.
Qed.
Lemma near_hi_and : forall a (P Q : R -> Prop), near_hi a P -> near_hi a Q -> near_hi a (fun x => P x /\ Q x).
Proof.
  intros [|a|] P Q; cbn [near_hi]; [tauto|intros (d & Hd & H) (d' & Hd' & H')|].
  - exists (Rmin d d'). split; [apply Rmin_pos; auto|]. intros x Hx. pose proof (Rmin_l d d'). pose proof (Rmin_r d d'). split; [apply H|apply H']; lra.
  - intros (M & H) (M' & H'). exists (Rmax M M'). intros x Hx. pose proof (Rmax_l M M'). pose proof (Rmax_r M M'). split; [apply H|apply H']; lra.
Qed.
Lemma near_lo_mono : forall a (P Q : R -> Prop), (forall x, P x -> Q x) -> near_lo a P -> near_lo a Q.
Proof. intros [|a|] P Q H; cbn [near_lo]; [intros (M & G); exists M; auto|intros (d & Hd & G); exists d; auto|auto]. Qed.
Lemma near_hi_mono : forall a (P Q : R -> Prop), (forall x, P x -> Q x) -> near_hi a P -> near_hi a Q.
Proof. intros [|a|] P Q H; cbn [near_hi]; [auto|intros (d & Hd & G); exists d; auto|intros (M & G); exists M; auto]. Qed.

Lemma lin_close : forall al be (F G : R -> R) u v e x, 0 < e -> Rabs (F x - u) < e / (2 * (Rabs al + 1)) -> Rabs (G x - v) < e / (2 * (Rabs be + 1)) ->
  Rabs (al * F x + be * G x - (al * u + be * v)) < e.
Proof.
  intros al be F G u v e x He H1 H2. pose proof (Rabs_pos al). pose proof (Rabs_pos be).
  replace (al * F x + be * G x - (al * u + be * v)) with (al * (F x - u) + be * (G x - v)) by ring.
  apply (Rle_lt_trans _ (Rabs al * Rabs (F x - u) + Rabs be * Rabs (G x - v))). { rewrite <- !Rabs_mult. apply Rabs_triang. }
  assert (G1 : Rabs al * Rabs (F x - u) <= e / 2 * (Rabs al / (Rabs al + 1))).
  { replace (e / 2 * (Rabs al / (Rabs al + 1))) with (Rabs al * (e / (2 * (Rabs al + 1)))) by (field; lra). apply Rmult_le_compat_l; lra. }
  assert (G2 : Rabs be * Rabs (G x - v) <= e / 2 * (Rabs be / (Rabs be + 1))).
  { replace (e / 2 * (Rabs be / (Rabs be + 1))) with (Rabs be * (e / (2 * (Rabs be + 1)))) by (field; lra). apply Rmult_le_compat_l; lra. }
  assert (Q : forall t, 0 <= t -> t / (t + 1) < 1). { intros t Ht. apply (Rmult_lt_reg_r (t + 1)); [lra|]. unfold Rdiv. rewrite Rmult_assoc, Rinv_l by lra. lra. }
  pose proof (Q _ H). pose proof (Q _ H0). nra.
Qed.
Lemma integral_lin : forall a b f g l k al be, integral a b f l -> integral a b g k -> integral a b (fun x => al * f x + be * g x) (al * l + be * k).
Proof.
  intros a b f g l k al be (F & u & v & HF & Hu & Hv & ->) (G & u' & v' & HG & Hu' & Hv' & ->).
  assert (P : forall e t, 0 < e -> 0 < e / (2 * (Rabs t + 1))). { intros e t He. pose proof (Rabs_pos t). apply Rdiv_lt_0_compat; lra. }
  exists (fun x => al * F x + be * G x), (al * u + be * u'), (al * v + be * v'). split; [|split; [|split; [|ring]]].
  - intros x Hx. apply (derivable_pt_lim_plus (fun x => al * F x) (fun x => be * G x)); apply (derivable_pt_lim_scal _ _ _ _ (HF x Hx)) || apply (derivable_pt_lim_scal _ _ _ _ (HG x Hx)).
  - intros e He. apply (near_lo_mono a _ _ (fun x H => lin_close al be F G u u' e x He (proj1 H) (proj2 H))). apply near_lo_and; auto.
  - intros e He. apply (near_hi_mono b _ _ (fun x H => lin_close al be F G v v' e x He (proj1 H) (proj2 H))). apply near_hi_and; auto.
Qed.
Lemma integral_ext : forall a b f g l k, (forall x, inside a b x -> f x = g x) -> l = k -> integral a b f l -> integral a b g k.
Proof. intros a b f g l k H <- (F & u & v & HF & R0). exists F, u, v. split; auto. intros x Hx. rewrite <- H by auto. auto. Qed.
Lemma integral_zero_of : forall a b f l, integral a b f l -> integral a b (fun _ => 0) 0.
Proof. intros a b f l H. apply (integral_ext a b (fun x => 0 * f x + 0 * f x) _ (0 * l + 0 * l)); [intros; ring|ring|]. apply integral_lin; auto. Qed.
Lemma integral_scal : forall a b f l al, integral a b f l -> integral a b (fun x => al * f x) (al * l).
Proof. intros a b f l al H. apply (integral_ext a b (fun x => al * f x + 0 * f x) _ (al * l + 0 * l)); [intros; ring|ring|]. apply integral_lin; auto. Qed.

(** the integral is unique *)
Lemma near_both : forall a b (P Q : R -> Prop), (exists x, inside a b x) -> near_lo a P -> near_hi b Q -> exists x y, inside a b x /\ inside a b y /\ P x /\ Q y.
Proof.
  intros a b P Q (z & Hz) HP HQ. destruct a as [|a|]; [| |destruct HP]; destruct b as [|b|]; cbn [near_lo near_hi inside] in *; try contradiction; unfold inside.
  - destruct HP as (M & HP), HQ as (d & Hd & HQ). destruct Hz as [_ Hz]. exists (Rmin z (M - 1)), ((Rmax z (b - d) + b) / 2).
    pose proof (Rmin_l z (M - 1)). pose proof (Rmin_r z (M - 1)). assert (Rmax z (b - d) < b) by (apply Rmax_lub_lt; lra). pose proof (Rmax_r z (b - d)).
    repeat split; try lra; [apply HP|apply HQ]; lra.
  - destruct HP as (M & HP), HQ as (N & HQ). exists (M - 1), (N + 1). repeat split; auto; [apply HP|apply HQ]; lra.
  - destruct HP as (d & Hd & HP), HQ as (d' & Hd' & HQ). destruct Hz as [Hz Hz']. exists ((a + Rmin z (a + d)) / 2), ((Rmax z (b - d') + b) / 2).
    assert (a < Rmin z (a + d)) by (apply Rmin_glb_lt; lra). pose proof (Rmin_r z (a + d)). pose proof (Rmin_l z (a + d)).
    assert (Rmax z (b - d') < b) by (apply Rmax_lub_lt; lra). pose proof (Rmax_r z (b - d')). pose proof (Rmax_l z (b - d')).
    repeat split; try lra; [apply HP|apply HQ]; lra.
  - destruct HP as (d & Hd & HP), HQ as (N & HQ). destruct Hz as [Hz _]. exists ((a + Rmin z (a + d)) / 2), (Rmax z N + 1).
    assert (a < Rmin z (a + d)) by (apply Rmin_glb_lt; lra). pose proof (Rmin_r z (a + d)). pose proof (Rmax_l z N). pose proof (Rmax_r z N).
    repeat split; try lra; [apply HP|apply HQ]; lra.
Qed.
Lemma inside_conv : forall a b x y z, inside a b x -> inside a b y -> x <= z <= y -> inside a b z.
Proof. intros [|a|] [|b|] x y z (H1 & H2) (H3 & H4) Hz; cbn in *; repeat split; try tauto; lra. Qed.
Lemma integral_unique : forall a b f l k, (exists x, inside a b x) -> integral a b f l -> integral a b f k -> l = k.
Proof.
  intros a b f l k HI (F & u & v & HF & Hu & Hv & ->) (G & u' & v' & HG & Hu' & Hv' & ->).
  assert (C0 : forall x y, inside a b x -> inside a b y -> x < y -> F x - G x = F y - G y).
  { intros x y Hx Hy L. destruct (MVT_cor2 (fun t => F t - G t) (fun t => f t - f t) x y L) as (c & E & _).
    - intros c Hc. assert (Hi : inside a b c) by (apply (inside_conv a b x y c); auto). apply (derivable_pt_lim_minus F G); auto.
    - replace (f c - f c) with 0 in E by ring. lra. }
  assert (C1 : forall x y, inside a b x -> inside a b y -> F x - G x = F y - G y).
  { intros x y Hx Hy. destruct (Rtotal_order x y) as [L|[->|L]]; auto. symmetry. auto. }
  apply cond_eq. intros e He. assert (He' : 0 < e / 4) by lra.
  destruct (near_both a b _ _ HI (near_lo_and a _ _ (Hu _ He') (Hu' _ He')) (near_hi_and b _ _ (Hv _ He') (Hv' _ He'))) as (x & y & Hx & Hy & (X1 & X2) & (Y1 & Y2)).
  pose proof (C1 x y Hx Hy). apply Rabs_def2 in X1. apply Rabs_def2 in X2. apply Rabs_def2 in Y1. apply Rabs_def2 in Y2. apply Rabs_def1; lra.
Qed.

(** ** The three-term recurrence *)
Section Three.
Variables a b c : nat -> R.
Hypothesis Ha : forall n, a n <> 0.
Local Notation p := (ttr a b c).
Definition prev (n : nat) (x : R) : R := match n with 0%nat => 0 | S k => p k x end.
Lemma ttr_S : forall n x, p (S n) x = (a n * x + b n) * p n x + c n * prev n x.
Proof. intros [|n] x; cbn [ttr prev]; ring. Qed.

(** the squares of the norms *)
Fixpoint hh (h0 : R) (n : nat) : R := match n with 0%nat => h0 | S k => - (a k * c n / a n) * hh h0 k end.

Lemma favard : forall lo hi w h0, (forall n, integral lo hi (fun x => p n x * w x) (if (n =? 0)%nat then h0 else 0)) ->
  forall m n, integral lo hi (fun x => p m x * p n x * w x) (if (m =? n)%nat then hh h0 m else 0).
Proof.
  intros lo hi w h0 HB.
  pose proof (integral_zero_of _ _ _ _ (HB 0%nat)) as HZ.
  enough (H : forall m k, (k <= m)%nat -> forall n, integral lo hi (fun x => p k x * p n x * w x) (if (k =? n)%nat then hh h0 k else 0)) by (intros m n; apply (H m m); lia).
  induction m as [|m IH]; intros k Hk n.
  - assert (k = 0)%nat as -> by lia. apply (integral_ext lo hi (fun x => p n x * w x) _ (if (n =? 0)%nat then h0 else 0)); [intros; cbn [ttr]; ring| |apply HB]. destruct n; reflexivity.
  - destruct (Nat.eq_dec k (S m)) as [->|]; [|apply IH; lia].
    set (V := fun i j => if (i =? j)%nat then hh h0 i else 0).
    set (V1 := match n with 0%nat => 0 | S j => V m j end). set (V2 := match m with 0%nat => 0 | S j => V j n end).
    apply (integral_ext lo hi (fun x => 1 * (a m / a n * (p m x * p (S n) x * w x) + (b m - a m * b n / a n) * (p m x * p n x * w x))
             + 1 * ((- (a m * c n / a n)) * (p m x * prev n x * w x) + c m * (prev m x * p n x * w x))) _
             (1 * (a m / a n * V m (S n) + (b m - a m * b n / a n) * V m n) + 1 * ((- (a m * c n / a n)) * V1 + c m * V2))).
    + intros x _. rewrite (ttr_S n x), (ttr_S m x). field. apply Ha.
    + unfold V1, V2, V. destruct (Nat.eqb_spec (S m) n) as [<-|N1].
      * destruct (Nat.eqb_spec m (S (S m))); [lia|]. destruct (Nat.eqb_spec m (S m)); [lia|]. rewrite Nat.eqb_refl. cbn [hh].
        replace (match m with 0%nat => 0 | S j => if (j =? S m)%nat then hh h0 j else 0 end) with 0. 2: { destruct m as [|j]; auto. destruct (Nat.eqb_spec j (S (S j))); [lia|auto]. }
        field. apply Ha.
      * destruct (Nat.eqb_spec m n) as [<-|N2].
        -- destruct (Nat.eqb_spec m (S m)); [lia|]. destruct m as [|j]; [field; apply Ha|]. destruct (Nat.eqb_spec (S j) j); [lia|]. destruct (Nat.eqb_spec j (S j)); [lia|]. field. apply Ha.
        -- destruct (Nat.eqb_spec m (S n)) as [->|N3].
           ++ rewrite Nat.eqb_refl. replace (match n with 0%nat => 0 | S j => if (S n =? j)%nat then hh h0 (S n) else 0 end) with 0. 2: { destruct n as [|j]; auto. destruct (Nat.eqb_spec (S (S j)) j); [lia|auto]. }
              cbn [hh]. field. split; apply Ha.
           ++ replace (match n with 0%nat => 0 | S j => if (m =? j)%nat then hh h0 m else 0 end) with 0. 2: { destruct n as [|j]; auto. destruct (Nat.eqb_spec m j); [lia|auto]. }
              replace (match m with 0%nat => 0 | S j => if (j =? n)%nat then hh h0 j else 0 end) with 0. 2: { destruct m as [|j]; auto. destruct (Nat.eqb_spec j n); [lia|auto]. }
              field. apply Ha.
    + apply (integral_lin lo hi (fun x => a m / a n * (p m x * p (S n) x * w x) + (b m - a m * b n / a n) * (p m x * p n x * w x))
                (fun x => (- (a m * c n / a n)) * (p m x * prev n x * w x) + c m * (prev m x * p n x * w x))).
      * apply (integral_lin lo hi (fun x => p m x * p (S n) x * w x) (fun x => p m x * p n x * w x)); apply IH; lia.
      * apply (integral_lin lo hi (fun x => p m x * prev n x * w x) (fun x => prev m x * p n x * w x)).
        -- unfold V1, V. destruct n as [|j]; [apply (integral_ext lo hi (fun _ => 0) _ 0); [intros; cbn [prev]; ring|auto|exact HZ]|]. cbn [prev]. apply IH; lia.
        -- unfold V2, V. destruct m as [|j]; [apply (integral_ext lo hi (fun _ => 0) _ 0); [intros; cbn [prev]; ring|auto|exact HZ]|]. cbn [prev]. apply IH; lia.
Qed.

(** the degree *)
Fixpoint lead (n : nat) : R := match n with 0%nat => 1 | S k => a k * lead k end.
Lemma lead_nz : forall n, lead n <> 0.
Proof. induction n as [|n IH]; cbn [lead]; [lra|]. apply Rmult_integral_contrapositive_currified; auto. Qed.
Lemma ttr_degree : forall n, degree n (lead n) (p n).
Proof.
  intros n. enough (H : degree n (lead n) (p n) /\ degree (S n) (lead (S n)) (p (S n))) by tauto.
  assert (SH : forall n (f : nat -> R) x, x * sumn Rnum n (fun i => f i * x ^ i) = sumn Rnum (S n) (fun i => match i with 0%nat => 0 | S j => f j end * x ^ i)).
  { intros m f x. induction m as [|m IH]; [cbn [sumn]; rnum; ring|]. rewrite (sumS (S m)), <- IH, sumS. cbn [pow]. ring. }
  induction n as [|n [(K1 & c1 & E1) (K2 & c2 & E2)]].
  - split; (split; [apply lead_nz|]).
    + exists (fun _ => 0). intros x. cbn. rnum. ring.
    + exists (fun _ => b 0%nat). intros x. cbn. rnum. ring.
  - split; [split; auto; exists c2; auto|]. split; [apply lead_nz|].
    exists (fun i => a (S n) * match i with 0%nat => 0 | S j => c2 j end + b (S n) * (if (i =? S n)%nat then lead (S n) else c2 i)
                     + c (S n) * (if (i =? n)%nat then lead n else if (i =? S n)%nat then 0 else c1 i)).
    intros x. rewrite ttr_S. cbn [prev]. rewrite E1, E2.
    assert (A1 : sumn Rnum (S (S n)) (fun i => (if (i =? S n)%nat then lead (S n) else c2 i) * x ^ i) = lead (S n) * x ^ S n + sumn Rnum (S n) (fun i => c2 i * x ^ i)).
    { rewrite (sumS (S n)), Nat.eqb_refl. rewrite (sum_ext_R (S n) _ (fun i => c2 i * x ^ i)); [ring|]. intros i Hi. destruct (Nat.eqb_spec i (S n)); [lia|auto]. }
    assert (A2 : sumn Rnum (S (S n)) (fun i => (if (i =? n)%nat then lead n else if (i =? S n)%nat then 0 else c1 i) * x ^ i) = lead n * x ^ n + sumn Rnum n (fun i => c1 i * x ^ i)).
    { rewrite (sumS (S n)), (sumS n), !Nat.eqb_refl. destruct (Nat.eqb_spec (S n) n); [lia|]. rewrite (sum_ext_R n _ (fun i => c1 i * x ^ i)); [ring|].
      intros i Hi. destruct (Nat.eqb_spec i n); [lia|]. destruct (Nat.eqb_spec i (S n)); [lia|auto]. }
    rewrite (sum_ext_R (S (S n)) _ (fun i => a (S n) * (match i with 0%nat => 0 | S j => c2 j end * x ^ i) + (b (S n) * ((if (i =? S n)%nat then lead (S n) else c2 i) * x ^ i)
                     + c (S n) * ((if (i =? n)%nat then lead n else if (i =? S n)%nat then 0 else c1 i) * x ^ i)))) by (intros; ring).
    rewrite !sum_add_R, <- !sum_mul_R, A1, A2, <- SH. cbn [lead pow]. ring.
Qed.
End Three.

(** the loop of the code runs through the recurrence *)
Lemma ttr_loop : forall (p : nat -> R) (g : nat -> R -> R -> R) s n z, (forall k, (s <= k)%nat -> g k (p (k - s)%nat) (p (k - s + 1)%nat) = p (k - s + 2)%nat) -> (1 <= n)%nat ->
  fold_left (fun '(p2, p1, _) k => let pn := g k p2 p1 in (p1, pn, pn)) (seq s n) (p 0%nat, p 1%nat, z) = (p n, p (S n), p (S n)).
Proof.
  intros p g s n z Hg Hn. destruct n as [|n]; [lia|]. clear Hn.
  assert (H : forall n s' q z', (forall k, (s' <= k)%nat -> g k (p (q + (k - s'))%nat) (p (q + (k - s') + 1)%nat) = p (q + (k - s') + 2)%nat) ->
    fold_left (fun '(p2, p1, _) k => let pn := g k p2 p1 in (p1, pn, pn)) (seq s' (S n)) (p q, p (S q), z') = (p (q + S n)%nat, p (S (q + S n)), p (S (q + S n)))).
  { clear. induction n as [|n IH]; intros s' q z' Hg.
    - cbn [seq fold_left]. pose proof (Hg s' (le_n _)) as E. replace (q + (s' - s'))%nat with q in E by lia. replace (q + 1)%nat with (S q) in * by lia. replace (q + 2)%nat with (S (S q)) in E by lia.
      rewrite E. reflexivity.
    - cbn [seq fold_left]. pose proof (Hg s' (le_n _)) as E. replace (q + (s' - s'))%nat with q in E by lia. replace (q + 1)%nat with (S q) in E by lia. replace (q + 2)%nat with (S (S q)) in E by lia.
      rewrite E. specialize (IH (S s') (S q) (p (S (S q)))). cbn [seq fold_left] in IH. rewrite IH; [replace (S q + S n)%nat with (q + S (S n))%nat by lia; reflexivity|].
      intros k Hk. pose proof (Hg k ltac:(lia)) as E'. replace (S q + (k - S s'))%nat with (q + (k - s'))%nat by lia. exact E'. }
  specialize (H n s 0%nat z). cbn [Nat.add] in H. apply H. exact Hg.
Qed.
