(** * C88: plane rotations of symmetric matrices given as functions *)
From Coq Require Import Reals Lra List Arith ZArith Lia Bool.
From Verif Require Import Base Num Mat_Proofs QR_Math Iter_Math Eig_Spec.
Local Open Scope R_scope.

(** ** Sums *)
Lemma rsum_two : forall n f p q, (p < n)%nat -> (q < n)%nat -> p <> q -> (forall i, (i < n)%nat -> i <> p -> i <> q -> f i = 0) -> rsum n f = f p + f q.
Proof.
  intros n f p q Hp Hq N H. rewrite (rsum_ext n f (fun i => (if Nat.eqb i p then f i else 0) + (if Nat.eqb i q then f i else 0))).
  - rewrite rsum_add. rewrite (rsum_one n p), (rsum_one n q); auto; rewrite ?Nat.eqb_refl; auto; intros i Hi Ni; apply Nat.eqb_neq in Ni; rewrite Ni; auto.
  - intros i Hi. destruct (Nat.eqb_spec i p), (Nat.eqb_spec i q); subst; try lra; [contradiction|]. rewrite H; auto; lra.
Qed.
Lemma rsum_change : forall n f g p q, (p < n)%nat -> (q < n)%nat -> p <> q -> (forall i, (i < n)%nat -> i <> p -> i <> q -> f i = g i) -> rsum n f = rsum n g + (f p + f q - g p - g q).
Proof.
  intros n f g p q Hp Hq N H. assert (rsum n f - rsum n g = f p + f q - g p - g q); [|lra]. rewrite <- rsum_sub. rewrite (rsum_two n _ p q); auto; [ring|].
  intros i Hi N1 N2. rewrite H; auto. ring.
Qed.
Lemma rsum_scal_r : forall n a f, rsum n (fun i => f i * a) = rsum n f * a.
Proof. intros. rewrite Rmult_comm, <- rsum_scal. apply rsum_ext. intros; ring. Qed.
(** Cauchy-Schwarz *)
Lemma cauchy : forall n f g, rsum n (fun i => f i * g i) * rsum n (fun i => f i * g i) <= rsum n (fun i => f i * f i) * rsum n (fun i => g i * g i).
Proof.
  intros n f g. set (a := rsum n (fun i => f i * f i)). set (b := rsum n (fun i => f i * g i)). set (c := rsum n (fun i => g i * g i)).
  assert (E : forall x y, 0 <= x * x * a + 2 * x * y * b + y * y * c).
  { intros x y. unfold a, b, c. rewrite <- !rsum_scal, <- !rsum_add. apply rsum_pos. intros i Hi. replace (x * x * (f i * f i) + 2 * x * y * (f i * g i) + y * y * (g i * g i)) with ((x * f i + y * g i) * (x * f i + y * g i)) by ring. apply Rle_0_sqr. }
  assert (Ha : 0 <= a) by (apply rsum_pos; intros; apply Rle_0_sqr). assert (Hc : 0 <= c) by (apply rsum_pos; intros; apply Rle_0_sqr).
  destruct (Req_dec a 0) as [Z|Z].
  - rewrite Z in *. destruct (Req_dec b 0) as [->|Nb]; [lra|]. pose proof (E (-(c + 1) / (2 * b)) 1) as H. replace (-(c + 1) / (2 * b) * (-(c + 1) / (2 * b)) * 0 + 2 * (-(c + 1) / (2 * b)) * 1 * b + 1 * 1 * c) with (-1) in H by (field; auto). lra.
  - pose proof (E (- b) a) as H. replace (- b * - b * a + 2 * - b * a * b + a * a * c) with (a * (a * c - b * b)) in H by ring. assert (0 < a) by lra. assert (0 <= a * c - b * b); [|lra]. apply (Rmult_le_reg_l a); auto. lra.
Qed.

(** ** Rotations *)
Definition rot (c s : R) (p q : nat) (u : nat -> R) (k : nat) : R :=
  if Nat.eqb k p then c * u p - s * u q else if Nat.eqb k q then s * u p + c * u q else u k.
Definition conj2 (c s : R) (p q : nat) (d : nat -> nat -> R) (i j : nat) : R := rot c s p q (fun j => rot c s p q (fun i => d i j) i) j.
Section Rot.
Variables (n p q : nat) (c s : R).
Hypothesis (Hp : (p < n)%nat) (Hq : (q < n)%nat) (N : p <> q) (U : c * c + s * s = 1).
Local Notation rt := (rot c s p q).
Local Notation cj := (conj2 c s p q).

Lemma rot_p : forall u, rt u p = c * u p - s * u q.
Proof. intros. unfold rot. rewrite Nat.eqb_refl. auto. Qed.
Lemma rot_q : forall u, rt u q = s * u p + c * u q.
Proof. intros. unfold rot. rewrite Nat.eqb_refl. destruct (Nat.eqb_spec q p); auto. congruence. Qed.
Lemma rot_o : forall u k, k <> p -> k <> q -> rt u k = u k.
Proof. intros u k H1 H2. unfold rot. apply Nat.eqb_neq in H1, H2. rewrite H1, H2. auto. Qed.
Lemma rot_ext : forall u w k, (k < n)%nat -> (forall k, (k < n)%nat -> u k = w k) -> rt u k = rt w k.
Proof. intros u w k Hk H. unfold rot. rewrite (H p Hp), (H q Hq), (H k Hk). auto. Qed.
Lemma rot_dot : forall u w, rsum n (fun k => rt u k * rt w k) = rsum n (fun k => u k * w k).
Proof.
  intros u w. rewrite (rsum_change n _ (fun k => u k * w k) p q); auto.
  - rewrite !rot_p, !rot_q. replace ((c * u p - s * u q) * (c * w p - s * w q) + (s * u p + c * u q) * (s * w p + c * w q) - u p * w p - u q * w q) with ((c * c + s * s - 1) * (u p * w p + u q * w q)) by ring. rewrite U. ring.
  - intros i _ H1 H2. rewrite !rot_o by auto. auto.
Qed.
Lemma rot_sum : forall m (f : nat -> nat -> R) k, rt (fun k => rsum m (f k)) k = rsum m (fun l => rt (fun k => f k l) k).
Proof.
  intros m f k. unfold rot. destruct (Nat.eqb k p); [|destruct (Nat.eqb k q)]; auto.
  - rewrite rsum_sub, !rsum_scal. auto.
  - rewrite rsum_add, !rsum_scal. auto.
Qed.
Lemma rot_scal : forall u a k, rt (fun k => u k * a) k = rt u k * a.
Proof. intros u a k. unfold rot. destruct (Nat.eqb k p); [|destruct (Nat.eqb k q)]; ring. Qed.
(** the rotation of both indices *)
Lemma conj_sym : forall d, (forall i j, (i < n)%nat -> (j < n)%nat -> d i j = d j i) -> forall i j, (i < n)%nat -> (j < n)%nat -> cj d i j = cj d j i.
Proof.
  intros d H i j Hi Hj. unfold conj2, rot. destruct (Nat.eqb i p), (Nat.eqb i q), (Nat.eqb j p), (Nat.eqb j q); rewrite ?(H p q Hp Hq), ?(H p i Hp Hi), ?(H q i Hq Hi), ?(H p j Hp Hj), ?(H q j Hq Hj), ?(H i j Hi Hj); ring.
Qed.
Lemma frob_conj : forall d, frob2 n (cj d) = frob2 n d.
Proof.
  intros d. unfold frob2. transitivity (rsum n (fun i => rsum n (fun j => rt (fun i => d i j) i * rt (fun i => d i j) i))).
  - apply rsum_ext. intros i Hi. unfold conj2. apply (rot_dot (fun j => rt (fun i => d i j) i) (fun j => rt (fun i => d i j) i)).
  - rewrite rsum_swap. rewrite (rsum_swap n n (fun i j => d i j * d i j)). apply rsum_ext. intros j Hj. apply (rot_dot (fun i => d i j) (fun i => d i j)).
Qed.
(** V D V^T *)
Definition vdv (n : nat) (v d : nat -> nat -> R) (i j : nat) : R := rsum n (fun k => v i k * rsum n (fun l => d k l * v j l)).
Lemma vdv_conj : forall v d i j, vdv n (fun i => rt (v i)) (cj d) i j = vdv n v d i j.
Proof.
  intros v d i j. unfold vdv. transitivity (rsum n (fun k => rt (v i) k * rt (fun k => rsum n (fun l => d k l * v j l)) k)).
  - apply rsum_ext. intros k Hk. f_equal. unfold conj2. rewrite (rot_dot (fun j => rt (fun i => d i j) k) (v j)). rewrite rot_sum. apply rsum_ext. intros l Hl. rewrite rot_scal. auto.
  - apply rot_dot.
Qed.
Lemma gram_conj : forall v, orthonormal n v -> orthonormal n (fun i => rt (v i)).
Proof.
  intros v H i j Hi Hj. pose proof (H i j Hi Hj) as E0. pose proof (H p p Hp Hp) as Epp. pose proof (H p q Hp Hq) as Epq. pose proof (H q p Hq Hp) as Eqp. pose proof (H q q Hq Hq) as Eqq.
  pose proof (H i p Hi Hp) as Eip. pose proof (H i q Hi Hq) as Eiq. pose proof (H p j Hp Hj) as Epj. pose proof (H q j Hq Hj) as Eqj.
  assert (G : rsum n (fun k => rt (v k) i * rt (v k) j) = rt (fun i => rt (fun j => rsum n (fun k => v k i * v k j)) j) i).
  { rewrite (rot_ext _ (fun i => rsum n (fun k => rt (fun j => v k i * v k j) j))); auto. 2: { intros k Hk. apply rot_sum. }
    rewrite rot_sum. apply rsum_ext. intros k Hk. transitivity (rt (fun i => v k i * rt (v k) j) i). { rewrite rot_scal. auto. }
    apply rot_ext; auto. intros l Hl. rewrite Rmult_comm, <- rot_scal. apply rot_ext; auto. intros; ring. }
  rewrite G. clear G. unfold rot, delta in *. assert (Nat.eqb p q = false) as Epq' by (apply Nat.eqb_neq; auto). assert (Nat.eqb q p = false) as Eqp' by (apply Nat.eqb_neq; auto). rewrite Nat.eqb_refl in Epp, Eqq. rewrite Epq' in *. rewrite Eqp' in *.
  destruct (Nat.eqb_spec i p) as [->|Np]; [|destruct (Nat.eqb_spec i q) as [->|Nq]]; (destruct (Nat.eqb_spec j p) as [->|Np']; [|destruct (Nat.eqb_spec j q) as [->|Nq']]); rewrite ?Nat.eqb_refl, ?Epq', ?Eqp';
  rewrite ?E0, ?Epp, ?Epq, ?Eqp, ?Eqq, ?Eip, ?Eiq, ?Epj, ?Eqj;
  repeat match goal with |- context[Nat.eqb ?x ?y] => destruct (Nat.eqb_spec x y); try congruence end; lra.
Qed.
End Rot.

(** ** The off-diagonal part *)
Definition odd2 (n : nat) (d : nat -> nat -> R) : R := rsum n (fun i => rsum n (fun j => if Nat.eqb i j then 0 else d i j * d i j)).
Definition symf (n : nat) (d : nat -> nat -> R) : Prop := forall i j, (i < n)%nat -> (j < n)%nat -> d i j = d j i.
Lemma odd_off : forall n d, symf n d -> odd2 n d = 2 * off2 n d.
Proof.
  intros n d H. unfold odd2, off2. transitivity (rsum n (fun i => rsum n (fun j => if (i <? j)%nat then d i j * d i j else 0)) + rsum n (fun i => rsum n (fun j => if (j <? i)%nat then d j i * d j i else 0))).
  - rewrite <- rsum_add. apply rsum_ext. intros i Hi. rewrite <- rsum_add. apply rsum_ext. intros j Hj. destruct (Nat.eqb_spec i j), (Nat.ltb_spec i j), (Nat.ltb_spec j i); try lia; try lra. rewrite (H i j); auto. lra.
  - rewrite (rsum_swap n n (fun i j => if (j <? i)%nat then d j i * d j i else 0)). lra.
Qed.
Lemma frob_odd : forall n d, frob2 n d = odd2 n d + rsum n (fun i => d i i * d i i).
Proof.
  intros n d. unfold frob2, odd2. rewrite <- rsum_add. apply rsum_ext. intros i Hi. transitivity (rsum n (fun j => if Nat.eqb i j then 0 else d i j * d i j) + rsum n (fun j => if Nat.eqb i j then d i j * d i j else 0)).
  - rewrite <- rsum_add. apply rsum_ext. intros j Hj. destruct (Nat.eqb i j); lra.
  - f_equal. rewrite (rsum_one n i); auto; [rewrite Nat.eqb_refl; auto|]. intros j Hj Nj. destruct (Nat.eqb_spec i j); auto. congruence.
Qed.
Lemma off_pos : forall n d, 0 <= off2 n d.
Proof. intros. apply rsum_pos. intros. apply rsum_pos. intros j Hj. destruct (i <? j)%nat; [apply Rle_0_sqr|lra]. Qed.
Lemma off_entry : forall n d i j, (i < j)%nat -> (j < n)%nat -> d i j * d i j <= off2 n d.
Proof.
  intros n d i j H1 H2. unfold off2. eapply Rle_trans; [|apply (rsum_elem n _ i); [lia|]].
  - cbv beta. eapply Rle_trans; [|apply (rsum_elem n _ j); [lia|]]. + cbv beta. apply Nat.ltb_lt in H1. rewrite H1. lra. + intros k Hk. destruct (i <? k)%nat; [apply Rle_0_sqr|lra].
  - intros k Hk. apply rsum_pos. intros l Hl. destruct (k <? l)%nat; [apply Rle_0_sqr|lra].
Qed.
(** one column of the off-diagonal part *)
Lemma off_column : forall n d j, symf n d -> (j < n)%nat -> rsum n (fun k => if Nat.eqb k j then 0 else d k j * d k j) <= off2 n d.
Proof.
  intros n d j H Hj. pose proof (odd_off n d H) as E. set (C := rsum n (fun k => if Nat.eqb k j then 0 else d k j * d k j)). enough (2 * C <= odd2 n d) by lra.
  assert (C2 : C = rsum n (fun k => if Nat.eqb j k then 0 else d j k * d j k)). { apply rsum_ext. intros k Hk. rewrite (Nat.eqb_sym k j). rewrite (H k j); auto. }
  assert (C3 : C = rsum n (fun a => if Nat.eqb a j then rsum n (fun k => if Nat.eqb j k then 0 else d j k * d j k) else 0)).
  { rewrite (rsum_one n j); auto; [rewrite Nat.eqb_refl; auto|]. intros i Hi Ni. apply Nat.eqb_neq in Ni. rewrite Ni. auto. }
  replace (2 * C) with (C + C) by ring. rewrite C3 at 1. unfold C.
  rewrite <- rsum_add. unfold odd2. apply rsum_le. intros i Hi. destruct (Nat.eqb_spec i j) as [->|Ni].
  - lra.
  - rewrite Rplus_0_l. pose proof (rsum_elem n (fun k => if Nat.eqb i k then 0 else d i k * d i k) j Hj) as L. cbv beta in L. assert (Nat.eqb i j = false) as E' by (apply Nat.eqb_neq; auto). rewrite E' in L. apply L. intros k Hk. destruct (Nat.eqb i k); [lra|apply Rle_0_sqr].
Qed.
(** the rotation that annihilates d p q *)
Section Annihilate.
Variables (n p q : nat) (c s : R) (d : nat -> nat -> R).
Hypothesis (Hp : (p < n)%nat) (Hq : (q < n)%nat) (N : p <> q) (U : c * c + s * s = 1) (HS : symf n d).
Hypothesis (Z : (c * c - s * s) * d p q + c * s * (d p p - d q q) = 0).
Local Notation cj := (conj2 c s p q).
Lemma conj_pp : cj d p p = c * c * d p p - 2 * s * c * d p q + s * s * d q q.
Proof. unfold conj2. rewrite !rot_p. rewrite (HS q p) by auto. ring. Qed.
Lemma conj_qq : cj d q q = s * s * d p p + 2 * s * c * d p q + c * c * d q q.
Proof. unfold conj2. rewrite !rot_q by auto. rewrite (HS q p) by auto. ring. Qed.
Lemma conj_pq : cj d p q = 0.
Proof. unfold conj2. rewrite rot_q, !rot_p by auto. rewrite (HS q p) by auto. lra. Qed.
Lemma trace_conj : rsum n (fun i => cj d i i) = rsum n (fun i => d i i).
Proof.
  rewrite (rsum_change n _ (fun i => d i i) p q); auto.
  - rewrite conj_pp, conj_qq. replace (c * c * d p p - 2 * s * c * d p q + s * s * d q q + (s * s * d p p + 2 * s * c * d p q + c * c * d q q) - d p p - d q q) with ((c * c + s * s - 1) * (d p p + d q q)) by ring. rewrite U. ring.
  - intros i _ H1 H2. unfold conj2. rewrite !rot_o by auto. auto.
Qed.
Lemma diag_conj : rsum n (fun i => cj d i i * cj d i i) = rsum n (fun i => d i i * d i i) + 2 * (d p q * d p q).
Proof.
  rewrite (rsum_change n _ (fun i => d i i * d i i) p q); auto.
  - rewrite conj_pp, conj_qq. set (a := d p p) in *. set (b := d p q) in *. set (e := d q q) in *.
    assert (K : (c * c * a - 2 * s * c * b + s * s * e) * (c * c * a - 2 * s * c * b + s * s * e) + (s * s * a + 2 * s * c * b + c * c * e) * (s * s * a + 2 * s * c * b + c * c * e) = (c * c + s * s) * (c * c + s * s) * (a * a + 2 * (b * b) + e * e) - 2 * (((c * c - s * s) * b + c * s * (a - e)) * ((c * c - s * s) * b + c * s * (a - e)))) by ring.
    rewrite U, Z in K. lra.
  - intros i _ H1 H2. unfold conj2. rewrite !rot_o by auto. auto.
Qed.
Lemma off_conj : off2 n (cj d) = off2 n d - d p q * d p q.
Proof.
  pose proof (frob_conj n p q c s Hp Hq N U d) as F. rewrite !frob_odd, diag_conj in F. rewrite (odd_off n d HS) in F. rewrite (odd_off n (cj d)) in F; [lra|]. intros i j. apply conj_sym; auto.
Qed.
End Annihilate.

(** the angle the library computes annihilates the entry *)
Lemma angle_zero : forall app aqq apq, apq <> 0 ->
  let tau := (aqq - app) / (2 * apq) in
  let t := if Rlt_dec tau 0 then - 1 / (- tau + sqrt (1 + tau * tau)) else 1 / (tau + sqrt (1 + tau * tau)) in
  let c := cos (atan t) in let s := sin (atan t) in c * c + s * s = 1 /\ (c * c - s * s) * apq + c * s * (app - aqq) = 0.
Proof.
  intros app aqq apq Nz tau t c s. set (w := sqrt (1 + tau * tau)) in *. assert (W0 : 0 <= 1 + tau * tau) by (pose proof (Rle_0_sqr tau) as Q; unfold Rsqr in Q; lra).
  assert (W : w * w = 1 + tau * tau) by (apply sqrt_sqrt; auto). assert (Wp : 0 <= w) by apply sqrt_pos. assert (Wt : Rabs tau < w). { apply Rsqr_incrst_0; [|apply Rabs_pos|auto]. rewrite <- Rsqr_abs. unfold Rsqr. lra. }
  assert (T : t * t + 2 * t * tau - 1 = 0).
  { unfold t. destruct (Rlt_dec tau 0) as [L|L].
    - rewrite Rabs_left in Wt by auto. replace (-1 / (- tau + w) * (-1 / (- tau + w)) + 2 * (-1 / (- tau + w)) * tau - 1) with ((1 + tau * tau - w * w) / ((- tau + w) * (- tau + w))) by (field; lra). rewrite W. unfold Rdiv. ring.
    - rewrite Rabs_right in Wt by lra. replace (1 / (tau + w) * (1 / (tau + w)) + 2 * (1 / (tau + w)) * tau - 1) with ((1 + tau * tau - w * w) / ((tau + w) * (tau + w))) by (field; lra). rewrite W. unfold Rdiv. ring. }
  assert (U : c * c + s * s = 1). { pose proof (sin2_cos2 (atan t)) as Q. unfold Rsqr in Q. unfold c, s. lra. }
  split; auto. assert (Cp : 0 < c). { unfold c. destruct (atan_bound t). apply cos_gt_0; lra. }
  assert (St : s = t * c). { pose proof (tan_atan t) as Q. unfold tan in Q. fold c s in Q. rewrite <- Q at 1. field. lra. }
  assert (Et : app - aqq = - (2 * apq * tau)) by (unfold tau; field; auto). rewrite Et, St.
  replace ((c * c - t * c * (t * c)) * apq + c * (t * c) * - (2 * apq * tau)) with (- (c * c * apq) * (t * t + 2 * t * tau - 1)) by ring. rewrite T. ring.
Qed.

(** ** Exchanging two indices *)
Definition tr (p q k : nat) : nat := if Nat.eqb k p then q else if Nat.eqb k q then p else k.
Section Swap.
Variables (n p q : nat).
Hypothesis (Hp : (p < n)%nat) (Hq : (q < n)%nat) (N : p <> q).
Lemma tr_lt : forall k, (k < n)%nat -> (tr p q k < n)%nat.
Proof. intros k Hk. unfold tr. destruct (Nat.eqb k p), (Nat.eqb k q); auto. Qed.
Lemma tr_p : tr p q p = q. Proof. unfold tr. rewrite Nat.eqb_refl. auto. Qed.
Lemma tr_q : tr p q q = p. Proof. unfold tr. rewrite Nat.eqb_refl. destruct (Nat.eqb_spec q p); auto. Qed.
Lemma tr_o : forall k, k <> p -> k <> q -> tr p q k = k. Proof. intros k H1 H2. unfold tr. apply Nat.eqb_neq in H1, H2. rewrite H1, H2. auto. Qed.
Lemma tr_inj : forall a b, Nat.eqb (tr p q a) (tr p q b) = Nat.eqb a b.
Proof.
  intros a b. unfold tr. destruct (Nat.eqb_spec a p), (Nat.eqb_spec a q), (Nat.eqb_spec b p), (Nat.eqb_spec b q); subst; try congruence; try rewrite !Nat.eqb_refl; auto;
  repeat match goal with |- context[Nat.eqb ?x ?y] => destruct (Nat.eqb_spec x y); try congruence; try lia end.
Qed.
Lemma rsum_tr : forall f, rsum n (fun k => f (tr p q k)) = rsum n f.
Proof. intros f. rewrite (rsum_change n _ f p q); auto. - rewrite tr_p, tr_q. ring. - intros i _ H1 H2. rewrite tr_o; auto. Qed.
Lemma odd_tr : forall d, odd2 n (fun i j => d (tr p q i) (tr p q j)) = odd2 n d.
Proof.
  intros d. unfold odd2. rewrite <- (rsum_tr (fun i => rsum n (fun j => if Nat.eqb i j then 0 else d i j * d i j))). apply rsum_ext. intros i Hi.
  rewrite <- (rsum_tr (fun j => if Nat.eqb (tr p q i) j then 0 else d (tr p q i) j * d (tr p q i) j)). apply rsum_ext. intros j Hj. rewrite tr_inj. auto.
Qed.
Lemma vdv_tr : forall v d i j, vdv n (fun i k => v i (tr p q k)) (fun i j => d (tr p q i) (tr p q j)) i j = vdv n v d i j.
Proof.
  intros v d i j. unfold vdv. rewrite <- (rsum_tr (fun k => v i k * rsum n (fun l => d k l * v j l))). apply rsum_ext. intros k Hk. f_equal. apply (rsum_tr (fun l => d (tr p q k) l * v j l)).
Qed.
End Swap.

(** ** The invariant: A = V D V^T with an orthogonal V, and the off-diagonal part of D is r2 *)
Definition decomp (n : nat) (a v d : nat -> nat -> R) (r2 : R) : Prop :=
  symf n d /\ orthonormal n v /\ (forall i j, (i < n)%nat -> (j < n)%nat -> rsum n (fun k => v i k * v j k) = delta i j) /\
  (forall i j, (i < n)%nat -> (j < n)%nat -> a i j = vdv n v d i j) /\
  off2 n d = r2 /\ rsum n (fun i => d i i) = rsum n (fun i => a i i) /\ frob2 n d = frob2 n a.
Lemma decomp_start : forall n a, symf n a -> decomp n a delta a (off2 n a).
Proof.
  intros n a H. repeat split; auto.
  - intros i j Hi Hj. rewrite (rsum_one n i); auto; unfold delta; [rewrite Nat.eqb_refl; ring|]. intros k Hk Nk. apply Nat.eqb_neq in Nk. rewrite Nk. ring.
  - intros i j Hi Hj. rewrite (rsum_one n i); auto; unfold delta; [rewrite Nat.eqb_refl, Nat.eqb_sym; ring|]. intros k Hk Nk. apply Nat.eqb_neq in Nk. rewrite Nat.eqb_sym, Nk. ring.
  - intros i j Hi Hj. unfold vdv. rewrite (rsum_one n i); auto; unfold delta; [|intros k Hk Nk; apply Nat.eqb_neq in Nk; rewrite Nat.eqb_sym, Nk; ring].
    rewrite Nat.eqb_refl. rewrite (rsum_one n j); auto; [rewrite Nat.eqb_refl; ring|]. intros k Hk Nk. apply Nat.eqb_neq in Nk. rewrite Nat.eqb_sym, Nk. ring.
Qed.
Lemma decomp_rot : forall n a v d r2 p q c s, decomp n a v d r2 -> (p < n)%nat -> (q < n)%nat -> p <> q -> c * c + s * s = 1 -> (c * c - s * s) * d p q + c * s * (d p p - d q q) = 0 ->
  decomp n a (fun i => rot c s p q (v i)) (conj2 c s p q d) (r2 - d p q * d p q).
Proof.
  intros n a v d r2 p q c s (H1 & H2 & H3 & H4 & H5 & H6 & H7) Hp Hq N U Z. repeat split.
  - intros i j. apply conj_sym; auto.
  - apply gram_conj; auto.
  - intros i j Hi Hj. rewrite rot_dot; auto.
  - intros i j Hi Hj. rewrite vdv_conj; auto.
  - rewrite off_conj; auto. rewrite H5. auto.
  - rewrite trace_conj; auto.
  - rewrite frob_conj; auto.
Qed.
Lemma frob_tr : forall n p q d, (p < n)%nat -> (q < n)%nat -> p <> q -> frob2 n (fun i j => d (tr p q i) (tr p q j)) = frob2 n d.
Proof.
  intros n p q d Hp Hq N. unfold frob2. rewrite <- (rsum_tr n p q Hp Hq N (fun i => rsum n (fun j => d i j * d i j))). apply rsum_ext. intros i Hi. apply (rsum_tr n p q Hp Hq N (fun j => d (tr p q i) j * d (tr p q i) j)).
Qed.
Lemma decomp_tr : forall n a v d r2 p q, decomp n a v d r2 -> (p < n)%nat -> (q < n)%nat -> p <> q ->
  decomp n a (fun i k => v i (tr p q k)) (fun i j => d (tr p q i) (tr p q j)) r2.
Proof.
  intros n a v d r2 p q (H1 & H2 & H3 & H4 & H5 & H6 & H7) Hp Hq N. assert (S' : symf n (fun i j => d (tr p q i) (tr p q j))) by (intros i j Hi Hj; apply H1; apply tr_lt; auto). repeat split; auto.
  - intros i j Hi Hj. rewrite (H2 (tr p q i) (tr p q j)) by (apply (tr_lt n); auto). unfold delta. rewrite (tr_inj n); auto.
  - intros i j Hi Hj. rewrite (rsum_tr n p q Hp Hq N (fun k => v i k * v j k)). auto.
  - intros i j Hi Hj. rewrite vdv_tr; auto.
  - pose proof (odd_off n _ S') as E. pose proof (odd_off n d H1) as E2. rewrite odd_tr in E by auto. lra.
  - rewrite (rsum_tr n p q Hp Hq N (fun i => d i i)). auto.
  - rewrite frob_tr; auto.
Qed.
Lemma rsum_delta : forall n f j, (j < n)%nat -> rsum n (fun k => f k * delta k j) = f j.
Proof. intros n f j Hj. rewrite (rsum_one n j); auto; unfold delta; [rewrite Nat.eqb_refl; ring|]. intros k Hk Nk. apply Nat.eqb_neq in Nk. rewrite Nk. ring. Qed.
(** consequences *)
Section Conseq.
Variables (n : nat) (a v d : nat -> nat -> R) (r2 : R).
Hypothesis H : decomp n a v d r2.
Lemma decomp_apply : forall i j, (i < n)%nat -> (j < n)%nat -> rsum n (fun m => a i m * v m j) = rsum n (fun k => v i k * d k j).
Proof.
  destruct H as (H1 & H2 & H3 & H4 & _). intros i j Hi Hj. transitivity (rsum n (fun m => rsum n (fun k => v i k * rsum n (fun l => d k l * v m l) * v m j))).
  { apply rsum_ext. intros m Hm. rewrite H4 by auto. unfold vdv. rewrite rsum_scal_r. auto. }
  rewrite rsum_swap. apply rsum_ext. intros k Hk. transitivity (v i k * rsum n (fun m => rsum n (fun l => d k l * v m l) * v m j)).
  { rewrite <- rsum_scal. apply rsum_ext. intros; ring. }
  f_equal. transitivity (rsum n (fun m => rsum n (fun l => d k l * (v m l * v m j)))). { apply rsum_ext. intros m Hm. rewrite <- rsum_scal_r. apply rsum_ext. intros; ring. }
  rewrite rsum_swap. transitivity (rsum n (fun l => d k l * delta l j)). { apply rsum_ext. intros l Hl. rewrite rsum_scal. rewrite H2; auto. }
  apply rsum_delta; auto.
Qed.
(** the squared length of V w is that of w *)
Lemma decomp_norm : forall w, rsum n (fun i => rsum n (fun k => v i k * w k) * rsum n (fun k => v i k * w k)) = rsum n (fun k => w k * w k).
Proof.
  destruct H as (_ & H2 & _). intros w. transitivity (rsum n (fun i => rsum n (fun k => rsum n (fun l => (w k * w l) * (v i k * v i l))))).
  { apply rsum_ext. intros i Hi. rewrite <- rsum_scal_r. apply rsum_ext. intros k Hk. rewrite <- rsum_scal. apply rsum_ext. intros; ring. }
  rewrite rsum_swap. apply rsum_ext. intros k Hk. rewrite rsum_swap. transitivity (rsum n (fun l => w k * w l * delta l k)).
  { apply rsum_ext. intros l Hl. rewrite rsum_scal. rewrite H2 by auto. unfold delta. rewrite Nat.eqb_sym. auto. }
  rewrite (rsum_delta n (fun l => w k * w l) k Hk). auto.
Qed.
Lemma decomp_error : forall j, (j < n)%nat -> eig_error2 n a v (d j j) j = rsum n (fun k => if Nat.eqb k j then 0 else d k j * d k j).
Proof.
  intros j Hj. unfold eig_error2. transitivity (rsum n (fun k => (if Nat.eqb k j then 0 else d k j) * (if Nat.eqb k j then 0 else d k j))).
  - etransitivity; [|apply (decomp_norm (fun k => if Nat.eqb k j then 0 else d k j))]. apply rsum_ext. intros i Hi. cbv zeta. rewrite decomp_apply by auto.
    assert (E : rsum n (fun k => v i k * d k j) - d j j * v i j = rsum n (fun k => v i k * (if Nat.eqb k j then 0 else d k j))); [|rewrite E; auto].
    rewrite <- (rsum_delta n (fun k => d j j * v i k) j Hj), <- rsum_sub. apply rsum_ext. intros k Hk. unfold delta. destruct (Nat.eqb_spec k j); subst; ring.
  - apply rsum_ext. intros k Hk. destruct (Nat.eqb k j); ring.
Qed.
Lemma decomp_error_le : forall j, (j < n)%nat -> eig_error2 n a v (d j j) j <= r2.
Proof. intros j Hj. rewrite decomp_error by auto. pose proof H as (H1 & _ & _ & _ & <- & _). apply off_column; auto. Qed.
Lemma decomp_squares : rsum n (fun i => d i i * d i i) + 2 * r2 = frob2 n a.
Proof. destruct H as (H1 & _ & _ & _ & <- & _ & <-). rewrite frob_odd, odd_off by auto. ring. Qed.
(** every eigenvalue is close to an entry of the diagonal *)
Lemma decomp_near : forall mu, eigenvalue n a mu -> exists i, (i < n)%nat /\ (mu - d i i) * (mu - d i i) <= 2 * r2.
Proof.
  destruct H as (H1 & H2 & H3 & H4 & H5 & _). intros mu (x & (k0 & Hk0 & Nk0) & Hx).
  set (y := fun k => rsum n (fun i => v i k * x i)).
  (* D y = mu y *)
  assert (DY : forall k, (k < n)%nat -> rsum n (fun l => d k l * y l) = mu * y k).
  { intros k Hk. transitivity (rsum n (fun i => v i k * (mu * x i))). 2: { unfold y. rewrite <- rsum_scal. apply rsum_ext. intros; ring. }
    transitivity (rsum n (fun i => v i k * rsum n (fun m => a i m * x m))). 2: { apply rsum_ext. intros i Hi. rewrite Hx; auto. }
    symmetry. transitivity (rsum n (fun m => rsum n (fun i => a m i * v i k) * x m)).
    { transitivity (rsum n (fun i => rsum n (fun m => v i k * (a i m * x m)))). { apply rsum_ext. intros i Hi. rewrite rsum_scal. auto. } rewrite rsum_swap. apply rsum_ext. intros m Hm. rewrite <- rsum_scal_r. apply rsum_ext. intros i Hi. replace (a m i) with (a i m); [ring|]. rewrite (H4 i m), (H4 m i) by auto.
      unfold vdv. transitivity (rsum n (fun k => rsum n (fun l => v i k * (d k l * v m l)))). { apply rsum_ext. intros. rewrite rsum_scal. auto. } rewrite rsum_swap. apply rsum_ext. intros l Hl. rewrite <- rsum_scal. apply rsum_ext. intros j Hj. rewrite (H1 j l); auto. ring. }
    transitivity (rsum n (fun m => rsum n (fun l => v m l * d l k) * x m)). { apply rsum_ext. intros m Hm. rewrite decomp_apply by auto. auto. }
    unfold y. transitivity (rsum n (fun m => rsum n (fun l => v m l * d l k * x m))). { apply rsum_ext. intros. rewrite rsum_scal_r. auto. } rewrite rsum_swap. apply rsum_ext. intros l Hl. rewrite <- rsum_scal. apply rsum_ext. intros m Hm. rewrite (H1 l k); auto. ring. }
  (* y is not zero *)
  assert (XY : x k0 = rsum n (fun k => v k0 k * y k)).
  { unfold y. transitivity (rsum n (fun i => x i * delta i k0)). { symmetry. apply rsum_delta; auto. }
    transitivity (rsum n (fun k => rsum n (fun i => v k0 k * (v i k * x i)))). 2: { apply rsum_ext. intros. rewrite rsum_scal. auto. } rewrite rsum_swap. apply rsum_ext. intros i Hi. rewrite <- H3 by auto. rewrite <- rsum_scal. apply rsum_ext. intros; ring. }
  set (Y := rsum n (fun k => y k * y k)). assert (Yp : 0 < Y).
  { destruct (Req_dec Y 0) as [Z|Z]. 2: { assert (0 <= Y) by (apply rsum_pos; intros; apply Rle_0_sqr). lra. } exfalso. apply Nk0. rewrite XY. apply rsum_zero. intros k Hk. assert (y k * y k <= Y) by (apply (rsum_elem n (fun k => y k * y k)); auto; intros; apply Rle_0_sqr). pose proof (Rle_0_sqr (y k)) as Q. unfold Rsqr in Q. assert (y k * y k = 0) as E by lra. apply Rmult_integral in E. destruct E as [E|E]; rewrite E; ring. }
  destruct (Classical_Prop.classic (exists i, (i < n)%nat /\ (mu - d i i) * (mu - d i i) <= 2 * r2)) as [|NE]; auto. exfalso.
  assert (F : forall i, (i < n)%nat -> 2 * r2 < (mu - d i i) * (mu - d i i)). { intros i Hi. apply Rnot_le_lt. intros C. apply NE. eauto. }
  assert (L1 : rsum n (fun i => (mu - d i i) * (mu - d i i) * (y i * y i)) <= 2 * r2 * Y).
  { rewrite <- H5, <- odd_off by auto. unfold odd2. rewrite <- rsum_scal_r. apply rsum_le. intros i Hi. set (o := fun j => if Nat.eqb i j then 0 else d i j).
    apply Rle_trans with (rsum n (fun j => o j * y j) * rsum n (fun j => o j * y j)).
    - right. assert (E : rsum n (fun j => o j * y j) = (mu - d i i) * y i); [|rewrite E; ring]. rewrite Rmult_minus_distr_r, <- DY by auto. rewrite <- (rsum_delta n (fun j => d i i * y j) i Hi), <- rsum_sub. apply rsum_ext. intros j Hj. unfold o, delta. rewrite (Nat.eqb_sym j i). destruct (Nat.eqb_spec i j); subst; ring.
    - eapply Rle_trans; [apply cauchy|]. right. f_equal. apply rsum_ext. intros j Hj. unfold o. destruct (Nat.eqb i j); ring. }
  assert (L2 : 2 * r2 * Y < rsum n (fun i => (mu - d i i) * (mu - d i i) * (y i * y i))).
  { enough (0 < rsum n (fun i => ((mu - d i i) * (mu - d i i) - 2 * r2) * (y i * y i))) as P. { rewrite (rsum_ext n _ (fun i => (mu - d i i) * (mu - d i i) * (y i * y i) - 2 * r2 * (y i * y i))) in P by (intros; ring). rewrite rsum_sub, rsum_scal in P. fold Y in P. lra. }
    destruct (Classical_Prop.classic (exists k, (k < n)%nat /\ y k <> 0)) as [(k & Hk & Nk)|NY].
    - apply (rsum_pos_lt n _ k Hk); [|apply Rmult_lt_0_compat; [pose proof (F k Hk); lra|apply Rsqr_pos_lt; auto]]. intros i Hi. apply Rmult_le_pos; [pose proof (F i Hi); lra|apply Rle_0_sqr].
    - exfalso. assert (Y = 0); [|lra]. apply rsum_zero. intros k Hk. destruct (Req_dec (y k) 0) as [->|Nz]; [ring|]. exfalso. apply NY. eauto. }
  lra.
Qed.
End Conseq.
