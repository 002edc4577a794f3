(** * Specification of the discrete Fourier transform: complex numbers as pairs of reals, roots of unity, sums *)

From Coq Require Import List Arith Bool Lia ZArith Reals Lra Ring.
From Verif Require Import Base Num RootFind_Model RootFind_Proofs Fourier_Model.
Import ListNotations.
Local Open Scope R_scope.

Notation C := (@cplx R).
Definition Rtrig : trig R := mkTrig R Rarith cos sin PI.
Definition Cadd (a b : C) : C := (fst a + fst b, snd a + snd b).
Definition Cmul (a b : C) : C := (fst a * fst b - snd a * snd b, fst a * snd b + snd a * fst b).
Definition Csub (a b : C) : C := (fst a - fst b, snd a - snd b).
Definition Copp (a : C) : C := (- fst a, - snd a).
Definition Cinv (a : C) : C := (fst a / (fst a * fst a + snd a * snd a), - snd a / (fst a * fst a + snd a * snd a)).
Definition Cnum : numops C := mkNum C (0, 0) (1, 0) Cadd Cmul Csub Copp (fun a b => Cmul a (Cinv b)).
Definition RtoC (r : R) : C := (r, 0).
Definition Cconj (a : C) : C := (fst a, - snd a).
(** e^(i t) *)
Definition expi (t : R) : C := (cos t, sin t).
(** sum of f 0 .. f (n-1) *)
Definition Csum (n : nat) (f : nat -> C) : C := sumn Cnum n f.

(** X_k = sum_{j<N} x_j e^(-2 pi i j k / N) *)
Definition dft (N : nat) (x : nat -> C) (k : nat) : C := Csum N (fun j => Cmul (x j) (expi (- (2 * PI * INR (j * k) / INR N)))).
(** x_j = 1/N sum_{k<N} X_k e^(2 pi i j k / N) *)
Definition idft (N : nat) (X : nat -> C) (j : nat) : C := Cmul (RtoC (/ INR N)) (Csum N (fun k => Cmul (X k) (expi (2 * PI * INR (j * k) / INR N)))).

(** ** Algebra *)
Lemma Cring : ring_laws Cnum.
Proof. constructor; intros; cbn; unfold Cadd, Cmul, Csub, Copp; repeat match goal with x : C |- _ => destruct x end; cbn; f_equal; try ring. Qed.
Add Ring CR : Cring.

Lemma C_eq : forall a b : C, fst a = fst b -> snd a = snd b -> a = b.
Proof. intros [a1 a2] [b1 b2]; cbn; intros -> ->; reflexivity. Qed.
Lemma expi_0 : expi 0 = (1, 0).
Proof. unfold expi. rewrite cos_0, sin_0. reflexivity. Qed.
Lemma expi_add : forall a b, expi (a + b) = Cmul (expi a) (expi b).
Proof. intros. unfold expi, Cmul. cbn. rewrite cos_plus, sin_plus. f_equal. ring. Qed.
Lemma expi_pi : expi PI = (-1, 0).
Proof. unfold expi. rewrite cos_PI, sin_PI. reflexivity. Qed.
Lemma expi_2pi : forall k, expi (2 * PI * INR k) = (1, 0).
Proof.
  induction k as [|k IH]; [cbn [INR]; rewrite Rmult_0_r; apply expi_0|]. rewrite S_INR. replace (2 * PI * (INR k + 1)) with (2 * PI * INR k + (PI + PI)) by ring.
  rewrite !expi_add, IH, expi_pi. unfold Cmul. cbn. f_equal; ring.
Qed.
Lemma expi_2piZ : forall z, expi (2 * PI * IZR z) = (1, 0).
Proof.
  intros z. destruct (Z_le_gt_dec 0 z) as [H|H].
  - rewrite <- (Z2Nat.id z H), <- INR_IZR_INZ. apply expi_2pi.
  - assert (E : expi (2 * PI * IZR z) = Cmul (expi (2 * PI * IZR z)) (expi (2 * PI * INR (Z.to_nat (- z))))). { rewrite expi_2pi. apply C_eq; cbn; ring. }
    rewrite E, <- expi_add, INR_IZR_INZ, Z2Nat.id by lia. rewrite <- Rmult_plus_distr_l, <- plus_IZR, Z.add_opp_diag_r, Rmult_0_r. apply expi_0.
Qed.
Lemma expi_opp : forall t, expi (- t) = Cconj (expi t).
Proof. intros. unfold expi, Cconj. cbn. rewrite cos_neg, sin_neg. reflexivity. Qed.
Lemma expi_norm : forall t, Cmul (expi t) (expi (- t)) = (1, 0).
Proof. intros. rewrite <- expi_add, Rplus_opp_r. apply expi_0. Qed.
Lemma expi_mul_INR : forall t k, expi (t * INR (S k)) = Cmul (expi (t * INR k)) (expi t).
Proof. intros. rewrite <- expi_add. f_equal. rewrite S_INR. ring. Qed.

(** ** Sums *)
Lemma CsumS : forall n f, Csum (S n) f = Cadd (Csum n f) (f n).
Proof. reflexivity. Qed.
Lemma Csum_ext : forall n f g, (forall i, (i < n)%nat -> f i = g i) -> Csum n f = Csum n g.
Proof. intros. apply (sum_ext Cnum). auto. Qed.
Lemma Csum_zero : forall n f, (forall i, (i < n)%nat -> f i = (0, 0)) -> Csum n f = (0, 0).
Proof. intros. apply (sum_zero Cnum Cring). auto. Qed.
Lemma Csum_add : forall n f g, Csum n (fun i => Cadd (f i) (g i)) = Cadd (Csum n f) (Csum n g).
Proof. intros. apply (sum_add Cnum Cring). Qed.
Lemma Csum_mul_l : forall n a f, Cmul a (Csum n f) = Csum n (fun i => Cmul a (f i)).
Proof. intros. apply (sum_mul_l Cnum Cring). Qed.
Lemma Csum_mul_r : forall n a f, Cmul (Csum n f) a = Csum n (fun i => Cmul (f i) a).
Proof. intros. apply (sum_mul_r Cnum Cring). Qed.
Lemma Csum_swap : forall n m f, Csum n (fun i => Csum m (fun j => f i j)) = Csum m (fun j => Csum n (fun i => f i j)).
Proof. intros. apply (sum_swap Cnum Cring). Qed.
Lemma Csum_app : forall n m f, Csum (n + m) f = Cadd (Csum n f) (Csum m (fun i => f (n + i)%nat)).
Proof. intros. apply (sum_app Cnum Cring). Qed.
Lemma Csum_one : forall n k f, (k < n)%nat -> (forall i, (i < n)%nat -> i <> k -> f i = (0, 0)) -> Csum n f = f k.
Proof. intros. apply (sum_one Cnum Cring); auto. Qed.
Lemma Csum_const : forall n a, Csum n (fun _ => a) = Cmul (RtoC (INR n)) a.
Proof. induction n as [|n IH]; intros a; [apply C_eq; cbn; ring|]. rewrite CsumS, IH, S_INR. apply C_eq; cbn; ring. Qed.
Lemma Csum_fst : forall n f, fst (Csum n f) = sumn Rnum n (fun i => fst (f i)).
Proof. induction n as [|n IH]; intros f; [reflexivity|]. rewrite CsumS. cbn. rewrite <- IH. reflexivity. Qed.
Lemma Csum_snd : forall n f, snd (Csum n f) = sumn Rnum n (fun i => snd (f i)).
Proof. induction n as [|n IH]; intros f; [reflexivity|]. rewrite CsumS. cbn. rewrite <- IH. reflexivity. Qed.
Lemma Csum_conj : forall n f, Cconj (Csum n f) = Csum n (fun i => Cconj (f i)).
Proof. induction n as [|n IH]; intros f; [apply C_eq; cbn; ring|]. rewrite !CsumS, <- IH. apply C_eq; cbn; ring. Qed.
Lemma Csum_even_odd : forall M f, Csum (2 * M) f = Cadd (Csum M (fun i => f (2 * i)%nat)) (Csum M (fun i => f (2 * i + 1)%nat)).
Proof.
  induction M as [|M IH]; intros f; [apply C_eq; cbn; ring|]. replace (2 * S M)%nat with (S (S (2 * M))) by lia. rewrite !CsumS, IH. replace (2 * M + 1)%nat with (S (2 * M)) by lia.
  apply C_eq; cbn; ring.
Qed.

(** ** Orthogonality of the roots of unity *)
Lemma geom : forall n t, Cmul (Csub (expi t) (1, 0)) (Csum n (fun j => expi (t * INR j))) = Csub (expi (t * INR n)) (1, 0).
Proof.
  induction n as [|n IH]; intros t; [cbn [INR]; rewrite Rmult_0_r, expi_0; apply C_eq; cbn; ring|].
  specialize (IH t). rewrite CsumS, expi_mul_INR. set (s := Csum n _) in *. set (e := expi (t * INR n)) in *. set (u := expi t) in *.
  transitivity (Cadd (Cmul (Csub u (1, 0)) s) (Cmul (Csub u (1, 0)) e)); [apply C_eq; cbn; ring|]. rewrite IH. apply C_eq; cbn; ring.
Qed.
Lemma expi_1_cos : forall t, expi t = (1, 0) -> cos t = 1.
Proof. intros t H. unfold expi in H. congruence. Qed.
(** the only multiples of a full turn by k/N with 0 < k < N that are whole are none *)
Lemma expi_ne_1 : forall t, 0 < t < 2 * PI -> expi t <> (1, 0).
Proof.
  intros t Ht E. apply expi_1_cos in E. assert (cos t = 1 - 2 * (sin (t / 2) * sin (t / 2))) as E2. { replace t with (2 * (t / 2)) at 1 by field. rewrite cos_2a_sin. ring. }
  assert (0 < sin (t / 2)) by (apply sin_gt_0; lra). nra.
Qed.
Lemma Cmul_integral : forall a b, Cmul a b = (0, 0) -> a <> (0, 0) -> b = (0, 0).
Proof.
  intros [a1 a2] [b1 b2] H N. unfold Cmul in H. cbn in H. injection H as H1 H2. assert (P : 0 < a1 * a1 + a2 * a2).
  { destruct (Req_dec a1 0) as [->|]; [destruct (Req_dec a2 0) as [->|]; [exfalso; apply N; reflexivity|nra]|nra]. }
  assert ((a1 * a1 + a2 * a2) * b1 = 0) by (transitivity (a1 * (a1 * b1 - a2 * b2) + a2 * (a1 * b2 + a2 * b1)); [ring|rewrite H1, H2; ring]).
  assert ((a1 * a1 + a2 * a2) * b2 = 0) by (transitivity (a1 * (a1 * b2 + a2 * b1) - a2 * (a1 * b1 - a2 * b2)); [ring|rewrite H1, H2; ring]).
  apply C_eq; cbn; apply (Rmult_eq_reg_l (a1 * a1 + a2 * a2)); lra.
Qed.
Lemma roots_sum : forall N d, (0 < N)%nat -> (0 < d < N)%nat -> forall s, s = 1 \/ s = -1 -> Csum N (fun j => expi (s * (2 * PI * INR d / INR N) * INR j)) = (0, 0).
Proof.
  intros N d HN Hd s Hs. assert (PN : 0 < INR N) by (apply lt_0_INR; lia). set (t := s * (2 * PI * INR d / INR N)).
  apply (Cmul_integral (Csub (expi t) (1, 0))).
  - rewrite geom. replace (t * INR N) with (2 * PI * IZR (if Req_EM_T s 1 then Z.of_nat d else - Z.of_nat d)).
    + rewrite expi_2piZ. apply C_eq; cbn; ring.
    + unfold t. destruct (Req_EM_T s 1) as [->|NE]; [rewrite <- INR_IZR_INZ; field; lra|]. destruct Hs as [->| ->]; [contradiction|]. rewrite opp_IZR, <- INR_IZR_INZ. field. lra.
  - assert (NE : expi (2 * PI * INR d / INR N) <> (1, 0)).
    { apply expi_ne_1. pose proof PI_RGT_0. assert (0 < INR d) by (apply lt_0_INR; lia). assert (INR d < INR N) by (apply lt_INR; lia). split.
      - apply Rdiv_lt_0_compat; nra.
      - apply (Rmult_lt_reg_r (INR N)); auto. replace (2 * PI * INR d / INR N * INR N) with (2 * PI * INR d) by (field; lra). nra. }
    intros E. apply NE. assert (E1 : expi t = (1, 0)). { injection E as E1 E2. apply C_eq; cbn in *; lra. }
    unfold t in E1. destruct Hs as [->| ->]; [rewrite Rmult_1_l in E1; auto|]. replace (-1 * (2 * PI * INR d / INR N)) with (- (2 * PI * INR d / INR N)) in E1 by ring.
    rewrite expi_opp in E1. injection E1 as E1 E2. apply C_eq; cbn in *; lra.
Qed.
Lemma ortho : forall N j l s, (0 < N)%nat -> (j < N)%nat -> (l < N)%nat -> s = 1 \/ s = -1 ->
  Csum N (fun k => Cmul (expi (s * (2 * PI * INR (j * k) / INR N))) (expi (- (s * (2 * PI * INR (l * k) / INR N))))) = if Nat.eqb j l then RtoC (INR N) else (0, 0).
Proof.
  intros N j l s HN Hj Hl Hs. assert (PN : 0 < INR N) by (apply lt_0_INR; lia). destruct (Nat.eqb_spec j l) as [->|NE].
  - rewrite (Csum_ext _ _ (fun _ => (1, 0))) by (intros; apply expi_norm). rewrite Csum_const. apply C_eq; cbn; ring.
  - destruct (lt_dec j l) as [L|L].
    + rewrite (Csum_ext _ _ (fun k => expi (- s * (2 * PI * INR (l - j) / INR N) * INR k))).
      * apply roots_sum; [auto|lia|]. destruct Hs; lra.
      * intros k Hk. rewrite <- expi_add. f_equal. rewrite minus_INR by lia. rewrite !mult_INR. field. lra.
    + rewrite (Csum_ext _ _ (fun k => expi (s * (2 * PI * INR (j - l) / INR N) * INR k))).
      * apply roots_sum; [auto|lia|]. auto.
      * intros k Hk. rewrite <- expi_add. f_equal. rewrite minus_INR by lia. rewrite !mult_INR. field. lra.
Qed.
(** the two transforms are inverse to each other *)
Lemma idft_dft : forall N x j, (j < N)%nat -> idft N (dft N x) j = x j.
Proof.
  intros N x j Hj. assert (PN : 0 < INR N) by (apply lt_0_INR; lia). unfold idft, dft.
  rewrite (Csum_ext N _ (fun k => Csum N (fun l => Cmul (x l) (Cmul (expi (1 * (2 * PI * INR (j * k) / INR N))) (expi (- (1 * (2 * PI * INR (l * k) / INR N)))))))).
  2: { intros k Hk. rewrite Csum_mul_r. apply Csum_ext. intros l Hl. rewrite !Rmult_1_l. apply C_eq; cbn; ring. }
  rewrite Csum_swap. rewrite (Csum_one N j _ Hj).
  - rewrite <- Csum_mul_l, ortho by (auto; lia). rewrite Nat.eqb_refl. apply C_eq; cbn; field; lra.
  - intros l Hl NE. rewrite <- Csum_mul_l, ortho by (auto; lia). destruct (Nat.eqb_spec j l); [congruence|]. apply C_eq; cbn; ring.
Qed.
Lemma dft_idft : forall N X k, (k < N)%nat -> dft N (idft N X) k = X k.
Proof.
  intros N X k Hk. assert (PN : 0 < INR N) by (apply lt_0_INR; lia). unfold idft, dft.
  rewrite (Csum_ext N _ (fun j => Csum N (fun l => Cmul (Cmul (RtoC (/ INR N)) (X l)) (Cmul (expi (-1 * (2 * PI * INR (k * j) / INR N))) (expi (- (-1 * (2 * PI * INR (l * j) / INR N)))))))).
  2: { intros j Hj. rewrite Csum_mul_l, Csum_mul_r. apply Csum_ext. intros l Hl. rewrite (Nat.mul_comm j k), (Nat.mul_comm j l).
       replace (- (-1 * (2 * PI * INR (l * j) / INR N))) with (2 * PI * INR (l * j) / INR N) by ring. replace (-1 * (2 * PI * INR (k * j) / INR N)) with (- (2 * PI * INR (k * j) / INR N)) by ring. apply C_eq; cbn; ring. }
  rewrite Csum_swap. rewrite (Csum_one N k _ Hk).
  - rewrite <- Csum_mul_l, ortho by (auto; lia). rewrite Nat.eqb_refl. apply C_eq; cbn; field; lra.
  - intros l Hl NE. rewrite <- Csum_mul_l, ortho by (auto; lia). destruct (Nat.eqb_spec k l); [congruence|]. apply C_eq; cbn; ring.
Qed.
