(** * C85: conversion to a polynomial, truncation, sampled error, special points *)

From Coq Require Import Reals Lra List Arith ZArith Lia Bool.
From Verif Require Import Base Num Mat_Proofs QR_Math Iter_Math RootFind_Model RootFind_Proofs Interp_Linear Poly_Model Poly_Proofs Fourier_Model Fourier_Spec Fourier_FFT Fourier_Props Fourier_Real Fourier_DCT Deriv_Spec Cheb_Model Cheb_Spec Cheb_Math Cheb_Proofs.
Import ListNotations.
Local Open Scope R_scope.
Local Notation sum := (sumn Rnum).

Definition pval (m : nat) (f : nat -> R) (y : R) : R := sum m (fun k => f k * y ^ k).
Lemma pval_vec : forall p m f y, is_vector p m f -> pev p y = pval m f y.
Proof. intros p m f y (H1 & H2). unfold pev, pval. rewrite H1. apply rsum_ext. intros i Hi. rewrite (nth_error_nth _ _ _ (H2 i Hi)). reflexivity. Qed.
Lemma pval_shift : forall M f e g s q y, (1 <= M)%nat -> f (M - 1)%nat = 0 -> g 0%nat = - e 0%nat + q -> (forall i, (1 <= i < M)%nat -> g i = s * f (i - 1)%nat - e i) ->
  pval M g y = s * y * pval M f y - pval M e y + q.
Proof.
  intros M f e g s q y HM Hf Hg0 Hg. destruct M as [|N]; [lia|]. unfold pval. rewrite (sum_S_l_R N (fun k => g k * y ^ k)), (sum_S_l_R N (fun k => e k * y ^ k)), sumS_R.
  replace (S N - 1)%nat with N in Hf by lia. rewrite Hf, Hg0. rewrite (rsum_ext N (fun i => g (S i) * y ^ S i) (fun i => s * y * (f i * y ^ i) - e (S i) * y ^ S i)).
  - rewrite rsum_sub, rsum_scal. cbn [pow]. ring.
  - intros i Hi. rewrite Hg by lia. replace (S i - 1)%nat with i by lia. cbn [pow]. ring.
Qed.
Lemma pval_const : forall M c y, (1 <= M)%nat -> pval M (fun i => if (i =? 0)%nat then c else 0) y = c.
Proof. intros M c y HM. destruct M as [|N]; [lia|]. unfold pval. rewrite sum_S_l_R. cbn [Nat.eqb pow]. rewrite rsum_zero; [ring|]. intros. cbn [Nat.eqb]. ring. Qed.
Lemma pval_zero : forall M y, pval M (fun _ => 0) y = 0.
Proof. intros. apply rsum_zero. intros. ring. Qed.

(** the two in-place passes over d (and dd) *)
Lemma inner_pass : forall M j d dd f e (Q : list R * list R -> Prop), (1 <= j)%nat -> (j < M - 1)%nat -> is_vector d M f -> is_vector dd M e ->
  (forall d' dd', is_vector d' M (fun i => if (1 <=? i)%nat && (i <? M - j + 1)%nat then 2 * f (i - 1)%nat - e i else f i) ->
     is_vector dd' M (fun i => if (1 <=? i)%nat && (i <? M - j + 1)%nat then f i else e i) -> Q (d', dd')) ->
  wp (for_down 1 (M - j + 1) (fun '(d, dd) k => sv <- vget d k ;; dl <- vget d (k - 1) ;; ek <- vget dd k ;; d <- vset d k (2 * dl - ek) ;; dd <- vset dd k sv ;; Ok (d, dd)) (d, dd)) Q.
Proof.
  intros M j d dd f e Q Hj1 Hj Hd Hdd HQ.
  eapply wp_conseq; [|apply (for_down_inv _ _ (fun k (s : list R * list R) => is_vector (fst s) M (fun i => if (k <=? i)%nat && (i <? M - j + 1)%nat then 2 * f (i - 1)%nat - e i else f i)
     /\ is_vector (snd s) M (fun i => if (k <=? i)%nat && (i <? M - j + 1)%nat then f i else e i)))].
  - intros [d' dd'] (H1 & H2). apply HQ; auto.
  - lia.
  - cbn [fst snd]. split; [eapply is_vector_ext; [exact Hd|]|eapply is_vector_ext; [exact Hdd|]]; intros i Hi; destruct (Nat.leb_spec (M - j + 1) i); destruct (Nat.ltb_spec i (M - j + 1)); cbn [andb]; try lia; reflexivity.
  - intros k [d1 dd1] Hk1 Hk (H1 & H2). cbn [fst snd] in *.
    apply wp_bind. eapply vgetf_wp; [exact H1|lia|]. apply wp_bind. eapply vgetf_wp; [exact H1|lia|]. apply wp_bind. eapply vgetf_wp; [exact H2|lia|]. cbv beta.
    apply wp_bind. eapply vsetf_wp; [exact H1|lia|]. intros d2 H3. apply wp_bind. eapply vsetf_wp; [exact H2|lia|]. intros dd2 H4. apply wp_Ok. cbn [fst snd]. unfold vfset in *.
    split; (eapply is_vector_ext; [eassumption|]); intros i Hi; cbv beta; (destruct (Nat.eqb_spec i k) as [->|]); repeat match goal with |- context [(?a <=? ?b)%nat] => destruct (Nat.leb_spec a b) | |- context [(?a <? ?b)%nat] => destruct (Nat.ltb_spec a b) end; cbn [andb]; try lia; try reflexivity.
Qed.
Lemma final_pass : forall M d dd f e (Q : list R -> Prop), (1 <= M)%nat -> is_vector d M f -> is_vector dd M e ->
  (forall d', is_vector d' M (fun i => if (1 <=? i)%nat then f (i - 1)%nat - e i else f i) -> Q d') ->
  wp (for_down 1 M (fun d j => dl <- vget d (j - 1) ;; ej <- vget dd j ;; vset d j (dl - ej)) d) Q.
Proof.
  intros M d dd f e Q HM Hd Hdd HQ.
  eapply wp_conseq; [|apply (for_down_inv _ _ (fun k d => is_vector d M (fun i => if (k <=? i)%nat then f (i - 1)%nat - e i else f i)))].
  - exact HQ.
  - lia.
  - eapply is_vector_ext; [exact Hd|]. intros i Hi. cbv beta. destruct (Nat.leb_spec M i); [lia|reflexivity].
  - intros k d1 Hk1 Hk H1. apply wp_bind. eapply vgetf_wp; [exact H1|lia|]. apply wp_bind. eapply vgetf_wp; [exact Hdd|lia|]. cbv beta.
    eapply vsetf_wp; [exact H1|lia|]. intros d2 H3. unfold vfset in *. eapply is_vector_ext; [exact H3|]. intros i Hi. cbv beta. destruct (Nat.eqb_spec i k) as [->|]; repeat match goal with |- context [(?a <=? ?b)%nat] => destruct (Nat.leb_spec a b) end; try lia; reflexivity.
Qed.
Lemma to_poly_ok : forall C m, (1 <= m <= Z.of_nat (length (cb_coef C)))%Z ->
  exists p, cheb_to_poly Rtrig C m = Ok p /\ length p = Z.to_nat m /\ forall y, pev p y = series (cof C) (Z.to_nat m) y.
Proof.
  intros C m Hm. set (M := Z.to_nat m). set (c := cof C). pose proof (cof_vec C) as HV. fold c in HV. set (n := length (cb_coef C)) in *. assert (HM : (1 <= M <= n)%nat) by lia.
  enough (W : wp (cheb_to_poly Rtrig C m) (fun p => exists f, is_vector p M f /\ forall y, pval M f y = series c M y)).
  { destruct (wp_elim _ _ _ W) as (p & E & f & H1 & H2). exists p. split; [exact E|]. split; [apply H1|]. intros y. rewrite (pval_vec _ _ _ y H1). apply H2. }
  unfold cheb_to_poly. fold n. destruct (Z.leb_spec m 0); [lia|]. destruct (Z.ltb_spec (Z.of_nat n) m); [lia|]. cbn [orb]. cbv zeta. fold M. tnum.
  apply wp_bind. eapply vgetf_wp; [exact HV|lia|]. apply wp_bind. eapply vsetf_wp; [apply is_vector_repeat|lia|]. intros d0 Hd0.
  assert (FIN : forall d dd f e, is_vector d M f -> is_vector dd M e -> ((2 <= M)%nat -> forall y, y * pval M f y - pval M e y = sum (M - 1) (fun i => c (S i) * cT (S i) y)) -> ((2 <= M)%nat -> f (M - 1)%nat = 0) ->
    (M = 1%nat -> e 0%nat = 0) ->
    wp (d <- for_down 1 M (fun d j => dl <- vget d (j - 1) ;; ej <- vget dd j ;; vset d j (dl - ej)) d ;; e0 <- vget dd 0 ;; c0 <- vget (cb_coef C) 0 ;; vset d 0 (- e0 + 1 / 2 * c0))
      (fun p => exists f, is_vector p M f /\ forall y, pval M f y = series c M y)).
  { intros d dd f e Hd Hdd E Hf0 He0. apply wp_bind. eapply final_pass; [lia|exact Hd|exact Hdd|]. intros d' Hd'. apply wp_bind. eapply vgetf_wp; [exact Hdd|lia|]. apply wp_bind. eapply vgetf_wp; [exact HV|lia|].
    eapply vsetf_wp; [exact Hd'|lia|]. intros p Hp. eexists. split; [exact Hp|]. intros y. unfold vfset. destruct (Nat.eq_dec M 1) as [M1|M1].
    - rewrite M1. unfold pval, series. cbn. rewrite He0 by auto. field.
    - rewrite (pval_shift M f e _ 1 (1 / 2 * c 0%nat)); [|lia|apply Hf0; lia|reflexivity|].
      + rewrite Rmult_1_l, E by lia. unfold series. field.
      + intros i Hi. destruct (Nat.eqb_spec i 0); [lia|]. destruct (Nat.leb_spec 1 i); [|lia]. ring. }
  destruct (Nat.eq_dec M 1) as [M1|M1].
  { unfold for_down at 1. replace (M - 1 - 1)%nat with 0%nat by lia. cbn [seq rev for_each bind]. apply (FIN _ _ _ _ Hd0 (is_vector_repeat _ _)); auto; intros; lia. }
  apply wp_bind. eapply wp_conseq; [|apply (for_down_inv _ _ (fun j (s : list R * list R) => exists f e, is_vector (fst s) M f /\ is_vector (snd s) M e
     /\ (forall k, (M - 1 < k + j)%nat -> (k < M)%nat -> f k = 0 /\ e k = 0) /\ forall y, pval M f y * cT j y - pval M e y * cT (j - 1) y = sum (M - j) (fun i => c (j + i)%nat * cT (j + i) y)))].
  - intros [d dd] (f & e & Hd & Hdd & HZ & E). cbn [fst snd] in *. apply (FIN d dd f e); auto.
    + intros _ y. specialize (E y). cbn [Nat.sub cT] in E. rewrite Rmult_1_r in E. rewrite Rmult_comm, E. apply rsum_ext. reflexivity.
    + intros _. apply (HZ (M - 1)%nat); lia.
    + intros. lia.
  - lia.
  - exists (fun i => if (i =? 0)%nat then c (M - 1)%nat else 0), (fun _ => 0). cbn [fst snd]. split; [exact Hd0|]. split; [apply is_vector_repeat|]. split.
    + intros k Hk1 Hk. split; auto. destruct (Nat.eqb_spec k 0); [lia|reflexivity].
    + intros y. rewrite pval_const by lia. rewrite pval_zero. replace (M - (M - 1))%nat with 1%nat by lia. cbn [sumn]. rewrite Nat.add_0_r. tnum. ring.
  - intros j [d dd] Hj1 Hj (f & e & Hd & Hdd & HZ & E). cbn [fst snd] in *. apply wp_bind. eapply inner_pass; [exact Hj1|exact Hj|exact Hd|exact Hdd|]. intros d1 dd1 H1 H2.
    apply wp_bind. eapply vgetf_wp; [exact H1|lia|]. apply wp_bind. eapply vgetf_wp; [exact H2|lia|]. apply wp_bind. eapply vgetf_wp; [exact HV|lia|]. cbv beta.
    apply wp_bind. eapply vsetf_wp; [exact H1|lia|]. intros d2 H3. apply wp_bind. eapply vsetf_wp; [exact H2|lia|]. intros dd2 H4. apply wp_Ok. cbn [fst snd]. change (1 <=? 0)%nat with false in *. cbn [andb] in H3, H4.
    set (g := fun i => if (i =? 0)%nat then - e 0%nat + c j else 2 * f (i - 1)%nat - e i). exists g, f.
    assert (G1 : is_vector d2 M g). { eapply is_vector_ext; [exact H3|]. intros i Hi. unfold vfset, g. destruct (Nat.eqb_spec i 0); [reflexivity|]. destruct (Nat.leb_spec 1 i); [|lia]. destruct (Nat.ltb_spec i (M - j + 1)); cbn [andb]; [reflexivity|].
      rewrite (proj1 (HZ i ltac:(lia) Hi)), (proj2 (HZ i ltac:(lia) Hi)), (proj1 (HZ (i - 1)%nat ltac:(lia) ltac:(lia))). ring. }
    assert (G2 : is_vector dd2 M f). { eapply is_vector_ext; [exact H4|]. intros i Hi. unfold vfset. destruct (Nat.eqb_spec i 0) as [->|]; [reflexivity|]. destruct (Nat.leb_spec 1 i); [|lia]. destruct (Nat.ltb_spec i (M - j + 1)); cbn [andb]; [reflexivity|].
      rewrite (proj1 (HZ i ltac:(lia) Hi)), (proj2 (HZ i ltac:(lia) Hi)). reflexivity. }
    split; [exact G1|]. split; [exact G2|]. split.
    + intros k Hk1 Hk. assert (f k = 0 /\ e k = 0) as (F1 & F2) by (apply HZ; lia). split; [|exact F1]. unfold g. destruct (Nat.eqb_spec k 0); [lia|]. rewrite F2. rewrite (proj1 (HZ (k - 1)%nat ltac:(lia) ltac:(lia))). ring.
    + intros y. rewrite (pval_shift M f e g 2 (c j)); [|lia|apply (HZ (M - 1)%nat); lia|reflexivity|].
      * replace (M - j)%nat with (S (M - (j + 1))) by lia. rewrite sum_S_l_R.
        rewrite (rsum_ext _ _ (fun i => c (j + 1 + i)%nat * cT (j + 1 + i) y)) by (intros i _; replace (j + S i)%nat with (j + 1 + i)%nat by lia; reflexivity).
        rewrite <- E. replace (j + 1 - 1)%nat with j by lia. replace (j + 0)%nat with j by lia. destruct j as [|j]; [lia|]. replace (S j - 1)%nat with j by lia.
        replace (S j + 1)%nat with (S (S j)) by lia. rewrite cT_SS. ring.
      * intros i Hi. unfold g. destruct (Nat.eqb_spec i 0); [lia|]. reflexivity.
Qed.
