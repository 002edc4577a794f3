(** * C90: the loops of the code run through the three-term recurrences; normalisations; associated Legendre functions *)

From Coq Require Import List Arith ZArith Reals Lia Lra Psatz.
From Verif Require Import Base Num RootFind_Model RootFind_Proofs Fourier_Model Fourier_Spec Fourier_Props Interp_Linear Interp_Bary Cheb_Spec Cheb_Math Ortho_Model Ortho_Spec Ortho_Math Ortho_Fam Ortho_Cheb.
Import ListNotations.
Local Open Scope R_scope.

Lemma loop3 : forall (p : nat -> R) (g : nat -> R -> R -> R) s n z p0 p1, p0 = p 0%nat -> p1 = p 1%nat ->
  (forall j, g (j + s)%nat (p j) (p (S j)) = p (S (S j))) ->
  (let '(_, _, q) := fold_left (fun '(p2, p1, _) k => let pn := g k p2 p1 in (p1, pn, pn)) (seq s (S n)) (p0, p1, z) in q) = p (S (S n)).
Proof.
  intros p g s n z p0 p1 -> -> Hg. rewrite (ttr_loop p g s (S n) z); [reflexivity| |lia].
  intros k Hk. replace (k - s + 1)%nat with (S (k - s)) by lia. replace (k - s + 2)%nat with (S (S (k - s))) by lia. rewrite <- Hg. f_equal. lia.
Qed.
Lemma izr : forall k, IZR (Z.of_nat k) = INR k. Proof. intros. symmetry. apply INR_IZR_INZ. Qed.
Ltac three j := rewrite (ttr_S _ _ _ (S j)); cbn [prev]; rewrite ?izr, ?plus_INR.
Lemma ttr_1 : forall a b c x, ttr a b c 1 x = a 0%nat * x + b 0%nat. Proof. intros. cbn. ring. Qed.
Lemma Legendre_ttr : forall n x, Legendre Rtrig n x = ttr la zero_c lc n x.
Proof.
  intros [|[|n]] x; [reflexivity|rewrite ttr_1; unfold la, zero_c; cbn; field|].
  refine (loop3 (fun k => ttr la zero_c lc k x) (fun k p2 p1 => ((2 * IZR (Z.of_nat k) - 1) * x * p1 - (IZR (Z.of_nat k) - 1) * p2) / IZR (Z.of_nat k)) 2 n 0 1 x eq_refl _ _); [rewrite ttr_1; unfold la, zero_c; cbn; field|].
  intros j. cbv beta. three j. rewrite la_S, lc_S, zc_S. cbn [INR]. pose proof (pos_INR j). field. lra.
Qed.
Lemma Hermite_ttr : forall n x, Hermite Rtrig n x = ttr ha zero_c hc n x.
Proof.
  intros [|[|n]] x; [reflexivity|rewrite ttr_1; unfold ha, zero_c; cbn; ring|].
  refine (loop3 (fun k => ttr ha zero_c hc k x) (fun k p2 p1 => 2 * x * p1 - 2 * (IZR (Z.of_nat k) - 1) * p2) 2 n 0 1 (2 * x) eq_refl _ _); [rewrite ttr_1; unfold ha, zero_c; ring|].
  intros j. cbv beta. three j. rewrite ha_S, hc_S, zc_S. cbn [INR]. ring.
Qed.
Lemma AssocLaguerre_ttr : forall al n x, assoc_laguerre_value Rtrig al n x = ttr ga (gb al) (gc al) n x.
Proof.
  intros al [|[|n]] x; [reflexivity|rewrite ttr_1; unfold ga, gb; cbn; field|].
  refine (loop3 (fun k => ttr ga (gb al) (gc al) k x) (fun k p2 p1 => ((2 * IZR (Z.of_nat k) + al + 1 - x) * p1 - (IZR (Z.of_nat k) + al) * p2) / (IZR (Z.of_nat k) + 1)) 1 n 0 1 (1 + al - x) eq_refl _ _); [rewrite ttr_1; unfold ga, gb; cbn; field|].
  intros j. cbv beta. three j. rewrite ga_S, gb_S, gc_S. cbn [INR]. pose proof (pos_INR j). field. lra.
Qed.
Lemma Laguerre_ttr : forall n x, Laguerre Rtrig n x = ttr ga (gb 0) (gc 0) n x.
Proof.
  intros [|[|n]] x; [reflexivity|rewrite ttr_1; unfold ga, gb; cbn; field|].
  refine (loop3 (fun k => ttr ga (gb 0) (gc 0) k x) (fun k p2 p1 => ((2 * IZR (Z.of_nat k) - 1 - x) * p1 - (IZR (Z.of_nat k) - 1) * p2) / IZR (Z.of_nat k)) 2 n 0 1 (1 - x) eq_refl _ _); [rewrite ttr_1; unfold ga, gb; cbn; field|].
  intros j. cbv beta. three j. rewrite ga_S, gb_S, gc_S. cbn [INR]. pose proof (pos_INR j). field. lra.
Qed.
Lemma AssocLaguerre_int : forall m n x, AssocLaguerre Rtrig n m x = ttr ga (gb (INR m)) (gc (INR m)) n x.
Proof.
  intros m [|[|n]] x; [reflexivity|rewrite ttr_1; unfold ga, gb; cbn; rewrite izr; field|].
  refine (loop3 (fun k => ttr ga (gb (INR m)) (gc (INR m)) k x) (fun k p2 p1 => ((2 * IZR (Z.of_nat k) - 1 + IZR (Z.of_nat m) - x) * p1 - (IZR (Z.of_nat k) - 1 + IZR (Z.of_nat m)) * p2) / IZR (Z.of_nat k)) 2 n 0 1 (1 + IZR (Z.of_nat m) - x) eq_refl _ _); [rewrite ttr_1, izr; unfold ga, gb; cbn; field|].
  intros j. cbv beta. three j. rewrite ga_S, gb_S, gc_S. cbn [INR]. pose proof (pos_INR j). field. lra.
Qed.
Lemma ChebT_ttr : forall n x, ChebyshevT Rtrig n x = ttr ta zero_c tc n x.
Proof.
  intros [|[|n]] x; [reflexivity|rewrite ttr_1; unfold ta, zero_c; cbn; ring|].
  refine (loop3 (fun k => ttr ta zero_c tc k x) (fun k p2 p1 => 2 * x * p1 - p2) 2 n 0 1 x eq_refl _ _); [rewrite ttr_1; unfold ta, zero_c; ring|].
  intros j. cbv beta. three j. rewrite zc_S. unfold ta, tc. ring.
Qed.
Lemma ChebU_ttr : forall n x, ChebyshevU Rtrig n x = ttr ua zero_c tc n x.
Proof.
  intros [|[|n]] x; [reflexivity|rewrite ttr_1; unfold ua, zero_c; cbn; ring|].
  refine (loop3 (fun k => ttr ua zero_c tc k x) (fun k p2 p1 => 2 * x * p1 - p2) 2 n 0 1 (2 * x) eq_refl _ _); [rewrite ttr_1; unfold ua, zero_c; ring|].
  intros j. cbv beta. three j. rewrite zc_S. unfold ua, tc. ring.
Qed.
Lemma factorial_fact : forall n, factorial Rtrig n = INR (fact n).
Proof.
  induction n as [|n IH]; [reflexivity|]. unfold factorial in *. rewrite seq_S, fold_left_app, IH. cbn [fold_left]. rewrite fact_simpl, mult_INR, <- (izr (S n)). apply Rmult_comm.
Qed.

(** ** Associated Legendre functions *)
Lemma pmm_val : forall m x, fst (fold_left (fun '(p, fact) (_ : nat) => (p * (- fact * sqrt (1 - x * x)), fact + 2)) (seq 1 m) (1, 1)) = (-1) ^ m * sqrt (1 - x * x) ^ m * dtt la zero_c lc m m x.
Proof.
  intros m x. enough (E : fold_left (fun '(p, fact) (_ : nat) => (p * (- fact * sqrt (1 - x * x)), fact + 2)) (seq 1 m) (1, 1) = ((-1) ^ m * sqrt (1 - x * x) ^ m * dtt la zero_c lc m m x, 2 * INR m + 1)) by (rewrite E; reflexivity).
  induction m as [|m IH]; [cbn; f_equal; ring|]. rewrite seq_S, fold_left_app, IH. cbn [fold_left]. rewrite assoc_diag. f_equal; [cbn [pow]; ring|rewrite S_INR; ring].
Qed.
Lemma AssocLegendre_val : forall l m x, AssocLegendre Rtrig l m x = (-1) ^ m * sqrt (1 - x * x) ^ m * dtt la zero_c lc m l x.
Proof.
  intros l m x. unfold AssocLegendre. tnum. destruct (Nat.ltb_spec l m) as [L|L]; [rewrite dtt_high by auto; ring|].
  set (pmm := if (0 <? m)%nat then _ else 1). assert (E : pmm = (-1) ^ m * sqrt (1 - x * x) ^ m * dtt la zero_c lc m m x).
  { unfold pmm. destruct m as [|m]; [cbn; ring|]. cbn [Nat.ltb Nat.leb]. apply pmm_val. }
  clearbody pmm. destruct (Nat.eqb_spec l m) as [->|N]; auto. rewrite izr.
  assert (E1 : x * (2 * INR m + 1) * pmm = (-1) ^ m * sqrt (1 - x * x) ^ m * dtt la zero_c lc m (S m) x) by (rewrite E, assoc_next; ring).
  destruct (Nat.eqb_spec l (S m)) as [->|N1]; auto.
  set (p := fun k => (-1) ^ m * sqrt (1 - x * x) ^ m * dtt la zero_c lc m (k + m) x).
  replace ((-1) ^ m * sqrt (1 - x * x) ^ m * dtt la zero_c lc m l x) with (p (S (S (l - m - 2)))) by (unfold p; do 2 f_equal; lia).
  replace (l - m - 1)%nat with (S (l - m - 2)) by lia.
  refine (loop3 p (fun ll p2 p1 => (x * (2 * IZR (Z.of_nat ll) - 1) * p1 - (IZR (Z.of_nat ll) + INR m - 1) * p2) / IZR (Z.of_nat (ll - m))) (m + 2) _ 0 pmm _ E E1 _).
  intros j. cbv beta. rewrite !izr. replace (j + (m + 2) - m)%nat with (S (S j)) by lia. unfold p. cbn [Nat.add]. pose proof (assoc_rec m (j + m) x) as R0. pose proof (pos_INR j).
  rewrite !plus_INR, !S_INR in *. cbn [INR] in *. set (K := (-1) ^ m * sqrt (1 - x * x) ^ m).
  apply (Rmult_eq_reg_r (INR j + 1 + 1)); [|lra]. unfold Rdiv. rewrite Rmult_assoc, Rinv_l, Rmult_1_r by lra.
  transitivity (K * ((INR j + INR m + 2 - INR m) * dtt la zero_c lc m (S (S (j + m))) x)); [rewrite R0|]; ring.
Qed.
