(** * C50, C51: the error of interpolation of a smooth function *)

From Coq Require Import Reals Lra Psatz List Arith ZArith Lia.
From Verif Require Import Base Num Mat_Proofs RootFind_Model RootFind_Proofs Deriv_Math Deriv_Spec Interp_Model Interp_Linear Interp_Poly Interp_Bary Fourier_DCT Cheb_Err.
Import ListNotations.
Local Open Scope R_scope.

(** the product of (x - X i) over the [m] points from [s] *)
Fixpoint node_product (X : nat -> R) (s m : nat) (x : R) : R := match m with 0%nat => 1 | S m => node_product X s m x * (x - X (s + m)%nat) end.
Lemma node_rprod : forall X s m x, node_product X s m x = rprod m (fun k => x - X (s + k)%nat).
Proof. intros X s m x. induction m as [|m IH]; auto. cbn [node_product rprod]. rewrite IH. reflexivity. Qed.
Lemma horner_poly : forall a m, (length a <= m)%nat -> polyfun m (horner Rnum a).
Proof.
  intros a m H. exists a. split; auto. intros t. rewrite (pev_more a (length a)) by auto. clear H. induction a as [|c a IH]; [reflexivity|].
  change (horner Rnum (c :: a) t) with (c + t * horner Rnum a t). rewrite IH. cbn [length]. rewrite sum_S_l_R. cbn [nth pow]. rewrite sum_mul_R. f_equal; [ring|]. apply sum_ext_R. intros i _. ring.
Qed.
Lemma Req_dec_b : forall a b, aeqb Rarith a b = true <-> a = b.
Proof. intros a b; destruct (Raeqb a b); split; auto; discriminate. Qed.
Lemma window_in : forall n m k, (2 <= m <= n)%nat -> (k + 1 < n)%nat -> (window n m k <= k /\ k + 1 < window n m k + m /\ window n m k + m <= n)%nat.
Proof. intros n m k Hm Hk. unfold window. assert (HQ : ((m - 2) / 2 <= m - 2)%nat) by (apply Nat.div_le_upper_bound; lia). lia. Qed.

(** The error of Neville's value at x: f^(m)(xi) / m! times the product of the distances to the m points of the window around the
    interval of x.  [lo, hi] is any interval that holds the table and x, and on which f has m derivatives. *)
Theorem C51_error : forall f fs xs ys n m X lo hi x, is_vector xs n X -> is_vector ys n (fun i => f (X i)) -> increasing n X -> (2 <= m <= n)%nat ->
  derivatives f fs m lo hi -> (forall i, (i < n)%nat -> lo <= X i <= hi) -> lo <= x <= hi ->
  exists k v xi, bracket_asc (ageb Rarith) n X x k /\ neville_eval Rarith (mkInterp xs ys m) x = Ok v /\ lo <= xi <= hi /\
    f x - v = fs m xi / INR (fact m) * node_product X (window n m k) m x.
Proof.
  intros f fs xs ys n m X lo hi x HX HY HI HM HD HR Hx. unfold neville_eval. destruct (C50_locate (ageb Rarith) xs ys m n X x HX HM) as [H _].
  destruct (H (increasing_asc _ _ HI)) as (k & HB & E). rewrite E. cbn [bind]. destruct (window_in n m k HM (proj1 HB)) as (W1 & W2 & W3). set (s := window n m k) in *.
  assert (HDi : distinct n X). { intros a b Hab. pose proof (HI a b Hab). lra. }
  destruct (C51_window Rarith Rnum_field Req_dec_b eq_refl xs ys n m X (fun i => f (X i)) s HX HY HDi ltac:(lia) W3) as (b & HL & HV & HN & _).
  destruct (remainder m f fs (horner Rnum b) (fun i => X (s + i)%nat) lo hi x) as (xi & Hxi & ER); auto.
  - apply horner_poly. exact HL.
  - intros i Hi. apply HI. lia.
  - intros i Hi. apply HR. lia.
  - exists k, (horner Rnum b x), xi. split; auto. split; [apply HV|]. split; auto. rewrite node_rprod. exact ER.
Qed.
Print Assumptions C51_error.

(** inside the table, with neighbouring abscissas at most h apart: an error of order h^m *)
Theorem C51_error_bound : forall f fs xs ys n m X B h x, is_vector xs n X -> is_vector ys n (fun i => f (X i)) -> increasing n X -> (2 <= m <= n)%nat ->
  derivatives f fs m (X 0%nat) (X (n - 1)%nat) -> (forall t, X 0%nat <= t <= X (n - 1)%nat -> Rabs (fs m t) <= B) -> (forall i, (S i < n)%nat -> X (S i) - X i <= h) -> X 0%nat <= x <= X (n - 1)%nat ->
  exists v, neville_eval Rarith (mkInterp xs ys m) x = Ok v /\ Rabs (f x - v) <= B / INR (fact m) * (INR (m - 1) * h) ^ m.
Proof.
  intros f fs xs ys n m X B h x HX HY HI HM HD HB Hh Hx.
  destruct (C51_error f fs xs ys n m X (X 0%nat) (X (n - 1)%nat) x HX HY HI HM HD) as (k & v & xi & HK & EV & Hxi & E); auto.
  { intros i Hi. split; apply (increasing_le n); auto; lia. }
  exists v. split; auto. destruct (window_in n m k HM (proj1 HK)) as (W1 & W2 & W3). set (s := window n m k) in *. destruct (bracket_R _ _ _ _ HI HK) as (K0 & K1 & K2 & _). specialize (K1 ltac:(lra)). specialize (K2 ltac:(lra)).
  assert (G : forall j i, (i + j < n)%nat -> X (i + j)%nat - X i <= INR j * h). { induction j as [|j IH]; intros i Hi; [rewrite Nat.add_0_r; cbn; lra|]. rewrite S_INR. pose proof (IH i ltac:(lia)). pose proof (Hh (i + j)%nat ltac:(lia)) as H2. replace (S (i + j)) with (i + S j)%nat in H2 by lia. lra. }
  assert (L : X (s + (m - 1))%nat - X s <= INR (m - 1) * h) by (apply G; lia).
  assert (D : forall i, (i < m)%nat -> Rabs (x - X (s + i)%nat) <= INR (m - 1) * h).
  { intros i Hi. pose proof (increasing_le n X s (s + i) HI ltac:(lia)). pose proof (increasing_le n X (s + i) (s + (m - 1)) HI ltac:(lia)). pose proof (increasing_le n X s k HI ltac:(lia)). pose proof (increasing_le n X (k + 1) (s + (m - 1)) HI ltac:(lia)). apply Rabs_le. lra. }
  assert (H0 : 0 <= INR (m - 1) * h) by (eapply Rle_trans; [apply Rabs_pos|apply (D 0%nat); lia]).
  assert (P : forall j, (j <= m)%nat -> Rabs (node_product X s j x) <= (INR (m - 1) * h) ^ j).
  { induction j as [|j IH]; intros Hj; cbn [node_product pow]; [rewrite Rabs_R1; lra|]. rewrite Rabs_mult, Rmult_comm. apply Rmult_le_compat; try apply Rabs_pos; [apply D; lia|apply IH; lia]. }
  rewrite E, Rabs_mult. apply Rmult_le_compat; try apply Rabs_pos; [|apply P; auto]. unfold Rdiv. pose proof (INR_fact_lt_0 m). rewrite Rabs_mult, (Rabs_right (/ _)) by (apply Rle_ge; left; apply Rinv_0_lt_compat; auto). apply Rmult_le_compat_r; [left; apply Rinv_0_lt_compat; auto|apply HB; auto].
Qed.
Print Assumptions C51_error_bound.
(** exp on 0, 1, 2, 3 with windows of 3 points: at most e^3 2^3 / 6 off *)
Example C51_error_bound_example : exists v, neville_eval Rarith (mkInterp [0; 1; 2; 3] [exp 0; exp 1; exp 2; exp 3] 3) (1 / 2) = Ok v /\ Rabs (exp (1 / 2) - v) <= exp 3 / INR (fact 3) * (INR 2 * 1) ^ 3.
Proof.
  apply (C51_error_bound exp (fun _ => exp) _ _ 4 3 (fun i => nth i [0; 1; 2; 3] 0) (exp 3) 1).
  - split; auto. intros i Hi. destruct i as [|[|[|[|]]]]; try reflexivity; lia.
  - split; auto. intros i Hi. destruct i as [|[|[|[|]]]]; try reflexivity; lia.
  - intros i j H. destruct i as [|[|[|[|]]]], j as [|[|[|[|]]]]; try lia; cbn; lra.
  - lia.
  - split; auto. intros. apply derivable_pt_lim_exp.
  - intros t Ht. cbn in Ht. rewrite Rabs_right by (left; apply exp_pos). destruct (Req_dec t 3) as [->|]; [lra|]. left. apply exp_increasing. lra.
  - intros i Hi. destruct i as [|[|[|]]]; try lia; cbn; lra.
  - cbn. lra.
Qed.

(** piecewise linear: an eighth of the second derivative times the square of the interval *)
Theorem C50_error : forall f fs xs ys n X ext B k x, is_vector xs n X -> is_vector ys n (fun i => f (X i)) -> increasing n X -> (k + 1 < n)%nat ->
  derivatives f fs 2 (X k) (X (k + 1)%nat) -> (forall t, X k <= t <= X (k + 1)%nat -> Rabs (fs 2%nat t) <= B) -> X k <= x <= X (k + 1)%nat ->
  exists v, linear_eval Rarith (mkInterp xs ys 2) ext x = Ok v /\ Rabs (f x - v) <= B * (X (k + 1)%nat - X k) ^ 2 / 8.
Proof.
  intros f fs xs ys n X ext B k x HX HY HI Hk HD HB Hx. destruct (C50_linear xs ys n X (fun i => f (X i)) ext HX HY ltac:(lia) HI) as (H1 & _). exists (line X (fun i => f (X i)) k x). split; [apply H1; auto|].
  pose proof (HI k (k + 1)%nat ltac:(lia)) as Hlt.
  destruct (remainder 2 f fs (line X (fun i => f (X i)) k) (fun i => X (k + i)%nat) (X k) (X (k + 1)%nat) x HD) as (xi & Hxi & ER); auto.
  - exists [f (X k) - (f (X (k + 1)%nat) - f (X k)) / (X (k + 1)%nat - X k) * X k; (f (X (k + 1)%nat) - f (X k)) / (X (k + 1)%nat - X k)]. split; [cbn; lia|]. intros t. unfold line, pev. cbn. field. lra.
  - intros i Hi. destruct i; [rewrite Nat.add_0_r; exact Hlt|lia].
  - intros i Hi. destruct i as [|[|]]; [rewrite Nat.add_0_r; lra|lra|lia].
  - intros i Hi. unfold line. destruct i as [|[|]]; [rewrite Nat.add_0_r; ring|field; lra|lia].
  - rewrite ER. cbn [rprod fact Nat.mul Nat.add]. rewrite Nat.add_0_r. set (a := X k) in *. set (b := X (k + 1)%nat) in *. rewrite Rmult_1_l, Rabs_mult. pose proof (HB xi Hxi) as HBx.
    assert (F2 : INR 2 = 2) by (cbn; ring). rewrite F2. assert (Q : Rabs ((x - a) * (x - b)) <= (b - a) ^ 2 / 4) by (assert (E1 : (x - a) * (x - b) = (x - (a + b) / 2) ^ 2 - (b - a) ^ 2 / 4) by field; pose proof (pow2_ge_0 (x - (a + b) / 2)); pose proof (pow2_ge_0 (b - a)); assert (0 <= (x - a) * (b - x)) by (apply Rmult_le_pos; lra); apply Rabs_le; lra).
    unfold Rdiv at 1. rewrite (Rabs_mult _ (/ 2)), (Rabs_right (/ 2)) by (left; lra).
    pose proof (Rabs_pos (fs 2%nat xi)). pose proof (Rabs_pos ((x - a) * (x - b))). apply (Rle_trans _ (B * / 2 * ((b - a) ^ 2 / 4))); [apply Rmult_le_compat; lra|]. right. field.
Qed.
Print Assumptions C50_error.
Example C50_error_example : exists v, linear_eval Rarith (mkInterp [0; 1; 2] [0; 1; 4] 2) false (3 / 2) = Ok v /\ Rabs (9 / 4 - v) <= 2 * 1 ^ 2 / 8.
Proof.
  destruct (C50_error (fun x => x ^ 2) (fun k x => match k with 0%nat => x ^ 2 | 1%nat => 2 * x | _ => 2 end) [0; 1; 2] [0; 1; 4] 3 (fun i => nth i [0; 1; 2] 0) false 2 1 (3 / 2)) as (v & E & Hv).
  - split; auto. intros i Hi. destruct i as [|[|[|]]]; try reflexivity; lia.
  - split; auto. intros i Hi. destruct i as [|[|[|]]]; cbn; try lia; f_equal; ring.
  - intros i j H. destruct i as [|[|[|]]], j as [|[|[|]]]; try lia; cbn; lra.
  - lia.
  - split; auto. intros j t Hj _. destruct j as [|[|]]; [|pose proof (derivable_pt_lim_scal id 2 t 1 (derivable_pt_lim_id t)) as D1; rewrite Rmult_1_r in D1; exact D1|lia]. replace (2 * t) with (INR 2 * t ^ pred 2) by (cbn; ring). apply derivable_pt_lim_pow.
  - intros t _. rewrite Rabs_right; lra.
  - cbn. lra.
  - exists v. split; auto. cbn in Hv. replace (3 / 2 * (3 / 2 * 1)) with (9 / 4) in Hv by field. eapply Rle_trans; [exact Hv|]. right. field.
Qed.
