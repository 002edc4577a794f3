(** * C85: Chebyshev approximation *)

From Coq Require Import Reals Lra List Arith ZArith Lia Bool Qcanon.
From Verif Require Import Base Num Mat_Proofs QR_Math Iter_Math Deriv_Math RootFind_Model RootFind_Proofs RootFind_Props Interp_Linear Poly_Model Poly_Proofs Fourier_Model Fourier_Spec Fourier_FFT Fourier_Props Fourier_Real Fourier_DCT Deriv_Spec Deriv_Proofs Deriv_Props Cheb_Model Cheb_Spec Cheb_Math Cheb_Proofs Cheb_Poly Cheb_Err.
Import ListNotations.
Local Open Scope R_scope.
Local Notation sum := (sumn Rnum).

(** ** Evaluation *)
(** inside the interval both evaluations return the series with the number of terms asked for; outside they throw *)
Theorem C85_evaluate : forall C, cheb_ok C ->
  (forall x, cb_a C <= x <= cb_b C -> cheb_eval Rtrig C x = Ok (cfun C (cb_m C) x) /\
     forall m, (1 <= m <= Z.of_nat (cb_m C))%Z -> cheb_eval_terms Rtrig C x m = Ok (cfun C (Z.to_nat m) x)) /\
  (forall x, x < cb_a C \/ cb_b C < x -> cheb_eval Rtrig C x = Throw DomainError /\ forall m, (1 <= m <= Z.of_nat (cb_m C))%Z -> cheb_eval_terms Rtrig C x m = Throw DomainError) /\
  (forall x m, (m < 1 \/ Z.of_nat (cb_m C) < m)%Z -> cheb_eval_terms Rtrig C x m = Throw InvalidArgument).
Proof.
  intros C HC. split; [|split].
  - intros x Hx. split; [apply eval_in; auto|]. intros m Hm. apply eval_terms_in; auto.
  - intros x Hx. split; [apply eval_out; [apply HC|auto]|]. intros m Hm. unfold cheb_eval_terms. destruct (Z.leb_spec m 0); [lia|]. destruct (Z.ltb_spec (Z.of_nat (cb_m C)) m); [lia|]. cbn [orb]. tnum.
    rewrite dom_test by apply HC. destruct (Rle_dec (cb_a C) x); [destruct (Rle_dec x (cb_b C)); [lra|]|]; reflexivity.
  - intros x m Hm. unfold cheb_eval_terms. destruct (Z.leb_spec m 0); [reflexivity|]. destruct (Z.ltb_spec (Z.of_nat (cb_m C)) m); [reflexivity|lia].
Qed.
Print Assumptions C85_evaluate.

(** the terms of the series are cosines of multiples of an angle, at most 1 in absolute value on the interval *)
Theorem C85_terms : (forall k t, cT k (cos t) = cos (INR k * t)) /\ (forall k y, -1 <= y <= 1 -> Rabs (cT k y) <= 1).
Proof. split; [apply cT_cos|apply cT_bound]. Qed.
Print Assumptions C85_terms.

(** ** Construction *)
(** the approximation has n coefficients and the values of the function at the n sample points, in [a, b];
    a function that does not return there stops the construction, and so do bad arguments *)
Theorem C85_interpolates : forall func a b n v, (1 <= n)%Z -> a < b -> (forall k, (k < Z.to_nat n)%nat -> func (node a b (Z.to_nat n) k) = Ok (v k)) ->
  exists C, cheb_of_func Rtrig func a b n = Ok C /\ cheb_ok C /\ cb_a C = a /\ cb_b C = b /\ cb_m C = Z.to_nat n /\ length (cb_coef C) = Z.to_nat n /\
    forall k, (k < Z.to_nat n)%nat -> a <= node a b (Z.to_nat n) k <= b /\ cheb_eval Rtrig C (node a b (Z.to_nat n) k) = Ok (v k).
Proof.
  intros func a b n v Hn Hab HF. destruct (of_func_ok func a b n v Hn Hab HF) as (coef & E & HV). exists (mkCheb coef a b (Z.to_nat n)). split; [exact E|]. assert (HL : length coef = Z.to_nat n) by apply (proj1 HV).
  assert (OK : cheb_ok (mkCheb coef a b (Z.to_nat n))) by (split; cbn [cb_coef cb_m cb_a cb_b]; [lia|auto]).
  repeat (split; [first [exact OK | reflexivity | exact HL]|]). intros k Hk. split; [apply node_range; auto|]. rewrite eval_in by (auto; apply node_range; auto). cbn [cb_m]. rewrite (cfun_vec _ _ _ _ _ _ _ HV) by lia.
  rewrite series_node by (auto; lia). rewrite idct2_dct2 by auto. reflexivity.
Qed.
Print Assumptions C85_interpolates.
Theorem C85_arguments : forall func a b n, ((n < 1)%Z \/ b <= a -> cheb_of_func Rtrig func a b n = Throw InvalidArgument) /\
  (forall c, c = [] \/ b <= a -> cheb_of_coef Rtrig c a b = Throw InvalidArgument) /\ (forall c, c <> [] -> a < b -> cheb_of_coef Rtrig c a b = Ok (mkCheb c a b (length c))) /\
  ((1 <= n)%Z -> a < b -> func (node a b (Z.to_nat n) 0) = Throw OtherError -> cheb_of_func Rtrig func a b n = Throw OtherError).
Proof.
  intros func a b n. repeat split.
  - intros H. unfold cheb_of_func. destruct (Z.leb_spec n 0); [reflexivity|]. tnum. destruct (Rltb_spec a b); [|reflexivity]. destruct H; [lia|lra].
  - intros c H. unfold cheb_of_coef. destruct (Nat.eqb_spec (length c) 0); [reflexivity|]. tnum. destruct (Rltb_spec a b); [|reflexivity]. destruct H as [->|]; [cbn in *; lia|lra].
  - intros. apply of_coef_ok; auto.
  - intros Hn Hab HF. unfold cheb_of_func. destruct (Z.leb_spec n 0); [lia|]. tnum. destruct (Rltb_spec a b); [|lra]. cbn [negb]. cbv zeta. unfold for_range. replace (Z.to_nat n - 0)%nat with (S (Z.to_nat n - 1)) by lia. cbn [seq for_each].
    rewrite <- !INR_IZR_INZ. replace (1 / 2 * (b - a)) with ((b - a) / 2) by field. replace (1 / 2 * (b + a)) with ((b + a) / 2) by field. fold (node a b (Z.to_nat n) 0). rewrite HF. reflexivity.
Qed.
Print Assumptions C85_arguments.
Definition res_const (x : R) : res R := Ok (x * x).
Example C85_interpolates_witness : exists C, cheb_of_func Rtrig res_const 1 3 5 = Ok C /\ cheb_ok C /\ cheb_eval Rtrig C 2 = Ok 4.
Proof.
  destruct (C85_interpolates res_const 1 3 5 (fun k => node 1 3 5 k * node 1 3 5 k)) as (C & E & OK & _ & _ & _ & _ & H); [lia|lra|reflexivity|].
  exists C. split; [exact E|]. split; [exact OK|]. destruct (H 2%nat) as (_ & G); [cbn; lia|]. change (Z.to_nat 5) with 5%nat in G.
  replace (node 1 3 5 2) with 2 in G; [rewrite G; f_equal; ring|]. unfold node. replace (PI * (INR 2 + 1 / 2) / INR 5) with (PI / 2) by (cbn [INR]; field). rewrite cos_PI2. field.
Qed.

(** a polynomial with at most n coefficients is reproduced on the whole interval *)
Theorem C85_polynomial_exact : forall func p a b n, (1 <= n)%Z -> a < b -> (length p <= Z.to_nat n)%nat -> (forall x, a <= x <= b -> func x = Ok (pev p x)) ->
  exists C, cheb_of_func Rtrig func a b n = Ok C /\ forall x, a <= x <= b -> cheb_eval Rtrig C x = Ok (pev p x).
Proof.
  intros func p a b n Hn Hab Hp HF. set (N := Z.to_nat n) in *. assert (HN : (1 <= N)%nat) by lia.
  destruct (of_func_ok func a b n (fun k => pev p (node a b N k)) Hn Hab) as (coef & E & HV). { intros k Hk. apply HF. apply node_range. auto. }
  fold N in E, HV. exists (mkCheb coef a b N). split; [exact E|]. intros x Hx. assert (HL : length coef = N) by apply (proj1 HV). rewrite eval_in; [|split; cbn [cb_coef cb_m cb_a cb_b]; [lia|auto]|exact Hx]. cbn [cb_m].
  rewrite (cfun_vec _ _ _ _ _ _ _ HV) by lia. f_equal.
  destruct (span_series N (fun y => pev p (y * ((b - a) / 2) + (b + a) / 2)) HN) as (g & Hg). { apply (span_mono (length p)); [auto|]. apply span_poly. }
  rewrite <- (unitpos_inv a b x Hab) at 2. cbv beta in Hg. rewrite Hg. apply series_ext; auto. intros i Hi. rewrite <- (dct2_idct2 N g i Hi). unfold dct2. f_equal. apply rsum_ext. intros j Hj. f_equal.
  rewrite <- (series_node a b N g j) by auto. rewrite <- Hg, unitpos_inv by auto. reflexivity.
Qed.
Print Assumptions C85_polynomial_exact.
Lemma p_eval_pev : forall p x, p_eval Rnum p x = Ok (pev p x).
Proof.
  intros p x. apply wp_eq. apply (p_eval_wp Rnum Rring). unfold peval, pev. apply rsum_ext. intros i _. unfold coef. tnum. f_equal. clear. induction i as [|i IH]; [reflexivity|]. cbn [npow pow]. rewrite IH. tnum. ring.
Qed.
(** FromPolynomial, with the default number of coefficients or any larger one, agrees with the polynomial on the interval *)
Theorem C85_from_polynomial : forall p a b n, p <> [] -> a < b -> (n <= 0 \/ Z.of_nat (length p) <= n)%Z ->
  exists C, cheb_of_poly Rtrig p a b n = Ok C /\ (n <= 0 -> length (cb_coef C) = length p)%Z /\ forall x, a <= x <= b -> cheb_eval Rtrig C x = p_eval Rnum p x.
Proof.
  intros p a b n Hp Hab Hn. assert (L : (1 <= length p)%nat) by (destruct p; [contradiction|cbn; lia]). unfold cheb_of_poly. set (N := if (n <=? 0)%Z then (p_degree p + 1)%Z else n).
  assert (HN : (Z.of_nat (length p) <= N)%Z /\ (n <= 0 -> N = Z.of_nat (length p))%Z) by (unfold N, p_degree; destruct (Z.leb_spec n 0); lia). tnum.
  destruct (C85_polynomial_exact (p_eval Rnum p) p a b N) as (C & E & H); try lia; auto. { intros. apply p_eval_pev. }
  exists C. split; [exact E|]. split.
  - intros Hn0. destruct (of_func_ok (p_eval Rnum p) a b N (fun k => pev p (node a b (Z.to_nat N) k))) as (coef & E' & HV); [lia|auto|intros; apply p_eval_pev|]. rewrite E in E'. injection E' as ->. cbn [cb_coef]. rewrite (proj1 HV). lia.
  - intros x Hx. rewrite H by auto. symmetry. apply p_eval_pev.
Qed.
Print Assumptions C85_from_polynomial.
Example C85_from_polynomial_witness : exists C, cheb_of_poly Rtrig [1; -2; 3] 0 2 0 = Ok C /\ cheb_eval Rtrig C 1 = Ok 2.
Proof. destruct (C85_from_polynomial [1; -2; 3] 0 2 0) as (C & E & _ & H); [discriminate|lra|left; lia|]. exists C. split; [exact E|]. rewrite H by lra. rewrite p_eval_pev. f_equal. unfold pev. cbn. ring. Qed.

(** for a function with n derivatives the error falls like (b - a)^n / (4^n n!) *)
Theorem C85_error_bound : forall f fs a b n B, (1 <= n)%Z -> a < b -> derivatives f fs (Z.to_nat n) a b -> (forall t, a <= t <= b -> Rabs (fs (Z.to_nat n) t) <= B) ->
  exists C, cheb_of_func Rtrig (fun x => Ok (f x)) a b n = Ok C /\
    forall x, a <= x <= b -> exists y, cheb_eval Rtrig C x = Ok y /\ Rabs (y - f x) <= B * ((b - a) / 2) ^ Z.to_nat n / (2 ^ (Z.to_nat n - 1) * INR (fact (Z.to_nat n))).
Proof.
  intros f fs a b n B Hn Hab HD HB. set (N := Z.to_nat n) in *. assert (HN : (1 <= N)%nat) by lia.
  destruct (of_func_ok (fun x => Ok (f x)) a b n (fun k => f (node a b N k)) Hn Hab) as (coef & E & HV); [reflexivity|]. fold N in E, HV. exists (mkCheb coef a b N). split; [exact E|].
  intros x Hx. assert (HL : length coef = N) by apply (proj1 HV). exists (series (dct2 N (fun k => f (node a b N k))) N (unitpos a b x)). split.
  - rewrite eval_in; [|split; cbn [cb_coef cb_m cb_a cb_b]; [lia|auto]|exact Hx]. cbn [cb_m]. rewrite (cfun_vec _ _ _ _ _ _ _ HV) by lia. reflexivity.
  - apply (cheb_remainder N f fs a b); auto. intros k Hk. rewrite series_node by auto. rewrite idct2_dct2 by auto. reflexivity.
Qed.
Print Assumptions C85_error_bound.
(** the exponential on [0, 1] with 10 coefficients *)
Example C85_error_bound_witness : exists C, cheb_of_func Rtrig (fun x => Ok (exp x)) 0 1 10 = Ok C /\ forall x, 0 <= x <= 1 -> exists y, cheb_eval Rtrig C x = Ok y /\ Rabs (y - exp x) <= 2 / 10 ^ 12.
Proof.
  destruct (C85_error_bound exp (fun _ => exp) 0 1 10 3) as (C & E & H); [lia|lra| | |].
  - split; [reflexivity|]. intros. apply derivable_pt_lim_exp.
  - intros t Ht. rewrite Rabs_pos_eq by (left; apply exp_pos). apply Rle_trans with (exp 1); [|apply exp_le_3]. destruct (Req_dec t 1) as [->|]; [lra|]. left. apply exp_increasing. lra.
  - exists C. split; [exact E|]. intros x Hx. destruct (H x Hx) as (y & Ey & Hy). exists y. split; [exact Ey|]. eapply Rle_trans; [exact Hy|]. change (Z.to_nat 10) with 10%nat. rewrite INR_IZR_INZ. replace (Z.of_nat (fact 10)) with 3628800%Z by (vm_compute; reflexivity). cbn [Nat.sub pow]. lra.
Qed.

(** ** Fewer terms *)
(** Truncate drops the last terms below the threshold, and no others; each dropped term changes the value by less than the threshold *)
Theorem C85_truncate : forall C thr, cheb_ok C ->
  exists D, cheb_truncate Rtrig C thr = Ok D /\ cheb_ok D /\ cb_coef D = cb_coef C /\ cb_a D = cb_a C /\ cb_b D = cb_b C /\ (cb_m D <= cb_m C)%nat /\
    (forall j, (cb_m D <= j < cb_m C)%nat -> Rabs (cof C j) < thr) /\ (cb_m D = 1%nat \/ thr <= Rabs (cof C (cb_m D - 1))) /\
    forall x, cb_a C <= x <= cb_b C -> exists u v, cheb_eval Rtrig C x = Ok u /\ cheb_eval Rtrig D x = Ok v /\ Rabs (u - v) <= INR (cb_m C - cb_m D) * thr.
Proof.
  intros C thr HC. pose proof HC as ((M1 & M2) & Hab).
  assert (L : forall m, (1 <= m <= length (cb_coef C))%nat -> exists m', truncate_loop Rtrig (cb_coef C) thr m = Ok m' /\ (1 <= m' <= m)%nat /\ (forall j, (m' <= j < m)%nat -> Rabs (cof C j) < thr) /\ (m' = 1%nat \/ thr <= Rabs (cof C (m' - 1)))).
  { induction m as [|m IH]; intros Hm; [lia|]. destruct m as [|m].
    - exists 1%nat. split; [reflexivity|]. split; [lia|]. split; [intros; lia|auto].
    - cbn [truncate_loop]. rewrite (vec_get _ _ _ _ (S m) (cof_vec C)) by lia. cbn [bind]. tnum. destruct (Rltb_spec (Rabs (cof C (S m))) thr) as [G|G].
      + destruct IH as (m' & E & H1 & H2 & H3); [lia|]. exists m'. split; [exact E|]. split; [lia|]. split; [|exact H3]. intros j Hj. destruct (Nat.eq_dec j (S m)) as [->|]; [exact G|]. apply H2. lia.
      + exists (S (S m)). split; [reflexivity|]. split; [lia|]. split; [intros; lia|]. right. cbn [Nat.sub]. lra. }
  destruct (L (cb_m C)) as (m' & E & H1 & H2 & H3); [lia|]. unfold cheb_truncate. rewrite E. cbn [bind]. eexists. split; [reflexivity|]. cbn [cb_coef cb_a cb_b cb_m].
  assert (OK : cheb_ok (mkCheb (cb_coef C) (cb_a C) (cb_b C) m')) by (split; cbn [cb_coef cb_a cb_b cb_m]; [lia|auto]).
  split; [exact OK|]. repeat (split; [first [reflexivity | lia | assumption]|]). intros x Hx. exists (cfun C (cb_m C) x), (cfun C m' x).
  split; [apply eval_in; auto|]. split; [apply (eval_in _ x OK Hx)|]. unfold cfun. set (y := unitpos (cb_a C) (cb_b C) x). assert (Hy : -1 <= y <= 1) by (apply unitpos_range; auto).
  assert (B : forall k, (m' + k <= cb_m C)%nat -> Rabs (series (cof C) (m' + k) y - series (cof C) m' y) <= INR k * thr).
  { induction k as [|k IH]; intros Hk.
    - replace (m' + 0)%nat with m' by lia. rewrite Rminus_eq_0, Rabs_R0. cbn [INR]. lra.
    - replace (m' + S k)%nat with (S (m' + k)) by lia. rewrite series_S by lia. specialize (IH ltac:(lia)). pose proof (H2 (m' + k)%nat ltac:(lia)). pose proof (cT_bound (m' + k) y Hy).
      replace (series (cof C) (m' + k) y + cof C (m' + k)%nat * cT (m' + k) y - series (cof C) m' y) with ((series (cof C) (m' + k) y - series (cof C) m' y) + cof C (m' + k)%nat * cT (m' + k) y) by ring.
      eapply Rle_trans; [apply Rabs_triang|]. rewrite S_INR, Rabs_mult. assert (Rabs (cof C (m' + k)%nat) * Rabs (cT (m' + k) y) <= thr * 1) by (apply Rmult_le_compat; try apply Rabs_pos; lra). lra. }
  specialize (B (cb_m C - m')%nat). replace (m' + (cb_m C - m'))%nat with (cb_m C) in B by lia. apply B. lia.
Qed.
Print Assumptions C85_truncate.
Theorem C85_set_terms : forall C m, cb_a C < cb_b C ->
  ((1 <= m <= Z.of_nat (length (cb_coef C)))%Z -> exists D, cheb_set_terms C m = Ok D /\ cheb_ok D /\ cb_coef D = cb_coef C /\ forall x, cb_a C <= x <= cb_b C -> cheb_eval Rtrig D x = Ok (cfun C (Z.to_nat m) x)) /\
  ((m < 1 \/ Z.of_nat (length (cb_coef C)) < m)%Z -> cheb_set_terms C m = Throw InvalidArgument) /\
  (forall j, cheb_coefficient C j = if ((0 <=? j) && (j <? Z.of_nat (length (cb_coef C))))%Z then Ok (cof C (Z.to_nat j)) else Throw OutOfRange).
Proof.
  intros C m Hab. split; [|split].
  - intros Hm. unfold cheb_set_terms. destruct (Z.leb_spec m 0); [lia|]. destruct (Z.ltb_spec (Z.of_nat (length (cb_coef C))) m); [lia|]. cbn [orb]. eexists. split; [reflexivity|].
    assert (OK : cheb_ok (mkCheb (cb_coef C) (cb_a C) (cb_b C) (Z.to_nat m))) by (split; cbn [cb_coef cb_a cb_b cb_m]; [lia|auto]). split; [exact OK|]. split; [reflexivity|]. intros x Hx. apply (eval_in _ x OK Hx).
  - intros Hm. unfold cheb_set_terms. destruct (Z.leb_spec m 0); [reflexivity|]. destruct (Z.ltb_spec (Z.of_nat (length (cb_coef C))) m); [reflexivity|lia].
  - intros j. unfold cheb_coefficient. destruct (Z.ltb_spec j 0); destruct (Z.leb_spec 0 j); try lia; [reflexivity|]. destruct (Z.leb_spec (Z.of_nat (length (cb_coef C))) j); destruct (Z.ltb_spec j (Z.of_nat (length (cb_coef C)))); try lia; [reflexivity|].
    cbn [orb andb]. apply (vec_get _ _ _ _ _ (cof_vec C)). lia.
Qed.
Print Assumptions C85_set_terms.

(** ** Calculus *)
(** Derivative returns an approximation on the same interval whose values are the derivative of the whole series *)
Theorem C85_derivative : forall C, cheb_ok C ->
  exists D, cheb_derivative Rtrig C = Ok D /\ cheb_ok D /\ cb_a D = cb_a C /\ cb_b D = cb_b C /\
    forall x, cb_a C <= x <= cb_b C -> exists d, cheb_eval Rtrig D x = Ok d /\ derivable_pt_lim (cfun C (length (cb_coef C))) x d.
Proof.
  intros C ((M1 & M2) & Hab). destruct (Nat.eq_dec (length (cb_coef C)) 1) as [N1|N1].
  - exists (mkCheb [0] (cb_a C) (cb_b C) 1). split; [unfold cheb_derivative; rewrite N1; cbn [Nat.leb]; tnum; apply of_coef_ok; [discriminate|auto]|].
    assert (OK : cheb_ok (mkCheb [0] (cb_a C) (cb_b C) 1)) by (split; cbn [cb_coef cb_a cb_b cb_m length]; [lia|auto]). split; [exact OK|]. split; [reflexivity|]. split; [reflexivity|]. intros x Hx.
    exists 0. split; [rewrite (eval_in _ x OK Hx); f_equal; unfold cfun, series, cof; cbn; lra|]. rewrite N1. apply (derivable_pt_lim_ext (fun _ => cof C 0 / 2)); [intros; unfold cfun, series; cbn; ring|]. apply derivable_pt_lim_const.
  - destruct (derivative_ok C ltac:(lia) Hab) as (d & w & E & HV & W1 & W2 & W3). set (n := length (cb_coef C)) in *. eexists. split; [exact E|].
    assert (HL : length d = n) by apply (proj1 HV). assert (OK : cheb_ok (mkCheb d (cb_a C) (cb_b C) n)) by (split; cbn [cb_coef cb_a cb_b cb_m]; [lia|auto]). split; [exact OK|]. split; [reflexivity|]. split; [reflexivity|]. intros x Hx.
    rewrite (eval_in _ x OK Hx). cbn [cb_m]. rewrite (cfun_vec _ _ _ _ _ _ _ HV) by lia. eexists. split; [reflexivity|].
    set (y := unitpos (cb_a C) (cb_b C) x). set (h := 2 / (cb_b C - cb_a C)) in *.
    assert (EQ : series (fun i => w i * h) n y = sum (n - 1) (fun i => cof C (S i) * (INR (S i) * cU i y)) * h).
    { replace (series (fun i => w i * h) n y) with (series w n y * h).
      2:{ unfold series. rewrite (rsum_ext _ (fun i => w (S i) * h * cT (S i) y) (fun i => h * (w (S i) * cT (S i) y))) by (intros; ring). rewrite rsum_scal. field. }
      f_equal. rewrite series_U by lia. assert (exists k, n = S (S k)) as (k & Hk) by (exists (n - 2)%nat; lia). rewrite Hk in *. replace (S (S k) - 2)%nat with k in * by lia. replace (S (S k) - 1)%nat with (S k) in * by lia.
      rewrite (sumS_R (S k)), (sumS_R k), W1, W2. rewrite (sumS_R k (fun i => cof C (S i) * (INR (S i) * cU i y))).
      rewrite (rsum_ext k (fun j => w j * cU j y) (fun j => w (S (S j)) * cU j y + 2 * (cof C (S j) * (INR (S j) * cU j y)))) by (intros i Hi; rewrite W3 by lia; ring).
      rewrite rsum_add, rsum_scal. field. }
    rewrite EQ. apply series_unit_deriv.
Qed.
Print Assumptions C85_derivative.
(** Integral starts from 0 at a and its derivative is the series less half of its last coefficient times U_{n-1}: with a last coefficient 0
    it is an antiderivative *)
Theorem C85_integral : forall C, cheb_ok C -> (2 <= length (cb_coef C))%nat ->
  let n := length (cb_coef C) in
  exists D, cheb_integral Rtrig C = Ok D /\ cheb_ok D /\ cb_a D = cb_a C /\ cb_b D = cb_b C /\ cb_m D = n /\ cheb_eval Rtrig D (cb_a C) = Ok 0 /\
    (forall x, derivable_pt_lim (cfun D n) x (cfun C n x - cof C (n - 1) / 2 * cU (n - 1) (unitpos (cb_a C) (cb_b C) x))) /\
    (cof C (n - 1) = 0 -> forall x, derivable_pt_lim (cfun D n) x (cfun C n x)).
Proof.
  intros C ((M1 & M2) & Hab) Hn n. destruct (integral_ok C Hn Hab) as (d & w & E & HV & W1 & W0). fold n in E, HV, W1, W0. assert (Hn' : (2 <= n)%nat) by exact Hn.
  eexists. split; [exact E|]. assert (HL : length d = n) by apply (proj1 HV). assert (OK : cheb_ok (mkCheb d (cb_a C) (cb_b C) n)) by (split; cbn [cb_coef cb_a cb_b cb_m]; [lia|auto]).
  split; [exact OK|]. do 3 (split; [reflexivity|]).
  assert (FD : forall x, cfun (mkCheb d (cb_a C) (cb_b C) n) n x = series w n (unitpos (cb_a C) (cb_b C) x)) by (intros; apply (cfun_vec _ _ _ _ _ _ _ HV); lia).
  assert (DD : forall x, derivable_pt_lim (cfun (mkCheb d (cb_a C) (cb_b C) n) n) x (cfun C n x - cof C (n - 1) / 2 * cU (n - 1) (unitpos (cb_a C) (cb_b C) x))).
  { intros x. apply (derivable_pt_lim_ext (fun x => series w n (unitpos (cb_a C) (cb_b C) x))); [intros; symmetry; apply FD|].
    replace (cfun C n x - cof C (n - 1) / 2 * cU (n - 1) (unitpos (cb_a C) (cb_b C) x)) with (sum (n - 1) (fun i => w (S i) * (INR (S i) * cU i (unitpos (cb_a C) (cb_b C) x))) * (2 / (cb_b C - cb_a C))); [apply series_unit_deriv|].
    unfold cfun. set (y := unitpos (cb_a C) (cb_b C) x). rewrite series_U by lia.
    rewrite (rsum_ext (n - 1) _ (fun i => (cb_b C - cb_a C) / 4 * (cof C i * cU i y - cof C (S (S i)) * cU i y))).
    2:{ intros i Hi. rewrite W1 by lia. replace (S i - 1)%nat with i by lia. replace (S i + 1)%nat with (S (S i)) by lia. field. apply not_0_INR. lia. }
    rewrite rsum_scal, rsum_sub. assert (exists k, n = S (S k)) as (k & Hk) by (exists (n - 2)%nat; lia). rewrite Hk in *. replace (S (S k) - 2)%nat with k in * by lia. replace (S (S k) - 1)%nat with (S k) in * by lia.
    rewrite (sumS_R (S k) (fun j => cof C j * cU j y)). rewrite (sumS_R k (fun j => cof C (S (S j)) * cU j y)). replace (cof C (S (S k))) with 0 by (unfold cof; rewrite nth_overflow; [reflexivity|fold n; lia]). field. lra. }
  split; [|split; [exact DD|]].
  - rewrite (eval_in _ _ OK) by (cbn [cb_a cb_b]; lra). cbn [cb_m]. f_equal. rewrite FD, unitpos_a by auto. unfold series. rewrite W0.
    rewrite (rsum_ext _ (fun i => w (S i) * cT (S i) (-1)) (fun i => -1 * ((-1) ^ i * w (S i)))) by (intros; rewrite cT_m1; cbn [pow]; ring). rewrite rsum_scal. field.
  - intros H0 x. pose proof (DD x) as G. rewrite H0 in G. replace (cfun C n x) with (cfun C n x - 0 / 2 * cU (n - 1) (unitpos (cb_a C) (cb_b C) x)) by field. exact G.
Qed.
Print Assumptions C85_integral.

(** Derivative uses every stored coefficient: after SetNumTerms it is not the derivative of what the object evaluates to *)
Theorem C85_derivative_truncated_refuted : exists C D d, cheb_ok C /\ (forall x, -1 <= x <= 1 -> cheb_eval Rtrig C x = Ok 0) /\ cheb_derivative Rtrig C = Ok D /\ cheb_eval Rtrig D 0 = Ok d /\ d = 1.
Proof.
  set (C := mkCheb [0; 1] (-1) 1 1). assert (OK : cheb_ok C) by (split; cbn [C cb_coef cb_a cb_b cb_m length]; [lia|lra]).
  destruct (C85_derivative C OK) as (D & E & OKD & HA & HB & H). destruct (H 0) as (d & Ed & Hd); [cbn [C cb_a cb_b]; lra|]. exists C, D, d. split; [exact OK|]. split.
  - intros x Hx. rewrite (eval_in C x OK Hx). f_equal. unfold cfun, series, cof. cbn. lra.
  - split; [exact E|]. split; [exact Ed|]. apply (uniqueness_limite _ _ _ _ Hd). apply (derivable_pt_lim_ext id); [|apply derivable_pt_lim_id]. intros x. unfold cfun, series, cof, unitpos, id. cbn. field.
Qed.
Print Assumptions C85_derivative_truncated_refuted.
(** Integral keeps as many coefficients as the series, so the top term of the antiderivative is lost: the integral of x on [-1, 1], with its two
    coefficients, is computed as 0 everywhere *)
Theorem C85_integral_exact_refuted : exists C D, cheb_ok C /\ (forall x, -1 <= x <= 1 -> cheb_eval Rtrig C x = Ok x) /\ cheb_integral Rtrig C = Ok D /\ forall x, -1 <= x <= 1 -> cheb_eval Rtrig D x = Ok 0.
Proof.
  set (C := mkCheb [0; 1] (-1) 1 2). assert (OK : cheb_ok C) by (split; cbn [C cb_coef cb_a cb_b cb_m length]; [lia|lra]).
  destruct (integral_ok C ltac:(cbn; lia) ltac:(cbn; lra)) as (d & w & E & HV & W1 & W0). cbn [C cb_coef cb_a cb_b cb_m length] in *. exists C. eexists. split; [exact OK|]. split; [|split; [exact E|]].
  - intros x Hx. rewrite (eval_in C x OK Hx). f_equal. unfold cfun, series, cof, unitpos. cbn. field.
  - intros x Hx. rewrite eval_in; [|split; cbn [cb_coef cb_a cb_b cb_m]; [rewrite (proj1 HV); lia|lra]|exact Hx]. cbn [cb_m]. rewrite (cfun_vec _ _ _ _ _ _ _ HV) by lia. f_equal.
    assert (w 1%nat = 0) by (rewrite W1 by lia; unfold cof; cbn; field). unfold series. rewrite W0. cbn. rewrite H. lra.
Qed.
Print Assumptions C85_integral_exact_refuted.
(** Integral of an approximation with a single coefficient (a constant, so a legal object) reads _coef[-1] *)
Theorem C85_integral_constant_refuted : forall c a b, a < b -> cheb_ok (mkCheb [c] a b 1) /\ cheb_integral Rtrig (mkCheb [c] a b 1) = UB.
Proof. intros c a b H. split; [split; cbn [cb_coef cb_a cb_b cb_m length]; [lia|exact H]|reflexivity]. Qed.
Print Assumptions C85_integral_constant_refuted.
(** The class comment gives the approximation as the sum of c_j T_j; in fact the first coefficient counts half, also for coefficients supplied by the caller *)
Theorem C85_first_coefficient_refuted : forall c a b, a < b -> exists C, cheb_of_coef Rtrig [c] a b = Ok C /\ forall x, a <= x <= b -> cheb_eval Rtrig C x = Ok (c / 2).
Proof.
  intros c a b H. exists (mkCheb [c] a b 1). split; [apply of_coef_ok; [discriminate|auto]|]. intros x Hx. rewrite eval_in; [|split; cbn [cb_coef cb_a cb_b cb_m length]; [lia|exact H]|exact Hx]. f_equal. unfold cfun, series, cof. cbn. lra.
Qed.
Print Assumptions C85_first_coefficient_refuted.

(** ** Polynomials *)
(** ToPolynomial gives the coefficients of the first m terms in powers of the position in [-1, 1] *)
Theorem C85_to_polynomial : forall C m,
  ((1 <= m <= Z.of_nat (length (cb_coef C)))%Z -> exists p, cheb_to_poly Rtrig C m = Ok p /\ length p = Z.to_nat m /\ (forall y, p_eval Rnum p y = Ok (series (cof C) (Z.to_nat m) y)) /\
     forall x, p_eval Rnum p (unitpos (cb_a C) (cb_b C) x) = Ok (cfun C (Z.to_nat m) x)) /\
  ((m < 1 \/ Z.of_nat (length (cb_coef C)) < m)%Z -> cheb_to_poly Rtrig C m = Throw InvalidArgument) /\
  cheb_to_poly_all Rtrig C = cheb_to_poly Rtrig C (Z.of_nat (cb_m C)).
Proof.
  intros C m. split; [|split; [|reflexivity]].
  - intros Hm. destruct (to_poly_ok C m Hm) as (p & E & HL & H). exists p. split; [exact E|]. split; [exact HL|]. split; intros; rewrite p_eval_pev, H; reflexivity.
  - intros Hm. unfold cheb_to_poly. destruct (Z.leb_spec m 0); [reflexivity|]. destruct (Z.ltb_spec (Z.of_nat (length (cb_coef C))) m); [reflexivity|lia].
Qed.
Print Assumptions C85_to_polynomial.

(** ** Sampled error *)
(** MaxError is the largest difference over the equally spaced samples, the ends of the interval included *)
Theorem C85_max_error : forall C f N, cheb_ok C -> (1 <= N)%Z ->
  let xs i := cb_a C + INR i * (cb_b C - cb_a C) / IZR N in
  exists e, cheb_max_error Rtrig C (fun x => Ok (f x)) N = Ok e /\ xs 0%nat = cb_a C /\ xs (Z.to_nat N) = cb_b C /\
    (forall i, (i <= Z.to_nat N)%nat -> Rabs (cfun C (cb_m C) (xs i) - f (xs i)) <= e) /\ (exists i, (i <= Z.to_nat N)%nat /\ e = Rabs (cfun C (cb_m C) (xs i) - f (xs i))).
Proof.
  intros C f N HC HN xs. assert (N0 : 0 < IZR N) by (apply IZR_lt; lia).
  assert (XR : forall i, (i <= Z.to_nat N)%nat -> cb_a C <= xs i <= cb_b C).
  { intros i Hi. pose proof (proj2 HC). assert (INR i <= IZR N) by (rewrite INR_IZR_INZ; apply IZR_le; lia). pose proof (pos_INR i). assert (0 < / IZR N) by (apply Rinv_0_lt_compat; auto).
    assert (0 <= INR i * / IZR N <= 1). { split; [apply Rmult_le_pos; lra|]. apply Rmult_le_reg_r with (IZR N); [auto|]. rewrite Rmult_assoc, Rinv_l by lra. lra. }
    unfold xs, Rdiv. replace (INR i * (cb_b C - cb_a C) * / IZR N) with (INR i * / IZR N * (cb_b C - cb_a C)) by ring. split; nra. }
  enough (W : wp (cheb_max_error Rtrig C (fun x => Ok (f x)) N) (fun e => (forall i, (i < S (Z.to_nat N))%nat -> Rabs (cfun C (cb_m C) (xs i) - f (xs i)) <= e) /\ ((exists i, (i < S (Z.to_nat N))%nat /\ e = Rabs (cfun C (cb_m C) (xs i) - f (xs i))) \/ e = 0))).
  { destruct (wp_elim _ _ _ W) as (e & E & H1 & H2). exists e. split; [exact E|]. split; [unfold xs; cbn [INR]; unfold Rdiv; ring|]. split; [unfold xs; rewrite INR_IZR_INZ, Z2Nat.id by lia; field; lra|]. split; [intros; apply H1; lia|].
    destruct H2 as [(i & Hi & Ei)|E0]; [exists i; split; [lia|auto]|]. exists 0%nat. split; [lia|]. subst e. specialize (H1 0%nat ltac:(lia)). pose proof (Rabs_pos (cfun C (cb_m C) (xs 0%nat) - f (xs 0%nat))). lra. }
  unfold cheb_max_error. destruct (Z.leb_spec N 0); [lia|]. tnum. apply (for_range_inv _ _ (fun k e => (forall i, (i < k)%nat -> Rabs (cfun C (cb_m C) (xs i) - f (xs i)) <= e) /\ ((exists i, (i < k)%nat /\ e = Rabs (cfun C (cb_m C) (xs i) - f (xs i))) \/ e = 0))).
  - lia.
  - split; [intros; lia|auto].
  - intros i e _ Hi (H1 & H2). cbv zeta. rewrite <- INR_IZR_INZ. fold (xs i). rewrite (eval_in C (xs i) HC) by (apply XR; lia). cbn [bind]. apply wp_Ok. rewrite Rabs_aabs.
    destruct (Rltb_spec e (Rabs (cfun C (cb_m C) (xs i) - f (xs i)))) as [G|G]; split.
    + intros j Hj. destruct (Nat.eq_dec j i) as [->|]; [lra|]. specialize (H1 j ltac:(lia)). lra.
    + left. exists i. split; [lia|reflexivity].
    + intros j Hj. destruct (Nat.eq_dec j i) as [->|]; [lra|]. apply H1. lia.
    + destruct H2 as [(j & Hj & Ej)|E0]; [left; exists j; split; [lia|auto]|auto].
Qed.
Print Assumptions C85_max_error.

(** ** Special points *)
Lemma sin_kpi : forall k, sin (INR k * PI) = 0.
Proof. induction k as [|k IH]; [cbn [INR]; rewrite Rmult_0_l, sin_0; reflexivity|]. rewrite S_INR. replace ((INR k + 1) * PI) with (INR k * PI + PI) by ring. rewrite neg_sin. lra. Qed.
Lemma cos_kpi : forall k, cos (INR k * PI) = (-1) ^ k.
Proof. induction k as [|k IH]; [cbn [INR pow]; rewrite Rmult_0_l, cos_0; reflexivity|]. rewrite S_INR. replace ((INR k + 1) * PI) with (INR k * PI + PI) by ring. rewrite neg_cos, IH. cbn [pow]. ring. Qed.
(** ChebyshevRoots returns the n zeros of T_n in decreasing order; ChebyshevExtrema the n + 1 points of [-1, 1] where T_n is 1 and -1 in turn, from 1 to -1 *)
Theorem C85_points : forall n, (1 <= n)%Z ->
  (exists r f, ChebyshevRoots Rtrig n = Ok r /\ is_vector r (Z.to_nat n) f /\ (forall k, (k < Z.to_nat n)%nat -> -1 < f k < 1 /\ cT (Z.to_nat n) (f k) = 0) /\ (forall k, (S k < Z.to_nat n)%nat -> f (S k) < f k)) /\
  (exists r f, ChebyshevExtrema Rtrig n = Ok r /\ is_vector r (S (Z.to_nat n)) f /\ f 0%nat = 1 /\ f (Z.to_nat n) = -1 /\ (forall k, (k <= Z.to_nat n)%nat -> cT (Z.to_nat n) (f k) = (-1) ^ k) /\ (forall k, (k < Z.to_nat n)%nat -> f (S k) < f k)).
Proof.
  intros n Hn. set (N := Z.to_nat n). assert (EN : IZR n = INR N) by (unfold N; rewrite INR_IZR_INZ, Z2Nat.id by lia; reflexivity). assert (HN : (1 <= N)%nat) by lia. assert (N0 : 0 < INR N) by (apply lt_0_INR; lia).
  pose proof PI_RGT_0. split.
  - set (f := fun k => cos (PI * (INR k + 1 / 2) / INR N)).
    assert (W : wp (ChebyshevRoots Rtrig n) (fun r => is_vector r N f)).
    { unfold ChebyshevRoots. destruct (Z.leb_spec n 0); [lia|]. fold N. eapply (fill_range _ _ N (fun _ => 0) f); [apply is_vector_repeat|lia|lia| |].
      - intros v k Hk. f_equal. unfold f. tnum. rewrite EN, <- INR_IZR_INZ. f_equal. rewrite plus_INR, mult_INR. cbn [INR]. field. lra.
      - intros v Hv. eapply is_vector_ext; [exact Hv|]. intros i Hi. cbv beta. destruct (Nat.ltb_spec i N); [reflexivity|lia]. }
    destruct (wp_elim _ _ _ W) as (r & E & HV). exists r, f. split; [exact E|]. split; [exact HV|]. split; [|intros; apply ynode_decr; auto].
    intros k Hk. assert (HK : INR k + 1 <= INR N) by (rewrite <- S_INR; apply le_INR; lia). pose proof (pos_INR k). assert (0 < / INR N) by (apply Rinv_0_lt_compat; auto). assert (EI : INR N * / INR N = 1) by (apply Rinv_r; lra).
    assert (A0 : 0 < PI * (INR k + 1 / 2) / INR N) by (unfold Rdiv; apply Rmult_lt_0_compat; [apply Rmult_lt_0_compat; lra|auto]).
    assert (A1 : PI * (INR k + 1 / 2) / INR N < PI). { unfold Rdiv. replace PI with (PI * (INR N * / INR N)) at 2 by (rewrite EI; ring). rewrite <- Rmult_assoc. apply Rmult_lt_compat_r; [auto|]. apply Rmult_lt_compat_l; lra. }
    split.
    + unfold f. set (t := PI * (INR k + 1 / 2) / INR N) in *. split; [rewrite <- cos_PI|rewrite <- cos_0]; apply cos_decreasing_1; lra.
    + unfold f. rewrite cT_cos. replace (INR N * (PI * (INR k + 1 / 2) / INR N)) with (PI / 2 + INR k * PI) by (field; lra). rewrite cos_plus, cos_PI2, sin_kpi. ring.
  - set (f := fun k => cos (PI * INR k / INR N)).
    assert (W : wp (ChebyshevExtrema Rtrig n) (fun r => is_vector r (S N) f)).
    { unfold ChebyshevExtrema. destruct (Z.leb_spec n 0); [lia|]. fold N. eapply (fill_range _ _ (S N) (fun _ => 0) f); [apply is_vector_repeat|lia|lia| |].
      - intros v k Hk. f_equal. unfold f. tnum. rewrite EN, <- INR_IZR_INZ. reflexivity.
      - intros v Hv. eapply is_vector_ext; [exact Hv|]. intros i Hi. cbv beta. destruct (Nat.ltb_spec i (S N)); [reflexivity|lia]. }
    destruct (wp_elim _ _ _ W) as (r & E & HV). exists r, f. split; [exact E|]. split; [exact HV|].
    split; [unfold f; cbn [INR]; replace (PI * 0 / INR N) with 0 by (field; lra); apply cos_0|]. split; [unfold f; replace (PI * INR N / INR N) with PI by (field; lra); apply cos_PI|]. split.
    + intros k Hk. unfold f. rewrite cT_cos. replace (INR N * (PI * INR k / INR N)) with (INR k * PI) by (field; lra). apply cos_kpi.
    + intros k Hk. assert (HK : INR (S k) <= INR N) by (apply le_INR; lia). pose proof (pos_INR k). rewrite S_INR in *. assert (0 < / INR N) by (apply Rinv_0_lt_compat; auto). assert (EI : INR N * / INR N = 1) by (apply Rinv_r; lra).
      assert (UB : forall t, t <= INR N -> PI * t / INR N <= PI). { intros t Ht. unfold Rdiv. replace PI with (PI * (INR N * / INR N)) at 2 by (rewrite EI; ring). rewrite <- Rmult_assoc. apply Rmult_le_compat_r; [lra|]. apply Rmult_le_compat_l; lra. }
      unfold f. rewrite S_INR. apply cos_decreasing_1; try (apply UB; lra); unfold Rdiv.
      * apply Rmult_le_pos; [apply Rmult_le_pos; lra|lra].
      * apply Rmult_le_pos; [apply Rmult_le_pos; lra|lra].
      * apply Rmult_lt_compat_r; [auto|]. apply Rmult_lt_compat_l; lra.
Qed.
Print Assumptions C85_points.

(** ** Computed *)
Local Open Scope Z_scope.
Definition zl (m : res (list Qc)) := match m with Ok l => Some (map showz l) | _ => None end.
Definition Cq := mkCheb [q 4 1; q 3 1; q (-2) 1; q 5 1] (q 0 1) (q 4 1) 4.
Example C85_computed :
  zl (match cheb_eval Qtrig Cq (q 3 1) with Ok v => Ok [v] | Throw e => Throw e | UB => UB | NoFuel => NoFuel end) = Some [(-1, 2)] /\
  zl (cheb_to_poly Qtrig Cq 4) = Some [(4, 1); (-12, 1); (-4, 1); (20, 1)] /\
  zl (match cheb_derivative Qtrig Cq with Ok D => Ok (cb_coef D) | _ => UB end) = Some [(18, 1); (-4, 1); (15, 1); (0, 1)] /\
  zl (match cheb_integral Qtrig Cq with Ok D => Ok (cb_coef D) | _ => UB end) = Some [(38, 3); (6, 1); (-1, 1); (-2, 3)] /\
  (match cheb_truncate Qtrig Cq (q 6 1) with Ok D => Some (cb_m D) | _ => None end) = Some 1%nat /\ (match cheb_truncate Qtrig Cq (q 5 1) with Ok D => Some (cb_m D) | _ => None end) = Some 4%nat.
Proof. repeat split; vm_compute; reflexivity. Qed.
