(** * C87: least squares *)

From Coq Require Import Reals Lra List Arith ZArith Lia Bool.
From Verif Require Import Base Num Mat_Proofs QR_Math Iter_Math RootFind_Model RootFind_Proofs RootFind_Props Fourier_Props Fourier_Real Fourier_DCT Fit_Model Fit_Spec.
Import ListNotations.
Local Open Scope R_scope.
Local Notation sum := (sumn Rnum).

(** ** Sums *)
Section Sums.
Variables (n : nat) (x y : nat -> R).
Let Sx := sum n x. Let Sy := sum n y. Let Sxx := sum n (fun i => x i * x i). Let Sxy := sum n (fun i => x i * y i). Let Syy := sum n (fun i => y i * y i).
Lemma ssr_expand : forall a b, ssr n x y a b = Syy - 2 * a * Sxy - 2 * b * Sy + a * a * Sxx + 2 * a * b * Sx + INR n * (b * b).
Proof.
  intros a b. unfold ssr, Syy, Sxy, Sy, Sxx, Sx. rewrite <- rsum_const, <- !rsum_scal, <- !rsum_sub, <- !rsum_add. apply rsum_ext. intros; ring.
Qed.
Lemma sq_expand : forall a b, sum n (fun i => (a * x i + b) * (a * x i + b)) = a * a * Sxx + 2 * a * b * Sx + INR n * (b * b).
Proof. intros a b. unfold Sxx, Sx. rewrite <- rsum_const, <- !rsum_scal, <- !rsum_add. apply rsum_ext. intros; ring. Qed.
(** with the normal equations, any other line is worse by the squared distance of the lines *)
Lemma pythagoras : forall a b a' b', a * Sxx + b * Sx = Sxy -> a * Sx + INR n * b = Sy -> ssr n x y a' b' = ssr n x y a b + sum n (fun i => ((a' - a) * x i + (b' - b)) * ((a' - a) * x i + (b' - b))).
Proof. intros a b a' b' H1 H2. rewrite !ssr_expand, sq_expand, <- H1, <- H2. ring. Qed.
Lemma ssr_pos : forall a b, 0 <= ssr n x y a b.
Proof. intros. apply rsum_pos. intros. apply Rle_0_sqr. Qed.
Lemma best_line : forall a b, a * Sxx + b * Sx = Sxy -> a * Sx + INR n * b = Sy -> forall a' b', ssr n x y a b <= ssr n x y a' b'.
Proof. intros a b H1 H2 a' b'. rewrite (pythagoras a b a' b' H1 H2). assert (0 <= sum n (fun i => ((a' - a) * x i + (b' - b)) * ((a' - a) * x i + (b' - b)))) by (apply rsum_pos; intros; apply Rle_0_sqr). lra. Qed.
Lemma unique_line : forall a b, a * Sxx + b * Sx = Sxy -> a * Sx + INR n * b = Sy -> forall i j, (i < n)%nat -> (j < n)%nat -> x i <> x j -> forall a' b', ssr n x y a' b' <= ssr n x y a b -> a' = a /\ b' = b.
Proof.
  intros a b H1 H2 i j Hi Hj N a' b' H. rewrite (pythagoras a b a' b' H1 H2) in H. set (g := fun i => ((a' - a) * x i + (b' - b)) * ((a' - a) * x i + (b' - b))) in *. assert (G0 : forall k, (k < n)%nat -> 0 <= g k) by (intros; apply Rle_0_sqr).
  assert (GZ : forall k, (k < n)%nat -> (a' - a) * x k + (b' - b) = 0). { intros k Hk. pose proof (rsum_elem n g k Hk G0) as L. pose proof (G0 k Hk). assert (g k = 0) by lra. unfold g in H3. apply Rmult_integral in H3. tauto. }
  pose proof (GZ i Hi) as E1. pose proof (GZ j Hj) as E2. assert (E : (a' - a) * (x i - x j) = 0) by lra. apply Rmult_integral in E. destruct E as [E|E]; [|lra]. assert (a' = a) by lra. subst a'. split; lra.
Qed.
Lemma spread_moments : (1 <= n)%nat -> INR n * spread n x = INR n * Sxx - Sx * Sx.
Proof.
  intros Hn. unfold spread. set (m := mean n x). assert (E : sum n (fun i => (x i - m) * (x i - m)) = Sxx - 2 * m * Sx + INR n * (m * m)). { unfold Sxx, Sx. rewrite <- rsum_const, <- !rsum_scal, <- !rsum_sub, <- !rsum_add. apply rsum_ext. intros; ring. }
  rewrite E. assert (INR n <> 0) by (apply not_0_INR; lia). assert (EM : INR n * m = Sx) by (unfold m, mean, Sx; field; auto). transitivity (INR n * Sxx - 2 * (INR n * m) * Sx + (INR n * m) * (INR n * m)); [ring|]. rewrite EM. ring.
Qed.
Lemma spread_pos : 0 <= spread n x.
Proof. apply rsum_pos. intros. apply Rle_0_sqr. Qed.
Lemma spread_ssr : ssr n y x 0 (mean n x) = spread n x.
Proof. unfold ssr, spread. apply rsum_ext. intros. ring. Qed.
Lemma spread_zero : (1 <= n)%nat -> spread n x = 0 -> forall i, (i < n)%nat -> x i = mean n x.
Proof.
  intros Hn H i Hi. pose proof (rsum_elem n (fun i => (x i - mean n x) * (x i - mean n x)) i Hi ltac:(intros; apply Rle_0_sqr)) as L. unfold spread in H. rewrite H in L. cbn in L.
  pose proof (Rle_0_sqr (x i - mean n x)) as P. unfold Rsqr in P. assert (E : (x i - mean n x) * (x i - mean n x) = 0) by lra. apply Rmult_integral in E. lra.
Qed.
Lemma spread_ne : (1 <= n)%nat -> spread n x <> 0 -> exists i j, (i < n)%nat /\ (j < n)%nat /\ x i <> x j.
Proof.
  intros Hn H. assert (D : forall k, (k <= n)%nat -> (forall i, (i < k)%nat -> x i = x 0%nat) \/ exists i, (i < k)%nat /\ x i <> x 0%nat).
  { induction k; intros Hk; [left; intros; lia|]. destruct (IHk ltac:(lia)) as [A|(i & Hi & A)]; [|right; exists i; split; [lia|auto]]. destruct (Req_EM_T (x k) (x 0%nat)) as [E|E].
    - left. intros i Hi. destruct (Nat.eq_dec i k) as [->|]; auto. apply A. lia.
    - right. exists k. split; [lia|auto]. }
  destruct (D n (le_n _)) as [A|(i & Hi & A)]; [|exists i, 0%nat; repeat split; auto; lia]. exfalso. apply H. unfold spread. assert (M : mean n x = x 0%nat). { unfold mean. rewrite (rsum_ext n x (fun _ => x 0%nat)) by auto. rewrite rsum_const. field. apply not_0_INR. lia. }
  rewrite M. apply rsum_zero. intros j Hj. rewrite A by auto. ring.
Qed.
End Sums.

(** ** The loops *)
Lemma vec_at : forall (v : list R) n f i, is_vector v n f -> (i < n)%nat -> vget v i = Ok (f i).
Proof. intros v n f i (H1 & H2) Hi. unfold vget. rewrite H2 by auto. reflexivity. Qed.
Lemma fit_sums_ok : forall n xs ys x y, is_vector xs n x -> is_vector ys n y -> fit_sums Rarith n xs ys = Ok (sum n x, sum n y, sum n (fun i => x i * x i), sum n (fun i => x i * y i)).
Proof.
  intros n xs ys x y HX HY. apply wp_eq. unfold fit_sums. eapply wp_conseq; [|apply (for_range_inv _ _ (fun i s => s = (sum i x, sum i y, sum i (fun i => x i * x i), sum i (fun i => x i * y i))))]; auto.
  - lia.
  - intros i s _ Hi ->. rewrite (vec_at _ _ _ _ HX Hi), (vec_at _ _ _ _ HY Hi). cbn [bind]. apply wp_Ok. rewrite Nat.add_1_r, !sumS_R. reflexivity.
Qed.
Lemma fit_residual_ok : forall n xs ys x y a b, is_vector xs n x -> is_vector ys n y -> fit_residual Rarith n xs ys a b = Ok (ssr n x y a b).
Proof.
  intros n xs ys x y a b HX HY. unfold fit_residual. rewrite (acc_sum n _ (fun i => (y i - (a * x i + b)) * (y i - (a * x i + b)))).
  - f_equal. rnum. unfold ssr. ring.
  - intros s i Hi. rewrite (vec_at _ _ _ _ HX Hi), (vec_at _ _ _ _ HY Hi). reflexivity.
Qed.
Lemma lit_nat : forall n, alit Rarith (Z.of_nat n) = INR n.
Proof. intros. rnum. symmetry. apply INR_IZR_INZ. Qed.
Lemma fit_mean_ok : forall n ys y, is_vector ys n y -> fit_mean Rarith n ys = Ok (mean n y).
Proof.
  intros n ys y HY. unfold fit_mean. rewrite (acc_sum n _ y).
  - cbn [bind]. f_equal. rewrite lit_nat. rnum. unfold mean. f_equal. ring.
  - intros s i Hi. rewrite (vec_at _ _ _ _ HY Hi). reflexivity.
Qed.
Lemma sq_le : forall n (x : nat -> R), (1 <= n)%nat -> sum n x * sum n x <= INR n * sum n (fun i => x i * x i).
Proof. intros n x Hn. pose proof (spread_moments n x Hn) as M. pose proof (spread_pos n x) as P. pose proof (pos_INR n). assert (0 <= INR n * spread n x) by (apply Rmult_le_pos; auto). lra. Qed.
Lemma eqb0 : forall a, aeqb Rarith a 0 = true <-> a = 0.
Proof. intros a. unfold aeqb. rnum. destruct (Rltb_spec 0 a); destruct (Rltb_spec a 0); cbn; split; intros; auto; try discriminate; lra. Qed.

(** ** The result of the fit *)
Lemma lls_general : forall Eps n xs ys x y, (3 <= n)%nat -> is_vector xs n x -> is_vector ys n y ->
  LinearLeastSquares Rarith Eps xs ys =
  if Rltb (INR n * spread n x) (Eps * (INR n * sum n (fun i => x i * x i))) then Throw SingularError
  else if Req_EM_T (spread n x) 0 then Ok None
  else let a := (INR n * sum n (fun i => x i * y i) - sum n x * sum n y) / (INR n * spread n x) in
       let b := (sum n (fun i => x i * x i) * sum n y - sum n x * sum n (fun i => x i * y i)) / (INR n * spread n x) in
       Ok (Some (a, b, sqrt (ssr n x y a b))).
Proof.
  intros Eps n xs ys x y Hn HX HY. assert (LX : length xs = n) by apply HX. assert (LY : length ys = n) by apply HY. unfold LinearLeastSquares. rewrite LX, LY, Nat.eqb_refl. cbn [negb].
  destruct (Nat.eqb_spec n 0); [lia|]. destruct (Nat.eqb_spec n 1); [lia|]. destruct (Nat.eqb_spec n 2); [lia|]. rewrite (fit_sums_ok n xs ys x y HX HY). cbn [bind]. rewrite lit_nat. rnum. rewrite <- (spread_moments n x) by lia. pose proof (sq_le n x ltac:(lia)) as SL. pose proof (Rle_0_sqr (sum n x)) as SP. unfold Rsqr in SP.
  pose proof (spread_pos n x) as P0. assert (N0 : 0 < INR n) by (apply lt_0_INR; lia). assert (0 <= INR n * spread n x) by (apply Rmult_le_pos; lra). rewrite !Rabs_pos_eq by lra. destruct (Rltb_spec (INR n * sum n (fun i => x i * x i)) (sum n x * sum n x)); [lra|].
  destruct (Rltb_spec (INR n * spread n x) (Eps * (INR n * sum n (fun i => x i * x i)))); [reflexivity|]. destruct (Req_EM_T (spread n x) 0) as [E|E].
  - replace (aeqb Rarith (INR n * spread n x) 0) with true by (symmetry; apply eqb0; rewrite E; ring). reflexivity.
  - destruct (aeqb Rarith (INR n * spread n x) 0) eqn:E0; [exfalso; apply eqb0 in E0; apply Rmult_integral in E0; lra|]. rewrite (fit_residual_ok n xs ys x y _ _ HX HY). cbn [bind]. reflexivity.
Qed.
Lemma cramer : forall n Sx Sy Sxx Sxy D, D = n * Sxx - Sx * Sx -> D <> 0 -> let a := (n * Sxy - Sx * Sy) / D in let b := (Sxx * Sy - Sx * Sxy) / D in a * Sxx + b * Sx = Sxy /\ a * Sx + n * b = Sy.
Proof. intros n Sx Sy Sxx Sxy D HD ND a b. unfold a, b. split; apply (Rmult_eq_reg_l D); auto; [transitivity ((n * Sxy - Sx * Sy) * Sxx + (Sxx * Sy - Sx * Sxy) * Sx)|transitivity ((n * Sxy - Sx * Sy) * Sx + n * (Sxx * Sy - Sx * Sxy))]; try (field; auto); rewrite HD; ring. Qed.
Lemma two_sum : forall f : nat -> R, sum 2 f = f 0%nat + f 1%nat.
Proof. intros. cbn. ring. Qed.
(** the normal equations hold for every result, except for two different abscissas below the threshold *)
Lemma lls_normal : forall Eps n xs ys x y a b r, 0 < Eps -> (1 <= n)%nat -> is_vector xs n x -> is_vector ys n y -> LinearLeastSquares Rarith Eps xs ys = Ok (Some (a, b, r)) ->
  (n = 2%nat -> x 0%nat = x 1%nat \/ Eps * 10 <= Rabs (x 1%nat - x 0%nat)) ->
  (a * sum n (fun i => x i * x i) + b * sum n x = sum n (fun i => x i * y i) /\ a * sum n x + INR n * b = sum n y) \/ (n = 1%nat /\ a = 0 /\ b = y 0%nat).
Proof.
  intros Eps n xs ys x y a b r HE Hn HX HY E H2. assert (LX : length xs = n) by apply HX. assert (LY : length ys = n) by apply HY. destruct (le_lt_dec 3 n) as [H3|H3].
  - rewrite (lls_general Eps n xs ys x y H3 HX HY) in E. destruct (Rltb _ _); [discriminate E|]. destruct (Req_EM_T (spread n x) 0) as [Z|Z]; [discriminate E|]. cbv zeta in E. injection E as <- <- <-. left. apply cramer; [apply spread_moments; lia|]. apply Rmult_integral_contrapositive_currified; auto. apply not_0_INR. lia.
  - unfold LinearLeastSquares in E. rewrite LX, LY, Nat.eqb_refl in E. cbn [negb] in E. assert (C : n = 1%nat \/ n = 2%nat) by lia. destruct C as [->| ->].
    + right. cbn [Nat.eqb] in E. rewrite (vec_at _ _ _ _ HY) in E by lia. cbn [bind] in E. injection E as <- <- <-. auto.
    + left. cbn [Nat.eqb] in E. rewrite !(vec_at _ _ _ _ HX), !(vec_at _ _ _ _ HY) in E by lia. cbn [bind] in E. rnum. rewrite !two_sum. change (INR 2) with 2. destruct (Rltb_spec (Rabs (x 1%nat - x 0%nat)) (Eps * 10)) as [L|L]; injection E as <- <- <-.
      * destruct (H2 eq_refl) as [EX|EX]; [|lra]. rewrite <- EX. split; field.
      * assert (x 1%nat - x 0%nat <> 0). { intros Z. rewrite Z, Rabs_R0 in L. lra. } split; field; auto.
Qed.
Lemma lls_norm : forall Eps n xs ys x y a b r, 0 < Eps -> (1 <= n)%nat -> is_vector xs n x -> is_vector ys n y -> LinearLeastSquares Rarith Eps xs ys = Ok (Some (a, b, r)) -> r = sqrt (ssr n x y a b).
Proof.
  intros Eps n xs ys x y a b r HE Hn HX HY E. assert (LX : length xs = n) by apply HX. assert (LY : length ys = n) by apply HY. destruct (le_lt_dec 3 n) as [H3|H3].
  - rewrite (lls_general Eps n xs ys x y H3 HX HY) in E. destruct (Rltb _ _); [discriminate E|]. destruct (Req_EM_T (spread n x) 0) as [Z|Z]; [discriminate E|]. cbv zeta in E. injection E as <- <- <-. reflexivity.
  - unfold LinearLeastSquares in E. rewrite LX, LY, Nat.eqb_refl in E. cbn [negb] in E. assert (C : n = 1%nat \/ n = 2%nat) by lia. destruct C as [->| ->].
    + cbn [Nat.eqb] in E. rewrite (vec_at _ _ _ _ HY) in E by lia. cbn [bind] in E. rnum. injection E as <- <- <-. unfold ssr. cbn. replace (0 + (y 0%nat - (0 * x 0%nat + y 0%nat)) * (y 0%nat - (0 * x 0%nat + y 0%nat))) with 0 by ring. symmetry. apply sqrt_0.
    + cbn [Nat.eqb] in E. rewrite !(vec_at _ _ _ _ HX), !(vec_at _ _ _ _ HY) in E by lia. cbn [bind] in E. rnum. unfold ssr. rewrite !two_sum. destruct (Rltb_spec (Rabs (x 1%nat - x 0%nat)) (Eps * 10)) as [L|L]; injection E as <- <- <-.
      * f_equal. ring.
      * assert (x 1%nat - x 0%nat <> 0). { intros Z. rewrite Z, Rabs_R0 in L. lra. } rewrite <- sqrt_0 at 1. f_equal. field. auto.
Qed.
(** no result is worse than the horizontal line at the mean *)
Lemma lls_le_spread : forall Eps n xs ys x y a b r, 0 < Eps -> (1 <= n)%nat -> is_vector xs n x -> is_vector ys n y -> LinearLeastSquares Rarith Eps xs ys = Ok (Some (a, b, r)) -> ssr n x y a b <= spread n y.
Proof.
  intros Eps n xs ys x y a b r HE Hn HX HY E. assert (LX : length xs = n) by apply HX. assert (LY : length ys = n) by apply HY. destruct (Nat.eq_dec n 2) as [->|N2].
  - unfold LinearLeastSquares in E. rewrite LX, LY in E. cbn [negb Nat.eqb] in E. rewrite !(vec_at _ _ _ _ HX), !(vec_at _ _ _ _ HY) in E by lia. cbn [bind] in E. rnum. destruct (Rltb_spec (Rabs (x 1%nat - x 0%nat)) (Eps * 10)) as [L|L]; injection E as <- <- <-.
    + right. unfold ssr, spread, mean. rewrite !two_sum. change (INR 2) with 2. field.
    + assert (x 1%nat - x 0%nat <> 0). { intros Z. rewrite Z, Rabs_R0 in L. lra. } eapply Rle_trans; [|apply spread_pos]. right. unfold ssr. rewrite !two_sum. field. auto.
  - destruct (lls_normal Eps n xs ys x y a b r HE Hn HX HY E ltac:(lia)) as [(N1 & N3)|(-> & -> & ->)].
    + rewrite <- (spread_ssr n y x). apply (best_line n x y a b N1 N3).
    + eapply Rle_trans; [|apply spread_pos]. right. unfold ssr. cbn. ring.
Qed.
Lemma detailed_ok : forall Eps n xs ys x y, 0 < Eps -> (1 <= n)%nat -> is_vector xs n x -> is_vector ys n y ->
  LinearLeastSquaresDetailed Rarith Eps xs ys = (f <- LinearLeastSquares Rarith Eps xs ys ;; match f with None => Ok None | Some (a, b, norm) => Ok (Some (mkLine a b norm (r_squared Eps (ssr n x y a b) (spread n y)) (ssr n x y a b / INR n))) end).
Proof.
  intros Eps n xs ys x y HE Hn HX HY. assert (LX : length xs = n) by apply HX. unfold LinearLeastSquaresDetailed. rewrite LX. destruct (LinearLeastSquares Rarith Eps xs ys) as [[[[a b] r]|]| | |]; cbn [bind]; auto. rewrite (fit_mean_ok n ys y HY). cbn [bind].
  assert (S : for_range 0 n (fun s i => x <- vget xs i ;; y0 <- vget ys i ;; Ok (fst s + (y0 - (a * x + b)) * (y0 - (a * x + b)), snd s + (y0 - mean n y) * (y0 - mean n y))) (0, 0) = Ok (ssr n x y a b, spread n y)).
  { apply wp_eq. eapply wp_conseq; [|apply (for_range_inv _ _ (fun i s => s = (sum i (fun i => (y i - (a * x i + b)) * (y i - (a * x i + b))), sum i (fun i => (y i - mean n y) * (y i - mean n y)))))]; [intros s Hs; exact Hs|lia|reflexivity|].
    intros i s _ Hi ->. rewrite (vec_at _ _ _ _ HX Hi), (vec_at _ _ _ _ HY Hi). cbn [bind]. apply wp_Ok. rewrite Nat.add_1_r, !sumS_R. reflexivity. }
  rnum. rewrite S. cbn [bind fst snd]. rewrite <- INR_IZR_INZ. reflexivity.
Qed.

(** ** The general fit *)
Lemma design_row : forall xs (fs : list (R -> R)) m x i, is_vector xs m x -> (i < m)%nat -> vget (design xs fs) i = Ok (map (fun f => f (x i)) fs).
Proof. intros xs fs m x i (HL & HX) Hi. unfold vget, design. rewrite nth_error_map, HX by auto. reflexivity. Qed.
Lemma gen_residual_ok : forall m xs ys x y (fs : list (R -> R)) c cf f0, is_vector xs m x -> is_vector ys m y -> is_vector c (length fs) cf -> gen_residual Rarith m (length fs) (design xs fs) ys c = Ok (gssr m (length fs) (fun j => nth j fs f0) x y cf).
Proof.
  intros m xs ys x y fs c cf f0 HX HY HC. unfold gen_residual. rewrite (acc_sum m _ (fun i => let r := y i - sum (length fs) (fun j => cf j * nth j fs f0 (x i)) in r * r)).
  - f_equal. rnum. unfold gssr. ring.
  - intros s i Hi. rewrite (design_row _ _ _ _ _ HX Hi), (vec_at _ _ _ _ HY Hi). cbn [bind]. rewrite (acc_sum (length fs) _ (fun j => cf j * nth j fs f0 (x i))).
    + cbn [bind]. f_equal. rnum. ring.
    + intros p j Hj. rewrite (vec_at _ _ _ _ HC Hj). cbn [bind]. unfold vget at 1. rewrite nth_error_map, (nth_error_nth' fs f0) by auto. reflexivity.
Qed.
Lemma ss_tot_ok : forall m ys y mu, is_vector ys m y -> for_range 0 m (fun s i => y0 <- vget ys i ;; Ok (s + (y0 - mu) * (y0 - mu))) 0 = Ok (sum m (fun i => (y i - mu) * (y i - mu))).
Proof. intros m ys y mu HY. rewrite (acc_sum m _ (fun i => (y i - mu) * (y i - mu))); [f_equal; ring|]. intros s i Hi. rewrite (vec_at _ _ _ _ HY Hi). reflexivity. Qed.
