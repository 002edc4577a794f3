(** * C87: curve fitting by least squares *)

From Coq Require Import Reals Lra List Arith ZArith Lia Bool Qcanon.
From Verif Require Import Base Num Mat_Proofs QR_Math Iter_Math RootFind_Model RootFind_Proofs RootFind_Props Fourier_Props Fourier_Real Fourier_DCT Deriv_Spec Deriv_Props Cheb_Math Fit_Model Fit_Spec Fit_Proofs.
Import ListNotations.
Local Open Scope R_scope.
Local Notation sum := (sumn Rnum).

(** ** Straight lines *)
(** the returned line has the smallest sum of squared residuals of all lines, and the returned norm is its root *)
Theorem C87_minimum : forall Eps n xs ys x y a b r, 0 < Eps -> (1 <= n)%nat -> is_vector xs n x -> is_vector ys n y -> LinearLeastSquares Rarith Eps xs ys = Ok (Some (a, b, r)) ->
  (n = 2%nat -> x 0%nat = x 1%nat \/ Eps * 10 <= Rabs (x 1%nat - x 0%nat)) ->
  r = sqrt (ssr n x y a b) /\ (forall a' b', ssr n x y a b <= ssr n x y a' b') /\
  (forall i j, (i < n)%nat -> (j < n)%nat -> x i <> x j -> forall a' b', ssr n x y a' b' <= ssr n x y a b -> a' = a /\ b' = b).
Proof.
  intros Eps n xs ys x y a b r HE Hn HX HY E H2. split; [eapply lls_norm; eauto|]. destruct (lls_normal Eps n xs ys x y a b r HE Hn HX HY E H2) as [(N1 & N3)|(-> & -> & ->)].
  - split; [intros; apply best_line; auto|]. intros i j Hi Hj N a' b' L. apply (unique_line n x y a b N1 N3 i j Hi Hj N a' b' L).
  - split; [|intros i j Hi Hj N; exfalso; apply N; f_equal; lia]. intros a' b'. eapply Rle_trans; [|apply ssr_pos]. right. unfold ssr. cbn. ring.
Qed.
Print Assumptions C87_minimum.
(** what happens for all inputs: bad sizes throw; with three or more points the fit throws exactly when the spread of the abscissas
    is below Eps times their sum of squares, and is not a number exactly when they are all 0; two points closer than 10 Eps give the
    horizontal line at their average *)
Theorem C87_outcome : forall Eps xs ys n x y, 0 < Eps -> (1 <= n)%nat -> is_vector xs n x -> is_vector ys n y ->
  (n = 1%nat -> LinearLeastSquares Rarith Eps xs ys = Ok (Some (0, y 0%nat, 0))) /\
  (n = 2%nat -> Rabs (x 1%nat - x 0%nat) < Eps * 10 -> exists r, LinearLeastSquares Rarith Eps xs ys = Ok (Some (0, (y 0%nat + y 1%nat) / 2, r)) /\ r = sqrt (ssr n x y 0 ((y 0%nat + y 1%nat) / 2))) /\
  (n = 2%nat -> Eps * 10 <= Rabs (x 1%nat - x 0%nat) -> exists a b, LinearLeastSquares Rarith Eps xs ys = Ok (Some (a, b, 0)) /\ y 0%nat = a * x 0%nat + b /\ y 1%nat = a * x 1%nat + b) /\
  ((3 <= n)%nat -> spread n x < Eps * sum n (fun i => x i * x i) -> LinearLeastSquares Rarith Eps xs ys = Throw SingularError) /\
  ((3 <= n)%nat -> (forall i, (i < n)%nat -> x i = 0) -> LinearLeastSquares Rarith Eps xs ys = Ok None) /\
  ((3 <= n)%nat -> Eps * sum n (fun i => x i * x i) <= spread n x -> (exists i, (i < n)%nat /\ x i <> 0) -> exists a b r, LinearLeastSquares Rarith Eps xs ys = Ok (Some (a, b, r))).
Proof.
  intros Eps xs ys n x y HE Hn HX HY. assert (LX : length xs = n) by apply HX. assert (LY : length ys = n) by apply HY. assert (N0 : 0 < INR n) by (apply lt_0_INR; lia). split; [|split; [|split; [|split; [|split]]]].
  - intros ->. unfold LinearLeastSquares. rewrite LX, LY. cbn [negb Nat.eqb]. rewrite (vec_at _ _ _ _ HY) by lia. reflexivity.
  - intros -> L. assert (E : exists r, LinearLeastSquares Rarith Eps xs ys = Ok (Some (0, (y 0%nat + y 1%nat) / 2, r))).
    { unfold LinearLeastSquares. rewrite LX, LY. cbn [negb Nat.eqb]. rewrite !(vec_at _ _ _ _ HX), !(vec_at _ _ _ _ HY) by lia. cbn [bind]. rnum. destruct (Rltb_spec (Rabs (x 1%nat - x 0%nat)) (Eps * 10)); [|lra]. eexists. reflexivity. }
    destruct E as (r & E). exists r. split; [exact E|]. eapply (lls_norm Eps); eauto.
  - intros -> L. unfold LinearLeastSquares. rewrite LX, LY. cbn [negb Nat.eqb]. rewrite !(vec_at _ _ _ _ HX), !(vec_at _ _ _ _ HY) by lia. cbn [bind]. rnum. destruct (Rltb_spec (Rabs (x 1%nat - x 0%nat)) (Eps * 10)); [lra|].
    assert (x 1%nat - x 0%nat <> 0). { intros Z. rewrite Z, Rabs_R0 in L. lra. } do 2 eexists. split; [reflexivity|]. split; field; auto.
  - intros H3 L. rewrite (lls_general Eps n xs ys x y H3 HX HY). destruct (Rltb_spec (INR n * spread n x) (Eps * (INR n * sum n (fun i => x i * x i)))) as [G|G]; [reflexivity|]. exfalso. apply G. replace (Eps * (INR n * sum n (fun i => x i * x i))) with (INR n * (Eps * sum n (fun i => x i * x i))) by ring. apply Rmult_lt_compat_l; auto.
  - intros H3 Z. rewrite (lls_general Eps n xs ys x y H3 HX HY). assert (S0 : sum n (fun i => x i * x i) = 0) by (apply rsum_zero; intros; rewrite Z by auto; ring). assert (S1 : sum n x = 0) by (apply rsum_zero; auto). pose proof (spread_moments n x Hn) as M. rewrite S0, S1 in M. assert (SZ : spread n x = 0) by nra.
    rewrite S0, SZ. destruct (Rltb_spec (INR n * 0) (Eps * (INR n * 0))); [lra|]. destruct (Req_EM_T 0 0); [reflexivity|lra].
  - intros H3 L (i & Hi & Zi). rewrite (lls_general Eps n xs ys x y H3 HX HY). destruct (Rltb_spec (INR n * spread n x) (Eps * (INR n * sum n (fun i => x i * x i)))) as [G|G].
    + exfalso. assert (INR n * (Eps * sum n (fun i => x i * x i)) <= INR n * spread n x) by (apply Rmult_le_compat_l; lra). lra.
    + destruct (Req_EM_T (spread n x) 0) as [Z|Z]; [|do 3 eexists; reflexivity]. exfalso. assert (P : 0 < sum n (fun i => x i * x i)) by (apply (rsum_pos_lt n _ i Hi); [intros; apply Rle_0_sqr|apply Rsqr_pos_lt; auto]). rewrite Z in L. assert (0 < Eps * sum n (fun i => x i * x i)) by (apply Rmult_lt_0_compat; auto). lra.
Qed.
Print Assumptions C87_outcome.
Theorem C87_arguments : forall Eps (xs ys : list R), length xs <> length ys \/ xs = [] -> LinearLeastSquares Rarith Eps xs ys = Throw InvalidArgument /\ LinearLeastSquaresDetailed Rarith Eps xs ys = Throw InvalidArgument /\ LinearFitDetailed Rarith Eps xs ys = Ok (FitInvalidInput, None).
Proof.
  intros Eps xs ys H. assert (E : LinearLeastSquares Rarith Eps xs ys = Throw InvalidArgument). { unfold LinearLeastSquares. destruct (Nat.eqb_spec (length xs) (length ys)) as [L|L]; [|reflexivity]. destruct H as [H|H]; [contradiction|]. subst xs. reflexivity. }
  assert (E2 : LinearLeastSquaresDetailed Rarith Eps xs ys = Throw InvalidArgument) by (unfold LinearLeastSquaresDetailed; rewrite E; reflexivity). repeat split; auto. unfold LinearFitDetailed. rewrite E2. reflexivity.
Qed.
Print Assumptions C87_arguments.
(** data on a line are fitted exactly *)
Theorem C87_exact : forall Eps n xs ys x y al be a b r, 0 < Eps -> (1 <= n)%nat -> is_vector xs n x -> is_vector ys n y -> (forall i, (i < n)%nat -> y i = al * x i + be) -> LinearLeastSquares Rarith Eps xs ys = Ok (Some (a, b, r)) ->
  (exists i j, (i < n)%nat /\ (j < n)%nat /\ x i <> x j) -> (n = 2%nat -> Eps * 10 <= Rabs (x 1%nat - x 0%nat)) -> a = al /\ b = be /\ r = 0.
Proof.
  intros Eps n xs ys x y al be a b r HE Hn HX HY HL E (i & j & Hi & Hj & N) H2. destruct (C87_minimum Eps n xs ys x y a b r HE Hn HX HY E (fun e => or_intror (H2 e))) as (HR & HM & HU).
  assert (Z : ssr n x y al be = 0) by (unfold ssr; apply rsum_zero; intros k Hk; rewrite HL by auto; ring). destruct (HU i j Hi Hj N al be) as (-> & ->); [rewrite Z; apply ssr_pos|]. repeat split; auto. rewrite HR, Z. apply sqrt_0.
Qed.
Print Assumptions C87_exact.

(** ** Statistics of the line *)
Lemma r2_range : forall Eps res tot, 0 < Eps -> 0 <= res <= tot -> 0 <= r_squared Eps res tot <= 1.
Proof.
  intros Eps res tot HE (H1 & H2). unfold r_squared. destruct (Rltb_spec Eps tot).
  - assert (0 <= res / tot <= 1); [|lra]. split; [apply Rmult_le_pos; auto; left; apply Rinv_0_lt_compat; lra|]. apply (Rmult_le_reg_r tot); [lra|]. replace (res / tot * tot) with res by (field; lra). lra.
  - destruct (Rltb_spec res Eps); lra.
Qed.
(** R^2 lies between 0 and 1; it is 1 - SSR/SST when the ordinates have a spread above Eps; the mean squared error is SSR/n;
    the two functions give the same line, and the Detailed form reports exceptions as a status *)
Theorem C87_statistics : forall Eps n xs ys x y, 0 < Eps -> (1 <= n)%nat -> is_vector xs n x -> is_vector ys n y ->
  match LinearLeastSquares Rarith Eps xs ys with
  | Ok (Some (a, b, r)) => exists F, LinearLeastSquaresDetailed Rarith Eps xs ys = Ok (Some F) /\ LinearFitDetailed Rarith Eps xs ys = Ok (FitSuccess, Some (Some F)) /\
      lf_a F = a /\ lf_b F = b /\ lf_norm F = r /\ 0 <= lf_r2 F <= 1 /\ (Eps < spread n y -> lf_r2 F = 1 - ssr n x y a b / spread n y /\ (lf_r2 F = 1 <-> forall i, (i < n)%nat -> y i = a * x i + b)) /\ lf_mse F * INR n = ssr n x y a b
  | Throw e => LinearLeastSquaresDetailed Rarith Eps xs ys = Throw SingularError /\ LinearFitDetailed Rarith Eps xs ys = Ok (FitSingular, None)
  | Ok None => (3 <= n)%nat /\ forall i, (i < n)%nat -> x i = 0
  | _ => False
  end.
Proof.
  intros Eps n xs ys x y HE Hn HX HY. pose proof (detailed_ok Eps n xs ys x y HE Hn HX HY) as D. destruct (LinearLeastSquares Rarith Eps xs ys) as [[[[a b] r]|]|e| |] eqn:E.
  - cbn [bind] in D. pose proof (lls_le_spread Eps n xs ys x y a b r HE Hn HX HY E) as LS. pose proof (ssr_pos n x y a b) as SP. eexists. split; [exact D|]. split; [unfold LinearFitDetailed; rewrite D; reflexivity|]. cbn [lf_a lf_b lf_norm lf_r2 lf_mse].
    do 3 (split; [reflexivity|]). split; [apply r2_range; auto|]. split; [|field; apply not_0_INR; lia]. intros L. unfold r_squared. destruct (Rltb_spec Eps (spread n y)); [|lra]. split; [reflexivity|]. split.
    + intros R1 i Hi. assert (Z : ssr n x y a b = 0). { assert (Q : ssr n x y a b / spread n y = 0) by lra. apply Rmult_integral in Q. destruct Q as [Q|Q]; auto. exfalso. apply Rinv_neq_0_compat in Q; auto. lra. }
      pose proof (rsum_elem n (fun i => (y i - (a * x i + b)) * (y i - (a * x i + b))) i Hi ltac:(intros; apply Rle_0_sqr)) as L1. unfold ssr in Z. rewrite Z in L1. cbn in L1. pose proof (Rle_0_sqr (y i - (a * x i + b))) as P. unfold Rsqr in P. assert (Q : (y i - (a * x i + b)) * (y i - (a * x i + b)) = 0) by lra. apply Rmult_integral in Q. lra.
    + intros HL. assert (Z : ssr n x y a b = 0) by (unfold ssr; apply rsum_zero; intros k Hk; rewrite HL by auto; ring). rewrite Z. unfold Rdiv. lra.
  - assert (LX : length xs = n) by apply HX. assert (LY : length ys = n) by apply HY. destruct (le_lt_dec 3 n) as [H3|H3].
    + split; [exact H3|]. rewrite (lls_general Eps n xs ys x y H3 HX HY) in E. destruct (Rltb_spec (INR n * spread n x) (Eps * (INR n * sum n (fun i => x i * x i)))) as [G|G]; [discriminate E|]. destruct (Req_EM_T (spread n x) 0) as [Z|Z]; [|discriminate E]. rewrite Z in G.
      intros i Hi. destruct (Req_EM_T (x i) 0) as [|N]; auto. exfalso. assert (P : 0 < sum n (fun i => x i * x i)) by (apply (rsum_pos_lt n _ i Hi); [intros; apply Rle_0_sqr|apply Rsqr_pos_lt; auto]). assert (0 < INR n) by (apply lt_0_INR; lia). apply G. assert (0 < Eps * (INR n * sum n (fun i => x i * x i))) by (repeat apply Rmult_lt_0_compat; auto). lra.
    + exfalso. unfold LinearLeastSquares in E. rewrite LX, LY, Nat.eqb_refl in E. cbn [negb] in E. assert (C : n = 1%nat \/ n = 2%nat) by lia. destruct C as [->| ->]; cbn [Nat.eqb] in E; [rewrite (vec_at _ _ _ _ HY) in E by lia; cbn [bind] in E; discriminate E|].
      rewrite !(vec_at _ _ _ _ HX), !(vec_at _ _ _ _ HY) in E by lia. cbn [bind] in E. cbv zeta in E. match type of E with context [if ?c then _ else _] => destruct c end; discriminate E.
  - assert (EE : e = SingularError). { assert (LX : length xs = n) by apply HX. assert (LY : length ys = n) by apply HY. destruct (le_lt_dec 3 n) as [H3|H3].
      - rewrite (lls_general Eps n xs ys x y H3 HX HY) in E. destruct (Rltb _ _); [injection E as <-; reflexivity|]. destruct (Req_EM_T (spread n x) 0); discriminate E.
      - exfalso. unfold LinearLeastSquares in E. rewrite LX, LY, Nat.eqb_refl in E. cbn [negb] in E. assert (C : n = 1%nat \/ n = 2%nat) by lia. destruct C as [->| ->]; cbn [Nat.eqb] in E; [rewrite (vec_at _ _ _ _ HY) in E by lia; cbn [bind] in E; discriminate E|].
        rewrite !(vec_at _ _ _ _ HX), !(vec_at _ _ _ _ HY) in E by lia. cbn [bind] in E. cbv zeta in E. match type of E with context [if ?c then _ else _] => destruct c end; discriminate E. }
    subst e. cbn [bind] in D. split; [exact D|]. unfold LinearFitDetailed. rewrite D. reflexivity.
  - assert (LX : length xs = n) by apply HX. assert (LY : length ys = n) by apply HY. destruct (le_lt_dec 3 n) as [H3|H3].
    + rewrite (lls_general Eps n xs ys x y H3 HX HY) in E. destruct (Rltb _ _); [discriminate E|]. destruct (Req_EM_T (spread n x) 0); discriminate E.
    + unfold LinearLeastSquares in E. rewrite LX, LY, Nat.eqb_refl in E. cbn [negb] in E. assert (C : n = 1%nat \/ n = 2%nat) by lia. destruct C as [->| ->]; cbn [Nat.eqb] in E; [rewrite (vec_at _ _ _ _ HY) in E by lia; cbn [bind] in E; discriminate E|].
      rewrite !(vec_at _ _ _ _ HX), !(vec_at _ _ _ _ HY) in E by lia. cbn [bind] in E. cbv zeta in E. match type of E with context [if ?c then _ else _] => destruct c end; discriminate E.
  - assert (LX : length xs = n) by apply HX. assert (LY : length ys = n) by apply HY. destruct (le_lt_dec 3 n) as [H3|H3].
    + rewrite (lls_general Eps n xs ys x y H3 HX HY) in E. destruct (Rltb _ _); [discriminate E|]. destruct (Req_EM_T (spread n x) 0); discriminate E.
    + unfold LinearLeastSquares in E. rewrite LX, LY, Nat.eqb_refl in E. cbn [negb] in E. assert (C : n = 1%nat \/ n = 2%nat) by lia. destruct C as [->| ->]; cbn [Nat.eqb] in E; [rewrite (vec_at _ _ _ _ HY) in E by lia; cbn [bind] in E; discriminate E|].
      rewrite !(vec_at _ _ _ _ HX), !(vec_at _ _ _ _ HY) in E by lia. cbn [bind] in E. cbv zeta in E. match type of E with context [if ?c then _ else _] => destruct c end; discriminate E.
Qed.
Print Assumptions C87_statistics.

(** ** Combinations of basis functions *)
(** the number of values above t among the first n *)
Definition count_above (n : nat) (w : nat -> R) (t : R) : nat := length (filter (fun i => Rltb t (w i)) (seq 0 n)).
Lemma rank_ok : forall n w wf t, is_vector w n wf -> for_range 0 n (fun k i => wi <- vget w i ;; Ok (if Rltb t wi then S k else k)) 0%nat = Ok (count_above n wf t).
Proof.
  intros n w wf t HW. apply wp_eq. eapply wp_conseq; [|apply (for_range_inv _ _ (fun i k => k = count_above i wf t))]; [auto|lia|reflexivity|].
  intros i k _ Hi ->. rewrite (vec_at _ _ _ _ HW Hi). cbn [bind]. apply wp_Ok. unfold count_above. rewrite Nat.add_1_r, seq_S, filter_app, app_length. cbn [filter plus]. destruct (Rltb t (wf i)); cbn [length]; lia.
Qed.
Lemma count_le : forall n w t, (count_above n w t <= n)%nat.
Proof. intros. unfold count_above. rewrite <- (seq_length n 0) at 2. generalize (seq 0 n). induction l as [|a l IH]; cbn; [lia|]. destruct (Rltb t (w a)); cbn; lia. Qed.
(** whatever decomposition is used: the coefficients are those it returns; norm, mean squared error, R^2, adjusted R^2, rank and
    condition number are the ones of these coefficients and singular values *)
Theorem C87_general : forall Eps svd xs ys fs m x y c cf w wf, 0 < Eps -> is_vector xs m x -> is_vector ys m y -> (1 <= length fs <= m)%nat -> svd (design xs fs) ys = Ok (c, w) -> is_vector c (length fs) cf -> is_vector w (length fs) wf ->
  let n := length fs in let S := gssr m n (fun j => nth j fs (fun x => x)) x y cf in
  exists g, GeneralLinearLeastSquares Rarith Eps svd xs ys fs = Ok g /\ gf_coef g = c /\ gf_m g = m /\ gf_n g = n /\ gf_norm g = sqrt S /\ gf_mse g * INR m = S /\ gf_r2 g = r_squared Eps S (spread m y) /\ gf_r2 g <= 1 /\
    (Eps < spread m y -> (n < m)%nat -> gf_adj g = 1 - (S / INR (m - n)) / (spread m y / INR (m - 1))) /\ (spread m y <= Eps \/ n = m -> gf_adj g = gf_r2 g) /\
    gf_rank g = count_above n wf (1 / 2 * sqrt (INR m + INR n + 1) * wf 0%nat * Eps) /\
    (forall k, gf_rank g = Datatypes.S k -> 0 < wf k -> gf_cond g = Some (wf 0%nat / wf k)) /\
    (forall t, gen_evaluate Rarith g t fs = Ok (sum n (fun j => cf j * nth j fs (fun x => x) t))) /\ (forall t fs', length fs' <> n -> gen_evaluate Rarith g t fs' = Throw InvalidArgument).
Proof.
  intros Eps svd xs ys fs m x y c cf w wf HE HX HY (Hn & Hm) HS HC HW n S. assert (LX : length xs = m) by apply HX. assert (LY : length ys = m) by apply HY. assert (M0 : 0 < INR m) by (apply lt_0_INR; lia).
  assert (SP : 0 <= S) by (apply rsum_pos; intros; apply Rle_0_sqr). assert (R1 : r_squared Eps S (spread m y) <= 1).
  { unfold r_squared. destruct (Rltb_spec Eps (spread m y)); [|destruct (Rltb S Eps); lra]. assert (0 <= S / spread m y) by (apply Rmult_le_pos; auto; left; apply Rinv_0_lt_compat; lra). lra. }
  unfold GeneralLinearLeastSquares. rewrite LX, LY, Nat.eqb_refl. cbn [negb]. destruct (Nat.eqb_spec m 0); [lia|]. fold n. destruct (Nat.eqb_spec n 0); [unfold n in *; lia|]. destruct (Nat.ltb_spec m n); [unfold n in *; lia|]. rewrite HS. cbn [bind].
  unfold n at 1. rewrite (gen_residual_ok m xs ys x y fs c cf (fun x => x) HX HY HC). cbn [bind]. rewrite (fit_mean_ok m ys y HY). cbn [bind]. pose proof (ss_tot_ok m ys y (mean m y) HY) as ST. rnum. rewrite ST. cbn [bind]. fold (spread m y). fold n. fold S.
  rewrite (vec_at _ _ _ _ HW) by lia. cbn [bind]. rewrite <- !INR_IZR_INZ. rewrite (rank_ok n w wf _ HW). cbn [bind]. set (th := 1 / 2 * sqrt (INR m + INR n + 1) * wf 0%nat * Eps). set (rk := count_above n wf th). assert (RK : (rk <= n)%nat) by apply count_le.
  set (cond := if (0 <? rk)%nat then wr <- vget w (Nat.pred rk) ;; Ok (if Rltb 0 wr then Some (wf 0%nat / wr) else None) else Ok None).
  assert (CO : exists o, cond = Ok o /\ forall k, rk = Datatypes.S k -> 0 < wf k -> o = Some (wf 0%nat / wf k)).
  { unfold cond. destruct (Nat.ltb_spec 0 rk) as [G|G]; [|exists None; split; [reflexivity|intros k E; lia]]. rewrite (vec_at _ _ _ _ HW) by (fold n; lia). cbn [bind]. eexists. split; [reflexivity|]. intros k E P. rewrite E. cbn [Nat.pred]. destruct (Rltb_spec 0 (wf k)); [reflexivity|lra]. }
  destruct CO as (o & EO & HO). change (match cond with Ok a => _ | _ => _ end) with (bind cond (fun o => Ok o)) || idtac. rewrite EO. cbn [bind]. eexists. split; [reflexivity|]. cbn [gf_coef gf_m gf_n gf_norm gf_mse gf_r2 gf_adj gf_rank gf_cond].
  do 4 (split; [reflexivity|]). split; [field; lra|]. split; [reflexivity|]. split; [exact R1|]. split; [|split; [|split; [reflexivity|split; [exact HO|split]]]].
  - intros L Hnm. unfold fit_r2. rnum. destruct (Rltb_spec Eps (spread m y)); [|lra]. destruct (Nat.ltb_spec n m); [|lia]. rewrite !minus_INR by lia. change (INR 1) with 1. assert (INR n < INR m) by (apply lt_INR; auto). assert (1 < INR m) by (apply (lt_INR 1); unfold n in *; lia). field. lra.
  - intros D. rnum. destruct (Rltb_spec Eps (spread m y)) as [G|G]; [|reflexivity]. destruct D as [D|D]; [lra|]. destruct (Nat.ltb_spec n m); [lia|]. reflexivity.
  - intros t. unfold gen_evaluate. cbn [gf_coef]. rewrite (proj1 HC), Nat.eqb_refl. cbn [negb]. rewrite (acc_sum (length fs) _ (fun j => cf j * nth j fs (fun x => x) t)).
    + f_equal. rnum. fold n. ring.
    + intros s i Hi. rewrite (vec_at _ _ _ _ HC Hi). cbn [bind]. unfold vget. rewrite (nth_error_nth' fs (fun x => x)) by auto. reflexivity.
  - intros t fs' N. unfold gen_evaluate. cbn [gf_coef]. rewrite (proj1 HC). destruct (Nat.eqb_spec (length fs) (length fs')); [unfold n in *; congruence|reflexivity].
Qed.
Print Assumptions C87_general.
Theorem C87_general_arguments : forall Eps svd (xs ys : list R) fs, length xs <> length ys \/ xs = [] \/ fs = [] \/ (length xs < length fs)%nat -> GeneralLinearLeastSquares Rarith Eps svd xs ys fs = Throw InvalidArgument.
Proof.
  intros Eps svd xs ys fs H. unfold GeneralLinearLeastSquares. destruct (Nat.eqb_spec (length xs) (length ys)) as [L|L]; [|reflexivity]. cbn [negb]. destruct (Nat.eqb_spec (length xs) 0) as [X|X]; [reflexivity|]. destruct (Nat.eqb_spec (length fs) 0) as [F|F]; [reflexivity|].
  destruct (Nat.ltb_spec (length xs) (length fs)); [reflexivity|]. exfalso. destruct H as [H|[H|[H|H]]]; [auto|subst; apply X; reflexivity|subst; apply F; reflexivity|lia].
Qed.
Print Assumptions C87_general_arguments.

(** ** Polynomials *)
Lemma fpow_pow : forall x k, fpow Rarith x k = x ^ k.
Proof. intros x k. induction k; cbn [fpow pow]; [reflexivity|]. rewrite IHk. reflexivity. Qed.
Lemma evaluate_poly : forall x c, EvaluatePolynomial Rarith x c = Ok (pev c x).
Proof.
  intros x c. unfold EvaluatePolynomial. destruct (Nat.eqb_spec (length c) 0) as [E|E]; [destruct c; [reflexivity|discriminate E]|].
  rewrite (vec_at c (length c) (fun i => nth i c 0) (length c - 1)) by (try apply is_vector_self; lia). cbn [bind].
  assert (SK : forall i, (i < length c)%nat -> skipn i c = nth i c 0 :: skipn (S i) c). { clear. induction c as [|a c IH]; intros i Hi; [cbn in Hi; lia|]. destruct i; [reflexivity|]. cbn [skipn nth]. rewrite (IH i) by (cbn in Hi; lia). reflexivity. }
  apply wp_eq. eapply wp_conseq; [|apply (for_down_inv _ _ (fun i r => r = pev (skipn i c) x))]; [intros r ->; reflexivity|lia| |].
  - rewrite SK by lia. replace (S (length c - 1)) with (length c) by lia. rewrite skipn_all. unfold pev. cbn. ring.
  - intros i r _ Hi ->. rewrite (vec_at c (length c) (fun i => nth i c 0)) by (try apply is_vector_self; lia). cbn [bind]. apply wp_Ok. rewrite (SK i) by lia. rewrite pev_cons, Nat.add_1_r. reflexivity.
Qed.
Definition psse (m : nat) (x y : nat -> R) (p : list R) : R := sum m (fun i => (y i - pev p (x i)) * (y i - pev p (x i))).
Definition monomials (d : nat) : list (R -> R) := map (fun i x => fpow Rarith x i) (seq 0 (S d)).
Lemma monomial_nth : forall d j x, (j <= d)%nat -> nth j (monomials d) (fun x => x) x = x ^ j.
Proof. intros d j x Hj. unfold monomials. rewrite (nth_indep _ _ (fun x => fpow Rarith x 0)) by (rewrite map_length, seq_length; lia). rewrite (map_nth (fun i x => fpow Rarith x i)). rewrite seq_nth by lia. apply fpow_pow. Qed.
Lemma gssr_poly : forall m d x y cf p, is_vector p (S d) cf -> gssr m (length (monomials d)) (fun j => nth j (monomials d) (fun x => x)) x y cf = psse m x y p.
Proof.
  intros m d x y cf p (HL & HP). assert (LM : length (monomials d) = S d) by (unfold monomials; rewrite map_length, seq_length; reflexivity). unfold gssr, psse. apply rsum_ext. intros i Hi. cbv zeta. rewrite LM. assert (E : sum (S d) (fun j => cf j * nth j (monomials d) (fun x => x) (x i)) = pev p (x i)); [|rewrite E; reflexivity].
  unfold pev. rewrite HL. apply rsum_ext. intros j Hj. rewrite monomial_nth by lia. rewrite (nth_error_nth _ _ 0 (HP j Hj)). reflexivity.
Qed.
Lemma pad : forall p n, (length p <= n)%nat -> exists q, length q = n /\ forall x, pev q x = pev p x.
Proof.
  intros p n H. exists (p ++ repeat 0 (n - length p)). split; [rewrite app_length, repeat_length; lia|]. intros x. clear H. induction p as [|a p IH]; cbn [app length Nat.sub].
  - rewrite Nat.sub_0_r. induction n; [reflexivity|]. cbn [repeat]. rewrite pev_cons, IHn. unfold pev. cbn. ring.
  - destruct n as [|n]; cbn [Nat.sub repeat]; [rewrite app_nil_r; reflexivity|]. rewrite !pev_cons. f_equal. f_equal. clear IH. revert n. induction p as [|b p IH]; intros n; cbn [app length Nat.sub].
    + rewrite Nat.sub_0_r. induction n; [reflexivity|]. cbn [repeat]. rewrite pev_cons, IHn. unfold pev. cbn. ring.
    + destruct n as [|n]; cbn [Nat.sub repeat]; [rewrite app_nil_r; reflexivity|]. rewrite !pev_cons, IH. reflexivity.
Qed.
(** with a decomposition that solves least squares problems, PolynomialFit returns the coefficients of a polynomial with the
    smallest sum of squared residuals among all with degree + 1 coefficients; R^2 is between 0 and 1, and data on such a polynomial
    are fitted with residual 0; EvaluatePolynomial evaluates it *)
Theorem C87_polynomial : forall Eps svd xs ys m x y d c w wf, 0 < Eps -> is_vector xs m x -> is_vector ys m y -> (0 <= d < Z.of_nat m)%Z -> svd (design xs (monomials (Z.to_nat d))) ys = Ok (c, w) -> length c = S (Z.to_nat d) -> is_vector w (S (Z.to_nat d)) wf ->
  (forall c', gssr m (S (Z.to_nat d)) (fun j => nth j (monomials (Z.to_nat d)) (fun x => x)) x y (fun j => nth j c 0) <= gssr m (S (Z.to_nat d)) (fun j => nth j (monomials (Z.to_nat d)) (fun x => x)) x y c') ->
  exists g, PolynomialFit Rarith Eps svd xs ys d = Ok g /\ gf_coef g = c /\ gf_norm g = sqrt (psse m x y c) /\ (forall p, (length p <= S (Z.to_nat d))%nat -> psse m x y c <= psse m x y p) /\ 0 <= gf_r2 g <= 1 /\
    (forall p, (length p <= S (Z.to_nat d))%nat -> (forall i, (i < m)%nat -> y i = pev p (x i)) -> gf_norm g = 0 /\ gf_r2 g = 1 /\ forall i, (i < m)%nat -> EvaluatePolynomial Rarith (x i) (gf_coef g) = Ok (y i)).
Proof.
  intros Eps svd xs ys m x y d c w wf HE HX HY Hd HS HLc HW HMIN. set (D := Z.to_nat d) in *. assert (LM : length (monomials D) = S D) by (unfold monomials; rewrite map_length, seq_length; reflexivity).
  assert (HC : is_vector c (S D) (fun j => nth j c 0)) by (rewrite <- HLc; apply is_vector_self).
  destruct (C87_general Eps svd xs ys (monomials D) m x y c (fun j => nth j c 0) w wf HE HX HY ltac:(rewrite LM; unfold D; lia) HS ltac:(rewrite LM; exact HC) ltac:(rewrite LM; exact HW)) as (g & EG & GC & _ & _ & GN & _ & GR & GR1 & _). cbv zeta in GN, GR. rewrite (gssr_poly m D x y _ c HC) in GN, GR.
  assert (EP : PolynomialFit Rarith Eps svd xs ys d = Ok g). { unfold PolynomialFit. destruct (Z.ltb_spec d 0); [lia|]. exact EG. }
  assert (MIN : forall p, (length p <= S D)%nat -> psse m x y c <= psse m x y p). { intros p Hp. destruct (pad p (S D) Hp) as (q & Lq & Eq). assert (HQ : is_vector q (S D) (fun j => nth j q 0)) by (rewrite <- Lq; apply is_vector_self).
    pose proof (HMIN (fun j => nth j q 0)) as L. rewrite <- LM in L. rewrite (gssr_poly m D x y _ c HC), (gssr_poly m D x y _ q HQ) in L. eapply Rle_trans; [exact L|]. right. unfold psse. apply rsum_ext. intros. rewrite Eq. reflexivity. }
  assert (P0 : 0 <= psse m x y c) by (apply rsum_pos; intros; apply Rle_0_sqr). assert (TOT : psse m x y c <= spread m y). { eapply Rle_trans; [apply (MIN [mean m y]); cbn; lia|]. right. unfold psse, spread. apply rsum_ext. intros i Hi. unfold pev. cbn. ring. }
  exists g. split; [exact EP|]. split; [exact GC|]. split; [exact GN|]. split; [exact MIN|]. split; [rewrite GR; apply r2_range; auto|]. intros p Hp HL. assert (Z : psse m x y p = 0) by (unfold psse; apply rsum_zero; intros i Hi; rewrite HL by auto; ring).
  assert (ZC : psse m x y c = 0) by (pose proof (MIN p Hp); lra). split; [rewrite GN, ZC; apply sqrt_0|]. split.
  - rewrite GR, ZC. unfold r_squared. destruct (Rltb_spec Eps (spread m y)); [unfold Rdiv; lra|]. destruct (Rltb_spec 0 Eps); lra.
  - intros i Hi. rewrite GC, evaluate_poly. f_equal. pose proof (rsum_elem m (fun i => (y i - pev c (x i)) * (y i - pev c (x i))) i Hi ltac:(intros; apply Rle_0_sqr)) as L1. unfold psse in ZC. rewrite ZC in L1. cbn in L1. pose proof (Rle_0_sqr (y i - pev c (x i))) as P. unfold Rsqr in P. assert (Q : (y i - pev c (x i)) * (y i - pev c (x i)) = 0) by lra. apply Rmult_integral in Q. lra.
Qed.
Print Assumptions C87_polynomial.
Theorem C87_polynomial_arguments : forall Eps svd (xs ys : list R) d, (d < 0 \/ Z.of_nat (length xs) <= d)%Z -> PolynomialFit Rarith Eps svd xs ys d = Throw InvalidArgument.
Proof.
  intros Eps svd xs ys d H. unfold PolynomialFit. destruct (Z.ltb_spec d 0); [reflexivity|]. apply C87_general_arguments. right. right. right. fold (monomials (Z.to_nat d)). unfold monomials. rewrite map_length, seq_length. lia.
Qed.
Print Assumptions C87_polynomial_arguments.
Theorem C87_evaluate : forall x c, EvaluatePolynomial Rarith x c = Ok (pev c x).
Proof. exact evaluate_poly. Qed.
Print Assumptions C87_evaluate.

(** ** What is not true *)
Ltac vec := split; [reflexivity|intros i Hi; repeat (destruct i as [|i]; [reflexivity|]); cbn in Hi; lia].
(** two points with different abscissas closer than 10 epsilon are not fitted: through (0, 0) and (Eps, 1) goes a line, but a horizontal one is returned *)
Theorem C87_close_points_refuted : ~ (forall Eps xs ys n x y a b r, 0 < Eps -> (1 <= n)%nat -> is_vector xs n x -> is_vector ys n y -> LinearLeastSquares Rarith Eps xs ys = Ok (Some (a, b, r)) -> forall a' b', ssr n x y a b <= ssr n x y a' b').
Proof.
  intros H. assert (HX : is_vector [0; 1] 2 (fun i => INR i)) by vec. destruct (C87_outcome 1 [0; 1] [0; 1] 2 (fun i => INR i) (fun i => INR i) ltac:(lra) ltac:(lia) HX HX) as (_ & E & _).
  destruct (E eq_refl) as (r & E1 & _); [cbn; rewrite Rabs_pos_eq; lra|]. pose proof (H 1 _ _ 2%nat _ _ _ _ _ ltac:(lra) ltac:(lia) HX HX E1 1 0) as L. unfold ssr in L. cbn in L. lra.
Qed.
Print Assumptions C87_close_points_refuted.
(** different abscissas far from 0 are rejected as singular: (M, M + 1, M + 2) when Eps M^2 is large enough, for example 10^8 in double precision *)
Theorem C87_far_points_refuted : ~ (forall Eps xs ys n x y, 0 < Eps -> Eps < 1 -> (3 <= n)%nat -> is_vector xs n x -> is_vector ys n y -> (forall i j, (i < n)%nat -> (j < n)%nat -> i <> j -> x i <> x j) -> LinearLeastSquares Rarith Eps xs ys <> Throw SingularError).
Proof.
  intros H. assert (HX : is_vector [9; 10; 11] 3 (fun i => 9 + INR i)) by (split; [reflexivity|intros i Hi; repeat (destruct i as [|i]; [cbn; f_equal; lra|]); cbn in Hi; lia]).
  apply (H (1 / 2) [9; 10; 11] [9; 10; 11] 3%nat _ _ ltac:(lra) ltac:(lra) ltac:(lia) HX HX); [intros i j _ _ N E; apply N, INR_eq; lra|].
  destruct (C87_outcome (1 / 2) [9; 10; 11] [9; 10; 11] 3 _ _ ltac:(lra) ltac:(lia) HX HX) as (_ & _ & _ & E & _). apply E; [lia|]. unfold spread. assert (M : mean 3 (fun i => 9 + INR i) = 10) by (unfold mean; cbn; field). rewrite M. cbn. lra.
Qed.
Print Assumptions C87_far_points_refuted.
(** abscissas that are all 0 are not rejected as singular: the coefficients are 0/0 *)
Theorem C87_all_zero_refuted : ~ (forall Eps xs ys n x y, 0 < Eps -> (3 <= n)%nat -> is_vector xs n x -> is_vector ys n y -> (forall i j, (i < n)%nat -> (j < n)%nat -> x i = x j) -> LinearLeastSquares Rarith Eps xs ys = Throw SingularError).
Proof.
  intros H. assert (HX : is_vector [0; 0; 0] 3 (fun _ : nat => 0)) by vec. pose proof (H 1 _ _ 3%nat _ _ ltac:(lra) ltac:(lia) HX HX ltac:(auto)) as E.
  destruct (C87_outcome 1 [0; 0; 0] [0; 0; 0] 3 _ _ ltac:(lra) ltac:(lia) HX HX) as (_ & _ & _ & _ & E2 & _). rewrite E2 in E by (auto; lia). discriminate E.
Qed.
Print Assumptions C87_all_zero_refuted.
(** R^2 = 1 does not mean a perfect fit: ordinates whose spread is below Eps get R^2 = 1 whatever their residuals, as for (0, u, 0) with small u *)
Theorem C87_small_ordinates_refuted : ~ (forall Eps xs ys n x y F, 0 < Eps -> (1 <= n)%nat -> is_vector xs n x -> is_vector ys n y -> LinearLeastSquaresDetailed Rarith Eps xs ys = Ok (Some F) -> lf_r2 F = 1 -> lf_norm F = 0).
Proof.
  intros H. assert (HX : is_vector [-1; 0; 1] 3 (fun i => INR i - 1)) by (split; [reflexivity|intros i Hi; repeat (destruct i as [|i]; [cbn; f_equal; lra|]); cbn in Hi; lia]).
  assert (HY : is_vector [0; 1 / 2; 0] 3 (fun i => if Nat.eqb i 1 then 1 / 2 else 0)) by vec. set (y := fun i => if Nat.eqb i 1 then 1 / 2 else 0) in *. set (x := fun i => INR i - 1) in *.
  pose proof (C87_statistics (1 / 2) 3 _ _ x y ltac:(lra) ltac:(lia) HX HY) as S. assert (SPX : 1 / 2 * sum 3 (fun i => x i * x i) <= spread 3 x) by (unfold spread; assert (M : mean 3 x = 0) by (unfold mean, x; cbn; field); rewrite M; unfold x; cbn; lra).
  destruct (C87_outcome (1 / 2) [-1; 0; 1] [0; 1 / 2; 0] 3 x y ltac:(lra) ltac:(lia) HX HY) as (_ & _ & _ & _ & _ & E). destruct (E ltac:(lia) SPX) as (a & b & r & EF); [exists 0%nat; split; [lia|unfold x; cbn; lra]|]. rewrite EF in S. destruct S as (F & EF2 & _ & FA & FB & FN & _ & _ & _).
  destruct (C87_minimum (1 / 2) 3 _ _ x y a b r ltac:(lra) ltac:(lia) HX HY EF ltac:(lia)) as (HR & HM & _).
  pose proof (lls_le_spread (1 / 2) 3 _ _ x y a b r ltac:(lra) ltac:(lia) HX HY EF) as LS. assert (SY : spread 3 y = 1 / 6) by (unfold spread; assert (M : mean 3 y = 1 / 6) by (unfold mean, y; cbn; field); rewrite M; unfold y; cbn; lra).
  assert (R1 : lf_r2 F = 1). { pose proof (detailed_ok (1 / 2) 3 _ _ x y ltac:(lra) ltac:(lia) HX HY) as D. rewrite EF, EF2 in D. cbn [bind] in D. injection D as D. rewrite D. cbn [lf_r2]. unfold r_squared. rewrite SY. destruct (Rltb_spec (1 / 2) (1 / 6)); [lra|]. destruct (Rltb_spec (ssr 3 x y a b) (1 / 2)); [reflexivity|lra]. }
  pose proof (H (1 / 2) _ _ 3%nat _ _ F ltac:(lra) ltac:(lia) HX HY EF2 R1) as N0. rewrite FN, HR in N0. apply sqrt_eq_0 in N0; [|apply ssr_pos]. unfold ssr in N0. cbn in N0. unfold x, y in N0. cbn in N0.
  assert (0 <= (0 - (a * (0 - 1) + b)) * (0 - (a * (0 - 1) + b))) by apply Rle_0_sqr. assert (0 <= (1 / 2 - (a * (1 - 1) + b)) * (1 / 2 - (a * (1 - 1) + b))) by apply Rle_0_sqr. assert (0 <= (0 - (a * (1 + 1 - 1) + b)) * (0 - (a * (1 + 1 - 1) + b))) by apply Rle_0_sqr.
  assert (Q1 : (1 / 2 - (a * (1 - 1) + b)) * (1 / 2 - (a * (1 - 1) + b)) = 0) by lra. assert (Q2 : (0 - (a * (0 - 1) + b)) * (0 - (a * (0 - 1) + b)) = 0) by lra. assert (Q3 : (0 - (a * (1 + 1 - 1) + b)) * (0 - (a * (1 + 1 - 1) + b)) = 0) by lra. apply Rmult_integral in Q1, Q2, Q3. lra.
Qed.
Print Assumptions C87_small_ordinates_refuted.
(** R^2 of a general fit is not between 0 and 1: the best multiple of x for the data (1, 3), (2, 0) has residual 36/5 but the spread is 9/2, so R^2 = -3/5 *)
Theorem C87_negative_r2_refuted : ~ (forall Eps svd xs ys fs m x y c w g, 0 < Eps -> is_vector xs m x -> is_vector ys m y -> (1 <= length fs <= m)%nat -> svd (design xs fs) ys = Ok (c, w) -> GeneralLinearLeastSquares Rarith Eps svd xs ys fs = Ok g ->
  (forall c', gssr m (length fs) (fun j => nth j fs (fun x => x)) x y (fun j => nth j c 0) <= gssr m (length fs) (fun j => nth j fs (fun x => x)) x y c') -> 0 <= gf_r2 g).
Proof.
  intros H. set (x := fun i : nat => if Nat.eqb i 0 then 1 else 2). set (y := fun i : nat => if Nat.eqb i 0 then 3 else 0). set (svd := fun (_ : list (list R)) (_ : list R) => Ok ([3 / 5], [1])).
  assert (HX : is_vector [1; 2] 2 x) by vec. assert (HY : is_vector [3; 0] 2 y) by vec. assert (HC : is_vector [3 / 5] 1 (fun _ => 3 / 5)) by vec. assert (HW : is_vector [1] 1 (fun _ => 1)) by vec.
  destruct (C87_general 1 svd [1; 2] [3; 0] [fun t => t] 2 x y [3 / 5] (fun _ => 3 / 5) [1] (fun _ => 1) ltac:(lra) HX HY ltac:(cbn; lia) eq_refl HC HW) as (g & EG & _ & _ & _ & _ & _ & GR & _). cbn [length] in GR.
  assert (L : 0 <= gf_r2 g). { apply (H 1 svd [1; 2] [3; 0] [fun t => t] 2%nat x y [3 / 5] [1] g ltac:(lra) HX HY ltac:(cbn; lia) eq_refl EG). intros c'. unfold gssr. cbn. unfold x, y. cbn. pose proof (Rle_0_sqr (c' 0%nat - 3 / 5)). unfold Rsqr in *. lra. }
  rewrite GR in L. unfold r_squared, gssr, spread in L. assert (M : mean 2 y = 3 / 2) by (unfold mean, y; cbn; field). rewrite M in L. cbn in L. unfold x, y in L. cbn in L. match type of L with context [Rltb 1 ?t] => assert (T : t = 9 / 2) by lra; rewrite T in L end. destruct (Rltb_spec 1 (9 / 2)); lra.
Qed.
Print Assumptions C87_negative_r2_refuted.

(** ** Examples *)
Definition showo (m : res (option (Qc * Qc * Qc))) := match m with Ok (Some (a, b, r)) => Some (showz a, showz b, showz r) | _ => None end.
Example C87_ex_line : showo (LinearLeastSquares Qarith (q 1 1000) [q 0 1; q 1 1; q 2 1; q 3 1] [q 1 1; q 2 1; q 4 1; q 4 1]) <> None /\
  (match LinearLeastSquaresDetailed Qarith (q 1 1000) [q 0 1; q 1 1; q 2 1; q 3 1] [q 1 1; q 2 1; q 4 1; q 4 1] with Ok (Some F) => Some (showz (lf_a F), showz (lf_b F), showz (lf_r2 F), showz (lf_mse F)) | _ => None end) = Some ((11, 10), (11, 10), (121, 135), (7, 40))%Z /\
  showo (LinearLeastSquares Qarith (q 1 1000) [q 1 1; q 3 1] [q 2 1; q 8 1]) = Some ((3, 1), (-1, 1), (0, 1))%Z /\
  LinearLeastSquares Qarith (q 1 1000) [q 5 1; q 5 1; q 5 1] [q 2 1; q 8 1; q 0 1] = Throw SingularError.
Proof. vm_compute. repeat split; try reflexivity. intros E; discriminate E. Qed.
Example C87_ex_polynomial : exists svd g, PolynomialFit Rarith 1 svd [0; 1; 2] [1; 3; 7] 2 = Ok g /\ gf_norm g = 0 /\ gf_r2 g = 1 /\ EvaluatePolynomial Rarith 2 (gf_coef g) = Ok 7.
Proof.
  set (svd := fun (_ : list (list R)) (_ : list R) => Ok ([1; 1; 1], [3; 2; 1])). set (y := fun i : nat => nth i [1; 3; 7] 0). assert (HX : is_vector [0; 1; 2] 3 INR) by vec. assert (HY : is_vector [1; 3; 7] 3 y) by vec. assert (HW : is_vector [3; 2; 1] 3 (fun i => nth i [3; 2; 1] 0)) by vec.
  assert (Z : gssr 3 3 (fun j => nth j (monomials 2) (fun x => x)) INR y (fun j => nth j [1; 1; 1] 0) = 0) by (unfold gssr; cbn; unfold y; cbn; ring).
  destruct (C87_polynomial 1 svd [0; 1; 2] [1; 3; 7] 3 INR y 2 [1; 1; 1] [3; 2; 1] (fun i => nth i [3; 2; 1] 0) ltac:(lra) HX HY ltac:(lia) eq_refl eq_refl HW) as (g & EG & GC & _ & _ & _ & HP).
  { intros c'. change (Z.to_nat 2) with 2%nat. rewrite Z. apply rsum_pos. intros. apply Rle_0_sqr. }
  destruct (HP [1; 1; 1] ltac:(cbn; lia)) as (N & R1 & EV). { intros i Hi. unfold pev, y. repeat (destruct i as [|i]; [cbn; ring|]). lia. }
  exists svd, g. repeat split; auto. apply (EV 2%nat). lia.
Qed.
