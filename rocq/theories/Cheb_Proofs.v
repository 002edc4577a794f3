(** * C85: the loops of the Chebyshev approximation *)

From Coq Require Import Reals Lra List Arith ZArith Lia Bool.
From Verif Require Import Base Num Mat_Proofs QR_Math Iter_Math RootFind_Model RootFind_Proofs Interp_Linear Poly_Model Poly_Proofs Fourier_Model Fourier_Spec Fourier_FFT Fourier_Props Fourier_Real Fourier_DCT Deriv_Spec Cheb_Model Cheb_Spec Cheb_Math.
Import ListNotations.
Local Open Scope R_scope.
Local Notation sum := (sumn Rnum).

(** ** Clenshaw *)
(** d and dd of the recurrence after the rounds m-1 .. j *)
Lemma clenshaw_eq : forall coef n c a b x m, is_vector coef n c -> (1 <= m <= n)%nat ->
  clenshaw Rtrig coef a b x m = Ok (series c m (unitpos a b x)).
Proof.
  intros coef n c a b x m HV Hm. apply wp_eq. unfold clenshaw. cbv zeta. tnum. fold (unitpos a b x). set (y := unitpos a b x).
  apply wp_bind. eapply wp_conseq; [|apply (for_down_inv _ _ (fun j (s : R * R) => (fst s * cT j y - snd s * cT (j - 1) y = sum (m - j) (fun i => c (j + i)%nat * cT (j + i) y))))].
  - intros [d dd] E. cbn [fst snd] in *. apply wp_bind. eapply vgetf_wp; [exact HV|lia|]. apply wp_Ok.
    unfold series. cbn [Nat.sub cT] in E. rewrite (rsum_ext _ _ (fun i => c (S i) * cT (S i) y)) in E by (intros; reflexivity). rewrite <- E. field.
  - lia.
  - rewrite Nat.sub_diag. cbn. ring.
  - intros j [d dd] Hj1 Hj E. apply wp_bind. eapply vgetf_wp; [exact HV|lia|]. apply wp_Ok. cbn [fst snd] in *.
    replace (m - j)%nat with (S (m - (j + 1))) by lia. rewrite sum_S_l_R.
    rewrite (rsum_ext _ _ (fun i => c (j + 1 + i)%nat * cT (j + 1 + i) y)) by (intros i _; replace (j + S i)%nat with (j + 1 + i)%nat by lia; reflexivity).
    rewrite <- E. replace (j + 1 - 1)%nat with j by lia. replace (j + 0)%nat with j by lia. destruct j as [|j]; [lia|]. replace (S j - 1)%nat with j by lia.
    replace (S j + 1)%nat with (S (S j)) by lia. rewrite cT_SS. ring.
Qed.
Lemma dom_test : forall a b x, a < b -> Rltb 0 ((x - a) * (x - b)) = negb (if Rle_dec a x then if Rle_dec x b then true else false else false).
Proof.
  intros a b x H. destruct (Rltb_spec 0 ((x - a) * (x - b))) as [G|G]; destruct (Rle_dec a x); try destruct (Rle_dec x b); try reflexivity; exfalso.
  - assert (0 <= (x - a) * (b - x)) by (apply Rmult_le_pos; lra). nra.
  - assert (0 < (x - a) * (x - b)) by (apply Rmult_lt_0_compat; lra). lra.
  - assert (0 < (a - x) * (b - x)) by (apply Rmult_lt_0_compat; lra). nra.
  - lra.
Qed.
Lemma cof_vec : forall C, is_vector (cb_coef C) (length (cb_coef C)) (cof C).
Proof. intros C. apply is_vector_self. Qed.
Lemma eval_in : forall C x, cheb_ok C -> cb_a C <= x <= cb_b C -> cheb_eval Rtrig C x = Ok (cfun C (cb_m C) x).
Proof.
  intros C x (Hm & Hab) Hx. unfold cheb_eval. tnum. rewrite dom_test by auto. destruct (Rle_dec (cb_a C) x); [|lra]. destruct (Rle_dec x (cb_b C)); [|lra]. cbn [negb].
  destruct (Nat.eqb_spec (cb_m C) 0); [lia|]. apply (clenshaw_eq _ _ _ _ _ _ _ (cof_vec C)). lia.
Qed.
Lemma eval_out : forall C x, cb_a C < cb_b C -> x < cb_a C \/ cb_b C < x -> cheb_eval Rtrig C x = Throw DomainError.
Proof.
  intros C x Hab Hx. unfold cheb_eval. tnum. rewrite dom_test by auto. destruct (Rle_dec (cb_a C) x); [destruct (Rle_dec x (cb_b C)); [lra|]|]; reflexivity.
Qed.
Lemma eval_terms_in : forall C x m, cheb_ok C -> cb_a C <= x <= cb_b C -> (1 <= m <= Z.of_nat (cb_m C))%Z -> cheb_eval_terms Rtrig C x m = Ok (cfun C (Z.to_nat m) x).
Proof.
  intros C x m (Hm & Hab) Hx Hmm. unfold cheb_eval_terms. tnum. rewrite dom_test by auto. destruct (Rle_dec (cb_a C) x); [|lra]. destruct (Rle_dec x (cb_b C)); [|lra]. cbn [negb].
  destruct (Z.leb_spec m 0); [lia|]. destruct (Z.ltb_spec (Z.of_nat (cb_m C)) m); [lia|]. cbn [orb]. apply (clenshaw_eq _ _ _ _ _ _ _ (cof_vec C)). lia.
Qed.
Lemma of_coef_ok : forall c a b, c <> [] -> a < b -> cheb_of_coef Rtrig c a b = Ok (mkCheb c a b (length c)).
Proof.
  intros c a b Hc Hab. unfold cheb_of_coef. destruct (Nat.eqb_spec (length c) 0) as [E|E]; [apply length_zero_iff_nil in E; contradiction|]. tnum.
  destruct (Rltb_spec a b); [reflexivity|lra].
Qed.

(** ** Construction from a function *)
Lemma of_func_ok : forall func a b n v, (1 <= n)%Z -> a < b -> (forall k, (k < Z.to_nat n)%nat -> func (node a b (Z.to_nat n) k) = Ok (v k)) ->
  exists coef, cheb_of_func Rtrig func a b n = Ok (mkCheb coef a b (Z.to_nat n)) /\ is_vector coef (Z.to_nat n) (dct2 (Z.to_nat n) v).
Proof.
  intros func a b n v Hn Hab HF. unfold cheb_of_func. destruct (Z.leb_spec n 0); [lia|]. tnum. destruct (Rltb_spec a b); [|lra]. cbn [negb]. cbv zeta.
  set (N := Z.to_nat n) in *. assert (HN : (1 <= N)%nat) by lia.
  enough (W : wp (f <- for_range 0 N (fun f k => v <- func (cos (PI * (IZR (Z.of_nat k) + 1 / 2) / IZR (Z.of_nat N)) * (1 / 2 * (b - a)) + 1 / 2 * (b + a)) ;; vset f k v) (repeat 0 N) ;;
    coef <- for_range 0 N (fun c k => s <- for_range 0 N (fun s j => fj <- vget f j ;; Ok (s + fj * cos (PI * IZR (Z.of_nat k) * (IZR (Z.of_nat j) + 1 / 2) / IZR (Z.of_nat N)))) 0 ;; vset c k (2 / IZR (Z.of_nat N) * s)) (repeat 0 N) ;;
    Ok (mkCheb coef a b N)) (fun C => exists coef, C = mkCheb coef a b N /\ is_vector coef N (dct2 N v))).
  { destruct (wp_elim _ _ _ W) as (C & E & coef & -> & HC). exists coef. split; [exact E|exact HC]. }
  apply wp_bind. eapply (fill_range _ _ N (fun _ => 0) v); [apply is_vector_repeat|lia|lia| |].
  - intros f k Hk. rewrite <- !INR_IZR_INZ. replace (1 / 2 * (b - a)) with ((b - a) / 2) by field. replace (1 / 2 * (b + a)) with ((b + a) / 2) by field. fold (node a b N k). rewrite HF by lia. reflexivity.
  - intros f Hf0. assert (Hf : is_vector f N v). { eapply is_vector_ext; [exact Hf0|]. intros i Hi. cbv beta. destruct (Nat.ltb_spec i N); [reflexivity|lia]. }
    apply wp_bind. eapply (fill_range _ _ N (fun _ => 0) (dct2 N v)); [apply is_vector_repeat|lia|lia| |].
    + intros c k Hk. rewrite (acc_sum N _ (fun j => v j * cos (PI * INR k * (INR j + 1 / 2) / INR N))).
      * cbn [bind]. f_equal. unfold dct2. rewrite <- INR_IZR_INZ. rewrite Rplus_0_l. reflexivity.
      * intros s i Hi. rewrite (vec_get _ f N v i Hf Hi). cbn [bind]. rewrite <- !INR_IZR_INZ. reflexivity.
    + intros c Hc0. apply wp_Ok. exists c. split; [reflexivity|]. eapply is_vector_ext; [exact Hc0|]. intros i Hi. cbv beta. destruct (Nat.ltb_spec i N); [reflexivity|lia].
Qed.
Lemma cof_of_vec : forall coef n c a b m j, is_vector coef n c -> (j < n)%nat -> cof (mkCheb coef a b m) j = c j.
Proof. intros coef n c a b m j (H1 & H2) Hj. unfold cof. cbn [cb_coef]. apply nth_error_nth. auto. Qed.
Lemma cfun_vec : forall coef n c a b m x, is_vector coef n c -> (1 <= m <= n)%nat -> cfun (mkCheb coef a b n) m x = series c m (unitpos a b x).
Proof. intros coef n c a b m x HV Hm. unfold cfun. cbn [cb_a cb_b]. apply series_ext; [lia|]. intros i Hi. apply (cof_of_vec _ _ _ _ _ _ _ HV). lia. Qed.

(** ** Derivative *)
Lemma derivative_ok : forall C, (2 <= length (cb_coef C))%nat -> cb_a C < cb_b C ->
  let n := length (cb_coef C) in
  exists d w, cheb_derivative Rtrig C = Ok (mkCheb d (cb_a C) (cb_b C) n) /\ is_vector d n (fun i => w i * (2 / (cb_b C - cb_a C)))
  /\ w (n - 1)%nat = 0 /\ w (n - 2)%nat = 2 * INR (n - 1) * cof C (n - 1) /\ (forall i, (i + 2 < n)%nat -> w i = w (S (S i)) + 2 * INR (S i) * cof C (S i)).
Proof.
  intros C Hn Hab n. assert (Hn' : (2 <= n)%nat) by exact Hn.
  enough (W : wp (cheb_derivative Rtrig C) (fun D => exists d w, D = mkCheb d (cb_a C) (cb_b C) n /\ is_vector d n (fun i => w i * (2 / (cb_b C - cb_a C)))
  /\ w (n - 1)%nat = 0 /\ w (n - 2)%nat = 2 * INR (n - 1) * cof C (n - 1) /\ (forall i, (i + 2 < n)%nat -> w i = w (S (S i)) + 2 * INR (S i) * cof C (S i)))).
  { destruct (wp_elim _ _ _ W) as (D & E & d & w & -> & H1). exists d, w. auto. }
  unfold cheb_derivative. cbv zeta. fold n. destruct (Nat.leb_spec n 1); [lia|].
  apply wp_bind. eapply vsetf_wp; [apply is_vector_repeat|lia|]. intros c1 H1.
  apply wp_bind. eapply vgetf_wp; [apply cof_vec|fold n; lia|].
  apply wp_bind. eapply vsetf_wp; [exact H1|lia|]. intros c2 H2. tnum.
  apply wp_bind. eapply wp_conseq; [|apply (for_down_inv _ _ (fun j d => exists w, is_vector d n w /\ w (n - 1)%nat = 0 /\ w (n - 2)%nat = 2 * INR (n - 1) * cof C (n - 1) /\ (forall i, (j <= S i)%nat -> (i + 2 < n)%nat -> w i = w (S (S i)) + 2 * INR (S i) * cof C (S i))))].
  - intros d (w & Hd & E1 & E2 & E3). apply wp_bind. eapply wp_conseq; [|apply (for_range_inv _ _ (fun j d => is_vector d n (fun i => if (i <? j)%nat then w i * (2 / (cb_b C - cb_a C)) else w i)))].
    + intros d' Hd'. assert (Hl : length d' = n) by apply (proj1 Hd'). rewrite of_coef_ok; [|intros ->; cbn in Hl; lia|exact Hab]. rewrite Hl. apply wp_Ok. exists d', w. split; [reflexivity|].
      split; [|repeat split; auto; intros; apply E3; lia]. eapply is_vector_ext; [exact Hd'|]. intros i Hi. cbv beta. destruct (Nat.ltb_spec i n); [reflexivity|lia].
    + lia.
    + exact Hd.
    + intros i d1 _ Hi Hd1. apply wp_bind. eapply vgetf_wp; [exact Hd1|lia|]. cbv beta. destruct (Nat.ltb_spec i i); [lia|]. eapply vsetf_wp; [exact Hd1|lia|]. intros d2 Hd2. eapply is_vector_ext; [exact Hd2|].
      intros j Hj. unfold vfset. destruct (Nat.eqb_spec j i) as [->|]; destruct (Nat.ltb_spec i (i + 1)); try lia; try reflexivity; destruct (Nat.ltb_spec j i); destruct (Nat.ltb_spec j (i + 1)); try lia; reflexivity.
  - lia.
  - eexists. split; [exact H2|]. unfold vfset. repeat split.
    + destruct (Nat.eqb_spec (n - 1) (n - 2)); [lia|]. rewrite Nat.eqb_refl. reflexivity.
    + rewrite Nat.eqb_refl. rewrite <- INR_IZR_INZ. reflexivity.
    + intros i Hi1 Hi2. lia.
  - intros j d Hj1 Hj (w & Hd & E1 & E2 & E3). apply wp_bind. eapply vgetf_wp; [exact Hd|lia|]. apply wp_bind. eapply vgetf_wp; [apply cof_vec|fold n; lia|].
    eapply vsetf_wp; [exact Hd|lia|]. intros d' Hd'. eexists. split; [exact Hd'|]. unfold vfset. repeat split.
    + destruct (Nat.eqb_spec (n - 1) (j - 1)); [lia|auto].
    + destruct (Nat.eqb_spec (n - 2) (j - 1)); [lia|auto].
    + intros i Hi1 Hi2. destruct (Nat.eqb_spec (S (S i)) (j - 1)); [lia|]. destruct (Nat.eqb_spec i (j - 1)) as [Ei|Ei].
      * replace (j + 1)%nat with (S (S i)) by lia. replace j with (S i) by lia. rewrite <- INR_IZR_INZ. reflexivity.
      * apply E3; lia.
Qed.

(** ** Integral *)
Lemma integral_ok : forall C, (2 <= length (cb_coef C))%nat -> cb_a C < cb_b C ->
  let n := length (cb_coef C) in
  exists d w, cheb_integral Rtrig C = Ok (mkCheb d (cb_a C) (cb_b C) n) /\ is_vector d n w
  /\ (forall j, (1 <= j < n)%nat -> w j = (cb_b C - cb_a C) / 4 * (cof C (j - 1) - cof C (j + 1)) / INR j)
  /\ w 0%nat = 2 * sum (n - 1) (fun i => (-1) ^ i * w (S i)).
Proof.
  intros C Hn Hab n. assert (Hn' : (2 <= n)%nat) by exact Hn.
  enough (W : wp (cheb_integral Rtrig C) (fun D => exists d w, D = mkCheb d (cb_a C) (cb_b C) n /\ is_vector d n w
  /\ (forall j, (1 <= j < n)%nat -> w j = (cb_b C - cb_a C) / 4 * (cof C (j - 1) - cof C (j + 1)) / INR j)
  /\ w 0%nat = 2 * sum (n - 1) (fun i => (-1) ^ i * w (S i)))).
  { destruct (wp_elim _ _ _ W) as (D & E & d & w & -> & H1). exists d, w. auto. }
  unfold cheb_integral. cbv zeta. fold n. tnum.
  apply wp_bind. eapply wp_conseq; [|apply (for_range_inv _ _ (fun j (s : list R * R * R) => let '(d, sm, fc) := s in exists w, is_vector d n w /\ (forall i, (1 <= i < j)%nat -> w i = (cb_b C - cb_a C) / 4 * (cof C (i - 1) - cof C (i + 1)) / INR i)
     /\ sm = sum (j - 1) (fun i => (-1) ^ i * w (S i)) /\ fc = (-1) ^ (j - 1)))].
  - intros [[d sm] fc] (w & Hd & E1 & -> & ->). destruct (Nat.ltb_spec n 2); [lia|]. apply wp_bind. eapply vgetf_wp; [apply cof_vec|fold n; lia|].
    apply wp_bind. eapply vsetf_wp; [exact Hd|lia|]. intros d1 H1. apply wp_bind. eapply vsetf_wp; [exact H1|lia|]. intros d2 H2. assert (Hl : length d2 = n) by apply (proj1 H2).
    rewrite of_coef_ok; [|intros ->; cbn in Hl; lia|exact Hab]. rewrite Hl. apply wp_Ok. eexists d2, _. split; [reflexivity|]. split; [exact H2|].
    assert (Z0 : cof C n = 0) by (unfold cof; apply nth_overflow; fold n; lia).
    unfold vfset. split.
    + intros j Hj. destruct (Nat.eqb_spec j 0); [lia|]. destruct (Nat.eqb_spec j (n - 1)) as [->|].
      * replace (n - 1 + 1)%nat with n by lia. rewrite Z0. replace (n - 1 - 1)%nat with (n - 2)%nat by lia. rewrite <- INR_IZR_INZ. f_equal. field.
      * apply E1. lia.
    + rewrite Nat.eqb_refl. f_equal. set (k := (n - 1 - 1)%nat). replace (n - 1)%nat with (S k) by (unfold k; lia). rewrite sumS_R. rewrite Nat.eqb_refl. cbn [Nat.eqb].
      f_equal. apply rsum_ext. intros i Hi. destruct (Nat.eqb_spec i k); [lia|]. reflexivity.
  - lia.
  - exists (fun _ => 0). split; [apply is_vector_repeat|]. repeat split; auto. intros i Hi. lia.
  - intros j [[d sm] fc] Hj1 Hj (w & Hd & E1 & -> & ->). apply wp_bind. eapply vgetf_wp; [apply cof_vec|fold n; lia|]. apply wp_bind. eapply vgetf_wp; [apply cof_vec|fold n; lia|].
    apply wp_bind. eapply vsetf_wp; [exact Hd|lia|]. intros d1 H1. apply wp_Ok. eexists. split; [exact H1|]. unfold vfset. repeat split.
    + intros i Hi. destruct (Nat.eqb_spec i j) as [->|]; [|apply E1; lia]. rewrite <- INR_IZR_INZ. f_equal. field.
    + replace (j + 1 - 1)%nat with (S (j - 1)) by lia. rewrite sumS_R. replace (S (j - 1)) with j by lia. rewrite Nat.eqb_refl. f_equal. apply rsum_ext. intros i Hi. destruct (Nat.eqb_spec (S i) j); [lia|]. reflexivity.
    + replace (j + 1 - 1)%nat with (S (j - 1)) by lia. cbn [pow]. ring.
Qed.
