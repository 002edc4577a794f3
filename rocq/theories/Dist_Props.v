(** * C91: the probability distributions with closed formulas *)

From Coq Require Import List Bool Arith ZArith Reals Lia Lra Psatz.
From Coquelicot Require Import Coquelicot.
From Verif Require Import Base Num RootFind_Model RootFind_Proofs Fourier_Model Fourier_Spec Fourier_Props Quat_Spec
  Ortho_Model Ortho_Spec Ortho_Math Ortho_Fam Ortho_Gauss Dist_Model Dist_Spec.
Import ListNotations.
Local Open Scope R_scope.

Ltac dnum := cbn [Rf ftrig fexp flog ftan fatan2 fpow ferf d_pdf d_cdf d_inv d_mean d_var Rtrig tar tpi tcos tsin
  Rarith aops altb alit asqrt Rnum nadd nmul nsub nopp ndiv n0 n1]; rewrite ?Rabs_aabs; cbn [inside].
Ltac rdec := repeat match goal with |- context [Rltb ?a ?b] => destruct (Rltb_spec a b); cbn [negb orb]; try lra end.
(** differentiates and discharges the side conditions *)
Ltac der := auto_derive; [repeat split; auto; try lra|].
Ltac dcase := dnum; rdec; try reflexivity.

(** ** From a distribution function with a positive derivative *)
Definition dfun (lo hi : ext R) (d : dist R) (f P : R -> R) : Prop :=
  (forall x, inside lo hi x -> d_pdf d x = Ok (f x) /\ d_cdf d x = Ok (P x) /\ 0 < f x /\ derivable_pt_lim P x (f x)) /\
  (forall e, 0 < e -> near_lo lo (fun x => Rabs (P x - 0) < e)) /\ (forall e, 0 < e -> near_hi hi (fun x => Rabs (P x - 1) < e)).
Lemma dist_intro : forall lo hi d f P, dfun lo hi d f P -> distribution lo hi d.
Proof.
  intros lo hi d f P (H & L & U). exists f, P. split.
  - intros x Hx. destruct (H x Hx) as (A & B & C & D). repeat split; auto. exists P, 0, (P x). split; [|split; [auto|split; [|ring]]].
    + intros y Hy. apply H. destruct Hx as [X1 X2], Hy as [Y1 Y2]. split; auto. cbn in Y2. destruct hi; auto. lra.
    + intros e He. exact (cont_hi P x (f x) D e He).
  - exists P, 0, 1. split; [intros x Hx; apply H; auto|]. split; [auto|split; [auto|ring]].
Qed.
Lemma dfun_inj : forall lo hi d f P, dfun lo hi d f P -> forall x y, inside lo hi x -> inside lo hi y -> P x = P y -> x = y.
Proof.
  intros lo hi d f P (H & _). assert (I : forall x y, inside lo hi x -> inside lo hi y -> x < y -> P x < P y).
  { intros x y Hx Hy L. destruct (MVT_cor2 P f x y L) as (c & E & Hc).
    - intros c Hc. apply H. destruct Hx as [X1 X2], Hy as [Y1 Y2]. split; [destruct lo; auto; lra|destruct hi; auto; lra].
    - assert (0 < f c). { apply H. destruct Hx as [X1 X2], Hy as [Y1 Y2]. split; [destruct lo; auto; lra|destruct hi; auto; lra]. } nra. }
  intros x y Hx Hy E. destruct (Rtotal_order x y) as [L|[L|L]]; auto; [specialize (I x y Hx Hy L)|specialize (I y x Hy Hx L)]; lra.
Qed.
Lemma quantile_intro : forall lo hi d f P, dfun lo hi d f P ->
  (forall p, 0 < p < 1 -> exists x, inside lo hi x /\ d_inv d p = Ok (Fin x) /\ d_cdf d x = Ok p) -> quantile lo hi d.
Proof.
  intros lo hi d f P H Q. split; auto. intros x p Hx Hp E. destruct (Q p Hp) as (y & Hy & I & C). rewrite I. do 2 f_equal.
  apply (dfun_inj lo hi d f P H); auto. destruct H as (H & _). destruct (H x Hx) as (_ & Cx & _), (H y Hy) as (_ & Cy & _). congruence.
Qed.
Lemma both : forall lo hi d f P, dfun lo hi d f P ->
  (forall p, 0 < p < 1 -> exists x, inside lo hi x /\ d_inv d p = Ok (Fin x) /\ d_cdf d x = Ok p) -> distribution lo hi d /\ quantile lo hi d.
Proof. intros lo hi d f P H Q. split; [eapply dist_intro; eauto|eapply quantile_intro; eauto]. Qed.
Lemma integral_at : forall F f a b, (forall x : R, a <= x <= b -> is_derive F x (f x)) -> a < b -> integral (Fin a) (Fin b) f (F b - F a).
Proof.
  intros F f a b H L. exists F, (F a), (F b). split; [intros x [X1 X2]; apply is_derive_Reals, H; cbn in *; lra|].
  split; [|split; auto]; intros e He; [apply (cont_lo F a (f a))|apply (cont_hi F b (f b))]; auto; apply is_derive_Reals, H; lra.
Qed.
Lemma integral_up : forall F f a v, (forall x : R, a <= x -> is_derive F x (f x)) -> (forall e, 0 < e -> exists M, forall x, M < x -> Rabs (F x - v) < e) ->
  integral (Fin a) PosInf f (v - F a).
Proof.
  intros F f a v H L. exists F, (F a), v. split; [intros x [X1 X2]; apply is_derive_Reals, H; cbn in *; lra|].
  split; [|split; auto]. intros e He. apply (cont_lo F a (f a)); auto. apply is_derive_Reals, H; lra.
Qed.

(** ** Uniform *)
Theorem C91_uniform : forall e a b,
  (b <= a -> UniformDistribution (Rf e) a b = Throw DomainError) /\
  (a < b -> exists d, UniformDistribution (Rf e) a b = Ok d /\ distribution (Fin a) (Fin b) d /\ quantile (Fin a) (Fin b) d /\ moments (Fin a) (Fin b) d /\
    (forall x, x <= a -> d_cdf d x = Ok 0) /\ (forall x, b <= x -> d_cdf d x = Ok 1) /\ (forall x, x < a \/ b < x -> d_pdf d x = Ok 0) /\
    d_inv d 0 = Ok (Fin a) /\ d_inv d 1 = Ok (Fin b) /\ (forall p, p < 0 \/ 1 < p -> d_inv d p = Throw DomainError)).
Proof.
  intros e a b. unfold UniformDistribution. dnum. split; [intros; rdec; auto|]. intros L. rdec. eexists. split; [reflexivity|].
  rewrite <- and_assoc. split; [|split; [|repeat split]].
  - apply (both _ _ _ (fun _ => 1 / (b - a)) (fun x => (x - a) / (b - a))).
    + split; [|split]; dnum.
      * intros x [X1 X2]. cbn in X1, X2. rdec. repeat split; [apply Rdiv_lt_0_compat; lra|]. apply is_derive_Reals. der. field. lra.
      * intros ep He. destruct (cont_lo (fun x => (x - a) / (b - a)) a (1 / (b - a))) with (e := ep) as (dl & Hd & HD); auto; [apply is_derive_Reals; der; field; lra|].
        exists dl. split; auto. intros x Hx. specialize (HD x Hx). cbn in HD. replace ((a - a) / (b - a)) with 0 in HD by (field; lra). auto.
      * intros ep He. destruct (cont_hi (fun x => (x - a) / (b - a)) b (1 / (b - a))) with (e := ep) as (dl & Hd & HD); auto; [apply is_derive_Reals; der; field; lra|].
        exists dl. split; auto. intros x Hx. specialize (HD x Hx). cbn in HD. replace ((b - a) / (b - a)) with 1 in HD by (field; lra). auto.
    + intros p Hp. dnum. exists (a + p * (b - a)). assert (0 < p * (b - a) < b - a) by nra. split; [split; lra|]. rdec. split; [reflexivity|]. rdec. f_equal. field. lra.
  - exists (fun _ => 1 / (b - a)). dnum. exists ((a + b) / 2), ((b - a) * (b - a) / 12). split; [intros x [X1 X2]; cbn in X1, X2; rdec; auto|]. split; [reflexivity|]. split; [reflexivity|]. split.
    + apply (integral_ext _ _ (fun x => x * (1 / (b - a))) _ (b ^ 2 / 2 / (b - a) - a ^ 2 / 2 / (b - a))); [auto|field; lra|].
      apply (integral_at (fun x => x ^ 2 / 2 / (b - a))); auto. intros x _. der. field. lra.
    + apply (integral_ext _ _ (fun x => (x - (a + b) / 2) ^ 2 * (1 / (b - a))) _ ((b - (a + b) / 2) ^ 3 / 3 / (b - a) - (a - (a + b) / 2) ^ 3 / 3 / (b - a))); [auto|field; lra|].
      apply (integral_at (fun x => (x - (a + b) / 2) ^ 3 / 3 / (b - a))); auto. intros x _. der. field. lra.
  - intros x Hx. dcase. f_equal. assert (x = a) by lra. subst. field. lra.
  - intros x Hx. dcase. f_equal. assert (x = b) by lra. subst. field. lra.
  - intros x Hx. dcase.
  - dcase. do 2 f_equal. ring.
  - dcase. do 2 f_equal. ring.
  - intros p Hp. dcase.
Qed.
Print Assumptions C91_uniform.
Example C91_uniform_example : exists d, UniformDistribution (Rf (fun x => x)) 1 3 = Ok d /\ d_cdf d 2 = Ok (1 / 2) /\ d_mean d = Ok 2 /\ d_var d = Ok (1 / 3).
Proof. unfold UniformDistribution. dcase. eexists. split; [reflexivity|]. repeat split; dcase; f_equal; lra. Qed.

(** ** Exponential *)
Lemma sq_exp_small : forall e, 0 < e -> exists M, 0 < M /\ forall x, M < x -> (x * x + 1) * exp (- x) < e.
Proof.
  intros e He. destruct (exp_small 17 e ltac:(lra) He) as (M & HM & HL). exists (2 * M). split; [lra|]. intros x Hx. specialize (HL (x / 2) ltac:(lra)).
  assert (A : exp (- x) = exp (- (x / 2)) * exp (- (x / 2))) by (rewrite <- exp_plus; f_equal; lra).
  assert (B : exp (x / 2) = exp (x / 4) * exp (x / 4)) by (rewrite <- exp_plus; f_equal; lra).
  assert (C : exp (x / 2) * exp (- (x / 2)) = 1) by (rewrite <- exp_plus, <- exp_0; f_equal; lra).
  pose proof (exp_ineq1_le (x / 4)). pose proof (exp_pos (- (x / 2))). pose proof (exp_pos (x / 2)). assert (x * x / 16 <= exp (x / 2)) by nra. assert (1 <= exp (x / 2)) by nra.
  rewrite A. apply (Rle_lt_trans _ (17 * exp (x / 2) * (exp (- (x / 2)) * exp (- (x / 2))))); [|nra].
  apply Rmult_le_compat_r; nra.
Qed.
Theorem C91_exponential : forall e l,
  (l <= 0 -> ExponentialDistribution (Rf e) l = Throw DomainError) /\
  (0 < l -> exists d, ExponentialDistribution (Rf e) l = Ok d /\ distribution (Fin 0) PosInf d /\ quantile (Fin 0) PosInf d /\ moments (Fin 0) PosInf d /\
    (forall x, x < 0 -> d_pdf d x = Throw DomainError /\ d_cdf d x = Throw DomainError) /\ d_cdf d 0 = Ok 0 /\ d_pdf d 0 = Ok l /\
    d_inv d 0 = Ok (Fin 0) /\ (forall p, p < 0 \/ 1 <= p -> d_inv d p = Throw DomainError)).
Proof.
  intros e l. unfold ExponentialDistribution. dnum. split; [intros; rdec; auto|]. intros L. rdec. eexists. split; [reflexivity|].
  assert (Tail : forall ep, 0 < ep -> exists M, 0 < M /\ forall x, M < x -> exp (- l * x) < ep).
  { intros ep He. destruct (exp_small 1 ep ltac:(lra) He) as (M & HM & HL). exists (M / l). split; [apply Rdiv_lt_0_compat; lra|]. intros x Hx. specialize (HL (l * x)).
    assert (M < l * x) by (apply (Rmult_lt_compat_l l) in Hx; [|lra]; replace (l * (M / l)) with M in Hx by (field; lra); lra). specialize (HL H). replace (- l * x) with (- (l * x)) by ring. lra. }
  assert (Tail2 : forall ep, 0 < ep -> exists M, 0 < M /\ forall x, M < x -> (x * x + 1 / (l * l)) * exp (- l * x) < ep).
  { intros ep He. destruct (sq_exp_small (l * l * ep)) as (M & HM & HL); [repeat apply Rmult_lt_0_compat; auto|]. exists (M / l). split; [apply Rdiv_lt_0_compat; lra|]. intros x Hx. specialize (HL (l * x)).
    assert (M < l * x) by (apply (Rmult_lt_compat_l l) in Hx; [|lra]; replace (l * (M / l)) with M in Hx by (field; lra); lra). specialize (HL H). replace (- l * x) with (- (l * x)) by ring.
    apply (Rmult_lt_reg_l (l * l)); [nra|]. replace (l * l * ((x * x + 1 / (l * l)) * exp (- (l * x)))) with ((l * x * (l * x) + 1) * exp (- (l * x))) by (field; lra). auto. }
  rewrite <- and_assoc. split; [|split; [|split; [|repeat split]]].
  - apply (both _ _ _ (fun x => l * exp (- l * x)) (fun x => 1 - exp (- l * x))).
    + split; [|split]; dnum.
      * intros x [X1 _]. cbn in X1. rdec. repeat split; [apply Rmult_lt_0_compat; [lra|apply exp_pos]|]. apply is_derive_Reals. der. ring.
      * intros ep He. destruct (cont_lo (fun x => 1 - exp (- l * x)) 0 (l * exp (- l * 0))) with (e := ep) as (dl & Hd & HD); auto; [apply is_derive_Reals; der; ring|].
        exists dl. split; auto. intros x Hx. specialize (HD x Hx). cbn beta in HD. replace (1 - exp (- l * 0)) with 0 in HD by (rewrite Rmult_0_r, exp_0; ring). auto.
      * intros ep He. destruct (Tail ep He) as (M & _ & HL). exists M. intros x Hx. specialize (HL x Hx). pose proof (exp_pos (- l * x)). apply Rabs_def1; lra.
    + intros p Hp. dnum. exists (- ln (1 - p) / l). assert (ln (1 - p) < 0) by (rewrite <- ln_1; apply ln_increasing; lra). assert (0 < - ln (1 - p) / l) by (apply Rdiv_lt_0_compat; lra).
      split; [split; auto|]. rdec. split; [reflexivity|]. f_equal. replace (- l * (- ln (1 - p) / l)) with (ln (1 - p)) by (field; lra). rewrite exp_ln; lra.
  - exists (fun x => l * exp (- l * x)). dnum. exists (1 / l), (1 / (l * l)). split; [intros x [X1 _]; cbn in X1; rdec; auto|]. split; [reflexivity|]. split; [reflexivity|]. split.
    + apply (integral_ext _ _ (fun x => x * (l * exp (- l * x))) _ (0 - - (0 + 1 / l) * exp (- l * 0))); [auto|replace (- l * 0) with 0 by ring; rewrite exp_0; field; lra|].
      apply (integral_up (fun x => - (x + 1 / l) * exp (- l * x))); [intros x _; der; field; lra|].
      intros ep He. destruct (Tail2 (ep / 2)) as (M & HM & HL); [lra|]. destruct (Tail ep He) as (M' & HM' & HL'). exists (M + M'). intros x Hx. specialize (HL x ltac:(lra)). specialize (HL' x ltac:(lra)). pose proof (exp_pos (- l * x)).
      assert (0 < 1 / l) by (apply Rdiv_lt_0_compat; lra). replace (1 / (l * l)) with ((1 / l) * (1 / l)) in HL by (field; lra). set (c := 1 / l) in *. set (E := exp (- l * x)) in *. assert (0 < x) by lra.
      assert (x + c <= x * x + c * c + 1 / 2) by (pose proof (Rle_0_sqr (x - 1 / 2)); pose proof (Rle_0_sqr (c - 1 / 2)); unfold Rsqr in *; lra).
      assert ((x + c) * E <= (x * x + c * c + 1 / 2) * E) by (apply Rmult_le_compat_r; lra). assert (0 < (x + c) * E) by (apply Rmult_lt_0_compat; lra). apply Rabs_def1; lra.
    + apply (integral_ext _ _ (fun x => (x - 1 / l) ^ 2 * (l * exp (- l * x))) _ (0 - - (0 * 0 + 1 / (l * l)) * exp (- l * 0))); [auto|replace (- l * 0) with 0 by ring; rewrite exp_0; field; lra|].
      apply (integral_up (fun x => - (x * x + 1 / (l * l)) * exp (- l * x))); [intros x _; auto_derive; [repeat split; nra|field; lra]|].
      intros ep He. destruct (Tail2 ep He) as (M & HM & HL). exists M. intros x Hx. specialize (HL x ltac:(lra)). pose proof (exp_pos (- l * x)).
      assert (0 < 1 / (l * l)) by (apply Rdiv_lt_0_compat; nra). set (c := 1 / (l * l)) in *. set (E := exp (- l * x)) in *. assert (0 < (x * x + c) * E) by (apply Rmult_lt_0_compat; nra). apply Rabs_def1; lra.
  - intros x Hx. dcase. auto.
  - dcase. f_equal. rewrite Rmult_0_r, exp_0. ring.
  - dcase. f_equal. rewrite Rmult_0_r, exp_0. ring.
  - dcase. do 2 f_equal. replace (1 - 0) with 1 by ring. rewrite ln_1. field. lra.
  - intros p Hp. dcase.
Qed.
Print Assumptions C91_exponential.
Example C91_exponential_example : exists d, ExponentialDistribution (Rf (fun x => x)) 2 = Ok d /\ d_inv d (1 / 2) = Ok (Fin (ln 2 / 2)) /\ d_mean d = Ok (1 / 2) /\ d_var d = Ok (1 / 4).
Proof.
  unfold ExponentialDistribution. dcase. eexists. split; [reflexivity|]. repeat split; dcase; do 2 f_equal; try lra.
  replace (1 - 1 / 2) with (/ 2) by lra. rewrite ln_Rinv; lra.
Qed.

(** ** Logistic *)
Theorem C91_logistic : forall e mu sigma,
  (sigma <= 0 -> LogisticDistribution (Rf e) mu sigma = Throw DomainError) /\
  (0 < sigma -> exists d, LogisticDistribution (Rf e) mu sigma = Ok d /\ distribution NegInf PosInf d /\ quantile NegInf PosInf d /\
    (forall p, p <= 0 \/ 1 <= p -> d_inv d p = Throw DomainError) /\ d_inv d (1 / 2) = Ok (Fin mu) /\ d_mean d = Ok mu /\
    (forall x, d_pdf d (2 * mu - x) = d_pdf d x)).
Proof.
  intros e mu sigma. unfold LogisticDistribution. dnum. split; [intros; rdec; auto|]. intros L. rdec. eexists. split; [reflexivity|].
  assert (SC : forall M x, M * sigma + mu < x -> M < (x - mu) / sigma).
  { intros M x Hx. apply (Rmult_lt_reg_r sigma); auto. replace ((x - mu) / sigma * sigma) with (x - mu) by (field; lra). lra. }
  assert (SD : forall M x, x < mu - M * sigma -> M < - ((x - mu) / sigma)).
  { intros M x Hx. apply (Rmult_lt_reg_r sigma); auto. replace (- ((x - mu) / sigma) * sigma) with (mu - x) by (field; lra). lra. }
  assert (EP : forall z, exp (- z) * exp z = 1) by (intros z; rewrite <- exp_plus, <- exp_0; f_equal; ring).
  assert (CD : forall x, (if negb (Rltb ((x - mu) / sigma) 0) then Ok (1 / (1 + exp (- Rabs ((x - mu) / sigma)))) else Ok (exp (- Rabs ((x - mu) / sigma)) / (1 + exp (- Rabs ((x - mu) / sigma))))) = Ok (1 / (1 + exp (- ((x - mu) / sigma))))).
  { intros x. set (z := (x - mu) / sigma). rdec.
    - f_equal. rewrite Rabs_left by lra. rewrite Ropp_involutive. pose proof (EP z). pose proof (exp_pos z). pose proof (exp_pos (- z)). apply (Rmult_eq_reg_r ((1 + exp z) * (1 + exp (- z)))); [|nra]. field_simplify; nra.
    - rewrite Rabs_pos_eq by lra. auto. }
  rewrite <- and_assoc. split; [|repeat split].
  - apply (both _ _ _ (fun x => exp (- ((x - mu) / sigma)) / (sigma * (1 + exp (- ((x - mu) / sigma))) * (1 + exp (- ((x - mu) / sigma))))) (fun x => 1 / (1 + exp (- ((x - mu) / sigma))))).
    + split; [|split].
      * intros x _. dnum. split; [auto|]. split; [apply CD|]. pose proof (exp_pos (- ((x - mu) / sigma))). split; [apply Rdiv_lt_0_compat; auto; repeat apply Rmult_lt_0_compat; lra|].
        apply is_derive_Reals. auto_derive; [unfold Rdiv, Rminus in *; lra|]. change ((x + - mu) * / sigma) with ((x - mu) / sigma). field. lra.
      * intros ep He. destruct (exp_small 1 ep ltac:(lra) He) as (M & HM & HL). exists (mu - M * sigma). intros x Hx. specialize (SD M x Hx). specialize (HL _ SD). rewrite Ropp_involutive in HL.
        pose proof (EP ((x - mu) / sigma)) as E. set (z := (x - mu) / sigma) in *. pose proof (exp_pos z). pose proof (exp_pos (- z)).
        assert (0 < 1 / (1 + exp (- z))) by (apply Rdiv_lt_0_compat; lra). assert (1 / (1 + exp (- z)) * (1 + exp (- z)) = 1) by (field; lra). apply Rabs_def1; nra.
      * intros ep He. destruct (exp_small 1 ep ltac:(lra) He) as (M & HM & HL). exists (M * sigma + mu). intros x Hx. specialize (SC M x Hx). specialize (HL _ SC).
        set (z := (x - mu) / sigma) in *. pose proof (exp_pos (- z)).
        assert (0 < 1 / (1 + exp (- z))) by (apply Rdiv_lt_0_compat; lra). assert (1 / (1 + exp (- z)) * (1 + exp (- z)) = 1) by (field; lra). apply Rabs_def1; nra.
    + intros p Hp. dnum. exists (mu + sigma * ln (p / (1 - p))). split; [split; auto|]. split; [rdec; reflexivity|].
      rewrite Rabs_aabs, CD. f_equal. replace ((mu + sigma * ln (p / (1 - p)) - mu) / sigma) with (ln (p / (1 - p))) by (field; lra).
      rewrite exp_Ropp, exp_ln by (apply Rdiv_lt_0_compat; lra). field. lra.
  - intros p Hp. dcase.
  - dcase. do 2 f_equal. replace (1 / 2 / (1 - 1 / 2)) with 1 by field. rewrite ln_1. ring.
  - intros x. dnum. f_equal. replace ((2 * mu - x - mu) / sigma) with (- ((x - mu) / sigma)) by (field; lra). rewrite Ropp_involutive.
    pose proof (EP ((x - mu) / sigma)) as E. set (z := (x - mu) / sigma) in *. pose proof (exp_pos z). pose proof (exp_pos (- z)).
    apply (Rmult_eq_reg_r (sigma * ((1 + exp z) * (1 + exp (- z))) * ((1 + exp z) * (1 + exp (- z))))); [|repeat apply Rmult_integral_contrapositive_currified; lra].
    replace (exp z / (sigma * (1 + exp z) * (1 + exp z)) * (sigma * ((1 + exp z) * (1 + exp (- z))) * ((1 + exp z) * (1 + exp (- z))))) with (exp z * (1 + exp (- z)) ^ 2) by (field; lra).
    replace (exp (- z) / (sigma * (1 + exp (- z)) * (1 + exp (- z))) * (sigma * ((1 + exp z) * (1 + exp (- z))) * ((1 + exp z) * (1 + exp (- z))))) with (exp (- z) * (1 + exp z) ^ 2) by (field; lra).
    nra.
Qed.
Print Assumptions C91_logistic.
Example C91_logistic_example : exists d, LogisticDistribution (Rf (fun x => x)) 1 2 = Ok d /\ d_cdf d 1 = Ok (1 / 2) /\ d_pdf d 1 = Ok (1 / 8).
Proof.
  unfold LogisticDistribution. dcase. eexists. split; [reflexivity|]. split; dnum; rewrite ?Rabs_aabs; replace ((1 - 1) / 2) with 0 by lra; rewrite ?Rabs_R0, ?Ropp_0, ?exp_0; rdec; f_equal; field.
Qed.

(** ** Cauchy *)
Lemma atan_large : forall e, 0 < e -> exists M, forall x, M < x -> PI / 2 - e < atan x.
Proof.
  intros e He. pose proof PI_RGT_0. destruct (Rle_dec PI e) as [C|C].
  - exists 0. intros x _. pose proof (atan_bound x). lra.
  - exists (tan (PI / 2 - e)). intros x Hx. apply atan_increasing in Hx. rewrite atan_tan in Hx by lra. lra.
Qed.
Theorem C91_cauchy : forall e mu sigma,
  (sigma <= 0 -> CauchyDistribution (Rf e) mu sigma = Throw DomainError) /\
  (0 < sigma -> exists d, CauchyDistribution (Rf e) mu sigma = Ok d /\ distribution NegInf PosInf d /\ quantile NegInf PosInf d /\
    (forall p, p <= 0 \/ 1 <= p -> d_inv d p = Throw DomainError) /\ d_inv d (1 / 2) = Ok (Fin mu) /\ (forall x, d_pdf d (2 * mu - x) = d_pdf d x)).
Proof.
  intros e mu sigma. unfold CauchyDistribution. dnum. split; [intros; rdec; auto|]. intros L. rdec. eexists. split; [reflexivity|]. pose proof PI_RGT_0 as HP.
  assert (SC : forall M x, M * sigma + mu < x -> M < (x - mu) / sigma).
  { intros M x Hx. apply (Rmult_lt_reg_r sigma); auto. replace ((x - mu) / sigma * sigma) with (x - mu) by (field; lra). lra. }
  assert (SD : forall M x, x < mu - M * sigma -> M < - ((x - mu) / sigma)).
  { intros M x Hx. apply (Rmult_lt_reg_r sigma); auto. replace (- ((x - mu) / sigma) * sigma) with (mu - x) by (field; lra). lra. }
  assert (AT : forall y, Ratan2 y sigma = atan (y / sigma)) by (intros y; unfold Ratan2; destruct (Rlt_dec 0 sigma); [auto|lra]).
  assert (DP : forall a ep, 0 < ep -> - (ep * PI) < a < ep * PI -> - ep < a / PI < ep).
  { intros a ep He Ha. split; apply (Rmult_lt_reg_r PI); auto; replace (a / PI * PI) with a by (field; lra); lra. }
  rewrite <- and_assoc. split; [|repeat split].
  - apply (both _ _ _ (fun x => 1 / (PI * sigma * (1 + (x - mu) / sigma * ((x - mu) / sigma)))) (fun x => 1 / 2 + atan ((x - mu) / sigma) / PI)).
    + split; [|split].
      * intros x _. dnum. rewrite AT. split; [auto|]. split; [auto|]. pose proof (Rle_0_sqr ((x - mu) / sigma)) as S. unfold Rsqr in S. split; [apply Rdiv_lt_0_compat; [lra|]; apply Rmult_lt_0_compat; [apply Rmult_lt_0_compat; lra|lra]|].
        apply is_derive_Reals. auto_derive; [repeat split; lra|]. change ((x + - mu) * / sigma) with ((x - mu) / sigma). field.
        pose proof (Rle_0_sqr (x - mu)) as S'. unfold Rsqr in S'. repeat split; try lra; intro; nra.
      * intros ep He. destruct (atan_large (ep * PI)) as (M & HL); [apply Rmult_lt_0_compat; lra|]. exists (mu - M * sigma). intros x Hx. specialize (SD M x Hx). specialize (HL _ SD). rewrite atan_opp in HL.
        pose proof (atan_bound ((x - mu) / sigma)). replace (1 / 2 + atan ((x - mu) / sigma) / PI - 0) with ((atan ((x - mu) / sigma) + PI / 2) / PI) by (field; lra). apply Rabs_def1; apply DP; lra.
      * intros ep He. destruct (atan_large (ep * PI)) as (M & HL); [apply Rmult_lt_0_compat; lra|]. exists (M * sigma + mu). intros x Hx. specialize (SC M x Hx). specialize (HL _ SC).
        pose proof (atan_bound ((x - mu) / sigma)). replace (1 / 2 + atan ((x - mu) / sigma) / PI - 1) with ((atan ((x - mu) / sigma) - PI / 2) / PI) by (field; lra). apply Rabs_def1; apply DP; lra.
    + intros p Hp. dnum. exists (mu + sigma * tan (PI * (p - 1 / 2))). split; [split; auto|]. rdec. split; [reflexivity|].
      rewrite AT. f_equal. replace ((mu + sigma * tan (PI * (p - 1 / 2)) - mu) / sigma) with (tan (PI * (p - 1 / 2))) by (field; lra). rewrite atan_tan by nra. field. lra.
  - intros p Hp. dcase.
  - dcase. do 2 f_equal. replace (PI * (1 / 2 - 1 / 2)) with 0 by field. rewrite tan_0. ring.
  - intros x. dnum. f_equal. replace ((2 * mu - x - mu) / sigma) with (- ((x - mu) / sigma)) by (field; lra). do 3 f_equal. ring.
Qed.
Print Assumptions C91_cauchy.
Example C91_cauchy_example : exists d, CauchyDistribution (Rf (fun x => x)) 1 2 = Ok d /\ d_cdf d 3 = Ok (3 / 4) /\ d_inv d (3 / 4) = Ok (Fin 3).
Proof.
  unfold CauchyDistribution. dcase. eexists. split; [reflexivity|]. pose proof PI_RGT_0. split; dcase; unfold Ratan2.
  - destruct (Rlt_dec 0 2); [|lra]. f_equal. replace ((3 - 1) / 2) with 1 by field. rewrite atan_1. field. lra.
  - do 2 f_equal. replace (PI * (3 / 4 - 1 / 2)) with (PI / 4) by field. rewrite tan_PI4. ring.
Qed.

(** ** Weibull and Pareto *)
Lemma Rpower_inv : forall a k, 0 < a -> 0 < k -> Rpower (Rpower a (1 / k)) k = a.
Proof. intros a k Ha Hk. rewrite Rpower_mult. replace (1 / k * k) with 1 by (field; lra). apply Rpower_1; auto. Qed.
Lemma Rpower_lt_base : forall a b k, 0 < a -> a < b -> 0 < k -> Rpower a k < Rpower b k.
Proof. intros a b k Ha Hb Hk. unfold Rpower. apply exp_increasing. apply Rmult_lt_compat_l; auto. apply ln_increasing; auto. Qed.
Lemma Rpower_pos : forall a k, 0 < Rpower a k.
Proof. intros. apply exp_pos. Qed.
Theorem C91_weibull : forall e k l,
  (k <= 0 \/ l <= 0 -> WeibullDistribution (Rf e) k l = Throw DomainError) /\
  (0 < k -> 0 < l -> exists d, WeibullDistribution (Rf e) k l = Ok d /\ distribution (Fin 0) PosInf d /\ quantile (Fin 0) PosInf d /\
    (forall x, x <= 0 -> d_cdf d x = Ok 0) /\ (forall x, x < 0 -> d_pdf d x = Ok 0) /\ (k = 1 -> d_pdf d 0 = Ok (1 / l)) /\ (1 < k -> d_pdf d 0 = Ok 0) /\
    (forall p, p <= 0 -> d_inv d p = Ok (Fin 0)) /\ (forall p, 1 <= p -> d_inv d p = Ok PosInf)).
Proof.
  intros e k l. unfold WeibullDistribution. dnum. split; [intros; rdec; auto|]. intros Hk Hl. destruct (Rltb_spec 0 k); [|lra]. destruct (Rltb_spec 0 l); [|lra]. cbn [negb]. eexists. split; [reflexivity|].
  rewrite <- and_assoc. split; [|repeat split].
  - apply (both _ _ _ (fun x => k / l * Rpower (x / l) (k - 1) * exp (- Rpower (x / l) k)) (fun x => 1 - exp (- Rpower (x / l) k))).
    + split; [|split].
      * intros x [X1 _]. cbn in X1. dnum. unfold aeqb. dnum. destruct (Rltb_spec x 0); [lra|]. destruct (Rltb_spec 0 x); [|lra]. cbn [negb andb]. split; [reflexivity|]. split; [reflexivity|]. assert (0 < x / l) by (apply Rdiv_lt_0_compat; auto).
        split; [repeat apply Rmult_lt_0_compat; try apply exp_pos; auto; apply Rinv_0_lt_compat; auto|].
        apply is_derive_Reals. unfold Rpower at 3. replace (Rpower (x / l) (k - 1)) with (exp (k * ln (x / l)) / (x / l)).
        -- unfold Rpower. auto_derive; [repeat split; auto|]. unfold Rdiv. field. lra.
        -- unfold Rminus. rewrite Rpower_plus, Rpower_Ropp, Rpower_1 by auto. reflexivity.
      * intros ep He. exists (l * Rpower ep (1 / k)). pose proof (Rpower_pos ep (1 / k)). split; [apply Rmult_lt_0_compat; auto|]. intros x Hx.
        assert (0 < x / l) by (apply Rdiv_lt_0_compat; lra). assert (x / l < Rpower ep (1 / k)) by (apply (Rmult_lt_reg_l l); auto; replace (l * (x / l)) with x by (field; lra); lra).
        pose proof (Rpower_lt_base (x / l) _ k H0 H1 Hk) as Q. rewrite Rpower_inv in Q by auto. set (y := Rpower (x / l) k) in *. assert (0 < y) by apply Rpower_pos.
        pose proof (exp_ineq1_le (- y)). assert (exp (- y) < 1) by (rewrite <- exp_0; apply exp_increasing; lra). apply Rabs_def1; lra.
      * intros ep He. destruct (exp_small 1 ep ltac:(lra) He) as (M & HM & HL). exists (l * Rpower M (1 / k)). intros x Hx. pose proof (Rpower_pos M (1 / k)).
        assert (Rpower M (1 / k) < x / l) by (apply (Rmult_lt_reg_l l); auto; replace (l * (x / l)) with x by (field; lra); lra).
        pose proof (Rpower_lt_base _ (x / l) k H H0 Hk) as Q. rewrite Rpower_inv in Q by auto. specialize (HL _ Q). pose proof (exp_pos (- Rpower (x / l) k)). apply Rabs_def1; lra.
    + intros p Hp. dnum. assert (0 < - ln (1 - p)) by (assert (ln (1 - p) < ln 1) by (apply ln_increasing; lra); rewrite ln_1 in *; lra). pose proof (Rpower_pos (- ln (1 - p)) (1 / k)).
      exists (l * Rpower (- ln (1 - p)) (1 / k)). assert (0 < l * Rpower (- ln (1 - p)) (1 / k)) by (apply Rmult_lt_0_compat; auto). split; [split; auto|]. split; [rdec; reflexivity|]. rdec.
      f_equal. replace (l * Rpower (- ln (1 - p)) (1 / k) / l) with (Rpower (- ln (1 - p)) (1 / k)) by (field; lra). rewrite Rpower_inv by auto. rewrite Ropp_involutive, exp_ln; lra.
  - intros x Hx. dcase.
  - intros x Hx. dcase.
  - intros ->. unfold aeqb. dcase.
  - intros Hx. unfold aeqb. dcase.
  - intros p Hp. dcase.
  - intros p Hp. dcase.
Qed.
Print Assumptions C91_weibull.
Example C91_weibull_example : exists d, WeibullDistribution (Rf (fun x => x)) 2 3 = Ok d /\ d_cdf d 3 = Ok (1 - exp (- 1)).
Proof. unfold WeibullDistribution. dcase. eexists. split; [reflexivity|]. dcase. do 4 f_equal. replace (3 / 3) with 1 by field. unfold Rpower. rewrite ln_1, Rmult_0_r, exp_0. reflexivity. Qed.

(** the integral of a power below -1 *)
Lemma power_tail : forall s c, 0 < s -> 0 < c -> forall e, 0 < e -> exists M, 0 < M /\ forall x, M < x -> Rpower x (- s) < e.
Proof.
  intros s c Hs Hc e He. exists (Rpower (/ e) (1 / s)). split; [apply Rpower_pos|]. intros x Hx.
  pose proof (Rpower_lt_base _ x s (Rpower_pos _ _) Hx Hs) as Q. assert (0 < / e) by (apply Rinv_0_lt_compat; auto). rewrite Rpower_inv in Q by auto.
  rewrite Rpower_Ropp. rewrite <- (Rinv_inv e). apply Rinv_lt_contravar; auto. apply Rmult_lt_0_compat; auto. apply Rpower_pos.
Qed.
Lemma power_integral : forall s c, 0 < s -> 0 < c -> integral (Fin c) PosInf (fun x => Rpower x (- s - 1)) (Rpower c (- s) / s).
Proof.
  intros s c Hs Hc. apply (integral_ext _ _ (fun x => Rpower x (- s - 1)) _ (0 - - Rpower c (- s) / s)); [auto|field; lra|].
  apply (integral_up (fun x => - Rpower x (- s) / s)).
  - intros x Hx. unfold Rminus. rewrite Rpower_plus, Rpower_Ropp, Rpower_Ropp, Rpower_1 by lra. apply (is_derive_ext (fun x => - exp (- s * ln x) / s)); [reflexivity|].
    rewrite <- Rpower_Ropp. unfold Rpower. auto_derive; [repeat split; lra|]. field. lra.
  - intros e He. destruct (power_tail s c Hs Hc (e * s)) as (M & HM & HL); [apply Rmult_lt_0_compat; auto|]. exists M. intros x Hx. specialize (HL x Hx). pose proof (Rpower_pos x (- s)).
    replace (- Rpower x (- s) / s - 0) with (- (Rpower x (- s) / s)) by (field; lra). rewrite Rabs_Ropp. assert (0 < Rpower x (- s) / s) by (apply Rdiv_lt_0_compat; auto). rewrite Rabs_pos_eq by lra.
    apply (Rmult_lt_reg_r s); auto. replace (Rpower x (- s) / s * s) with (Rpower x (- s)) by (field; lra). auto.
Qed.
Theorem C91_pareto : forall e al xm,
  (al <= 0 \/ xm <= 0 -> ParetoDistribution (Rf e) al xm = Throw DomainError) /\
  (0 < al -> 0 < xm -> exists d, ParetoDistribution (Rf e) al xm = Ok d /\ distribution (Fin xm) PosInf d /\ quantile (Fin xm) PosInf d /\
    (forall x, x <= xm -> d_cdf d x = Ok 0) /\ (forall x, x < xm -> d_pdf d x = Ok 0) /\
    (forall p, p <= 0 -> d_inv d p = Ok (Fin xm)) /\ (forall p, 1 <= p -> d_inv d p = Ok PosInf) /\
    (al <= 1 -> d_mean d = Throw DomainError) /\ (al <= 2 -> d_var d = Throw DomainError) /\
    (1 < al -> exists f m, (forall x, xm < x -> d_pdf d x = Ok (f x)) /\ d_mean d = Ok m /\ integral (Fin xm) PosInf (fun x => x * f x) m) /\
    (2 < al -> moments (Fin xm) PosInf d)).
Proof.
  intros e al xm. unfold ParetoDistribution. dnum. split; [intros; rdec; auto|]. intros Ha Hm. destruct (Rltb_spec 0 al); [|lra]. destruct (Rltb_spec 0 xm); [|lra]. cbn [negb]. eexists. split; [reflexivity|].
  assert (PW : forall x, 0 < x -> al * Rpower xm al / Rpower x (al + 1) = al * Rpower xm al * Rpower x (- al - 1)).
  { intros x Hx. replace (- al - 1) with (- (al + 1)) by ring. rewrite (Rpower_Ropp x). reflexivity. }
  assert (DF : forall x, xm <= x -> derivable_pt_lim (fun x => 1 - Rpower (xm / x) al) x (al * Rpower xm al / Rpower x (al + 1))).
  { intros x Hx. assert (0 < xm / x) by (apply Rdiv_lt_0_compat; lra). replace (al * Rpower xm al / Rpower x (al + 1)) with (al / x * exp (al * ln (xm / x))).
    - apply is_derive_Reals. unfold Rpower. auto_derive; [repeat split; auto; lra|]. unfold Rdiv. field. lra.
    - rewrite Rpower_plus, Rpower_1 by lra. rewrite ln_div by lra. unfold Rpower. rewrite Rmult_minus_distr_l. unfold Rminus. rewrite exp_plus, exp_Ropp. pose proof (exp_pos (al * ln x)). field. lra. }
  assert (P1 : 1 - Rpower (xm / xm) al = 0) by (replace (xm / xm) with 1 by (field; lra); unfold Rpower; rewrite ln_1, Rmult_0_r, exp_0; ring).
  assert (FX : forall x, inside (Fin xm) PosInf x -> xm < x) by (intros x [X1 _]; exact X1).
  assert (PS : forall x, 0 < x -> forall t, x * Rpower x (t - 1) = Rpower x t).
  { intros x Hx t. rewrite <- (Rpower_1 x) at 1 by auto. rewrite <- Rpower_plus. f_equal. ring. }
  assert (M1 : 1 < al -> integral (Fin xm) PosInf (fun x => x * (al * Rpower xm al / Rpower x (al + 1))) (al * xm / (al - 1))).
  { intros H1. apply (integral_ext _ _ (fun x => al * Rpower xm al * Rpower x (- (al - 1) - 1)) _ (al * Rpower xm al * (Rpower xm (- (al - 1)) / (al - 1)))).
    - intros x Hx. apply FX in Hx. rewrite PW by lra. replace (- (al - 1) - 1) with (- al) by ring. rewrite <- (PS x ltac:(lra) (- al)). ring.
    - replace (- (al - 1)) with (- al + 1) by ring. rewrite Rpower_plus, Rpower_1, Rpower_Ropp by auto. pose proof (Rpower_pos xm al). field. lra.
    - apply integral_scal. apply power_integral; lra. }
  assert (M2 : 2 < al -> let m := al * xm / (al - 1) in integral (Fin xm) PosInf (fun x => (x - m) ^ 2 * (al * Rpower xm al / Rpower x (al + 1))) (xm * xm * al / ((al - 1) * (al - 1) * (al - 2)))).
  { intros H2 m. set (A := al * Rpower xm al).
    apply (integral_ext _ _ (fun x => 1 * (A * Rpower x (- (al - 2) - 1) + - 2 * m * A * Rpower x (- (al - 1) - 1)) + m * m * A * Rpower x (- al - 1)) _
      (1 * (A * (Rpower xm (- (al - 2)) / (al - 2)) + - 2 * m * A * (Rpower xm (- (al - 1)) / (al - 1))) + m * m * A * (Rpower xm (- al) / al))).
    - intros x Hx. apply FX in Hx. rewrite PW by lra. fold A. replace (- (al - 2) - 1) with (- al + 1) by ring. replace (- (al - 1) - 1) with (- al) by ring.
      rewrite <- (PS x ltac:(lra) (- al + 1)). replace (- al + 1 - 1) with (- al) by ring. rewrite <- (PS x ltac:(lra) (- al)). ring.
    - unfold A, m. rewrite <- (PS xm Hm (- (al - 2))). replace (- (al - 2) - 1) with (- (al - 1)) by ring. rewrite <- (PS xm Hm (- (al - 1))). replace (- (al - 1) - 1) with (- al) by ring.
      rewrite Rpower_Ropp. pose proof (Rpower_pos xm al). field. lra.
    - apply integral_lin; [apply integral_lin|]; apply power_integral; lra. }
  rewrite <- and_assoc. split; [|repeat split].
  - apply (both _ _ _ (fun x => al * Rpower xm al / Rpower x (al + 1)) (fun x => 1 - Rpower (xm / x) al)).
    + split; [|split].
      * intros x Hx. apply FX in Hx. dnum. rdec. split; [reflexivity|]. split; [reflexivity|]. split; [apply Rdiv_lt_0_compat; [apply Rmult_lt_0_compat; auto|]; apply Rpower_pos|]. apply DF. lra.
      * intros ep He. destruct (cont_lo _ xm _ (DF xm (Rle_refl _)) ep He) as (dl & Hd & HD). exists dl. split; auto. intros x Hx. specialize (HD x Hx). cbv beta in HD. rewrite P1 in HD. auto.
      * intros ep He. exists (xm / Rpower ep (1 / al)). intros x Hx. pose proof (Rpower_pos ep (1 / al)). assert (0 < xm / Rpower ep (1 / al)) by (apply Rdiv_lt_0_compat; auto).
        assert (0 < x) by lra. assert (0 < xm / x) by (apply Rdiv_lt_0_compat; lra). assert (Q : xm / x < Rpower ep (1 / al)).
        { apply (Rmult_lt_compat_r (Rpower ep (1 / al))) in Hx; auto. replace (xm / Rpower ep (1 / al) * Rpower ep (1 / al)) with xm in Hx by (field; lra).
          apply (Rmult_lt_reg_r x); [lra|]. replace (xm / x * x) with xm by (field; lra). lra. }
        apply (Rpower_lt_base _ _ al) in Q; auto. rewrite Rpower_inv in Q by auto. pose proof (Rpower_pos (xm / x) al). apply Rabs_def1; lra.
    + intros p Hp. dnum. pose proof (Rpower_pos (1 - p) (1 / al)). set (w := Rpower (1 - p) (1 / al)) in *.
      assert (w < 1). { unfold w. replace 1 with (Rpower 1 (1 / al)) at 3 by (unfold Rpower; rewrite ln_1, Rmult_0_r, exp_0; ring). apply Rpower_lt_base; try lra. apply Rdiv_lt_0_compat; lra. }
      assert (xm < xm / w) by (apply (Rmult_lt_reg_r w); auto; replace (xm / w * w) with xm by (field; lra); nra).
      exists (xm / w). split; [split; auto|]. split; [rdec; reflexivity|]. rdec. f_equal. replace (xm / (xm / w)) with w by (field; lra). unfold w. rewrite Rpower_inv by lra. ring.
  - intros x Hx. dcase. f_equal. assert (x = xm) by lra. subst x. exact P1.
  - intros x Hx. dcase.
  - intros p Hp. dcase.
  - intros p Hp. dcase.
  - intros. dcase.
  - intros. dcase.
  - intros H1. exists (fun x => al * Rpower xm al / Rpower x (al + 1)), (al * xm / (al - 1)). split; [intros x Hx; dcase|]. split; [dcase|auto].
  - intros H2. exists (fun x => al * Rpower xm al / Rpower x (al + 1)), (al * xm / (al - 1)), (xm * xm * al / ((al - 1) * (al - 1) * (al - 2))).
    split; [intros x Hx; apply FX in Hx; dcase|]. split; [dcase|]. split; [dcase|]. split; [apply M1; lra|apply M2; auto].
Qed.
Print Assumptions C91_pareto.
Example C91_pareto_example : exists d, ParetoDistribution (Rf (fun x => x)) 3 2 = Ok d /\ d_mean d = Ok 3 /\ d_var d = Ok 3 /\ d_cdf d 2 = Ok 0.
Proof.
  unfold ParetoDistribution. dcase. eexists. split; [reflexivity|]. split; [|split]; dcase; f_equal; [lra|lra|]. replace (2 / 2) with 1 by field. unfold Rpower. rewrite ln_1, Rmult_0_r, exp_0. ring.
Qed.
