(** * C81: forward-mode automatic differentiation is exact *)
From Coq Require Import List Bool Arith ZArith Lia Reals Lra.
From Verif Require Import Base Num Mat_Model Mat_Proofs Mat_Props RootFind_Model RootFind_Proofs AD_Model AD_Spec.
Import ListNotations.
Local Open Scope R_scope.

Definition Rfuns : mfuns R := mkMF R sqrt std_pow exp ln (fun x => ln x / ln 10) sin cos tan asin acos atan sinh cosh tanh std_floor std_ceil std_atan2 dbl_min.
(** ** A program run on dual numbers: every operation is the overloaded one *)
Section Run.
Local Notation D := (dual (T := R)).
Definition run1 (g : fun1) (x : D) : D :=
  match g with
  | Fneg => dneg Rarith x | Fsqrt => dsqrt Rarith Rfuns x | Fexp => dexp Rarith Rfuns x | Flog => dlog Rarith Rfuns x | Flog10 => dlog10 Rarith Rfuns x
  | Fsin => dsin Rarith Rfuns x | Fcos => dcos Rarith Rfuns x | Ftan => dtan Rarith Rfuns x | Fasin => dasin Rarith Rfuns x | Facos => dacos Rarith Rfuns x | Fatan => datan Rarith Rfuns x
  | Fsinh => dsinh Rarith Rfuns x | Fcosh => dcosh Rarith Rfuns x | Ftanh => dtanh Rarith Rfuns x | Fabs => dabs Rarith x | Ffloor => dfloor Rarith Rfuns x | Fceil => dceil Rarith Rfuns x end.
Definition run2 (g : fun2) (x y : D) : D :=
  match g with Fadd => dadd Rarith x y | Fsub => dsub Rarith x y | Fmul => dmul Rarith x y | Fdiv => ddiv Rarith x y | Fpow => dpow Rarith Rfuns x y | Fatan2 => datan2 Rarith Rfuns x y end.
(** a scalar on the left or on the right; atan2 has no such overload, the scalar is written as Dual(c) *)
Definition runs2 (g : fun2) (c : R) (y : D) : D :=
  match g with Fadd => s_dadd Rarith c y | Fsub => s_dsub Rarith c y | Fmul => s_dmul Rarith c y | Fdiv => s_ddiv Rarith c y | Fpow => s_dpow Rarith Rfuns c y | Fatan2 => datan2 Rarith Rfuns (dconst Rarith c) y end.
Definition run2s (g : fun2) (x : D) (c : R) : D :=
  match g with Fadd => dadd_s Rarith x c | Fsub => dsub_s Rarith x c | Fmul => dmul_s Rarith x c | Fdiv => ddiv_s Rarith x c | Fpow => dpow_s Rarith Rfuns x c | Fatan2 => datan2 Rarith Rfuns x (dconst Rarith c) end.
Definition runc (c : cmp) (x y : D) : bool :=
  match c with Ceq => deqb Rarith x y | Cne => dneb Rarith x y | Clt => dltb Rarith x y | Cle => dleb Rarith x y | Cgt => dgtb Rarith x y | Cge => dgeb Rarith x y end.
Fixpoint run (p : prog) (env : nat -> D) : D :=
  match p with
  | PVar i => env i
  | PConst c => dconst Rarith c
  | PF1 g p => run1 g (run p env)
  | PF2 g p q => run2 g (run p env) (run q env)
  | PS2 g c p => runs2 g c (run p env)
  | P2S g p c => run2s g (run p env) c
  | PFma p q r => dfma Rarith (run p env) (run q env) (run r env)
  | PLet p q => run q (push (run p env) env)
  | PIf c p q yes no => if runc c (run p env) (run q env) then run yes env else run no env
  | PRepeat k p q => Nat.iter k (fun v => run q (push v env)) (run p env)
  end.
End Run.

(** ** Calculus *)
Lemma dlim_eq : forall g x l l', derivable_pt_lim g x l -> l = l' -> derivable_pt_lim g x l'. Proof. intros; subst; auto. Qed.
Lemma chain : forall F g t d l, derivable_pt_lim g t d -> derivable_pt_lim F (g t) l -> derivable_pt_lim (fun s => F (g s)) t (l * d).
Proof. intros F g t d l H1 H2. apply (derivable_pt_lim_comp g F t d l H1 H2). Qed.
Lemma near_lt : forall g h t d e, derivable_pt_lim g t d -> derivable_pt_lim h t e -> g t < h t -> exists a b, a < t < b /\ forall z, a < z < b -> g z < h z.
Proof.
  intros g h t d e Hg Hh H. assert (C : continuity_pt (fun s => h s - g s) t). { apply derivable_continuous_pt. exists (e - d). apply (derivable_pt_lim_minus h g t e d); auto. }
  destruct (C (h t - g t)) as (al & Hal & HC); [lra|]. exists (t - al), (t + al). split; [lra|]. intros z Hz. destruct (Req_dec z t) as [->|N]; [exact H|].
  specialize (HC z). unfold dist in HC. cbn in HC. unfold R_dist in HC. assert (Rabs (h z - g z - (h t - g t)) < h t - g t).
  { apply HC. split; [split; [exact I|auto]|]. unfold Rabs. destruct (Rcase_abs (z - t)); lra. }
  revert H0. unfold Rabs. destruct (Rcase_abs _); lra.
Qed.
Lemma near_lt_c : forall g c t d, derivable_pt_lim g t d -> g t < c -> exists a b, a < t < b /\ forall z, a < z < b -> g z < c.
Proof. intros g c t d Hg H. apply (near_lt g (fun _ => c) t d 0 Hg); auto. apply derivable_pt_lim_const. Qed.
Lemma near_gt_c : forall g c t d, derivable_pt_lim g t d -> c < g t -> exists a b, a < t < b /\ forall z, a < z < b -> c < g z.
Proof. intros g c t d Hg H. apply (near_lt (fun _ => c) g t 0 d); auto. apply derivable_pt_lim_const. Qed.
Lemma dlim_near : forall f g t l, (exists a b, a < t < b /\ forall z, a < z < b -> f z = g z) -> derivable_pt_lim f t l -> derivable_pt_lim g t l.
Proof. intros f g t l (a & b & H & E) D. apply (derivable_pt_lim_locally_ext f g t a b); auto. Qed.
Lemma dl_inv : forall x, x <> 0 -> derivable_pt_lim (fun y => / y) x (- / (x * x)).
Proof.
  intros x Hx. apply (dlim_eq _ _ ((0 * x - 1 * 1) / Rsqr x)); [|unfold Rsqr; field; auto]. apply (derivable_pt_lim_ext (fun y => 1 / y)); [intros; unfold Rdiv; ring|].
  apply (derivable_pt_lim_div (fun _ => 1) (fun y => y) x 0 1); auto; [apply derivable_pt_lim_const|apply derivable_pt_lim_id].
Qed.
Lemma dl_div : forall f g t d e, derivable_pt_lim f t d -> derivable_pt_lim g t e -> g t <> 0 -> derivable_pt_lim (fun s => f s / g s) t ((d * g t - f t * e) / (g t * g t)).
Proof. intros f g t d e Hf Hg H. eapply dlim_eq; [apply (derivable_pt_lim_div f g t d e Hf Hg H)|]. unfold Rsqr. field. auto. Qed.
Lemma dl_tan : forall x, cos x <> 0 -> derivable_pt_lim tan x (/ (cos x * cos x)).
Proof. intros x H. eapply dlim_eq; [apply (dl_div sin cos x (cos x) (- sin x)); auto; [apply derivable_pt_lim_sin|apply derivable_pt_lim_cos]|]. pose proof (sin2_cos2 x) as E. unfold Rsqr in E. apply Rmult_eq_reg_r with (cos x * cos x); [|apply Rmult_integral_contrapositive; auto]. field_simplify; [|auto|auto]. lra. Qed.
Lemma cosh_pos : forall x, 0 < cosh x. Proof. intros x. unfold cosh. pose proof (exp_pos x). pose proof (exp_pos (- x)). lra. Qed.
Lemma dl_tanh : forall x, derivable_pt_lim tanh x (1 - tanh x * tanh x).
Proof.
  intros x. pose proof (cosh_pos x) as P. eapply dlim_eq; [apply (dl_div sinh cosh x (cosh x) (sinh x)); [apply derivable_pt_lim_sinh|apply derivable_pt_lim_cosh|lra]|]. unfold tanh. field. lra.
Qed.
Lemma dl_asin : forall x, -1 < x < 1 -> derivable_pt_lim asin x (/ sqrt (1 - x * x)).
Proof. intros x H. pose proof (derive_pt_asin x H) as E. unfold derive_pt in E. destruct (derivable_pt_asin x H) as [l D]. cbn in E. eapply dlim_eq; [exact D|]. rewrite E. unfold Rsqr, Rdiv. try ring. Qed.
Lemma dl_acos : forall x, -1 < x < 1 -> derivable_pt_lim acos x (- / sqrt (1 - x * x)).
Proof. intros x H. pose proof (derive_pt_acos x H) as E. unfold derive_pt in E. destruct (derivable_pt_acos x H) as [l D]. cbn in E. eapply dlim_eq; [exact D|]. rewrite E. unfold Rsqr, Rdiv. try ring. Qed.
Lemma dl_abs : forall x, x <> 0 -> derivable_pt_lim Rabs x (if Rlt_dec x 0 then -1 else 1).
Proof.
  intros x H. destruct (Rlt_dec x 0) as [N|N].
  - apply (derivable_pt_lim_locally_ext (fun y => - y) Rabs x (x - 1) 0); [lra|intros z Hz; rewrite Rabs_left; lra|]. apply (derivable_pt_lim_opp id x 1). apply derivable_pt_lim_id.
  - apply (derivable_pt_lim_locally_ext (fun y => y) Rabs x 0 (x + 1)); [lra|intros z Hz; rewrite Rabs_right; lra|]. apply derivable_pt_lim_id.
Qed.
Lemma floor_char : forall x z, IZR z <= x < IZR z + 1 -> Int_part x = z.
Proof. intros x z H. unfold Int_part. assert (z + 1 = up x)%Z; [|lia]. apply tech_up; rewrite plus_IZR; lra. Qed.
Lemma dl_floor : forall x, (forall z, x <> IZR z) -> derivable_pt_lim std_floor x 0.
Proof.
  intros x H. destruct (base_Int_part x) as [B1 B2]. specialize (H (Int_part x)). apply (derivable_pt_lim_locally_ext (fun _ => IZR (Int_part x)) std_floor x (IZR (Int_part x)) (IZR (Int_part x) + 1)); [lra| |apply derivable_pt_lim_const].
  intros z Hz. unfold std_floor. rewrite (floor_char z (Int_part x)); [reflexivity|lra].
Qed.
Lemma dl_ceil : forall x, (forall z, x <> IZR z) -> derivable_pt_lim std_ceil x 0.
Proof.
  intros x H. eapply dlim_eq; [apply (derivable_pt_lim_opp (fun y => std_floor (- y)) x (0 * -1)); apply (chain std_floor (fun y => - y))|ring].
  - apply (derivable_pt_lim_opp id x 1). apply derivable_pt_lim_id.
  - apply dl_floor. intros z E. apply (H (- z)%Z). rewrite opp_IZR. lra.
Qed.
Lemma dl_Rpower : forall f g t d e, derivable_pt_lim f t d -> derivable_pt_lim g t e -> 0 < f t -> derivable_pt_lim (fun s => Rpower (f s) (g s)) t (Rpower (f t) (g t) * (e * ln (f t) + g t * d / f t)).
Proof.
  intros f g t d e Hf Hg H. unfold Rpower. apply (chain exp (fun s => g s * ln (f s)) t (e * ln (f t) + g t * d / f t)); [|apply derivable_pt_lim_exp].
  eapply dlim_eq; [apply (derivable_pt_lim_mult g (fun s => ln (f s)) t e (/ f t * d)); [exact Hg|apply chain; [exact Hf|apply derivable_pt_lim_ln; exact H]]|]. unfold Rdiv. ring.
Qed.
Lemma std_pow_pos : forall x y, 0 < x -> std_pow x y = Rpower x y. Proof. intros x y H. unfold std_pow. destruct (Rlt_dec 0 x); [reflexivity|contradiction]. Qed.
Lemma Int_part_IZR : forall z, Int_part (IZR z) = z. Proof. intros z. apply floor_char. lra. Qed.
Lemma std_pow_int : forall x z, std_pow x (IZR z) = powerRZ x z.
Proof. intros x z. unfold std_pow. destruct (Rlt_dec 0 x); [symmetry; apply powerRZ_Rpower; auto|]. rewrite Int_part_IZR. destruct (Req_EM_T _ _); [reflexivity|contradiction]. Qed.
Lemma dl_powerRZ : forall x z, x <> 0 \/ (1 <= z)%Z -> derivable_pt_lim (fun y => powerRZ y z) x (IZR z * powerRZ x (z - 1)).
Proof.
  intros x z H. destruct z as [|p|p].
  - cbn [powerRZ]. eapply dlim_eq; [apply derivable_pt_lim_const|]. ring.
  - cbn [powerRZ]. eapply dlim_eq; [apply derivable_pt_lim_pow|]. rewrite INR_IZR_INZ, positive_nat_Z. f_equal. replace (Z.pos p - 1)%Z with (Z.of_nat (pred (Pos.to_nat p))) by lia. rewrite <- pow_powerRZ. reflexivity.
  - destruct H as [H|H]; [|lia]. cbn [powerRZ]. eapply dlim_eq; [apply (chain Rinv (fun y => y ^ Pos.to_nat p) x); [apply derivable_pt_lim_pow|apply dl_inv, pow_nonzero; exact H]|].
    replace (Z.neg p - 1)%Z with (Z.neg (p + 1)) by lia. cbn [powerRZ]. replace (Pos.to_nat (p + 1)) with (S (Pos.to_nat p)) by lia. rewrite INR_IZR_INZ, positive_nat_Z.
    change (Z.neg p) with (- Z.pos p)%Z. rewrite opp_IZR. destruct (Pos.to_nat p) as [|m] eqn:E; [pose proof (Pos2Nat.is_pos p); lia|]. cbn [pred pow]. assert (x ^ m <> 0) by (apply pow_nonzero; auto). field. auto.
Qed.
(** atan2 *)
Lemma atan2_up : forall y x, 0 < y -> std_atan2 y x = PI / 2 - atan (x / y).
Proof.
  intros y x Hy. unfold std_atan2. destruct (Rlt_dec 0 x) as [P|P].
  - replace (y / x) with (/ (x / y)) by (field; lra). apply atan_inv. apply Rmult_lt_0_compat; [lra|apply Rinv_0_lt_compat; lra].
  - destruct (Rlt_dec x 0) as [N|N].
    + destruct (Rlt_dec y 0); [lra|]. replace (y / x) with (- (/ (- x / y))) by (field; lra). rewrite atan_opp, atan_inv by (apply Rmult_lt_0_compat; [lra|apply Rinv_0_lt_compat; lra]).
      replace (x / y) with (- (- x / y)) by (field; lra). rewrite atan_opp. lra.
    + replace x with 0 by lra. destruct (Rlt_dec 0 y); [|contradiction]. unfold Rdiv. rewrite Rmult_0_l, atan_0. ring.
Qed.
Lemma atan2_down : forall y x, y < 0 -> std_atan2 y x = - PI / 2 - atan (x / y).
Proof.
  intros y x Hy. unfold std_atan2. destruct (Rlt_dec 0 x) as [P|P].
  - replace (y / x) with (- / (x / - y)) by (field; lra). rewrite atan_opp, atan_inv by (apply Rmult_lt_0_compat; [lra|apply Rinv_0_lt_compat; lra]). replace (x / y) with (- (x / - y)) by (field; lra). rewrite atan_opp. lra.
  - destruct (Rlt_dec x 0) as [N|N].
    + destruct (Rlt_dec y 0); [|lra]. replace (y / x) with (/ (x / y)) by (field; lra). rewrite atan_inv; [lra|]. replace (x / y) with (- x * / - y) by (field; lra). apply Rmult_lt_0_compat; [lra|apply Rinv_0_lt_compat; lra].
    + replace x with 0 by lra. destruct (Rlt_dec 0 y); [lra|]. destruct (Rlt_dec y 0); [|contradiction]. unfold Rdiv. rewrite Rmult_0_l, atan_0. lra.
Qed.
Lemma sq_pos : forall x y, x <> 0 -> 0 < x * x + y * y.
Proof. intros x y H. pose proof (Rsqr_pos_lt x H) as P. pose proof (Rle_0_sqr y) as Q. unfold Rsqr in *. lra. Qed.
Lemma dl_atan2 : forall f g t d e, derivable_pt_lim f t d -> derivable_pt_lim g t e -> 0 < g t \/ f t <> 0 ->
  derivable_pt_lim (fun s => std_atan2 (f s) (g s)) t ((g t * d - f t * e) / (g t * g t + f t * f t)).
Proof.
  intros f g t d e Hf Hg H. destruct (Rlt_dec 0 (g t)) as [P|P].
  - destruct (near_gt_c g 0 t e Hg P) as (a & b & Hab & N). apply dlim_near with (fun s => atan (f s / g s)).
    { exists a, b. split; auto. intros z Hz. unfold std_atan2. destruct (Rlt_dec 0 (g z)); [reflexivity|]. specialize (N z Hz). contradiction. }
    pose proof (sq_pos (g t) (f t) ltac:(lra)). eapply dlim_eq; [apply (chain atan (fun s => f s / g s)); [apply dl_div; eauto; lra|apply derivable_pt_lim_atan]|]. field. repeat split; lra.
  - destruct H as [H|H]; [contradiction|]. pose proof (sq_pos (f t) (g t) H) as SP. destruct (Rlt_dec 0 (f t)) as [Q|Q].
    + destruct (near_gt_c f 0 t d Hf Q) as (a & b & Hab & N). apply dlim_near with (fun s => PI / 2 - atan (g s / f s)); [exists a, b; split; auto; intros z Hz; symmetry; apply atan2_up; apply N; auto|].
      eapply dlim_eq; [apply (derivable_pt_lim_minus (fun _ => PI / 2) (fun s => atan (g s / f s)) t 0); [apply derivable_pt_lim_const|]; apply (chain atan (fun s => g s / f s)); [apply dl_div; eauto|apply derivable_pt_lim_atan]|]. field. repeat split; lra.
    + assert (Q' : f t < 0) by lra. destruct (near_lt_c f 0 t d Hf Q') as (a & b & Hab & N). apply dlim_near with (fun s => - PI / 2 - atan (g s / f s)); [exists a, b; split; auto; intros z Hz; symmetry; apply atan2_down; apply N; auto|].
      eapply dlim_eq; [apply (derivable_pt_lim_minus (fun _ => - PI / 2) (fun s => atan (g s / f s)) t 0); [apply derivable_pt_lim_const|]; apply (chain atan (fun s => g s / f s)); [apply dl_div; eauto|apply derivable_pt_lim_atan]|]. field. repeat split; lra.
Qed.

(** ** Operations on dual numbers follow the functions *)
(** the dual number holds the value and the derivative of [g] at [t] *)
Definition tracks (t : R) (g : R -> R) (d : dual) : Prop := dval d = g t /\ derivable_pt_lim g t (dder d).
Lemma tracks_const : forall t c, tracks t (fun _ => c) (dconst Rarith c). Proof. intros. split; [reflexivity|]. apply derivable_pt_lim_const. Qed.
Lemma tracks_1 : forall g t x d, tracks t x d -> smooth1 g (x t) -> tracks t (fun s => ap1 g (x s)) (run1 g d).
Proof.
  intros g t x [v d] [Hv Hd] HS. cbn [dval dder] in *. subst v. destruct g; cbn [run1 ap1 smooth1] in *; split; cbn [dval dder Rfuns dneg dsqrt dexp dlog dlog10 dsin dcos dtan dasin dacos datan dsinh dcosh dtanh dfloor dceil m_sqrt m_exp m_log m_log10 m_sin m_cos m_tan m_asin m_acos m_atan m_sinh m_cosh m_tanh m_floor m_ceil m_min]; try reflexivity; rnum.
  - apply (derivable_pt_lim_opp x t d Hd).
  - pose proof (sqrt_lt_R0 _ HS). eapply dlim_eq; [apply (chain sqrt); [exact Hd|apply derivable_pt_lim_sqrt; exact HS]|]. field. lra.
  - eapply dlim_eq; [apply (chain exp); [exact Hd|apply derivable_pt_lim_exp]|]. ring.
  - eapply dlim_eq; [apply (chain ln); [exact Hd|apply derivable_pt_lim_ln; exact HS]|]. field. lra.
  - assert (ln 10 <> 0). { pose proof (ln_increasing 1 10). rewrite ln_1 in H. lra. }
    eapply dlim_eq; [apply (dl_div (fun s => ln (x s)) (fun _ => ln 10)); [apply (chain ln); [exact Hd|apply derivable_pt_lim_ln; exact HS]|apply derivable_pt_lim_const|auto]|]. field. split; [auto|lra].
  - apply (chain sin); [exact Hd|apply derivable_pt_lim_sin].
  - apply (chain cos); [exact Hd|apply derivable_pt_lim_cos].
  - eapply dlim_eq; [apply (chain tan); [exact Hd|apply dl_tan; exact HS]|]. field. exact HS.
  - assert (P : 0 < dbl_min) by (apply Rinv_0_lt_compat, pow_lt; lra). eapply dlim_eq; [apply (chain asin); [exact Hd|apply dl_asin]|].
    + split; nra.
    + unfold amax'. rnum. destruct (Rltb_spec (1 - x t * x t) dbl_min); [lra|]. pose proof (sqrt_lt_R0 (1 - x t * x t) ltac:(lra)). field. lra.
  - assert (P : 0 < dbl_min) by (apply Rinv_0_lt_compat, pow_lt; lra). eapply dlim_eq; [apply (chain acos); [exact Hd|apply dl_acos]|].
    + split; nra.
    + unfold amax'. rnum. destruct (Rltb_spec (1 - x t * x t) dbl_min); [lra|]. pose proof (sqrt_lt_R0 (1 - x t * x t) ltac:(lra)). field. lra.
  - pose proof (Rle_0_sqr (x t)) as Q. unfold Rsqr in Q. eapply dlim_eq; [apply (chain atan); [exact Hd|apply derivable_pt_lim_atan]|]. field. repeat split; lra.
  - apply (chain sinh); [exact Hd|apply derivable_pt_lim_sinh].
  - apply (chain cosh); [exact Hd|apply derivable_pt_lim_cosh].
  - apply (chain tanh); [exact Hd|apply dl_tanh].
  - unfold dabs. cbn [dval dder]. rnum. destruct (Rltb_spec (x t) 0); cbn [negb dval]; [rewrite Rabs_left|rewrite Rabs_right]; lra.
  - eapply dlim_eq; [apply (chain Rabs); [exact Hd|apply dl_abs; exact HS]|]. unfold dabs. cbn [dval dder]. rnum. destruct (Rltb_spec (x t) 0), (Rlt_dec (x t) 0); cbn [negb dder]; lra.
  - eapply dlim_eq; [apply (chain std_floor); [exact Hd|apply dl_floor; exact HS]|]. ring.
  - eapply dlim_eq; [apply (chain std_ceil); [exact Hd|apply dl_ceil; exact HS]|]. ring.
Qed.
Lemma Rpower_pred : forall x y, 0 < x -> Rpower x (y - 1) = Rpower x y / x.
Proof. intros x y H. unfold Rminus. rewrite Rpower_plus, Rpower_Ropp, Rpower_1 by auto. reflexivity. Qed.
Lemma dl_pow : forall f g t d e, derivable_pt_lim f t d -> derivable_pt_lim g t e -> 0 < f t -> derivable_pt_lim (fun s => std_pow (f s) (g s)) t (Rpower (f t) (g t) * (e * ln (f t) + g t * d / f t)).
Proof.
  intros f g t d e Hf Hg H. destruct (near_gt_c f 0 t d Hf H) as (a & b & Hab & N). apply dlim_near with (fun s => Rpower (f s) (g s)); [|apply dl_Rpower; auto].
  exists a, b. split; auto. intros z Hz. symmetry. apply std_pow_pos. apply N. exact Hz.
Qed.
Lemma tracks_2 : forall g t x y d e, tracks t x d -> tracks t y e -> smooth2 g (x t) (y t) -> tracks t (fun s => ap2 g (x s) (y s)) (run2 g d e).
Proof.
  intros g t x y [v d] [w e] [Hv Hd] [Hw He] HS. cbn [dval dder] in *. subst v w. destruct g; cbn [run2 ap2 smooth2] in *.
  - split; cbn [dval dder dadd]; [reflexivity|]. apply (derivable_pt_lim_plus x y); auto.
  - split; cbn [dval dder dsub]; [reflexivity|]. apply (derivable_pt_lim_minus x y); auto.
  - split; cbn [dval dder dmul]; [reflexivity|]. apply (derivable_pt_lim_mult x y); auto.
  - split; cbn [dval dder ddiv]; rnum; [field; auto|]. eapply dlim_eq; [apply dl_div; eauto|]. field. auto.
  - unfold dpow. cbn [dval dder Rfuns m_pow m_log]. rnum. pose proof (dl_pow x y t d e Hd He HS) as D. destruct (Raeqb e 0) as [E|E].
    + split; cbn [dval dder]; [reflexivity|]. eapply dlim_eq; [exact D|]. subst e. rewrite std_pow_pos, Rpower_pred by auto. field. lra.
    + destruct (Raeqb d 0) as [E'|E']; split; cbn [dval dder]; try reflexivity; (eapply dlim_eq; [exact D|]); rewrite std_pow_pos by auto; [subst d; field; lra|ring].
  - split; cbn [dval dder datan2 Rfuns m_atan2]; [reflexivity|]. rnum. apply dl_atan2; auto.
Qed.
Lemma tracks_s2 : forall g t c y e, tracks t y e -> smooth2 g c (y t) -> tracks t (fun s => ap2 g c (y s)) (runs2 g c e).
Proof.
  intros g t c y e HE HS. pose proof (tracks_2 g t (fun _ => c) y (dconst Rarith c) e (tracks_const t c) HE HS) as H. destruct g; cbn [runs2 run2] in *; try exact H.
  destruct e as [w e]. destruct HE as [Hw He]. cbn [dval dder smooth2] in *. subst w. split; cbn [dval dder s_dpow Rfuns m_pow m_log]; [reflexivity|]. rnum.
  eapply dlim_eq; [apply (dl_pow (fun _ => c) y t 0 e); auto; apply derivable_pt_lim_const|]. cbn [ap2]. rewrite std_pow_pos by auto. field. lra.
Qed.
Lemma tracks_2s : forall g t x d c, tracks t x d -> smooth2s g (x t) c -> tracks t (fun s => ap2 g (x s) c) (run2s g d c).
Proof.
  intros g t x d c HD HS. assert (H : smooth2 g (x t) c -> tracks t (fun s => ap2 g (x s) c) (run2 g d (dconst Rarith c))) by (intros; apply (tracks_2 g t x (fun _ => c)); auto; apply tracks_const).
  destruct g; cbn [run2s run2 smooth2s] in *; try (exact (H HS)).
  destruct d as [v d]. destruct HD as [Hv Hd]. cbn [dval dder] in *. subst v. split; cbn [dval dder dpow_s Rfuns m_pow]; [reflexivity|]. rnum. destruct HS as [HS|(z & -> & HS)].
  - eapply dlim_eq; [apply (dl_pow x (fun _ => c) t d 0); auto; apply derivable_pt_lim_const|]. rewrite std_pow_pos, Rpower_pred by auto. field. lra.
  - replace (IZR z - 1) with (IZR (z - 1)) by (rewrite minus_IZR; reflexivity). rewrite std_pow_int. apply (derivable_pt_lim_ext (fun s => powerRZ (x s) z)); [intros; symmetry; apply std_pow_int|].
    apply (chain (fun y => powerRZ y z)); [exact Hd|apply dl_powerRZ; exact HS].
Qed.
Lemma runc_ok : forall c x y, runc c x y = if holds_dec c (dval x) (dval y) then true else false.
Proof.
  intros c [x d] [y e]. destruct c; cbn [runc]; unfold deqb, dneb, dltb, dleb, dgtb, dgeb; cbn [dval dder]; rnum.
  1,2: destruct (Raeqb x y); destruct (holds_dec _ _ _) as [H|H]; cbn [holds negb] in *; auto; exfalso; tauto.
  all: match goal with |- context [Rltb ?a ?b] => destruct (Rltb_spec a b) end; destruct (holds_dec _ _ _) as [H|H]; cbn [holds negb] in *; auto; exfalso; lra.
Qed.
(** a comparison of unequal quantities keeps its outcome nearby *)
Lemma near_cmp : forall c g h t d e, derivable_pt_lim g t d -> derivable_pt_lim h t e -> g t <> h t -> exists a b, a < t < b /\ forall z, a < z < b -> (holds c (g z) (h z) <-> holds c (g t) (h t)).
Proof.
  intros c g h t d e Hg Hh N. destruct (Rlt_dec (g t) (h t)) as [L|L].
  - destruct (near_lt g h t d e Hg Hh L) as (a & b & Hab & Q). exists a, b. split; auto. intros z Hz. specialize (Q z Hz). destruct c; cbn [holds]; split; intros; first [lra|intro; lra].
  - assert (L' : h t < g t) by lra. destruct (near_lt h g t e d Hh Hg L') as (a & b & Hab & Q). exists a, b. split; auto. intros z Hz. specialize (Q z Hz). destruct c; cbn [holds]; split; intros; first [lra|intro; lra].
Qed.
Lemma tracks_ext : forall t g h d, (forall s, g s = h s) -> tracks t g d -> tracks t h d.
Proof. intros t g h d E [H1 H2]. split; [rewrite <- E; auto|apply (derivable_pt_lim_ext g); auto]. Qed.
Theorem C81_forward : forall p env t denv, (forall i, tracks t (fun s => env s i) (denv i)) -> smooth p (env t) -> tracks t (fun s => value p (env s)) (run p denv).
Proof.
  induction p; intros env t denv HE HS; cbn [value run smooth] in *.
  - apply HE.
  - apply tracks_const.
  - destruct HS as [H1 H2]. apply (tracks_1 g t (fun s => value p (env s))); auto.
  - destruct HS as (H1 & H2 & H3). apply (tracks_2 g t (fun s => value p1 (env s)) (fun s => value p2 (env s))); auto.
  - destruct HS as [H1 H2]. apply (tracks_s2 g t c (fun s => value p (env s))); auto.
  - destruct HS as [H1 H2]. apply (tracks_2s g t (fun s => value p (env s))); auto.
  - destruct HS as (H1 & H2 & H3). unfold dfma. apply (tracks_2 Fadd t (fun s => value p1 (env s) * value p2 (env s)) (fun s => value p3 (env s)) (dmul Rarith (run p1 denv) (run p2 denv)) (run p3 denv)); [|auto|exact I]. apply (tracks_2 Fmul t (fun s => value p1 (env s)) (fun s => value p2 (env s))); auto. exact I.
  - destruct HS as [H1 H2]. apply (IHp2 (fun s => push (value p1 (env s)) (env s))); [|exact H2]. intros [|i]; cbn [push]; [apply IHp1; auto|apply HE].
  - destruct HS as (H1 & H2 & H3 & H4). pose proof (IHp1 env t denv HE H1) as T1. pose proof (IHp2 env t denv HE H2) as T2. rewrite runc_ok. destruct T1 as [V1 D1], T2 as [V2 D2]. rewrite V1, V2.
    destruct (near_cmp c _ _ _ _ _ D1 D2 H3) as (a & b & Hab & Q). cbv beta in Q.
    assert (G : forall r, tracks t (fun s => value r (env s)) (run r denv) -> (forall z, a < z < b -> (if holds_dec c (value p1 (env z)) (value p2 (env z)) then value p3 (env z) else value p4 (env z)) = value r (env z)) ->
      tracks t (fun s => if holds_dec c (value p1 (env s)) (value p2 (env s)) then value p3 (env s) else value p4 (env s)) (run r denv)).
    { intros r [A B] E. split; [rewrite A; symmetry; apply E; exact Hab|]. eapply dlim_near; [|exact B]. exists a, b. split; auto. intros z Hz. symmetry. apply E. exact Hz. }
    destruct (holds_dec c (value p1 (env t)) (value p2 (env t))) as [Y|Y].
    + apply G; [auto|]. intros z Hz. destruct (holds_dec c (value p1 (env z)) (value p2 (env z))) as [Z|Z]; [reflexivity|]. exfalso. apply Z. apply Q; auto.
    + apply G; [auto|]. intros z Hz. destruct (holds_dec c (value p1 (env z)) (value p2 (env z))) as [Z|Z]; [|reflexivity]. exfalso. apply Y. apply (Q z Hz). exact Z.
  - destruct HS as [H1 H2]. induction k as [|k IHk]; [apply IHp1; auto|].
    assert (HK : tracks t (fun s => Nat.iter k (fun v => value p2 (push v (env s))) (value p1 (env s))) (Nat.iter k (fun v => run p2 (push v denv)) (run p1 denv))) by (apply IHk; intros j Hj; apply H2; lia).
    apply (IHp2 (fun s => push (Nat.iter k (fun v => value p2 (push v (env s))) (value p1 (env s))) (env s))); [intros [|i]; cbn [push]; [exact HK|apply HE]|]. apply H2. lia.
Qed.
