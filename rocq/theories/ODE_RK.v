(** * C76 (first part): the step calculators compute Runge-Kutta methods *)
From Coq Require Import List Bool Arith ZArith Reals Lia Lra.
From Verif Require Import Base Num Mat_Model Mat_Proofs RootFind_Model RootFind_Proofs ODE_Model ODE_Spec.
Import ListNotations.
Local Open Scope R_scope.
Local Notation len n := (Forall (fun k : list R => length k = n)).

(** ** Loops over components *)
Lemma mk_length : forall n (g : nat -> R), length (map g (seq 0 n)) = n.
Proof. intros. rewrite map_length, seq_length. reflexivity. Qed.
Lemma mk_nth : forall n (g : nat -> R) i, (i < n)%nat -> nth i (map g (seq 0 n)) 0 = g i.
Proof. intros n g i H. rewrite (nth_indep _ 0 (g 0%nat)) by (rewrite mk_length; auto). rewrite (map_nth g), seq_nth by auto. reflexivity. Qed.
Lemma mk_ext : forall n (g h : nat -> R), (forall i, (i < n)%nat -> g i = h i) -> map g (seq 0 n) = map h (seq 0 n).
Proof. intros n g h H. apply map_ext_in. intros i HI. apply in_seq in HI. apply H. lia. Qed.
Lemma list_mk : forall (x : list R), x = map (fun i => nth i x 0) (seq 0 (length x)).
Proof. intros x. apply (nth_ext _ _ 0 0); [rewrite mk_length; reflexivity|]. intros i HI. rewrite mk_nth by auto. reflexivity. Qed.
Lemma vec_eq : forall n (x y : list R), length x = n -> length y = n -> (forall i, (i < n)%nat -> nth i x 0 = nth i y 0) -> x = y.
Proof. intros n x y HX HY H. apply (nth_ext _ _ 0 0); [congruence|]. intros i HI. apply H. lia. Qed.
Lemma vget_nth : forall (x : list R) i, (i < length x)%nat -> vget x i = Ok (nth i x 0).
Proof. intros x i H. unfold vget. rewrite (nth_error_nth' x 0 H). reflexivity. Qed.
Lemma mk_is_vector : forall (v : list R) n f, is_vector v n f -> v = map f (seq 0 n).
Proof.
  intros v n f H. eapply is_vector_eq; [exact H| |intros; reflexivity]. split; [apply mk_length|]. intros i HI. rewrite (nth_error_nth' _ 0) by (rewrite mk_length; auto). rewrite mk_nth by auto. reflexivity.
Qed.
Lemma fill_Ok : forall n e (v : list R) f, length v = n -> (forall i, (i < n)%nat -> e i = Ok (f i)) -> fill n e v = Ok (map f (seq 0 n)).
Proof.
  intros n e v f HV HE. subst n. set (n := length v) in *. unfold fill. assert (W : wp (for_range 0 n (fun v i => x <- e i ;; vset v i x) v) (fun v' => v' = map f (seq 0 n))).
  { eapply vfill_wp; [apply (is_vector_self v 0)| |intros v' H'; apply mk_is_vector; exact H']. intros i HI. cbv beta. rewrite HE by lia. reflexivity. }
  apply wp_elim in W. destruct W as (v' & E & ->). exact E.
Qed.
Lemma wsum_Ok : forall ws ks i, Forall (fun k : list R => (i < length k)%nat) ks -> wsum Rarith ws ks i = Ok (comb ws ks i).
Proof.
  intros ws ks i H. unfold wsum. assert (G : forall ws s, for_each (fun s '(w, k) => ki <- vget k i ;; Ok (s + w * ki)) (combine ws ks) s = Ok (s + comb ws ks i)).
  { induction H as [|k ks HK H IH]; intros [|w ws'] s; cbn [combine for_each comb]; try (rewrite Rplus_0_r; reflexivity).
    rewrite vget_nth by exact HK. cbn [bind]. rewrite IH. f_equal. ring. }
  cbn [Rarith aops Rnum nadd nmul alit]. rewrite G. f_equal. ring.
Qed.
Lemma len_lt : forall n ks i, len n ks -> (i < n)%nat -> Forall (fun k : list R => (i < length k)%nat) ks.
Proof. intros n ks i H HI. eapply Forall_impl; [|exact H]. intros k HK. cbv beta in *. lia. Qed.
Lemma lin_Ok : forall n x h ws ks v, length x = n -> len n ks -> length v = n -> lin Rarith n x h ws ks v = Ok (move x h ws ks).
Proof.
  intros n x h ws ks v HX HK HV. unfold lin, move. rewrite HX. apply fill_Ok; [exact HV|]. intros i HI. rewrite vget_nth by lia. cbn [bind]. rewrite wsum_Ok by (eapply len_lt; eauto). reflexivity.
Qed.
Lemma err_lin_Ok : forall n h ws ks v, len n ks -> length v = n -> err_lin Rarith n h ws ks v = Ok (map (fun i => h * comb ws ks i) (seq 0 n)).
Proof. intros n h ws ks v HK HV. unfold err_lin. apply fill_Ok; [exact HV|]. intros i HI. rewrite wsum_Ok by (eapply len_lt; eauto). reflexivity. Qed.
Lemma zero_Ok : forall n (v : list R), length v = n -> fill n (fun _ => Ok (alit Rarith 0)) v = Ok (repeat 0 n).
Proof. intros n v HV. rewrite (fill_Ok n _ v (fun _ => 0) HV) by reflexivity. f_equal. clear. rewrite <- (seq_length n 0) at 2. induction (seq 0 n); cbn; congruence. Qed.
Lemma zeros_length : forall n, length (zeros Rarith n) = n.
Proof. intros. apply repeat_length. Qed.
Lemma move_length : forall x h ws ks, length (move x h ws ks) = length x.
Proof. intros. unfold move. apply mk_length. Qed.
Lemma move_nth : forall x h ws ks i, (i < length x)%nat -> nth i (move x h ws ks) 0 = nth i x 0 + h * comb ws ks i.
Proof. intros. unfold move. apply (mk_nth (length x) (fun i => nth i x 0 + h * comb ws ks i)). auto. Qed.
Lemma move_nil : forall x h ks, move x h [] ks = x.
Proof. intros x h ks. rewrite (list_mk x) at 2. unfold move. apply mk_ext. intros i HI. cbn [comb]. ring. Qed.
Lemma comb_app : forall ws ks l i, (length ws <= length ks)%nat -> comb ws (ks ++ l) i = comb ws ks i.
Proof. induction ws as [|w ws IH]; intros [|k ks] l i H; cbn [length comb app] in *; try lia; try reflexivity. rewrite IH by lia. reflexivity. Qed.
Lemma move_app : forall x h ws ks l, (length ws <= length ks)%nat -> move x h ws (ks ++ l) = move x h ws ks.
Proof. intros x h ws ks l H. unfold move. apply mk_ext. intros i HI. rewrite comb_app by auto. reflexivity. Qed.
Lemma move_eq : forall x h h' ws ws' ks ks', (forall i, (i < length x)%nat -> h * comb ws ks i = h' * comb ws' ks' i) -> move x h ws ks = move x h' ws' ks'.
Proof. intros x h h' ws ws' ks ks' H. unfold move. apply mk_ext. intros i HI. rewrite H; auto. Qed.

(** ** The stages *)
Lemma stages_Ok : forall n f t x h, system n f -> length x = n -> forall cs rows ks xt, length rows = length cs -> len n ks -> length xt = n ->
  (forall i, (i < length rows)%nat -> (length (nth i rows []) <= length ks + i)%nat) ->
  exists more, stages Rarith f n t x h cs rows ks xt = Ok (ks ++ more) /\ length more = length cs /\ len n more /\
    forall i, (i < length more)%nat -> nth i more [] = f (t + nth i cs 0 * h) (move x h (nth i rows []) (ks ++ more)).
Proof.
  intros n f t x h HF HX. induction cs as [|c cs IH]; intros [|a rows] ks xt HL HK HT HR; cbn [length] in HL; try discriminate.
  - exists []. cbn [stages]. rewrite app_nil_r. repeat split; auto. cbn [length]. intros. lia.
  - cbn [stages]. rewrite lin_Ok by auto. cbn [bind]. set (k := f (nadd (aops Rarith) t (nmul (aops Rarith) c h)) (move x h a ks)).
    assert (LK : length k = n) by (apply HF; rewrite move_length; exact HX).
    destruct (IH rows (ks ++ [k]) (move x h a ks)) as (more & E & L1 & L2 & L3).
    + lia.
    + apply Forall_app. split; [exact HK|]. constructor; [exact LK|constructor].
    + rewrite move_length. exact HX.
    + intros i HI. rewrite app_length. cbn [length]. specialize (HR (S i)). cbn [length nth] in HR. lia.
    + rewrite <- app_assoc in E. exists (k :: more). split; [exact E|]. split; [cbn [length]; lia|]. split; [constructor; auto|].
      intros [|i] HI.
      * cbn [nth]. unfold k. f_equal. symmetry. apply move_app. specialize (HR 0%nat). cbn [length nth] in HR. lia.
      * cbn [nth length] in *. rewrite L3 by lia. rewrite <- app_assoc. reflexivity.
Qed.
Lemma stages_rk : forall n f t x h cs rows b xt, system n f -> length x = n -> length rows = length cs -> length xt = n ->
  (forall i, (i < length rows)%nat -> (length (nth i rows []) <= S i)%nat) ->
  exists ks, stages Rarith f n t x h cs rows [f t x] xt = Ok ks /\ len n ks /\ length ks = S (length cs) /\ rk_stages (Tab (0 :: cs) ([] :: rows) b) f t x h ks.
Proof.
  intros n f t x h cs rows b xt HF HX HL HT HR. destruct (stages_Ok n f t x h HF HX cs rows [f t x] xt HL) as (more & E & L1 & L2 & L3); auto.
  exists ([f t x] ++ more). split; [exact E|]. split; [apply Forall_app; auto|]. split; [rewrite app_length; cbn [length]; lia|]. split; [cbn [tab_c length app]; lia|].
  intros [|i] HI.
  - cbn [tab_c tab_a nth app]. rewrite move_nil. f_equal. ring.
  - cbn [tab_c tab_a nth app length] in *. apply L3. lia.
Qed.

(** ** The methods *)
Definition euler_tab : tableau := Tab [0] [[]] [1].
Definition heun_tab : tableau := Tab [0; 1] [[]; [1]] [1/2; 1/2].
Definition midpoint_tab : tableau := Tab [0; 1/2] [[]; [1/2]] [0; 1].
Definition rk4_tab : tableau := Tab [0; 1/2; 1/2; 1] [[]; [1/2]; [0; 1/2]; [0; 0; 1]] [1/6; 1/3; 1/3; 1/6].
Definition ck_tab : tableau := Tab (0 :: ck_c Rarith) ([] :: ck_a Rarith) (ck_b Rarith).
Definition dp5_tab : tableau := Tab (0 :: dp5_c Rarith) ([] :: dp5_a Rarith) (dp5_b Rarith).
Definition dp8_tab : tableau := Tab (0 :: dp8_c Rarith) ([] :: dp8_a Rarith) (dp8_b8 Rarith).
Definition with_b (tab : tableau) (b : list R) : tableau := Tab (tab_c tab) (tab_a tab) b.

Ltac stg := f_equal; try (apply move_eq; intros; rnum; cbn [comb]; lra); try (rnum; lra).

Section Steps.
Variables (n : nat) (f : sys) (t : R) (x : vec) (h : R) (out err : vec).
Hypothesis (HF : system n f) (HX : length x = n) (HO : length out = n) (HE : length err = n).
Let LF : length (f t x) = n. Proof. apply HF. exact HX. Qed.

Theorem C76_euler : exists y, EulerStep Rarith f n t x (f t x) h out err = Ok (y, repeat 0 n) /\ rk_step euler_tab f t x h y.
Proof.
  unfold EulerStep. rewrite lin_Ok by auto. cbn [bind]. rewrite zero_Ok by auto. cbn [bind]. eexists. split; [reflexivity|]. exists [f t x]. split; [|reflexivity].
  split; [reflexivity|]. intros [|i] HI; cbn [length] in HI; [|lia]. cbn [tab_c tab_a euler_tab nth]. rewrite move_nil. f_equal. ring.
Qed.
(** the calculator named after Euler and Cromer is Heun's method; the error vector is the difference to the Euler step *)
Theorem C76_heun : exists y e, EulerCromerStep Rarith f n t x (f t x) h out err = Ok (y, e) /\ rk_pair heun_tab [1; 0] f t x h y e.
Proof.
  unfold EulerCromerStep. rewrite lin_Ok by (auto; apply zeros_length). cbn [bind]. set (k2 := f _ (move x h _ _)).
  assert (L2 : length k2 = n) by (apply HF; rewrite move_length; exact HX). rewrite lin_Ok by auto. cbn [bind]. set (y := move x _ _ [_; k2]). set (u := move x h _ _) in *.
  assert (LY : length y = n) by (unfold y; rewrite move_length; exact HX). assert (LU : length u = n) by (unfold u; rewrite move_length; exact HX).
  rewrite (fill_Ok n _ err (fun i => nth i y 0 - nth i u 0)); [|exact HE|intros i HI; rewrite !vget_nth by lia; reflexivity]. cbn [bind]. eexists. eexists. split; [reflexivity|]. exists [f t x; k2].
  assert (EY : y = move x h [1/2; 1/2] [f t x; k2]). { unfold y. apply move_eq. intros i HI. rnum. cbn [comb]. lra. }
  assert (EU : u = move x h [1; 0] [f t x; k2]). { unfold u. apply move_eq. intros i HI. rnum. cbn [comb]. ring. }
  split; [|split; [exact EY|cbn [heun_tab tab_b]; rewrite <- EY, <- EU, HX; reflexivity]]. split; [reflexivity|].
  intros [|[|i]] HI; cbn [length] in HI; [| |lia]; cbn [tab_c tab_a heun_tab nth].
  - rewrite move_nil. f_equal. ring.
  - unfold k2. f_equal. rnum. ring.
Qed.
Theorem C76_midpoint : exists y, MidpointStep Rarith f n t x (f t x) h out err = Ok (y, repeat 0 n) /\ rk_step midpoint_tab f t x h y.
Proof.
  unfold MidpointStep. rewrite lin_Ok by (auto; apply zeros_length). cbn [bind]. set (k2 := f _ (move x _ _ _)).
  assert (L2 : length k2 = n) by (apply HF; rewrite move_length; exact HX). rewrite lin_Ok by auto. cbn [bind]. rewrite zero_Ok by auto. cbn [bind]. eexists. split; [reflexivity|]. exists [f t x; k2]. split.
  - split; [reflexivity|]. intros [|[|i]] HI; cbn [length] in HI; [| |lia]; cbn [tab_c tab_a midpoint_tab nth].
    + rewrite move_nil. f_equal. ring.
    + unfold k2. stg.
  - apply move_eq. intros i HI. rnum. cbn [midpoint_tab tab_b comb]. ring.
Qed.
Theorem C76_rk4 : exists y, RungeKutta4Step Rarith f n t x (f t x) h out err = Ok (y, repeat 0 n) /\ rk_step rk4_tab f t x h y.
Proof.
  unfold RungeKutta4Step. rewrite lin_Ok by (auto; apply zeros_length). cbn [bind]. set (k2 := f _ (move x _ _ [f t x])).
  assert (L2 : length k2 = n) by (apply HF; rewrite move_length; exact HX). rewrite lin_Ok by (auto; rewrite move_length; exact HX). cbn [bind]. set (k3 := f _ (move x _ _ [k2])).
  assert (L3 : length k3 = n) by (apply HF; rewrite move_length; exact HX). set (g := fun '(xt, dm) i => _).
  assert (W : wp (for_range 0 n g (move x (nmul (aops Rarith) h (ndiv (aops Rarith) (alit Rarith 1) (alit Rarith 2))) [alit Rarith 1] [k2], k3))
     (fun r => r = (move x h [1] [k3], map (fun i => nth i k3 0 + nth i k2 0) (seq 0 n)))).
  { set (u := move x _ _ [k2]). assert (LU : length u = n) by (unfold u; rewrite move_length; exact HX).
    eapply wp_conseq; [|apply (for_range_inv _ _ (fun m '(xt, dm) => is_vector xt n (fun i => if (i <? m)%nat then nth i x 0 + h * nth i k3 0 else nth i u 0) /\
       is_vector dm n (fun i => if (i <? m)%nat then nth i k3 0 + nth i k2 0 else nth i k3 0)))].
    - intros [xt dm] [H1 H2]. apply mk_is_vector in H1. apply mk_is_vector in H2. rewrite H1, H2. f_equal; [unfold move; rewrite HX|]; apply mk_ext; intros i HI; destruct (Nat.ltb_spec i n); try lia; cbn [comb]; ring.
    - lia.
    - split.
      + eapply is_vector_ext; [rewrite <- LU; apply (is_vector_self u 0)|]. intros i HI. reflexivity.
      + eapply is_vector_ext; [rewrite <- L3; apply (is_vector_self k3 0)|]. intros i HI. reflexivity.
    - intros m [xt dm] _ HM [H1 H2]. unfold g. rewrite vget_nth by lia. cbn [bind]. apply wp_bind. eapply vgetf_wp; [exact H2|exact HM|]. rewrite vget_nth by lia. cbn [bind]. apply wp_bind.
      eapply vsetf_wp; [exact H1|exact HM|]. intros xt' H1'. apply wp_bind. eapply vsetf_wp; [exact H2|exact HM|]. intros dm' H2'. cbn [wp].
      split; (eapply is_vector_ext; [eassumption|]; intros i HI; unfold vfset; cbv beta; rewrite ?Nat.ltb_irrefl; destruct (Nat.eqb_spec i m) as [EI|]; destruct (Nat.ltb_spec i (m + 1)), (Nat.ltb_spec i m); try lia; try rewrite EI; reflexivity). }
  apply wp_elim in W. destruct W as (r & E & ->). rewrite E. cbn [bind]. clear E g. set (k4 := f _ (move x h [1] [k3])).
  assert (L4 : length k4 = n) by (apply HF; rewrite move_length; exact HX). rewrite lin_Ok by (auto; repeat constructor; auto; apply mk_length). cbn [bind]. rewrite zero_Ok by auto. cbn [bind].
  eexists. split; [reflexivity|]. exists [f t x; k2; k3; k4]. split.
  - split; [reflexivity|]. intros [|[|[|[|i]]]] HI; cbn [length] in HI; try lia; cbn [tab_c tab_a rk4_tab nth].
    + rewrite move_nil. f_equal. ring.
    + unfold k2. stg.
    + unfold k3. stg.
    + unfold k4. stg.
  - apply move_eq. intros i HI. rnum. cbn [rk4_tab tab_b comb]. rewrite mk_nth by lia. lra.
Qed.

Lemma diff_comb : forall b bs ks i, length b = length bs -> comb (diff_w Rarith b bs) ks i = comb b ks i - comb bs ks i.
Proof.
  induction b as [|w b IH]; intros [|w' bs] ks i HL; try discriminate; [cbn; ring|]. destruct ks as [|k ks]; [cbn; ring|]. cbn [diff_w combine map comb]. unfold diff_w in IH. rewrite IH by (cbn in HL; lia). rnum. ring.
Qed.
Lemma pair_ok : forall tab bs ks, rk_stages tab f t x h ks -> length (tab_b tab) = length bs ->
  rk_pair tab bs f t x h (move x h (tab_b tab) ks) (map (fun i => h * comb (diff_w Rarith (tab_b tab) bs) ks i) (seq 0 n)).
Proof.
  intros tab bs ks HK HL. exists ks. split; [exact HK|]. split; [reflexivity|]. rewrite HX. apply mk_ext. intros i HI. rewrite !move_nth by lia. rewrite diff_comb by exact HL. ring.
Qed.
Theorem C76_cash_karp : exists y e, CashKarpStep Rarith f n t x (f t x) h out err = Ok (y, e) /\ rk_pair ck_tab (ck_bstar Rarith) f t x h y e.
Proof.
  unfold CashKarpStep. rewrite HX. destruct (stages_rk n f t x h (ck_c Rarith) (ck_a Rarith) (ck_b Rarith) (zeros Rarith n) HF HX) as (ks & E & LK & LL & HK); [reflexivity|apply zeros_length| |].
  { intros i HI. cbn [ck_a length] in HI. do 5 (destruct i as [|i]; [cbn; lia|]). lia. }
  rewrite E. cbn [bind]. cbn [ck_c length] in LL. destruct ks as [|k1 [|k2 [|k3 [|k4 [|k5 [|k6 [|k7 ks]]]]]]]; try discriminate LL. clear LL.
  repeat match goal with H : Forall _ (_ :: _) |- _ => inversion_clear H end.
  unfold sel. cbn [map nth]. rewrite lin_Ok by (auto; repeat constructor; auto). cbn [bind]. rewrite err_lin_Ok by (auto; repeat constructor; auto). cbn [bind]. eexists. eexists. split; [reflexivity|].
  pose proof (pair_ok ck_tab (ck_bstar Rarith) _ HK eq_refl) as HP. fold ck_tab in HK.
  match goal with |- rk_pair _ _ _ _ _ _ ?a ?b => replace a with (move x h (tab_b ck_tab) [k1; k2; k3; k4; k5; k6]);
    [replace b with (map (fun i => h * comb (diff_w Rarith (tab_b ck_tab) (ck_bstar Rarith)) [k1; k2; k3; k4; k5; k6] i) (seq 0 n)); [exact HP|]|] end.
  - apply mk_ext. intros i HI. cbn [ck_tab tab_b ck_b ck_bstar diff_w combine map nth comb]. rnum. ring.
  - apply move_eq. intros i HI. cbn [ck_tab tab_b ck_b map nth comb]. rnum. ring.
Qed.
Lemma copy_Ok : fill n (fun i => vget (f t x) i) (zeros Rarith n) = Ok (f t x).
Proof. rewrite (fill_Ok n _ _ (fun i => nth i (f t x) 0)); [|apply zeros_length|intros i HI; apply vget_nth; lia]. f_equal. pose proof (list_mk (f t x)) as E. rewrite LF in E. symmetry. exact E. Qed.
Theorem C76_dormand_prince5 : exists y e, DormandPrince5Step Rarith f n t x (f t x) h out err = Ok (y, e) /\ rk_pair dp5_tab (dp5_bstar Rarith) f t x h y e.
Proof.
  unfold DormandPrince5Step. rewrite HX, copy_Ok. cbn [bind]. destruct (stages_rk n f t x h (dp5_c Rarith) (dp5_a Rarith) (dp5_b Rarith) (zeros Rarith n) HF HX) as (ks & E & LK & LL & HK); [reflexivity|apply zeros_length| |].
  { intros i HI. cbn [dp5_a length] in HI. do 6 (destruct i as [|i]; [cbn; lia|]). lia. }
  rewrite E. cbn [bind]. rewrite lin_Ok by auto. cbn [bind]. rewrite err_lin_Ok by auto. cbn [bind]. eexists. eexists. split; [reflexivity|]. apply (pair_ok dp5_tab (dp5_bstar Rarith) ks HK eq_refl).
Qed.
Theorem C76_dormand_prince8 : exists y e, DormandPrince8Step Rarith f n t x (f t x) h out err = Ok (y, e) /\ rk_pair dp8_tab (dp8_b7 Rarith) f t x h y e.
Proof.
  unfold DormandPrince8Step. rewrite HX, copy_Ok. cbn [bind]. destruct (stages_rk n f t x h (dp8_c Rarith) (dp8_a Rarith) (dp8_b8 Rarith) (zeros Rarith n) HF HX) as (ks & E & LK & LL & HK); [reflexivity|apply zeros_length| |].
  { intros i HI. cbn [dp8_a length] in HI. do 12 (destruct i as [|i]; [cbn; lia|]). lia. }
  rewrite E. cbn [bind]. rewrite lin_Ok by auto. cbn [bind]. rewrite err_lin_Ok by auto. cbn [bind]. eexists. eexists. split; [reflexivity|]. apply (pair_ok dp8_tab (dp8_b7 Rarith) ks HK eq_refl).
Qed.
End Steps.
