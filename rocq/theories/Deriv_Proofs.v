(** * C84: proofs about the differentiation rules *)

From Coq Require Import Reals Lra List Arith ZArith Lia Bool.
From Verif Require Import Base Num QR_Math Deriv_Math RootFind_Model RootFind_Proofs Deriv_Model Deriv_Spec.
Import ListNotations.
Local Open Scope R_scope.

(** ** The stencils of the rules *)
Definition stencil (m : rule) : list (R * R) :=
  match m with
  | NDer1 => [(0, -1); (1, 1)]
  | NDer2 => [(-1, -1/2); (1, 1/2)]
  | NDer4 => [(-2, 1/12); (2, -1/12); (-1, -8/12); (1, 8/12)]
  | NDer6 => [(3, 1/60); (-3, -1/60); (2, -9/60); (-2, 9/60); (1, 45/60); (-1, -45/60)]
  | NDer8 => [(4, -3/840); (-4, 3/840); (3, 4/105); (-3, -4/105); (2, -21/105); (-2, 21/105); (1, 84/105); (-1, -84/105)]
  | NSecDer2 => [(0, -2); (1, 1); (-1, 1)]
  | NSecDer4 => [(0, -30/12); (1, 16/12); (-1, 16/12); (2, -1/12); (-2, -1/12)]
  | NThirdDer2 => [(-2, -1/2); (-1, 1); (1, -1); (2, 1/2)]
  | NThirdDer4 => [(-3, 1/8); (-2, -1); (-1, 13/8); (1, -13/8); (2, 1); (3, -1/8)]
  end.

Ltac sten_norm f x h :=
  replace (x + 0 * h) with x by ring;
  replace (x + 1 * h) with (x + h) by ring; replace (x + -1 * h) with (x - h) by ring;
  replace (x + -2 * h) with (x - 2 * h) by ring; replace (x + -3 * h) with (x - 3 * h) by ring;
  replace (x + -4 * h) with (x - 4 * h) by ring; replace (x + -5 * h) with (x - 5 * h) by ring.

Lemma value_stencil : forall eps m f x h, h <> 0 -> fst (compute Rarith eps f x h m) = sten (stencil m) f x h / h ^ what m.
Proof.
  intros eps m f x h Hh. destruct m; cbn [compute der1 der2 der4 der6 der8 secder2 secder4 thirdder2 thirdder4 fst stencil sten what pow];
  cbn [Rarith aops altb alit asqrt Rnum nadd nmul nsub nopp ndiv n0 n1]; sten_norm f x h; field; auto.
Qed.

Ltac all_k k Hk := do 10 (destruct k as [|k]; [|]); try (exfalso; cbn in Hk; lia).
Lemma stencil_order : forall m, order (stencil m) (what m) (what m + acc m).
Proof.
  intros m k Hk. destruct m; cbn [what acc plus] in *; do 10 (try (destruct k as [|k]; [cbn [stencil moment pow Nat.eqb fact INR Nat.mul Nat.add]; field|])); exfalso; lia.
Qed.
Lemma Rabs_lit : forall a, 0 <= a -> Rabs a = a. Proof. intros. apply Rabs_pos_eq. auto. Qed.
Ltac absn := repeat match goal with |- context [Rabs ?a] => first [rewrite (Rabs_pos_eq a) by lra | rewrite (Rabs_left1 a) by lra] end.
Lemma stencil_bound : forall m, amoment (stencil m) (what m + acc m) / INR (fact (what m + acc m)) = bound m.
Proof.
  intros m. assert (F : INR (fact (what m + acc m)) = IZR (Z.of_nat (fact (what m + acc m)))) by apply INR_IZR_INZ. rewrite F.
  destruct m; cbn [what acc plus stencil amoment bound]; absn; match goal with |- context [IZR (Z.of_nat ?n)] => let v := eval vm_compute in (Z.of_nat n) in change (Z.of_nat n) with v end; cbn [pow]; field.
Qed.
Lemma stencil_lead : forall m, moment (stencil m) (what m + acc m) / INR (fact (what m + acc m)) = lead m.
Proof.
  intros m. assert (F : INR (fact (what m + acc m)) = IZR (Z.of_nat (fact (what m + acc m)))) by apply INR_IZR_INZ. rewrite F.
  destruct m; cbn [what acc plus stencil moment lead]; match goal with |- context [IZR (Z.of_nat ?n)] => let v := eval vm_compute in (Z.of_nat n) in change (Z.of_nat n) with v end; cbn [pow]; field.
Qed.
Lemma stencil_reach : forall m s w x h, 0 < h -> In (s, w) (stencil m) -> x - reach m * h <= x + s * h <= x + reach m * h.
Proof.
  intros m s w x h Hh H. destruct m; cbn [stencil In reach] in *; repeat (destruct H as [H|H]; [inversion H; subst; lra|]); contradiction.
Qed.
Lemma reach_pos : forall m, 1 <= reach m. Proof. destruct m; cbn; lra. Qed.

Lemma NDer_ok : forall eps m f x h err, 0 < h ->
  NDer Rarith eps m f x h err = Ok (fst (compute Rarith eps f x h m), if err then snd (compute Rarith eps f x h m) else 0).
Proof.
  intros eps m f x h err Hh. unfold NDer, Detailed. change (alit Rarith 0) with 0. change (altb Rarith 0 h) with (Rltb 0 h). destruct (Rltb_spec 0 h) as [H|H]; [|lra].
  cbn [negb]. destruct (compute Rarith eps f x h m) as [v e]. reflexivity.
Qed.

(** ** Polynomials *)
Lemma pder_length : forall a, length (pder a) = (length a - 1)%nat. Proof. intros. unfold pder. rewrite map_length, seq_length. auto. Qed.
Lemma pder_nth : forall a k, nth k (pder a) 0 = INR (S k) * nth (S k) a 0.
Proof.
  intros a k. unfold pder. destruct (Nat.lt_ge_cases k (length a - 1)) as [H|H].
  - rewrite nth_indep with (d' := (fun k => INR (S k) * nth (S k) a 0) 0%nat) by (rewrite map_length, seq_length; auto). rewrite (map_nth (fun k => INR (S k) * nth (S k) a 0) _ 0%nat), seq_nth by auto. reflexivity.
  - rewrite nth_overflow by (rewrite map_length, seq_length; auto). rewrite (nth_overflow a) by lia. ring.
Qed.
Lemma pev_deriv : forall a t, derivable_pt_lim (pev a) t (pev (pder a) t).
Proof.
  intros [|c a] t.
  - unfold pev. cbn. intros e He. exists (mkposreal 1 Rlt_0_1). intros h _ _. replace (_ - 0) with 0; [rewrite Rabs_R0; lra|]. unfold Rdiv. ring.
  - pose proof (tay_deriv (fun k _ => nth k (c :: a) 0 * INR (fact k)) (length a) 0 t) as Q.
    assert (E1 : forall u, tay (fun k _ => nth k (c :: a) 0 * INR (fact k)) (S (length a)) 0 u = pev (c :: a) u).
    { intros u. unfold tay, pev. cbn [length]. apply rsum_ext. intros k Hk. pose proof (fact_pos k). field. lra. }
    assert (E2 : tay (fun k _ => nth (S k) (c :: a) 0 * INR (fact (S k))) (length a) 0 t = pev (pder (c :: a)) t).
    { unfold tay, pev. rewrite pder_length. cbn [length]. replace (S (length a) - 1)%nat with (length a) by lia. apply rsum_ext. intros k Hk. rewrite pder_nth, fact_simpl, mult_INR. pose proof (fact_pos k). field. lra. }
    cbv beta in Q. change (derivable_pt_lim (tay (fun k _ => nth k (c :: a) 0 * INR (fact k)) (S (length a)) 0) t (tay (fun k _ => nth (S k) (c :: a) 0 * INR (fact (S k))) (length a) 0 t)) in Q. rewrite E2 in Q. intros e He. destruct (Q e He) as [d Hd]. exists d. intros h H1 H2. specialize (Hd h H1 H2). rewrite !E1 in Hd. auto.
Qed.
Definition pd (k : nat) (a : list R) : list R := Nat.iter k pder a.
Lemma pd_chain : forall a n lo hi, derivatives (pev a) (fun k => pev (pd k a)) n lo hi.
Proof. intros. split; [reflexivity|]. intros k t _ _. apply pev_deriv. Qed.
Lemma pd_length : forall k a, length (pd k a) = (length a - k)%nat.
Proof. induction k as [|k IH]; intros a; [cbn; lia|]. change (pd (S k) a) with (pder (pd k a)). rewrite pder_length, IH. lia. Qed.
Lemma pd_zero : forall k a t, (length a <= k)%nat -> pev (pd k a) t = 0.
Proof. intros k a t H. unfold pev. rewrite pd_length. replace (length a - k)%nat with 0%nat by lia. reflexivity. Qed.

Lemma what_lt : forall m, (what m < what m + acc m)%nat. Proof. destruct m; cbn; lia. Qed.

(** ** The error estimates of the first-derivative rules *)
Definition estencil (m : rule) : list (R * R) :=
  match m with
  | NDer1 => [(1, 1/2); (0, -1); (-1, 1/2)]
  | NDer2 => [(2, 1/12); (-2, -1/12); (1, -1/6); (-1, 1/6)]
  | NDer4 => [(3, 1/60); (-3, -1/60); (2, -2/30); (-2, 2/30); (1, 5/60); (-1, -5/60)]
  | NDer6 => [(4, 1/280); (-4, -1/280); (3, -6/280); (-3, 6/280); (1, -14/280); (-1, 14/280); (2, 14/280); (-2, -14/280)]
  | NDer8 => [(5, 1/1260); (-5, -1/1260); (4, -4/630); (-4, 4/630); (3, 27/1260); (-3, -27/1260); (2, -24/630); (-2, 24/630); (1, 21/630); (-1, -21/630)]
  | _ => []
  end.

Lemma Rabs_div_pos : forall a c, 0 < c -> Rabs a / c = Rabs (a / c).
Proof. intros. unfold Rdiv. rewrite Rabs_mult, (Rabs_pos_eq (/ c)); auto. left. apply Rinv_0_lt_compat. auto. Qed.

Lemma error_stencil : forall eps m f x h, 0 < h -> what m = 1%nat -> exists r, 0 <= r /\
  snd (compute Rarith eps f x h m) = Rabs (sten (estencil m) f x h / h) + eps * r.
Proof.
  intros eps m f x h Hh Hm. assert (HI : 0 < / h) by (apply Rinv_0_lt_compat; auto). destruct m; try (discriminate Hm); cbn [compute der1 der2 der4 der6 der8 snd estencil sten]; cbn [Rarith aops altb alit asqrt Rnum nadd nmul nsub nopp ndiv n0 n1]; rewrite ?Rabs_aabs; sten_norm f x h.
  - pose proof (Rabs_pos (f (x + h))). pose proof (Rabs_pos (f x)). exists ((Rabs (f (x + h)) + Rabs (f x)) / h). split; [apply Rmult_le_pos; lra|].
    rewrite !Rabs_div_pos by lra. f_equal; [f_equal; field; lra|field; lra].
  - pose proof (Rabs_pos (f (x + h))). pose proof (Rabs_pos (f (x - h))). exists ((Rabs (f (x + h)) + Rabs (f (x - h))) / h / 2). split; [unfold Rdiv; apply Rmult_le_pos; [apply Rmult_le_pos|]; lra|].
    rewrite Rplus_comm, !Rabs_div_pos by lra. f_equal; [f_equal; field; lra|field; lra].
  - pose proof (Rabs_pos (f (x + h))). pose proof (Rabs_pos (f (x - h))). pose proof (Rabs_pos (f (x + 2 * h))). pose proof (Rabs_pos (f (x - 2 * h))).
    exists ((Rabs (f (x + 2 * h)) + Rabs (f (x - 2 * h)) + 8 * (Rabs (f (x - h)) + Rabs (f (x + h)))) / h / 12). split; [unfold Rdiv; apply Rmult_le_pos; [apply Rmult_le_pos|]; lra|].
    rewrite !Rabs_div_pos by lra. f_equal; [f_equal; field; lra|field; lra].
  - pose proof (Rabs_pos (f (x + h))). pose proof (Rabs_pos (f (x - h))). exists (5 * (Rabs (f (x + h)) + Rabs (f (x - h))) / h). split; [unfold Rdiv; apply Rmult_le_pos; lra|].
    rewrite !Rabs_div_pos by lra. f_equal; [f_equal; field; lra|field; lra].
  - pose proof (Rabs_pos (f (x + h))). pose proof (Rabs_pos (f (x - h))). exists (7 * (Rabs (f (x + h)) + Rabs (f (x - h))) / h). split; [unfold Rdiv; apply Rmult_le_pos; lra|].
    rewrite !Rabs_div_pos by lra. f_equal; [f_equal; field; lra|field; lra].
Qed.

Lemma estencil_moments : forall m k, what m = 1%nat -> (k < S (acc m))%nat -> moment (estencil m) k = 0.
Proof.
  intros m k Hm Hk. destruct m; try (discriminate Hm); cbn [what acc plus] in *; do 10 (try (destruct k as [|k]; [cbn [estencil moment pow]; field|])); exfalso; lia.
Qed.
Lemma estencil_lead : forall m, what m = 1%nat -> moment (estencil m) (S (acc m)) / INR (fact (S (acc m))) = Rabs (lead m).
Proof.
  intros m Hm. assert (F : INR (fact (S (acc m))) = IZR (Z.of_nat (fact (S (acc m))))) by apply INR_IZR_INZ. rewrite F.
  destruct m; try (discriminate Hm); cbn [acc estencil moment lead]; absn; match goal with |- context [IZR (Z.of_nat ?n)] => let v := eval vm_compute in (Z.of_nat n) in change (Z.of_nat n) with v end; cbn [pow]; field.
Qed.

(** a stencil applied to a function whose derivatives beyond n vanish *)
Lemma sten_poly : forall L fs f n x h, (forall lo hi, derivatives f fs (S n) lo hi) -> (forall t, fs (S n) t = 0) ->
  sten L f x h = rsum (S n) (fun k => fs k x / INR (fact k) * h ^ k * moment L k).
Proof.
  intros L fs f n x h D HB.
  assert (B : exists B, 0 <= B /\ forall s w, In (s, w) L -> Rabs (s * h) <= B).
  { clear. induction L as [|[s w] L (B & H0 & IH)]; [exists 0; split; [lra|contradiction]|]. exists (Rmax B (Rabs (s * h))). pose proof (Rmax_l B (Rabs (s * h))). pose proof (Rmax_r B (Rabs (s * h))). split; [lra|]. intros s' w' [E|H']; [inversion E; subst; lra|]. specialize (IH _ _ H'). lra. }
  destruct B as (B & HB0 & HB1).
  assert (Q : Rabs (sten L f x h - sten L (fun t => tay fs (S n) x (t - x)) x h) <= 0 * Rabs h ^ S n / INR (fact (S n)) * amoment L (S n)).
  { apply (sten_bound L fs f (S n) 0 (x - B) (x + B)); auto; try lra.
    - intros t Ht. rewrite HB, Rabs_R0. lra.
    - intros s w H. specialize (HB1 s w H). revert HB1. unfold Rabs. destruct (Rcase_abs _); lra. }
  replace (0 * Rabs h ^ S n / INR (fact (S n)) * amoment L (S n)) with 0 in Q by (unfold Rdiv; ring). pose proof (Rabs_pos (sten L f x h - sten L (fun t => tay fs (S n) x (t - x)) x h)) as P.
  rewrite <- sten_tay. revert Q P. unfold Rabs. destruct (Rcase_abs _); lra.
Qed.

(** ** Richardson extrapolation *)
Definition rrule (k : dkind) : rule := match k with First => NDer2 | Second => NSecDer2 | Third => NThirdDer2 end.
Lemma quotient_stencil : forall k f x h, h <> 0 -> quotient Rarith k f x h = sten (stencil (rrule k)) f x h / h ^ rwhat k.
Proof.
  intros k f x h Hh. destruct k; cbn [quotient rrule stencil sten rwhat pow]; cbn [Rarith aops altb alit asqrt Rnum nadd nmul nsub nopp ndiv n0 n1]; sten_norm f x h; field; auto.
Qed.

(** a quotient is even in h *)
Lemma quotient_even : forall k f x h, h <> 0 -> quotient Rarith k f x (- h) = quotient Rarith k f x h.
Proof.
  intros k f x h Hh. destruct k; cbn [quotient]; cbn [Rarith aops altb alit asqrt Rnum nadd nmul nsub nopp ndiv n0 n1];
  replace (x + - h) with (x - h) by ring; replace (x - - h) with (x + h) by ring; try replace (x + 2 * - h) with (x - 2 * h) by ring; try replace (x - 2 * - h) with (x + 2 * h) by ring; field; auto.
Qed.
Lemma quotient_abs : forall k f x h, h <> 0 -> quotient Rarith k f x h = quotient Rarith k f x (Rabs h).
Proof. intros k f x h Hh. unfold Rabs. destruct (Rcase_abs h); auto. symmetry. apply quotient_even. auto. Qed.

Lemma quotient_error : forall k f fs x h M, h <> 0 -> 0 <= M ->
  derivatives f fs (rwhat k + 2) (x - rreach k * Rabs h) (x + rreach k * Rabs h) ->
  (forall t, x - rreach k * Rabs h <= t <= x + rreach k * Rabs h -> Rabs (fs (rwhat k + 2)%nat t) <= M) ->
  Rabs (quotient Rarith k f x h - fs (rwhat k) x) <= rbound k * M * h ^ 2.
Proof.
  intros k f fs x h M Hh HM D HB. assert (HA : 0 < Rabs h) by (apply Rabs_pos_lt; auto). rewrite quotient_abs, quotient_stencil by lra.
  replace (h ^ 2) with (Rabs h ^ 2) by apply pow2_abs.
  assert (W : rwhat k = what (rrule k) /\ rreach k = reach (rrule k) /\ rbound k = bound (rrule k) /\ acc (rrule k) = 2%nat) by (destruct k; auto). destruct W as (W1 & W2 & W3 & W4). rewrite W1, W2, W3 in *.
  rewrite <- stencil_bound, W4. pose proof (reach_pos (rrule k)) as RP. pose proof (stencil_order (rrule k)) as SO. rewrite W4 in SO.
  eapply Rle_trans; [apply (sten_error (stencil (rrule k)) fs f (what (rrule k)) (what (rrule k) + 2) M (x - reach (rrule k) * Rabs h) (x + reach (rrule k) * Rabs h) x (Rabs h)); auto; try lia|].
  - nra.
  - intros s w HI. apply (stencil_reach (rrule k) s w); auto.
  - replace (what (rrule k) + 2 - what (rrule k))%nat with 2%nat by lia. right. ring.
Qed.

Section Rich.
Variables F E con : R.
Hypothesis Hcon : 1 < con.
Hypothesis HE : 0 <= E.
Let P := amplification con.

Lemma con_pow : forall n, 1 < con ^ (2 * S n).
Proof. intros n. rewrite <- (pow1 (2 * S n)). apply Rlt_pow_R1 with (n := (2 * S n)%nat) in Hcon; [|lia]. rewrite pow1. auto. Qed.
Lemma amp_pos : forall n, 1 <= P n.
Proof.
  induction n as [|n IH]; [cbn; lra|]. unfold P in *. cbn [amplification]. pose proof (con_pow n) as Q.
  assert (1 <= (con ^ (2 * S n) + 1) / (con ^ (2 * S n) - 1)); [|nra].
  apply (Rmult_le_reg_r (con ^ (2 * S n) - 1)); [lra|]. unfold Rdiv. rewrite Rmult_assoc, Rinv_l by lra. lra.
Qed.
Lemma amp_step : forall n, P n <= P (S n).
Proof.
  intros n. unfold P. cbn [amplification]. pose proof (con_pow n) as Q. pose proof (amp_pos n) as A. fold (P n) in *.
  assert (1 <= (con ^ (2 * S n) + 1) / (con ^ (2 * S n) - 1)); [|nra].
  apply (Rmult_le_reg_r (con ^ (2 * S n) - 1)); [lra|]. unfold Rdiv. rewrite Rmult_assoc, Rinv_l by lra. lra.
Qed.
Lemma amp_mono : forall n m, (n <= m)%nat -> P n <= P m.
Proof. intros n m H. induction H; [lra|]. pose proof (amp_step m). lra. Qed.

Definition close (j : nat) (col : list R) : Prop := forall k, (k < length col)%nat -> Rabs (nth k col 0 - F) <= E * P (j + k)%nat.

Lemma rich_col_close : forall prev j cur err ans N col err' ans', close j prev -> Rabs (cur - F) <= E * P j -> Rabs (ans - F) <= E * P N -> (j + length prev <= N)%nat ->
  rich_col Rarith (con * con) prev cur (con ^ (2 * S j)) err ans = (col, err', ans') ->
  close (S j) col /\ length col = length prev /\ Rabs (ans' - F) <= E * P N.
Proof.
  induction prev as [|p prev IH]; intros j cur err ans N col err' ans' HC Hcur Hans HN HR.
  - cbn in HR. inversion HR; subst. split; [|split; auto]. intros k Hk. cbn in Hk. lia.
  - cbn [rich_col] in HR. cbn [Rarith aops altb alit asqrt Rnum nadd nmul nsub nopp ndiv n0 n1] in HR.
    set (fac := con ^ (2 * S j)) in *. pose proof (con_pow j) as CP. fold fac in CP. set (v := (cur * fac - p) / (fac - 1)) in *.
    assert (Hp : Rabs (p - F) <= E * P j) by (specialize (HC 0%nat ltac:(cbn; lia)); rewrite Nat.add_0_r in HC; auto).
    assert (Hv : Rabs (v - F) <= E * P (S j)).
    { replace (v - F) with ((fac * (cur - F) - (p - F)) / (fac - 1)) by (unfold v; field; lra). unfold Rdiv. rewrite Rabs_mult, (Rabs_pos_eq (/ _)) by (left; apply Rinv_0_lt_compat; lra).
      apply (Rmult_le_reg_r (fac - 1)); [lra|]. rewrite Rmult_assoc, Rinv_l, Rmult_1_r by lra.
      replace (E * P (S j) * (fac - 1)) with (fac * (E * P j) + E * P j) by (unfold P; cbn [amplification]; fold fac; field; lra).
      eapply Rle_trans; [apply Rabs_triang|]. rewrite Rabs_Ropp, Rabs_mult, (Rabs_pos_eq fac) by lra. assert (fac * Rabs (cur - F) <= fac * (E * P j)) by (apply Rmult_le_compat_l; lra). lra. }
    assert (HvN : Rabs (v - F) <= E * P N). { eapply Rle_trans; [exact Hv|]. apply Rmult_le_compat_l; auto. apply amp_mono. cbn in HN. lia. }
    change (mkArith R Rnum Rltb IZR sqrt) with Rarith in HR. match type of HR with context [rich_col Rarith ?a ?b ?c ?d ?e ?g] => destruct (rich_col Rarith a b c d e g) as [[c1 e1] a1] eqn:ER end. inversion HR; subst. clear HR.
    replace (fac * (con * con)) with (con ^ (2 * S (S j))) in ER by (unfold fac; replace (2 * S (S j))%nat with (2 * S j + 2)%nat by lia; rewrite pow_add; ring).
    eapply (IH (S j)) with (N := N) in ER; auto.
    + destruct ER as (C1 & C2 & C3). split; [|split; [cbn; lia|auto]]. intros [|k] Hk; [rewrite Nat.add_0_r; cbn [nth]; auto|]. cbn [nth length] in *. replace (S j + S k)%nat with (S (S j) + k)%nat by lia. apply C1. lia.
    + intros k Hk. specialize (HC (S k) ltac:(cbn; lia)). cbn [nth] in HC. replace (S j + k)%nat with (j + S k)%nat by lia. auto.
    + destruct (match err with None => true | Some e => _ end); auto.
    + cbn in HN. lia.
Qed.

Lemma rich_loop_close : forall D n hh prev err ans N v e, close 0 prev -> Rabs (ans - F) <= E * P N -> (length prev + n <= S N)%nat ->
  (forall i, (0 < i)%nat -> Rabs (D (hh / con ^ i) - F) <= E) ->
  rich_loop Rarith D con n hh prev err ans = (v, e) -> Rabs (v - F) <= E * P N.
Proof.
  intros D n. induction n as [|n IH]; intros hh prev err ans N v e HC Hans HN HD HR.
  - cbn in HR. inversion HR; subst. auto.
  - cbn [rich_loop] in HR. cbn [Rarith aops altb alit asqrt Rnum nadd nmul nsub nopp ndiv n0 n1] in HR. change (mkArith R Rnum Rltb IZR sqrt) with Rarith in HR.
    destruct (rich_col Rarith (con * con) prev (D (hh / con)) (con * con) err ans) as [[col err1] ans1] eqn:EC.
    replace (con * con) with (con ^ (2 * 1)) in EC at 2 by (cbn; ring).
    assert (H0 : Rabs (D (hh / con) - F) <= E * P 0) by (specialize (HD 1%nat ltac:(lia)); cbn [pow] in HD; rewrite Rmult_1_r in HD; unfold P; cbn; lra).
    pose proof (rich_col_close prev 0 (D (hh / con)) err ans N col err1 ans1 HC H0 Hans ltac:(lia) EC) as (C1 & C2 & C3).
    destruct (match err1 with None => false | Some e => _ end); [inversion HR; subst; auto|].
    eapply (IH (hh / con) (D (hh / con) :: col) err1 ans1 N v e); auto.
    + intros [|k] Hk; [auto|]. cbn [nth length] in *. replace (0 + S k)%nat with (1 + k)%nat by lia. apply C1. lia.
    + cbn [length]. lia.
    + intros i Hi. replace (hh / con / con ^ i) with (hh / con ^ S i); [apply HD; lia|]. cbn [pow]. assert (con ^ i <> 0) by (apply pow_nonzero; lra). field. lra.
Qed.

(** every entry beyond the first row is F *)
Lemma rich_col_flat : forall prev fac err ans col err' ans', (forall p, In p prev -> p = F) -> 1 < fac -> ans = F -> (forall e, err = Some e -> 0 <= e) ->
  rich_col Rarith (con * con) prev F fac err ans = (col, err', ans') ->
  (forall p, In p col -> p = F) /\ ans' = F /\ (prev = [] -> err' = err) /\ (prev <> [] -> err' = Some 0) /\ length col = length prev.
Proof.
  induction prev as [|p prev IH]; intros fac err ans col err' ans' HP Hf Ha He HR.
  - cbn in HR. inversion HR; subst. repeat split; auto; congruence.
  - cbn [rich_col] in HR. cbn [Rarith aops altb alit asqrt Rnum nadd nmul nsub nopp ndiv n0 n1] in HR.
    assert (p = F) by (apply HP; left; auto). subst p.
    replace ((F * fac - F) / (fac - 1)) with F in HR by (field; lra).
    assert (Z : dmax Rarith (aabs Rarith (F - F)) (aabs Rarith (F - F)) = 0). { replace (F - F) with 0 by ring. rewrite Rabs_aabs, Rabs_R0. unfold dmax. destruct (altb Rarith 0 0); auto. }
    change (mkArith R Rnum Rltb IZR sqrt) with Rarith in HR. rewrite Z in HR.
    assert (BT : match err with Some e => negb (Rltb e 0) | None => true end = true). { destruct err as [e|]; auto. specialize (He e eq_refl). destruct (Rltb_spec e 0); [lra|auto]. }
    rewrite BT in HR.
    destruct (rich_col Rarith (con * con) prev F (fac * (con * con)) (Some 0) F) as [[c1 e1] a1] eqn:ER. inversion HR; subst. clear HR.
    apply IH in ER; auto; [|intros; apply HP; right; auto|nra|intros e H; inversion H; lra].
    destruct ER as (C1 & C2 & C3 & C4 & C5). split; [intros p [<-|H]; auto|]. split; auto. split; [congruence|]. split; [|cbn; lia].
    intros _. destruct prev; [apply C3; auto|apply C4; congruence].
Qed.

Lemma dmax_ge : forall a b, a <= dmax Rarith a b /\ b <= dmax Rarith a b.
Proof. intros a b. unfold dmax. cbn [Rarith altb]. destruct (Rltb_spec a b); lra. Qed.

(** first row F + c hh^2: one column of extrapolation is exact *)
Lemma rich_loop_flat : forall D c n hh prev err ans v e, hh <> 0 -> (forall h, h <> 0 -> D h = F + c * h ^ 2) ->
  (exists p col, prev = p :: col /\ p = D hh /\ (forall q, In q col -> q = F)) ->
  ((prev = [D hh] /\ err = None) \/ (ans = F /\ (1 < length prev)%nat /\ exists e0, err = Some e0 /\ 0 <= e0 /\ ((2 < length prev)%nat -> e0 = 0))) ->
  rich_loop Rarith D con (S n) hh prev err ans = (v, e) -> v = F /\ ((2 <= n + length prev)%nat -> e = Some 0).
Proof.
  intros D c n. induction n as [|n IH]; intros hh prev err ans v e Hh HD (p & col & -> & -> & HP) HI HR.
  all: [> | remember (S n) as N eqn:EN].
  all: cbn [rich_loop] in HR; cbn [Rarith aops altb alit asqrt Rnum nadd nmul nsub nopp ndiv n0 n1] in HR; change (mkArith R Rnum Rltb IZR sqrt) with Rarith in HR.
  all: assert (Hh' : hh / con <> 0) by (unfold Rdiv; apply Rmult_integral_contrapositive_currified; auto; apply Rinv_neq_0_compat; lra).
  all: set (a0 := D (hh / con)) in *.
  all: assert (CC : 1 < con * con) by nra.
  all: assert (V : (a0 * (con * con) - D hh) / (con * con - 1) = F) by (unfold a0; rewrite !HD by auto; field; nra).
  all: cbn [rich_col] in HR; cbn [Rarith aops altb alit asqrt Rnum nadd nmul nsub nopp ndiv n0 n1] in HR; change (mkArith R Rnum Rltb IZR sqrt) with Rarith in HR.
  all: rewrite V in HR; set (errt := dmax Rarith (aabs Rarith (F - a0)) (aabs Rarith (F - D hh))) in *.
  all: assert (ET : 0 <= errt /\ Rabs (F - D hh) <= errt) by (unfold errt; rewrite !Rabs_aabs; destruct (dmax_ge (Rabs (F - a0)) (Rabs (F - D hh))) as [Q1 Q2]; pose proof (Rabs_pos (F - D hh)); lra).
  all: match type of HR with context [rich_col Rarith ?cc ?cl ?ff ?fc ?er ?an] => set (er0 := er) in *; set (an0 := an) in *; destruct (rich_col Rarith cc cl ff fc er0 an0) as [[col1 err1] ans1] eqn:EC end.
  all: assert (AN : an0 = F) by (unfold an0; destruct HI as [[HI1 HI2]|(HI1 & HI2 & e0 & HI3 & HI4)]; [rewrite HI2; auto|rewrite HI1; destruct (match err with Some e => _ | None => true end); auto]).
  all: assert (ER : exists e0, er0 = Some e0 /\ 0 <= e0) by (unfold er0; destruct HI as [[HI1 HI2]|(HI1 & HI2 & e0 & HI3 & HI4)]; [rewrite HI2; eauto; exists errt; split; [auto|apply ET]|rewrite HI3; destruct (negb (Rltb e0 errt)); [exists errt|exists e0]; split; auto; apply ET || apply HI4]).
  all: assert (EC' := EC); apply rich_col_flat in EC; auto; [|nra|intros e1 H1; destruct ER as (e0 & R1 & R2); rewrite R1 in H1; inversion H1; subst; auto].
  all: destruct EC as (C1 & C2 & C3 & C4 & C5); subst ans1.
  - (* last column *)
    destruct (match err1 with None => false | Some e => _ end); inversion HR; subst; split; auto; intros HL; apply C4; (destruct col; [cbn in HL; lia|congruence]).
  - destruct ER as (e0 & R1 & R2).
    assert (E1 : exists e1, err1 = Some e1 /\ 0 <= e1 /\ (col <> [] -> e1 = 0) /\ (col = [] -> e1 = e0)).
    { destruct col as [|q col]; [exists e0; rewrite (C3 eq_refl); repeat split; auto; congruence|]. exists 0. rewrite C4 by congruence. repeat split; auto; [lra|congruence]. }
    destruct E1 as (e1 & R3 & R4 & R5 & R6). rewrite R3 in HR.
    destruct (negb (Rltb _ _)) eqn:EB in HR.
    + inversion HR; subst. split; auto. intros HL. f_equal. destruct col as [|q col]; [|apply R5; congruence].
      (* stopped in the first column: all differences vanish *)
      destruct HI as [[HI1 HI2]|(HI1 & HI2 & _)]; [|cbn in HI2; lia].
      rewrite R6 by auto. subst err. unfold er0 in R1. inversion R1; subst e0. rewrite (R6 eq_refl) in EB.
      destruct col1 as [|q1 col1]; [|cbn in C5; lia]. cbn [last] in EB. rewrite Rabs_aabs in EB.
      match type of EB with negb (Rltb ?u ?w) = true => destruct (Rltb_spec u w) as [L|L]; [discriminate|] end. lra.
    + eapply (IH (hh / con) (a0 :: F :: col1)) in HR; auto.
      * destruct HR as [HV HE']. split; auto. intros _. apply HE'. cbn. lia.
      * exists a0, (F :: col1). split; auto. split; auto. intros q [<-|H]; auto.
      * right. split; auto. split; [cbn; lia|]. exists e1. split; auto. split; auto. intros HL. cbn in HL. apply R5. destruct col; [cbn in C5; lia|congruence].
Qed.
End Rich.
