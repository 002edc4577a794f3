(** * C76 (second part): the order conditions of the Runge-Kutta methods

    All trees up to the order claimed are enumerated and their weights computed, exactly (rationals) or with an error bound
    (fixed-point balls); relations between rationals or balls and reals carry the result over to the real tableaus. *)
From Coq Require Import List Bool Arith ZArith QArith Qcanon Reals Qreals Lia Lra.
From Verif Require Import Base Num Mat_Model Mat_Proofs RootFind_Model RootFind_Proofs RootFind_Props ODE_Model ODE_Spec ODE_RK.
Import ListNotations.
Local Open Scope nat_scope.

(** ** Trees *)
Lemma tree_ind' : forall P : tree -> Prop, (forall ts, Forall P ts -> P (Node ts)) -> forall t, P t.
Proof.
  intros P H. fix IH 1. intros [ts]. apply H. induction ts as [|t ts IHts]; constructor; [apply IH|exact IHts].
Qed.
Definition forest_order (ts : list tree) : nat := fold_right (fun t n => order t + n) 0 ts.
(** ** Weights over any arithmetic *)
Section Comp.
Context {T : Type} (O : numops T).
Fixpoint cdot (u v : list T) : T := match u, v with a :: u, b :: v => nadd O (nmul O a b) (cdot u v) | _, _ => n0 O end.
Fixpoint mul2 (u v : list T) : list T := match u, v with a :: u, b :: v => nmul O a b :: mul2 u v | _, _ => [] end.
Fixpoint cstage (a : list (list T)) (t : tree) : list T :=
  match t with Node ts => fold_right (fun t r => let w := cstage a t in mul2 (map (fun row => cdot row w) a) r) (map (fun _ => n1 O) a) ts end.
Definition cweight (a : list (list T)) (b : list T) (t : tree) : T := cdot b (cstage a t).
(** all forests of total order 0, 1, ..., n, each with the stage weights of the tree that it makes *)
Definition next (a : list (list T)) (tbl : list (list (list tree * list T))) (n : nat) : list (list tree * list T) :=
  flat_map (fun k => flat_map (fun '(f1, w1) => let w := map (fun row => cdot row w1) a in map (fun '(f2, w2) => (Node f1 :: f2, mul2 w w2)) (nth (n - k) tbl [])) (nth k tbl [])) (seq 0 (S n)).
Fixpoint table (a : list (list T)) (n : nat) : list (list (list tree * list T)) :=
  match n with 0 => [[([], map (fun _ => n1 O) a)]] | S n => let tbl := table a n in tbl ++ [next a tbl n] end.
Lemma table_length : forall a n, length (table a n) = S n.
Proof. induction n; cbn [table]; [reflexivity|]. cbv zeta. rewrite app_length, IHn. cbn. lia. Qed.
Lemma table_complete : forall a n ts, forest_order ts <= n -> In (ts, cstage a (Node ts)) (nth (forest_order ts) (table a n) []).
Proof.
  intros a. induction n as [|n IH]; intros ts H.
  - destruct ts as [|[f1] ts]; [left; reflexivity|]. cbn [forest_order fold_right order] in H. lia.
  - cbn [table]. cbv zeta. destruct (Nat.eq_dec (forest_order ts) (S n)) as [E|NE].
    + rewrite E. rewrite app_nth2, table_length, Nat.sub_diag by (rewrite table_length; lia). cbn [nth]. destruct ts as [|[f1] ts]; [discriminate|]. cbn [forest_order fold_right order] in E. fold (forest_order f1) in E. fold (forest_order ts) in E.
      unfold next. apply in_flat_map. exists (forest_order f1). split; [apply in_seq; lia|]. apply in_flat_map. exists (f1, cstage a (Node f1)). split; [apply IH; lia|]. cbv zeta.
      apply in_map_iff. exists (ts, cstage a (Node ts)). split; [reflexivity|]. replace (n - forest_order f1) with (forest_order ts) by lia. apply IH. lia.
    + rewrite app_nth1 by (rewrite table_length; lia). apply IH. lia.
Qed.
(** a test of the weight of every tree of order at most p *)
Definition all_trees (chk : tree -> T -> bool) (a : list (list T)) (b : list T) (p : nat) : bool :=
  match p with 0 => true | S n => forallb (forallb (fun '(ts, w) => chk (Node ts) (cdot b w))) (table a n) end.
Lemma all_trees_ok : forall chk a b p t, all_trees chk a b p = true -> order t <= p -> chk t (cweight a b t) = true.
Proof.
  intros chk a b [|n] [ts] H HT; cbn [order] in HT; fold (forest_order ts) in HT; [lia|]. cbn [all_trees] in H. rewrite forallb_forall in H. specialize (H (nth (forest_order ts) (table a n) [])).
  rewrite forallb_forall in H. specialize (H ltac:(apply nth_In; rewrite table_length; lia) (ts, cstage a (Node ts)) ltac:(apply table_complete; lia)). exact H.
Qed.
End Comp.

Lemma cdot_dot : forall u v, cdot Rnum u v = dot u v.
Proof. reflexivity. Qed.
Lemma mul2_map : forall X (g h : X -> R) l, mul2 Rnum (map g l) (map h l) = map (fun x => (g x * h x)%R) l.
Proof. induction l; cbn; congruence. Qed.
Lemma map_nth_seq : forall X Y (g : X -> Y) d l, map g l = map (fun i => g (nth i l d)) (seq 0 (length l)).
Proof.
  intros X Y g d l. rewrite <- (map_map (fun i => nth i l d) g). f_equal. apply (nth_ext _ _ d d); [rewrite map_length, seq_length; reflexivity|].
  intros i HI. rewrite (nth_indep (map _ _) d (nth 0 l d)) by (rewrite map_length, seq_length; auto). rewrite (map_nth (fun i => nth i l d)), seq_nth by auto. reflexivity.
Qed.
Lemma cstage_spec : forall a t, cstage Rnum a t = map (stage_weight a t) (seq 0 (length a)).
Proof.
  intros a. induction t as [ts IH] using tree_ind'. induction IH as [|t ts HT HTS IH].
  - cbn [cstage stage_weight fold_right]. rewrite (map_nth_seq _ _ (fun _ => n1 Rnum) []). reflexivity.
  - cbn [cstage stage_weight fold_right] in *. rewrite IH, HT. rewrite (map_nth_seq _ _ _ []). rewrite mul2_map. apply map_ext. intros i. rewrite cdot_dot. reflexivity.
Qed.
Lemma cweight_spec : forall c a b t, cweight Rnum a b t = elementary_weight (Tab c a b) t.
Proof. intros. unfold cweight, elementary_weight. rewrite cdot_dot, cstage_spec. reflexivity. Qed.

Section Rel.
Context {T U : Type} (O : numops T) (P : numops U) (rel : T -> U -> Prop).
Hypothesis (R0 : rel (n0 O) (n0 P)) (R1 : rel (n1 O) (n1 P)) (RA : forall a b c d, rel a b -> rel c d -> rel (nadd O a c) (nadd P b d)) (RM : forall a b c d, rel a b -> rel c d -> rel (nmul O a c) (nmul P b d)).
Lemma cdot_rel : forall u u', Forall2 rel u u' -> forall v v', Forall2 rel v v' -> rel (cdot O u v) (cdot P u' v').
Proof. induction 1; intros v v' [|]; cbn [cdot]; auto. Qed.
Lemma mul2_rel : forall u u', Forall2 rel u u' -> forall v v', Forall2 rel v v' -> Forall2 rel (mul2 O u v) (mul2 P u' v').
Proof. induction 1; intros v v' [|]; cbn [mul2]; constructor; auto. Qed.
Lemma cstage_rel : forall a a', Forall2 (Forall2 rel) a a' -> forall t, Forall2 rel (cstage O a t) (cstage P a' t).
Proof.
  intros a a' HA. induction t as [ts IH] using tree_ind'. cbn [cstage]. induction IH as [|t ts HT HTS IH]; cbn [fold_right].
  - clear - HA R1. induction HA; cbn [map]; constructor; auto.
  - apply mul2_rel; [|exact IH]. clear - HA HT R0 RA RM. set (w := cstage O a t) in *. set (w' := cstage P a' t) in *. clearbody w w'. induction HA; cbn [map]; constructor; auto. apply cdot_rel; auto.
Qed.
Lemma cweight_rel : forall a a' b b' t, Forall2 (Forall2 rel) a a' -> Forall2 rel b b' -> rel (cweight O a b t) (cweight P a' b' t).
Proof. intros. unfold cweight. apply cdot_rel; auto. apply cstage_rel. auto. Qed.
End Rel.

(** ** Exact rationals *)
Definition relq (a : Qc) (x : R) : Prop := x = Q2R (this a).
Lemma Q2R_red : forall a, Q2R (Qred a) = Q2R a.
Proof. intros. apply Qeq_eqR, Qred_correct. Qed.
Lemma relq_lit : forall z, relq (alit Qarith z) (alit Rarith z).
Proof. intros z. unfold relq. cbn [Qarith Rarith alit]. change (IZR z = Q2R (Qred (inject_Z z))). rewrite Q2R_red. unfold Q2R, inject_Z. cbn. field. Qed.
Lemma relq_0 : relq (n0 Num.Qnum) (n0 Rnum).
Proof. unfold relq, Q2R. cbn. lra. Qed.
Lemma relq_1 : relq (n1 Num.Qnum) (n1 Rnum).
Proof. unfold relq, Q2R. cbn. lra. Qed.
Lemma relq_add : forall a b c d, relq a b -> relq c d -> relq (nadd Num.Qnum a c) (nadd Rnum b d).
Proof. unfold relq. intros a b c d -> ->. change (Q2R (this a) + Q2R (this c) = Q2R (Qred (this a + this c)))%R. rewrite Q2R_red, Q2R_plus. reflexivity. Qed.
Lemma relq_mul : forall a b c d, relq a b -> relq c d -> relq (nmul Num.Qnum a c) (nmul Rnum b d).
Proof. unfold relq. intros a b c d -> ->. change (Q2R (this a) * Q2R (this c) = Q2R (Qred (this a * this c)))%R. rewrite Q2R_red, Q2R_mult. reflexivity. Qed.
Lemma relq_div : forall a b c d, relq a b -> relq c d -> c <> Q2Qc 0 -> relq (ndiv Num.Qnum a c) (ndiv Rnum b d).
Proof.
  unfold relq. intros a b c d -> -> HN. change (Q2R (this a) / Q2R (this c) = Q2R (Qred (this a * Qred (/ this c))))%R. rewrite Q2R_red, Q2R_mult, Q2R_red, Q2R_inv; [reflexivity|].
  intros E. apply HN. apply Qc_is_canon. exact E.
Qed.
Definition exact_order (a : list (list Qc)) (b : list Qc) (p : nat) : bool :=
  all_trees Num.Qnum (fun t w => Qeq_bool (this w) (Qinv (inject_Z (density t)))) a b p.
Lemma density_pos : forall t, (0 < density t)%Z.
Proof.
  induction t as [ts IH] using tree_ind'. cbn [density]. assert (G : (0 < fold_right (fun t n => density t * n) 1 ts)%Z) by (induction IH; cbn [fold_right]; nia).
  assert (0 < Z.of_nat (order (Node ts)))%Z by (cbn [order]; lia). nia.
Qed.
Lemma exact_order_ok : forall c a b a' b' p, Forall2 (Forall2 relq) a a' -> Forall2 relq b b' -> exact_order a b p = true -> has_order (Tab c a' b') p.
Proof.
  intros c a b a' b' p HA HB H t HT. unfold exact_order in H. apply (all_trees_ok Num.Qnum _ a b p t) in H; [|exact HT]. apply Qeq_bool_eq in H. apply Qeq_eqR in H.
  pose proof (cweight_rel Num.Qnum Rnum relq relq_0 relq_1 relq_add relq_mul a a' b b' t HA HB) as HR. unfold relq in HR. rewrite <- (cweight_spec c), HR, H.
  pose proof (density_pos t) as HD. rewrite Q2R_inv by (intros E; unfold Qeq in E; cbn in E; lia). f_equal. unfold Q2R, inject_Z. cbn. field.
Qed.
Ltac relq1 := first [apply relq_lit | apply relq_div; [apply relq_lit|apply relq_lit|discriminate] | match goal with |- relq _ _ => unfold relq, Q2R; cbn; lra end].
Ltac relqs := repeat (first [apply Forall2_nil | apply Forall2_cons]); relq1.

Theorem C76_euler_order : has_order euler_tab 1.
Proof. apply (exact_order_ok _ [[]] [q 1 1]); [relqs..|vm_compute; reflexivity]. Qed.
Theorem C76_heun_order : has_order heun_tab 2.
Proof. apply (exact_order_ok _ [[]; [q 1 1]] [q 1 2; q 1 2]); [relqs..|vm_compute; reflexivity]. Qed.
Theorem C76_midpoint_order : has_order midpoint_tab 2.
Proof. apply (exact_order_ok _ [[]; [q 1 2]] [q 0 1; q 1 1]); [relqs..|vm_compute; reflexivity]. Qed.
Theorem C76_rk4_order : has_order rk4_tab 4.
Proof. apply (exact_order_ok _ [[]; [q 1 2]; [q 0 1; q 1 2]; [q 0 1; q 0 1; q 1 1]] [q 1 6; q 1 3; q 1 3; q 1 6]); [relqs..|vm_compute; reflexivity]. Qed.
Theorem C76_ck_order : has_order ck_tab 5 /\ has_order (with_b ck_tab (ck_bstar Rarith)) 4.
Proof.
  split; [apply (exact_order_ok _ ([] :: ck_a Qarith) (ck_b Qarith))|apply (exact_order_ok _ ([] :: ck_a Qarith) (ck_bstar Qarith))]; try (vm_compute; reflexivity); relqs.
Qed.
Theorem C76_dp5_order : has_order dp5_tab 5 /\ has_order (with_b dp5_tab (dp5_bstar Rarith)) 4.
Proof.
  split; [apply (exact_order_ok _ ([] :: dp5_a Qarith) (dp5_b Qarith))|apply (exact_order_ok _ ([] :: dp5_a Qarith) (dp5_bstar Qarith))]; try (vm_compute; reflexivity); relqs.
Qed.

(** ** Balls: a fixed-point number with 68 binary digits after the point and a bound of the error in units of the last digit *)
Definition bp : Z := 68.
Definition bS : Z := Z.pow 2 68.
Definition ball := option (Z * Z).
Definition Bnum : numops ball := mkNum ball (Some (0, 0)%Z) (Some (bS, 0)%Z)
  (fun a b => match a, b with Some (m1, r1), Some (m2, r2) => Some (m1 + m2, r1 + r2)%Z | _, _ => None end)
  (fun a b => match a, b with Some (0, 0)%Z, Some _ | Some _, Some (0, 0)%Z => Some (0, 0)%Z
     | Some (m1, r1), Some (m2, r2) => Some (Z.shiftr (m1 * m2) bp, Z.shiftr (Z.abs m1 * r2 + Z.abs m2 * r1 + r1 * r2) bp + 2)%Z | _, _ => None end)
  (fun a b => match a, b with Some (m1, r1), Some (m2, r2) => Some (m1 - m2, r1 + r2)%Z | _, _ => None end)
  (fun a => match a with Some (m, r) => Some (- m, r)%Z | None => None end)
  (fun a b => match a, b with Some (m1, 0%Z), Some (Zpos m2, 0%Z) => Some (m1 * bS / Zpos m2, 1)%Z | _, _ => None end).
Definition Barith : arith ball := mkArith ball Bnum (fun _ _ => false) (fun z => Some (z * bS, 0)%Z) (fun a => a).
Definition relb (a : ball) (x : R) : Prop := match a with Some (m, r) => (Rabs (x * IZR bS - IZR m) <= IZR r)%R | None => True end.
Lemma bS_pos : (0 < IZR bS)%R.
Proof. apply IZR_lt. reflexivity. Qed.
Lemma bS_pow : bS = (2 ^ bp)%Z.
Proof. reflexivity. Qed.
Lemma floor_bounds : forall z, (IZR (Z.shiftr z bp) * IZR bS <= IZR z < (IZR (Z.shiftr z bp) + 1) * IZR bS)%R.
Proof.
  intros z. rewrite Z.shiftr_div_pow2 by (cbv; discriminate). rewrite <- bS_pow. pose proof (Z.div_mod z bS ltac:(discriminate)) as HD. pose proof (Z.mod_pos_bound z bS ltac:(reflexivity)) as HM. set (d := (z / bS)%Z) in *. set (s := bS) in *. clearbody s d.
  replace ((IZR d + 1) * IZR s)%R with (IZR ((d + 1) * s)) by (rewrite mult_IZR, plus_IZR; reflexivity). rewrite <- mult_IZR. split; [apply IZR_le; nia|apply IZR_lt; nia].
Qed.
Lemma relb_0 : relb (n0 Bnum) (n0 Rnum).
Proof. cbn [relb Bnum n0 Rnum]. rewrite Rmult_0_l, Rminus_0_r, Rabs_R0. apply Rle_refl. Qed.
Lemma relb_lit : forall z, relb (alit Barith z) (alit Rarith z).
Proof. intros z. cbn [relb Barith Rarith alit]. rewrite mult_IZR, Rminus_eq_0, Rabs_R0. apply Rle_refl. Qed.
Lemma relb_1 : relb (n1 Bnum) (n1 Rnum).
Proof. cbn [relb Bnum n1 Rnum]. rewrite Rmult_1_l, Rminus_eq_0, Rabs_R0. apply Rle_refl. Qed.
Lemma relb_add : forall a b c d, relb a b -> relb c d -> relb (nadd Bnum a c) (nadd Rnum b d).
Proof.
  intros [[m1 r1]|] b [[m2 r2]|] d H1 H2; cbn [relb Bnum Rnum nadd] in *; auto. rewrite !plus_IZR. generalize dependent (IZR bS). intros s H1 H2.
  replace ((b + d) * s - (IZR m1 + IZR m2))%R with ((b * s - IZR m1) + (d * s - IZR m2))%R by ring. eapply Rle_trans; [apply Rabs_triang|lra].
Qed.
Lemma relb_mul0 : forall m1 r1 b m2 r2 d, relb (Some (m1, r1)) b -> relb (Some (m2, r2)) d ->
  relb (Some (Z.shiftr (m1 * m2) bp, Z.shiftr (Z.abs m1 * r2 + Z.abs m2 * r1 + r1 * r2) bp + 2)%Z) (b * d)%R.
Proof.
  intros m1 r1 b m2 r2 d H1 H2. cbn [relb] in *. rewrite plus_IZR. pose proof bS_pos as HS.
  pose proof (floor_bounds (m1 * m2)) as F1. pose proof (floor_bounds (Z.abs m1 * r2 + Z.abs m2 * r1 + r1 * r2)) as F2. rewrite !plus_IZR, !mult_IZR, !abs_IZR in F2. rewrite mult_IZR in F1.
  set (u := IZR (Z.shiftr (m1 * m2) bp)) in *. set (w := IZR (Z.shiftr (Z.abs m1 * r2 + Z.abs m2 * r1 + r1 * r2) bp)) in *. generalize dependent (IZR bS). clearbody u w. intros s H1 H2 HS F1 F2.
  set (e1 := (b * s - IZR m1)%R) in *. set (e2 := (d * s - IZR m2)%R) in *.
  assert (E : (Rabs (b * d * s - u) * s <= (w + 2) * s)%R).
  { rewrite <- (Rabs_pos_eq s) at 2 by lra. rewrite <- Rabs_mult. replace ((b * d * s - u) * s)%R with ((IZR m1 * IZR m2 - u * s) + (IZR m1 * e2 + IZR m2 * e1 + e1 * e2))%R by (unfold e1, e2; ring).
    eapply Rle_trans; [apply Rabs_triang|]. assert (A1 : (Rabs (IZR m1 * IZR m2 - u * s) <= s)%R) by (apply Rabs_le; lra).
    assert (A2 : (Rabs (IZR m1 * e2 + IZR m2 * e1 + e1 * e2) <= Rabs (IZR m1) * IZR r2 + Rabs (IZR m2) * IZR r1 + IZR r1 * IZR r2)%R).
    { pose proof (Rabs_pos (IZR m1)). pose proof (Rabs_pos (IZR m2)). pose proof (Rabs_pos e1). pose proof (Rabs_pos e2).
      eapply Rle_trans; [apply Rabs_triang|]. eapply Rle_trans; [apply Rplus_le_compat_r, Rabs_triang|]. rewrite !Rabs_mult. nra. }
    lra. }
  apply Rmult_le_reg_r in E; [exact E|exact HS].
Qed.
Lemma relb_mul : forall a b c d, relb a b -> relb c d -> relb (nmul Bnum a c) (nmul Rnum b d).
Proof.
  assert (Z0 : forall x, relb (Some (0, 0)%Z) x -> x = 0%R).
  { intros x HX. cbn [relb] in HX. pose proof bS_pos. rewrite Rminus_0_r in HX. pose proof (Rabs_pos (x * IZR bS)) as HP. apply Rle_antisym in HX; [|exact HP]. symmetry in HX.
    destruct (Req_dec (x * IZR bS) 0) as [E|E]; [|apply Rabs_no_R0 in E; lra]. apply Rmult_integral in E. destruct E; [assumption|lra]. }
  assert (Z1 : relb (Some (0, 0)%Z) 0%R) by exact relb_0.
  intros [[m1 r1]|] b [[m2 r2]|] d H1 H2; try (destruct m1, r1; exact I); try exact I.
  pose proof (relb_mul0 m1 r1 b m2 r2 d H1 H2) as H0. cbn [nmul Rnum].
  destruct m1 as [|m1|m1]; [destruct r1 as [|r1|r1]; [rewrite (Z0 b H1), Rmult_0_l; exact Z1| |]| |]; (destruct m2 as [|m2|m2]; [destruct r2 as [|r2|r2]; [rewrite (Z0 d H2), Rmult_0_r; exact Z1| |]| |]); exact H0.
Qed.
Lemma relb_div : forall p m, relb (ndiv (aops Barith) (alit Barith p) (alit Barith (Zpos m))) (ndiv (aops Rarith) (alit Rarith p) (alit Rarith (Zpos m))).
Proof.
  intros p m. unfold Barith, Rarith. cbn [aops alit]. unfold Bnum, Rnum. cbn [ndiv]. pose proof bS_pos as HS. remember bS as s. destruct s as [|s|s]; [lra| |pose proof (IZR_lt (Zneg s) 0 ltac:(reflexivity)); lra].
  cbn [Z.mul]. cbn [relb]. rewrite <- Heqs. clear Heqs. change (Zpos (m * s)) with (Zpos m * Zpos s)%Z. rewrite Z.div_mul_cancel_r by discriminate.
  pose proof (Z.div_mod (p * Zpos s) (Zpos m) ltac:(discriminate)) as HD. pose proof (Z.mod_pos_bound (p * Zpos s) (Zpos m) ltac:(reflexivity)) as HM.
  set (d := (p * Zpos s / Zpos m)%Z) in *. set (r := ((p * Zpos s) mod Zpos m)%Z) in *. clearbody d r.
  assert (HP : (0 < IZR (Zpos m))%R) by (apply IZR_lt; reflexivity). replace (IZR p / IZR (Zpos m) * IZR (Zpos s) - IZR d)%R with (IZR r / IZR (Zpos m))%R.
  - rewrite Rabs_pos_eq; [apply (Rmult_le_reg_r (IZR (Zpos m))); [exact HP|]; unfold Rdiv; rewrite Rmult_assoc, Rinv_l, !Rmult_1_l, Rmult_1_r by lra; apply IZR_le; lia|].
    apply Rmult_le_pos; [apply IZR_le; lia|]. left. apply Rinv_0_lt_compat. exact HP.
  - replace (IZR p * IZR (Z.pos s))%R with (IZR (p * Z.pos s)) by apply mult_IZR. apply (Rmult_eq_reg_r (IZR (Zpos m))); [|lra]. unfold Rdiv. rewrite Rmult_assoc, Rinv_l, Rmult_1_r by lra.
    replace ((IZR p * / IZR (Z.pos m) * IZR (Z.pos s) - IZR d) * IZR (Z.pos m))%R with (IZR p * IZR (Z.pos s) - IZR d * IZR (Z.pos m))%R by (field; lra). rewrite <- !mult_IZR, <- minus_IZR. f_equal. lia.
Qed.
Definition ball_order (K : Z) (a : list (list ball)) (b : list ball) (p : nat) : bool :=
  all_trees Bnum (fun t w => match w with Some (m, r) => ((Z.abs (m * density t - bS) + r * density t) * K <=? density t * bS)%Z | None => false end) a b p.
Lemma ball_order_ok : forall K c a b a' b' p, (0 < K)%Z -> Forall2 (Forall2 relb) a a' -> Forall2 relb b b' -> ball_order K a b p = true -> has_order_within (/ IZR K) (Tab c a' b') p.
Proof.
  intros K c a b a' b' p HK HA HB H t HT. unfold ball_order in H. apply (all_trees_ok Bnum _ a b p t) in H; [|exact HT].
  pose proof (cweight_rel Bnum Rnum relb relb_0 relb_1 relb_add relb_mul a a' b b' t HA HB) as HR. rewrite (cweight_spec c) in HR. destruct (cweight Bnum a b t) as [[m r]|]; [|discriminate]. cbn [relb] in HR.
  pose proof (density_pos t) as HD. pose proof bS_pos as HS. apply Z.leb_le in H. apply IZR_le in H. rewrite !mult_IZR, plus_IZR, abs_IZR, minus_IZR, !mult_IZR in H. apply IZR_lt in HD. apply IZR_lt in HK.
  set (w := elementary_weight _ t) in *. generalize dependent (IZR bS). generalize dependent (IZR (density t)). generalize dependent (IZR K). intros k HK g HD s HS HR H.
  apply (Rmult_le_reg_r (g * s * k)); [repeat apply Rmult_lt_0_compat; auto|]. replace (/ k * (g * s * k))%R with (g * s)%R by (field; lra).
  replace (Rabs (w - / g) * (g * s * k))%R with (Rabs (w * s * g - s) * k)%R.
  2:{ rewrite <- (Rabs_pos_eq (g * s)) by (apply Rmult_le_pos; lra). rewrite <- Rmult_assoc, <- Rabs_mult. f_equal. f_equal. field. lra. }
  assert (E : (Rabs (w * s * g - s) <= Rabs (IZR m * g - s) + IZR r * g)%R).
  { replace (w * s * g - s)%R with ((IZR m * g - s) + (w * s - IZR m) * g)%R by ring. eapply Rle_trans; [apply Rabs_triang|]. rewrite (Rabs_mult _ g), (Rabs_pos_eq g) by lra. nra. }
  nra.
Qed.
Ltac relbs := unfold dp8_a, dp8_b8, dp8_b7;
  repeat match goal with
  | |- Forall2 _ [] [] => apply Forall2_nil | |- Forall2 _ (_ :: _) (_ :: _) => apply Forall2_cons
  | |- relb (alit _ ?z) _ => exact (relb_lit z) | |- relb (ndiv _ (alit _ ?p) (alit _ (Zpos ?m))) _ => exact (relb_div p m) end.
Theorem C76_dp8_order : has_order_within (/ IZR (10 ^ 17)) dp8_tab 8 /\ has_order_within (/ IZR (10 ^ 17)) (with_b dp8_tab (dp8_b7 Rarith)) 7.
Proof.
  split.
  - apply (ball_order_ok (10 ^ 17) (0%R :: dp8_c Rarith) ([] :: dp8_a Barith) (dp8_b8 Barith) ([] :: dp8_a Rarith) (dp8_b8 Rarith) 8); [reflexivity|relbs|relbs|].
    vm_cast_no_check (eq_refl true).
  - apply (ball_order_ok (10 ^ 17) (0%R :: dp8_c Rarith) ([] :: dp8_a Barith) (dp8_b7 Barith) ([] :: dp8_a Rarith) (dp8_b7 Rarith) 7); [reflexivity|relbs|relbs|].
    vm_cast_no_check (eq_refl true).
Qed.

(** ** The nodes of Dormand-Prince 8 are the sums of its rounded rows up to 2e-17 *)
Definition qsum (l : list Qc) : Qc := fold_right (nadd Num.Qnum) (n0 Num.Qnum) l.
Definition sums_ok (e : Q) (c : list Qc) (a : list (list Qc)) : bool :=
  forallb (fun '(c, r) => let d := (this c - this (qsum r))%Q in Qle_bool d e && Qle_bool (- d)%Q e) (combine c a).
Lemma qsum_rel : forall l l', Forall2 relq l l' -> relq (qsum l) (sum_list l').
Proof. induction 1 as [|x y l l' H HF IH]; [apply relq_0|]. cbn [qsum sum_list fold_right]. apply relq_add; assumption. Qed.
Lemma sums_ok_ok : forall e c c' a a', Forall2 relq c c' -> Forall2 (Forall2 relq) a a' -> sums_ok e c a = true ->
  forall i, i < length c' -> i < length a' -> (Rabs (nth i c' 0 - sum_list (nth i a' [])) <= Q2R e)%R.
Proof.
  intros e c c' a a' HC. revert a a'. induction HC as [|x y c c' H HC IH]; intros a a' HA HS i HI HJ; [cbn in HI; lia|]. destruct HA as [|r r' a a' HR HA]; [cbn in HJ; lia|].
  cbn [sums_ok combine forallb] in HS. apply andb_prop in HS as [HS1 HS2]. apply andb_prop in HS1 as [B1 B2]. destruct i as [|i]; cbn [nth].
  - apply Qle_bool_iff, Qle_Rle in B1. apply Qle_bool_iff, Qle_Rle in B2. rewrite Q2R_minus in B1. rewrite Q2R_opp, Q2R_minus in B2. rewrite H, (qsum_rel _ _ HR). apply Rabs_le. lra.
  - apply (IH a a' HA HS2); cbn in HI, HJ; lia.
Qed.
Ltac relqf := unfold dp8_a, dp8_c;
  repeat match goal with
  | |- Forall2 _ [] [] => apply Forall2_nil | |- Forall2 _ (_ :: _) (_ :: _) => apply Forall2_cons
  | |- relq (alit _ ?z) _ => exact (relq_lit z) | |- relq (ndiv _ (alit _ ?p) (alit _ ?m)) _ => refine (relq_div _ _ _ _ (relq_lit p) (relq_lit m) _); discriminate end.
Theorem C76_dp8_row_sums : forall i, i < length (tab_c dp8_tab) -> (Rabs (nth i (tab_c dp8_tab) 0 - sum_list (nth i (tab_a dp8_tab) [])) <= Q2R (2 # 100000000000000000))%R.
Proof.
  intros [|i] HI; [cbn [dp8_tab tab_c tab_a nth sum_list fold_right]; rewrite Rminus_0_r, Rabs_R0; unfold Q2R; cbn; lra|]. cbn [dp8_tab tab_c tab_a nth length] in *.
  apply (sums_ok_ok _ (dp8_c Qarith) _ (dp8_a Qarith) _); [relqf|relqf|vm_cast_no_check (eq_refl true)|lia|cbn in HI |- *; lia].
Qed.
