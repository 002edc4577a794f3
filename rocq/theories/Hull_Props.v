(** * C42: the convex hull *)

From Coq Require Import List Bool Arith ZArith Lia Permutation Sorted Reals Lra QArith Qcanon.
From Verif Require Import Base Num RootFind_Model RootFind_Proofs RootFind_Props Geom_Model Geom_Spec Hull_Proofs Hull_Main.
Import ListNotations.
Local Open Scope R_scope.

Lemma small_left : forall h q, (length h < 3)%nat -> (forall i, (i < length h)%nat -> orient (vertex h i) (after h i) q = 0) -> left_of_edges h q.
Proof. intros h q _ H i Hi. rewrite H by auto. lra. Qed.
Lemma small_convex : forall h, (length h < 3)%nat -> strictly_convex_ccw h.
Proof.
  intros h Hl i j Hi Hj N1 N2. exfalso. destruct h as [|a [|b [|c h]]]; cbn [length] in *; try lia. destruct i as [|[|i]], j as [|[|j]]; cbn in N2; lia.
Qed.
Lemma small_points : forall h q, (length h < 3)%nat -> In q h -> left_of_edges h q.
Proof.
  intros h q Hl Hq i Hi. unfold after. destruct h as [|a [|b [|c h]]]; cbn [length] in *; try lia.
  - assert (i = 0%nat) by lia. subst i. destruct Hq as [<-|[]]. unfold orient. cbn. lra.
  - destruct i as [|[|i]]; [| |lia]; destruct Hq as [<-|[<-|[]]]; unfold orient; cbn; lra.
Qed.

(** the whole result *)
Lemma hull_ok : forall eps points, resolved eps points -> let h := convex_hull Rarith eps points in
  (forall v, In v h -> In v points) /\ ((3 <= length points)%nat -> NoDup h) /\ strictly_convex_ccw h /\
  (forall q, In q points -> left_of_edges h q) /\ (forall q, In q points -> in_hull h q).
Proof.
  intros eps points HR h. unfold h, convex_hull. clear h. destruct (Nat.ltb_spec (length points) 3) as [L3|L3].
  { split; auto. split; [lia|]. split; [apply small_convex; auto|]. split; [intros q; apply small_points; auto|apply in_hull_vertex]. }
  destruct (prepare_ok eps points HR) as [HS HI]. set (ps := puniq Rarith eps (psort Rarith points)) in *.
  assert (ND : NoDup ps). { clear -HS. induction HS as [|a l HS1 IH HF]; constructor; auto. intros Hin. rewrite Forall_forall in HF. exact (plt_irr _ (HF a Hin)). }
  destruct (Nat.ltb_spec (length ps) 3) as [L|L].
  { split; [intros v; apply HI|]. split; auto. split; [apply small_convex; auto|]. split; intros q Hq; apply HI in Hq; [apply small_points; auto|apply in_hull_vertex; auto]. }
  assert (HRC : resolved_cross eps ps). { apply (resolved_to_cross eps points); auto. intros q; apply HI. }
  destruct ps as [|p0 l] eqn:Eps; [cbn in L; lia|].
  assert (E0 : hd_error (p0 :: l) = Some p0) by reflexivity. set (pn := last (p0 :: l) p0). assert (En : last (p0 :: l) p0 = pn) by reflexivity.
  assert (Ed : p0 <> pn).
  { intros E. destruct (StronglySorted_inv HS) as [HS1 HF]. rewrite Forall_forall in HF. destruct l as [|y l]; [cbn in L; lia|].
    assert (Hin : In (last (y :: l) p0) (y :: l)). { destruct (exists_last (l := y :: l)) as [l' [z Ez]]; [discriminate|]. rewrite Ez, last_last. apply in_or_app; right; left; auto. }
    change (last (p0 :: y :: l) p0) with (last (y :: l) p0) in pn. fold pn in Hin. rewrite <- E in Hin. exact (plt_irr _ (HF p0 Hin)). }
  clearbody pn. rewrite <- Eps in *. clear Eps.
  assert (CI : forall v, In v (chains Rarith eps ps) -> In v ps) by (intros v Hv; apply (poly_in eps ps HRC HS p0 pn E0 En Ed v Hv)).
  pose proof (poly_convex eps ps HRC HS p0 pn E0 En Ed) as CC.
  assert (CL : forall q, In q ps -> left_of_edges (chains Rarith eps ps) q) by (intros q; apply (poly_left eps ps HRC HS p0 pn E0 En Ed)).
  pose proof (poly_length eps ps HRC HS p0 pn E0 En Ed) as [CN _].
  split; [intros v Hv; apply HI; auto|]. split; [intros _; apply (poly_nodup eps ps HRC HS p0 pn E0 En Ed)|]. split; auto.
  split; [intros q Hq; apply CL, HI; auto|]. intros q Hq. apply HI in Hq.
  destruct (Nat.le_gt_cases 3 (length (chains Rarith eps ps))) as [C3|C3]; [apply fan; auto|].
  destruct (stack_shape eps ps HRC HS p0 pn E0 En Ed) as [mL [mU [_ [_ [_ E]]]]]. pose proof (CL q Hq) as LQ. rewrite E in *. cbn [length] in C3. rewrite app_length in C3. cbn [length] in C3.
  assert (RL : rev mL = []) by (destruct (rev mL); [auto|cbn in C3; lia]). assert (RU : rev mU = []) by (destruct (rev mU); [auto|cbn in C3; lia]).
  rewrite RL, RU in *. cbn [app] in *. pose proof (LQ 0%nat ltac:(cbn; lia)) as Q0. pose proof (LQ 1%nat ltac:(cbn; lia)) as Q1. unfold after, vertex in Q0, Q1. cbn in Q0, Q1.
  destruct (L_facts eps ps HRC HS p0 pn E0 En) as [_ [_ [_ [_ [_ [Mn [Mx _]]]]]]].
  apply segment; auto. rewrite orient_cr in *. rewrite cr_eq in *. lra.
Qed.

(** ** C42 *)
(** vertices are input points, each once (for three or more points), in strictly counter-clockwise convex position *)
Theorem C42_convex : forall eps points, resolved eps points -> let h := convex_hull Rarith eps points in
  (forall v, In v h -> In v points) /\ ((3 <= length points)%nat -> NoDup h) /\ strictly_convex_ccw h.
Proof. intros eps points HR. cbv zeta. destruct (hull_ok eps points HR) as [A [B [C _]]]. auto. Qed.

(** every input point is to the left of or on every edge, and is a convex combination of the vertices: the polygon is
    the convex hull *)
Theorem C42_contains : forall eps points q, resolved eps points -> In q points ->
  left_of_edges (convex_hull Rarith eps points) q /\ in_hull (convex_hull Rarith eps points) q.
Proof. intros eps points q HR Hq. destruct (hull_ok eps points HR) as [_ [_ [_ [D E]]]]. auto. Qed.

(** any half-plane that contains the vertices contains every input point *)
Theorem C42_half_planes : forall eps points al be ga, resolved eps points ->
  (forall v, In v (convex_hull Rarith eps points) -> 0 <= affine al be ga v) -> forall q, In q points -> 0 <= affine al be ga q.
Proof. intros eps points al be ga HR H q Hq. eapply in_hull_affine; [apply (C42_contains eps points q HR Hq)|exact H]. Qed.

(** points that are not all on one line give at least three vertices *)
Theorem C42_not_collinear : forall eps points a b c, resolved eps points -> In a points -> In b points -> In c points -> orient a b c <> 0 ->
  (3 <= length (convex_hull Rarith eps points))%nat.
Proof.
  intros eps points a b c HR Ha Hb Hc N. destruct (Nat.le_gt_cases 3 (length (convex_hull Rarith eps points))) as [G|G]; auto. exfalso. apply N.
  pose proof (proj2 (C42_contains eps points a HR Ha)) as Ia. pose proof (proj2 (C42_contains eps points b HR Hb)) as Ib. pose proof (proj2 (C42_contains eps points c HR Hc)) as Ic.
  destruct (convex_hull Rarith eps points) as [|x [|y [|z h]]]; cbn [length] in G; try lia.
  - destruct Ia as [? [? [? [? [? [? [[] _]]]]]]].
  - assert (P : forall q, in_hull [x] q -> q = x).
    { intros q [a1 [b1 [c1 [u [v [w [[<-|[]] [[<-|[]] [[<-|[]] [_ [_ [_ [S ->]]]]]]]]]]]]]. destruct x as [x1 x2]. cbn [fst snd]. f_equal; rewrite <- !Rmult_plus_distr_r, S; ring. }
    rewrite (P a Ia), (P b Ib), (P c Ic). unfold orient. ring.
  - assert (P : forall q, in_hull [x; y] q -> exists t, q = (fst x + t * (fst y - fst x), snd x + t * (snd y - snd x))).
    { intros q [a1 [b1 [c1 [u [v [w [A1 [B1 [C1 [_ [_ [_ [S ->]]]]]]]]]]]]]. assert (u = 1 - v - w) by lra. subst u.
      destruct A1 as [<-|[<-|[]]], B1 as [<-|[<-|[]]], C1 as [<-|[<-|[]]];
        [exists 0|exists w|exists v|exists (v + w)|exists (1 - v - w)|exists (1 - v)|exists (1 - w)|exists 1]; f_equal; ring. }
    destruct (P a Ia) as [t1 ->], (P b Ib) as [t2 ->], (P c Ic) as [t3 ->]. unfold orient. cbn [fst snd]. ring.
Qed.

(** integer coordinates are resolved by any tolerance below one *)
Theorem C42_integer_points : forall eps points, 0 < eps < 1 -> (forall p, In p points -> exists x y, p = (IZR x, IZR y)) -> resolved eps points.
Proof.
  intros eps points He Hi. split; [lra|]. split.
  - intros a b Ha Hb N. destruct (Hi a Ha) as [ax [ay ->]], (Hi b Hb) as [bx [by_ ->]]. cbn [fst snd]. rewrite <- !minus_IZR, <- !abs_IZR.
    destruct (Z.eq_dec ax bx) as [->|E]; [right|left].
    + assert (ay <> by_) by congruence. assert (1 <= IZR (Z.abs (ay - by_))) by (apply (IZR_le 1); lia). lra.
    + assert (1 <= IZR (Z.abs (ax - bx))) by (apply (IZR_le 1); lia). lra.
  - intros a b c Ha Hb Hc. destruct (Hi a Ha) as [ax [ay ->]], (Hi b Hb) as [bx [by_ ->]], (Hi c Hc) as [cx [cy ->]]. unfold orient. cbn [fst snd].
    rewrite <- !minus_IZR, <- !mult_IZR, <- minus_IZR. set (z := ((bx - ax) * (cy - ay) - (by_ - ay) * (cx - ax))%Z).
    destruct (Z.le_gt_cases z 0) as [G|G]; [left; apply (IZR_le z 0); auto|right]. assert (1 <= IZR z) by (apply (IZR_le 1); lia). lra.
Qed.

(** the order in which the points are given does not matter *)
Theorem C42_order_independent : forall eps a b, Permutation a b -> (3 <= length a)%nat -> convex_hull Rarith eps a = convex_hull Rarith eps b.
Proof.
  intros eps a b HP Hl. unfold convex_hull. rewrite <- (Permutation_length HP). destruct (Nat.ltb_spec (length a) 3); [lia|].
  assert (E : psort Rarith a = psort Rarith b); [|rewrite E; reflexivity].
  assert (P : Permutation (psort Rarith a) (psort Rarith b)) by (rewrite <- (psort_perm a), <- (psort_perm b); exact HP).
  pose proof (psort_sorted a) as Sa. pose proof (psort_sorted b) as Sb. revert P Sa Sb. generalize (psort Rarith a) (psort Rarith b). clear.
  induction l as [|x l IH]; intros l2 P Sa Sb. { apply Permutation_nil in P. auto. }
  destruct l2 as [|y l2]. { symmetry in P. apply Permutation_nil in P. discriminate. }
  inversion Sa as [|? ? Sa1 Fa]; subst. inversion Sb as [|? ? Sb1 Fb]; subst. rewrite Forall_forall in Fa, Fb.
  assert (x = y).
  { assert (Ix : In x (y :: l2)) by (apply (Permutation_in _ P); left; auto). assert (Iy : In y (x :: l)) by (apply (Permutation_in _ (Permutation_sym P)); left; auto).
    destruct Ix as [|Ix]; auto. destruct Iy as [|Iy]; auto. specialize (Fa y Iy). specialize (Fb x Ix). destruct (plt_total x y) as [G|[G|G]]; auto; contradiction. }
  subst y. f_equal. apply IH; auto. eapply Permutation_cons_inv; eauto.
Qed.

(** the array of 2n points is large enough, in any arithmetic, and what is popped was pushed: with n >= 1 points the stack
    holds between 1 and 2n - 1 of them after every step *)
Lemma step_length : forall {T} (A : arith T) eps lowest p st, (length (chain_step A eps lowest st p) <= S (length st))%nat /\ (1 <= length (chain_step A eps lowest st p))%nat.
Proof.
  intros T A eps lowest p st. unfold chain_step. cbn [length]. split; [|lia]. apply le_n_S. induction st as [|b [|a st] IH]; cbn [pop_while]; auto.
  destruct (_ && _); [|auto]. cbn [length] in *. etransitivity; [exact IH|lia].
Qed.
Lemma fold_length : forall {T} (A : arith T) eps lowest l st, (length (fold_left (chain_step A eps lowest) l st) <= length l + length st)%nat.
Proof.
  intros T A eps lowest l. induction l as [|p l IH]; intros st; cbn [fold_left length]; [lia|]. etransitivity; [apply IH|].
  pose proof (proj1 (step_length A eps lowest p st)). lia.
Qed.
Theorem C42_hull_size : forall {T} (A : arith T) (eps : T) pts,
  (forall k, (length (fold_left (chain_step A eps 2) (firstn k pts) []) <= length pts)%nat) /\
  (forall k, let lower := fold_left (chain_step A eps 2) pts [] in
     (length (fold_left (chain_step A eps (S (length lower))) (firstn k (rev (firstn (length pts - 1) pts))) lower) <= 2 * length pts)%nat) /\
  (pts <> [] -> (1 <= length (hull_stack A eps pts) <= 2 * length pts - 1)%nat).
Proof.
  intros T A eps pts.
  assert (L0 : forall k, (length (fold_left (chain_step A eps 2) (firstn k pts) []) <= length pts)%nat).
  { intros k. etransitivity; [apply fold_length|]. rewrite firstn_length. cbn [length]. lia. }
  assert (L1 : (length (fold_left (chain_step A eps 2) pts []) <= length pts)%nat). { etransitivity; [apply fold_length|]. cbn; lia. }
  split; [exact L0|]. split.
  - intros k. cbv zeta. etransitivity; [apply fold_length|]. rewrite firstn_length, rev_length, firstn_length. lia.
  - intros N. destruct (length pts) as [|n] eqn:E; [destruct pts; [congruence|discriminate]|]. rewrite <- E in *. split.
    + unfold hull_stack. generalize (S (length (fold_left (chain_step A eps 2) pts []))). generalize (rev (firstn (length pts - 1) pts)).
      intros l m. destruct l as [|y l] using rev_ind.
      * cbn. destruct pts as [|x l] using rev_ind; [congruence|]. rewrite fold_left_app. cbn [fold_left]. apply step_length.
      * rewrite fold_left_app. cbn [fold_left]. apply step_length.
    + unfold hull_stack. etransitivity; [apply fold_length|]. rewrite rev_length, firstn_length. lia.
Qed.

Print Assumptions C42_convex.
Print Assumptions C42_contains.
Print Assumptions C42_half_planes.
Print Assumptions C42_not_collinear.
Print Assumptions C42_integer_points.
Print Assumptions C42_order_independent.
Print Assumptions C42_hull_size.

(** ** Computed, over the rationals *)
Local Open Scope nat_scope.
Definition qp (x y : Z) : Qc * Qc := (q x 1, q y 1).
Definition showp (p : Qc * Qc) := (showq (fst p), showq (snd p)).
Definition iz (p : Qc * Qc) : Z * Z := (QArith_base.Qnum (this (fst p)), QArith_base.Qnum (this (snd p))).
Example C42_computed : map iz (convex_hull Qarith (q 1 10000000000) [qp 2 2; qp 0 0; qp 4 0; qp 2 0; qp 4 4; qp 0 4; qp 1 3; qp 4 0; qp 6 2])
  = [(0, 0); (4, 0); (6, 2); (4, 4); (0, 4)]%Z.
Proof. vm_compute. reflexivity. Qed.
Example C42_collinear_computed : map iz (convex_hull Qarith (q 1 10000000000) [qp 2 2; qp 0 0; qp 4 4; qp 1 1]) = [(0, 0); (4, 4)]%Z.
Proof. vm_compute. reflexivity. Qed.
(** the hypothesis is met by real points *)
Example C42_resolved : resolved (1 / 10000000000)%R [(2, 2); (0, 0); (4, 0); (2, 0); (4, 4); (0, 4); (1, 3); (4, 0); (6, 2)]%R.
Proof. apply C42_integer_points; [lra|]. intros p Hp. repeat (destruct Hp as [<-|Hp]; [eexists _, _; reflexivity|]). destruct Hp. Qed.

(** without the hypothesis the claim is false: the tolerance 1e-10 is compared with an area.  A square of side 1e-6
    (its corners are distinct for the program, being 1e-6 apart) has "hull" two of its corners. *)
Definition tiny : list (Qc * Qc) := map (fun p => ((fst p * q 1 1000000)%Qc, (snd p * q 1 1000000)%Qc)) [qp 0 0; qp 1 0; qp 1 1; qp 0 1].
Theorem C42_tolerance_refuted : length (puniq Qarith (q 1 10000000000) (psort Qarith tiny)) = 4 /\
  map showp (convex_hull Qarith (q 1 10000000000) tiny) = [((0%Z, 1%positive), (0%Z, 1%positive)); ((1%Z, 1000000%positive), (1%Z, 1000000%positive))] /\
  Qcltb (q 0 1) (cross Qarith (nth 0 tiny (qp 0 0)) (nth 1 tiny (qp 0 0)) (nth 2 tiny (qp 0 0))) = true.
Proof. vm_compute. auto. Qed.
Print Assumptions C42_tolerance_refuted.
