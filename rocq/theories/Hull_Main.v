(** * The polygon computed by the convex hull, over the real numbers *)

From Coq Require Import List Bool Arith ZArith Lia Permutation Sorted Reals Lra.
From Verif Require Import Base Num RootFind_Model RootFind_Proofs Geom_Model Geom_Spec Hull_Proofs.
Import ListNotations.
Local Open Scope R_scope.

Lemma orient_cr : forall a b c, orient a b c = cr a b c.
Proof. reflexivity. Qed.

(** ** The polygon of the two chains *)
Lemma chain_ends : forall eps pts p0 pn, resolved_cross eps pts -> StronglySorted plt pts -> hd_error pts = Some p0 -> last pts p0 = pn -> p0 <> pn ->
  exists mid, chain eps pts = pn :: mid ++ [p0].
Proof.
  intros eps pts p0 pn HR HS H1 H2 H3. destruct pts as [|p l]; [discriminate|]. cbn in H1. injection H1 as ->.
  destruct (chain_facts eps p0 l HR HS) as [_ [_ [L [H [N _]]]]]. rewrite H2 in H.
  destruct (chain eps (p0 :: l)) as [|t st]; [congruence|]. cbn [hd] in H. subst t.
  destruct st as [|s st]. { cbn in L. congruence. }
  destruct (exists_last (l := s :: st)) as [mid [z E]]; [discriminate|]. rewrite E in *. exists mid. f_equal. f_equal.
  change (pn :: mid ++ [z]) with ((pn :: mid) ++ [z]) in L. rewrite last_last in L. subst z; auto.
Qed.

Lemma adj_split : forall {A} (U0 Lt : list A) c pre a b post, U0 ++ c :: Lt = pre ++ b :: a :: post ->
  (exists pre' post', U0 ++ [c] = pre' ++ b :: a :: post') \/ (exists pre' post', c :: Lt = pre' ++ b :: a :: post').
Proof.
  intros A U0. induction U0 as [|u U0 IH]; intros Lt c pre a b post E; cbn [app] in *.
  - right. exists pre, post. auto.
  - destruct pre as [|x pre]; cbn [app] in E; injection E as -> E.
    + left. destruct U0 as [|u' U0]; cbn [app] in E; injection E as -> E.
      * exists [], []. reflexivity.
      * exists [], (U0 ++ [c]). reflexivity.
    + destruct (IH _ _ _ _ _ _ E) as [[p' [q' E']]|[p' [q' E']]]; [left|right; eauto]. exists (x :: p'), q'. rewrite E'. reflexivity.
Qed.

Lemma nth_rev_adj : forall {A} (d : A) (l : list A) i, (S i < length l)%nat -> exists pre post, l = pre ++ nth (S i) (rev l) d :: nth i (rev l) d :: post.
Proof.
  intros A d l i H. exists (firstn (length l - S (S i)) l), (skipn (length l - i) l).
  rewrite !rev_nth by lia. set (k := (length l - S (S i))%nat). replace (length l - S i)%nat with (S k) by (unfold k; lia).
  replace (length l - i)%nat with (S (S k)) by (unfold k; lia). assert (Hk : (S k < length l)%nat) by (unfold k; lia). clearbody k. clear H i.
  revert k Hk. induction l as [|x l IH]; intros k Hk; [cbn in Hk; lia|]. destruct k as [|k].
  - destruct l as [|y l]; [cbn in Hk; lia|]. reflexivity.
  - cbn [firstn skipn nth app]. f_equal. apply IH. cbn in Hk; lia.
Qed.

Section Polygon.
Context (eps : R) (pts : list pt) (HR : resolved_cross eps pts) (HS : StronglySorted plt pts) (p0 pn : pt)
        (H0 : hd_error pts = Some p0) (Hn : last pts p0 = pn) (Hd : p0 <> pn).
Let L := chain eps pts.
Let C := chain eps (flip pts).
Let U := map neg C.

Lemma flip_ends : hd_error (flip pts) = Some (neg pn) /\ last (flip pts) (neg pn) = neg p0.
Proof.
  destruct (exists_last (l := pts)) as [l' [z Ez]]. { destruct pts; discriminate. }
  unfold flip. split.
  - rewrite Ez, rev_app_distr. cbn. rewrite Ez, last_last in Hn. subst z; auto.
  - destruct pts as [|p l]; [discriminate|]. cbn in H0. injection H0 as ->. cbn [rev]. rewrite map_app. apply last_last.
Qed.
Lemma L_ends : exists mid, L = pn :: mid ++ [p0].
Proof. apply chain_ends; auto. Qed.
Lemma C_ends : exists mid, C = neg p0 :: mid ++ [neg pn].
Proof.
  destruct flip_ends as [F1 F2]. apply chain_ends; auto.
  - apply resolved_flip; auto.
  - apply flip_sorted; auto.
  - intros E. apply neg_inj in E. congruence.
Qed.
Lemma stack_shape : exists midL midU, L = pn :: midL ++ [p0] /\ U = p0 :: midU ++ [pn] /\ hull_stack Rarith eps pts = p0 :: midU ++ pn :: midL ++ [p0] /\
  chains Rarith eps pts = p0 :: rev midL ++ pn :: rev midU.
Proof.
  destruct L_ends as [mL EL]. destruct C_ends as [mC EC]. exists mL, (map neg mC).
  assert (EU : U = p0 :: map neg mC ++ [pn]). { unfold U. rewrite EC. cbn [map]. rewrite map_app. cbn [map]. rewrite !neg_neg. reflexivity. }
  assert (ES : hull_stack Rarith eps pts = p0 :: map neg mC ++ pn :: mL ++ [p0]).
  { destruct pts as [|p l] eqn:Ep; [discriminate|]. rewrite hull_stack_eq by auto. fold L C U. rewrite EU, EL. cbn [tl app]. rewrite <- app_assoc. reflexivity. }
  split; auto. split; auto. split; auto. unfold chains. rewrite ES. cbn [tl].
  rewrite rev_app_distr. cbn [rev]. rewrite rev_app_distr. cbn [rev app]. rewrite <- app_assoc. reflexivity.
Qed.

Lemma edge_ok : forall a b pre post, hull_stack Rarith eps pts = pre ++ b :: a :: post ->
  (forall q, In q pts -> 0 <= cr a b q) /\ (forall v, In v L \/ In v U -> v = a \/ v = b \/ 0 < cr a b v).
Proof.
  intros a b pre post E. destruct stack_shape as [mL [mU [EL [EU [ES _]]]]]. rewrite ES in E.
  change (p0 :: mU ++ pn :: mL ++ [p0]) with ((p0 :: mU) ++ pn :: (mL ++ [p0])) in E.
  destruct (adj_split _ _ _ _ _ _ _ E) as [[pre' [post' E']]|[pre' [post' E']]].
  - change ((p0 :: mU) ++ [pn]) with (p0 :: mU ++ [pn]) in E'. rewrite <- EU in E'.
    assert (EC : C = map neg pre' ++ neg b :: neg a :: map neg post').
    { rewrite <- (map_neg_neg C). fold U. rewrite E', map_app. reflexivity. }
    destruct (side eps (flip pts) (resolved_flip _ _ HR) (flip_sorted _ HS) _ _ _ _ EC) as [S1 S2]. split.
    + intros q Hq. rewrite <- cr_neg. apply S1. apply flip_in. rewrite neg_neg. auto.
    + intros v Hv. rewrite <- cr_neg. destruct (S2 (neg v)) as [G|[G|G]].
      * destruct Hv as [Hv|Hv]; [right; rewrite neg_neg, flip_flip; exact Hv|left]. fold C. rewrite <- (map_neg_neg C). apply in_map. exact Hv.
      * left. apply neg_inj; auto.
      * right; left. apply neg_inj; auto.
      * auto.
  - rewrite <- EL in E'. destruct (side eps pts HR HS _ _ _ _ E') as [S1 S2]. split; auto.
    intros v Hv. apply S2. destruct Hv as [Hv|Hv]; auto. right. fold C. rewrite <- (map_neg_neg C). apply in_map. exact Hv.
Qed.
Lemma sorted_nodup : forall l, StronglySorted (fun b a => plt a b) l -> NoDup l.
Proof.
  induction 1 as [|a l HS1 IH HF]; constructor; auto. intros Hin. rewrite Forall_forall in HF. exact (plt_irr _ (HF a Hin)).
Qed.
Lemma C_facts : good (flip pts) C /\ Forall (fun x => In x (flip pts)) C /\ last C (neg pn) = neg pn /\ hd (neg pn) C = neg p0 /\ C <> [] /\
  (forall q, In q (flip pts) -> q = neg pn \/ plt (neg pn) q) /\ (forall q, In q (flip pts) -> q = neg p0 \/ plt q (neg p0)) /\ (length C <= length pts)%nat.
Proof.
  destruct flip_ends as [F1 F2]. unfold C. assert (Len : length (flip pts) = length pts) by (unfold flip; rewrite map_length, rev_length; auto). rewrite <- Len.
  pose proof (resolved_flip _ _ HR) as HR'. pose proof (flip_sorted _ HS) as HS'. destruct (flip pts) as [|z l]; [discriminate|].
  cbn in F1. injection F1 as ->. rewrite <- F2. exact (chain_facts eps (neg pn) l HR' HS').
Qed.
Lemma L_facts : good pts L /\ Forall (fun x => In x pts) L /\ last L p0 = p0 /\ hd p0 L = pn /\ L <> [] /\
  (forall q, In q pts -> q = p0 \/ plt p0 q) /\ (forall q, In q pts -> q = pn \/ plt q pn) /\ (length L <= length pts)%nat.
Proof. unfold L. destruct pts as [|z l]; [discriminate|]. cbn in H0. injection H0 as ->. rewrite <- Hn. exact (chain_facts eps p0 l HR HS). Qed.

Lemma poly_in : forall v, In v (chains Rarith eps pts) -> (In v L \/ In v U) /\ In v pts.
Proof.
  intros v Hv. destruct stack_shape as [mL [mU [EL [EU [_ E]]]]].
  assert (G : In v L \/ In v U).
  { rewrite E in Hv. rewrite EL, EU. destruct Hv as [<-|Hv]; [right; left; auto|]. apply in_app_or in Hv. destruct Hv as [Hv|[<-|Hv]].
    - left. right. apply in_or_app. left. apply in_rev; auto.
    - left; left; auto.
    - right. right. apply in_or_app. left. apply in_rev; auto. }
  split; auto. destruct G as [G|G].
  - destruct L_facts as [_ [F _]]. rewrite Forall_forall in F. auto.
  - destruct C_facts as [_ [F _]]. rewrite Forall_forall in F. apply in_map_iff in G. destruct G as [x [<- Hx]]. apply flip_in. auto.
Qed.
Lemma poly_nodup : NoDup (chains Rarith eps pts).
Proof.
  destruct stack_shape as [mL [mU [EL [EU [_ E]]]]].
  destruct L_facts as [GL [FL [LL [HL [NL [MnL [MxL _]]]]]]]. destruct C_facts as [GC [FC [LC [HC [NC [MnC [MxC _]]]]]]].
  pose proof (sorted_nodup _ (good_sorted _ _ GL)) as DL. pose proof (sorted_nodup _ (good_sorted _ _ GC)) as DC.
  assert (DU : NoDup U). { unfold U. apply FinFun.Injective_map_NoDup; auto. intros x y. apply neg_inj. }
  rewrite EL in DL. rewrite EU in DU. rewrite E.
  assert (P : Permutation (p0 :: rev mL ++ pn :: rev mU) ((mL ++ [p0]) ++ (mU ++ [pn]))).
  { transitivity ((p0 :: mL) ++ (pn :: mU)).
    - cbn [app]. constructor. apply Permutation_app; [symmetry; apply Permutation_rev|constructor; symmetry; apply Permutation_rev].
    - apply Permutation_app; apply Permutation_cons_append. }
  eapply Permutation_NoDup; [symmetry; exact P|].
  apply NoDup_cons_iff in DL. destruct DL as [DL1 DL2]. apply NoDup_cons_iff in DU. destruct DU as [DU1 DU2].
  assert (Disj : forall v, In v (mL ++ [p0]) -> In v (mU ++ [pn]) -> False).
  { intros v V1 V2. assert (VL : In v L) by (rewrite EL; right; auto). assert (VC : In (neg v) C).
    { rewrite <- (map_neg_neg C). apply in_map. fold U. rewrite EU. right; auto. }
    destruct (vertex_cases _ p0 pn LL HL v VL) as [->|[->|[pre [c [a [post Ep]]]]]]; [contradiction..|].
    pose proof (chord _ _ GL FL p0 pn LL HL NL MnL MxL _ _ _ _ _ Ep) as K1.
    destruct (vertex_cases _ (neg pn) (neg p0) LC HC (neg v) VC) as [G|[G|[pre' [c' [a' [post' Ep']]]]]].
    - apply neg_inj in G. subst v. contradiction.
    - apply neg_inj in G. subst v. contradiction.
    - pose proof (chord _ _ GC FC (neg pn) (neg p0) LC HC NC MnC MxC _ _ _ _ _ Ep') as K2. rewrite cr_neg in K2. rewrite cr_eq in K1, K2. lra. }
  revert Disj DL2 DU2. generalize (mL ++ [p0]) (mU ++ [pn]). clear. intros l1 l2 Disj D1 D2. induction l1 as [|x l1 IH]; cbn [app]; auto.
  inversion D1; subst. constructor.
  - rewrite in_app_iff. intros [G|G]; [contradiction|]. apply (Disj x); auto. left; auto.
  - apply IH; auto. intros v V1. apply Disj; right; auto.
Qed.

(** the edges by number *)
Lemma edge_index : forall i, (i < length (chains Rarith eps pts))%nat ->
  exists pre post, hull_stack Rarith eps pts = pre ++ after (chains Rarith eps pts) i :: vertex (chains Rarith eps pts) i :: post.
Proof.
  intros i Hi. destruct stack_shape as [mL [mU [_ [_ [ES E]]]]].
  assert (ER : rev (hull_stack Rarith eps pts) = chains Rarith eps pts ++ [p0]).
  { unfold chains. rewrite ES. cbn [tl rev]. reflexivity. }
  set (h := chains Rarith eps pts) in *.
  assert (Hl : length (hull_stack Rarith eps pts) = S (length h)). { rewrite <- rev_length, ER, app_length; cbn; lia. }
  destruct (nth_rev_adj (0, 0) (hull_stack Rarith eps pts) i) as [pre [post Ep]]; [lia|]. exists pre, post. rewrite Ep at 1. f_equal. rewrite ER.
  unfold after, vertex. f_equal; [|f_equal; apply app_nth1; auto].
  destruct (Nat.eq_dec (S i) (length h)) as [Q|Q].
  - replace (i + 1)%nat with (length h) by lia. rewrite Nat.mod_same by lia. rewrite app_nth2 by lia. rewrite Q, Nat.sub_diag. cbn [nth]. rewrite E. reflexivity.
  - rewrite Nat.mod_small by lia. rewrite app_nth1 by lia. f_equal. lia.
Qed.
Lemma poly_convex : strictly_convex_ccw (chains Rarith eps pts).
Proof.
  intros i j Hi Hj N1 N2. destruct (edge_index i Hi) as [pre [post E]]. destruct (edge_ok _ _ _ _ E) as [_ S].
  assert (In (vertex (chains Rarith eps pts) j) (chains Rarith eps pts)) by (apply nth_In; auto).
  pose proof poly_nodup as ND. rewrite (NoDup_nth _ (0, 0)) in ND.
  destruct (S (vertex (chains Rarith eps pts) j)) as [G|[G|G]]; [apply poly_in; auto| | |exact G].
  - exfalso. apply N1. apply ND; auto.
  - exfalso. apply N2. apply ND; auto. apply Nat.mod_upper_bound. lia.
Qed.
Lemma poly_left : forall q, In q pts -> left_of_edges (chains Rarith eps pts) q.
Proof. intros q Hq i Hi. destruct (edge_index i Hi) as [pre [post E]]. destruct (edge_ok _ _ _ _ E) as [S _]. exact (S q Hq). Qed.
Lemma poly_length : (2 <= length (chains Rarith eps pts) <= length pts)%nat.
Proof.
  split.
  - destruct stack_shape as [mL [mU [_ [_ [_ E]]]]]. rewrite E. cbn [length]. rewrite app_length. cbn [length]. lia.
  - apply NoDup_incl_length; [apply poly_nodup|]. intros v Hv. apply poly_in; auto.
Qed.
End Polygon.

(** ** Sorting and removing duplicates *)
Lemma lex_lt_spec : forall a b, reflect (plt a b) (lex_lt Rarith a b).
Proof.
  intros a b. unfold lex_lt, plt. cbn [altb Rarith]. destruct (Rltb_spec (fst a) (fst b)), (Raeqb (fst a) (fst b)), (Rltb_spec (snd a) (snd b)); cbn; constructor; lra.
Qed.
Definition ple (a b : pt) : Prop := ~ plt b a.
Lemma ple_cases : forall a b, ple a b -> a = b \/ plt a b.
Proof. intros a b H. destruct (plt_total a b) as [G|[G|G]]; auto. contradiction. Qed.
Lemma pinsert_perm : forall x l, Permutation (x :: l) (pinsert Rarith x l).
Proof.
  intros x l. induction l as [|y l IH]; cbn; [reflexivity|]. destruct (lex_lt Rarith y x); [|reflexivity]. rewrite perm_swap. constructor. exact IH.
Qed.
Lemma psort_perm : forall l, Permutation l (psort Rarith l).
Proof. induction l as [|x l IH]; cbn; [reflexivity|]. rewrite <- pinsert_perm. constructor. exact IH. Qed.
Lemma pinsert_sorted : forall x l, StronglySorted ple l -> StronglySorted ple (pinsert Rarith x l).
Proof.
  intros x l. induction l as [|y l IH]; intros HS; cbn. { repeat constructor. }
  inversion HS as [|? ? HS' HF]; subst. destruct (lex_lt_spec y x) as [C|C].
  - constructor; auto. apply Forall_forall. intros z Hz. apply (Permutation_in _ (Permutation_sym (pinsert_perm x l))) in Hz.
    destruct Hz as [<-|Hz]; [|rewrite Forall_forall in HF; auto]. intros G. exact (plt_irr _ (plt_trans _ _ _ C G)).
  - constructor; auto. constructor; auto. rewrite Forall_forall in *. intros z Hz G. specialize (HF z Hz).
    destruct (ple_cases _ _ HF) as [->|K]; [contradiction|]. apply C. eapply plt_trans; eauto.
Qed.
Lemma psort_sorted : forall l, StronglySorted ple (psort Rarith l).
Proof. induction l as [|x l IH]; cbn; [constructor|]. apply pinsert_sorted; auto. Qed.

Lemma near_spec : forall eps pts, resolved eps pts -> forall a b, In a pts -> In b pts -> near Rarith eps a b = true <-> a = b.
Proof.
  intros eps pts [He [Hs _]] a b Ha Hb. unfold near. rewrite !Rabs_aabs. cbn [altb Rarith nsub aops Rnum]. split.
  - intros H. destruct (Rltb_spec (Rabs (fst a - fst b)) eps) as [H1|]; [|discriminate]. destruct (Rltb_spec (Rabs (snd a - snd b)) eps) as [H2|]; [|discriminate].
    destruct (plt_total a b) as [G|[G|G]]; auto; exfalso.
    + destruct (Hs a b Ha Hb); try lra. intros ->. exact (plt_irr _ G).
    + destruct (Hs a b Ha Hb); try lra. intros ->. exact (plt_irr _ G).
  - intros <-. rewrite !Rminus_eq_0, Rabs_R0. destruct (Rltb_spec 0 eps); [reflexivity|lra].
Qed.
Lemma puniq_from_ok : forall eps pts, resolved eps pts -> forall l x, (forall q, In q (x :: l) -> In q pts) -> StronglySorted ple (x :: l) ->
  StronglySorted plt (x :: puniq_from Rarith eps x l) /\ (forall q, In q (x :: puniq_from Rarith eps x l) <-> In q (x :: l)).
Proof.
  intros eps pts HR l. induction l as [|y l IH]; intros x Hin HS; cbn [puniq_from]. { split; [repeat constructor|tauto]. }
  inversion HS as [|? ? HS' HF]; subst. inversion HS' as [|? ? HS'' HF']; subst. inversion HF as [|? ? Hxy HFl]; subst.
  pose proof (near_spec eps pts HR x y (Hin x (or_introl eq_refl)) (Hin y (or_intror (or_introl eq_refl)))) as NS.
  destruct (near Rarith eps x y) eqn:EN.
  - assert (x = y) by (apply NS; auto). subst y. destruct (IH x) as [I1 I2]; auto. { intros q Hq; apply Hin. destruct Hq; [left|right; right]; auto. }
    split; auto. intros q. rewrite I2. cbn [In]. tauto.
  - assert (Pxy : plt x y). { destruct (ple_cases _ _ Hxy) as [G|G]; auto. apply NS in G. discriminate. }
    destruct (IH y) as [I1 I2]; auto. { intros q Hq; apply Hin. right; auto. }
    split.
    + constructor; auto. apply Forall_forall. intros q Hq. apply I2 in Hq. destruct Hq as [<-|Hq]; auto.
      rewrite Forall_forall in HF'. destruct (ple_cases _ _ (HF' q Hq)) as [<-|G]; auto. eapply plt_trans; eauto.
    + intros q. specialize (I2 q). cbn [In] in *. tauto.
Qed.
Lemma prepare_ok : forall eps pts, resolved eps pts ->
  StronglySorted plt (puniq Rarith eps (psort Rarith pts)) /\ (forall q, In q (puniq Rarith eps (psort Rarith pts)) <-> In q pts).
Proof.
  intros eps pts HR. pose proof (psort_sorted pts) as HS. pose proof (psort_perm pts) as HP.
  assert (G : forall q, In q (psort Rarith pts) <-> In q pts). { intros q. split; intros H; [exact (Permutation_in _ (Permutation_sym HP) H)|exact (Permutation_in _ HP H)]. }
  destruct (psort Rarith pts) as [|x l]. { cbn. split; [constructor|exact G]. }
  cbn [puniq]. destruct (puniq_from_ok eps pts HR l x) as [I1 I2]; auto. { intros q Hq; apply G; auto. }
  split; auto. intros q. rewrite I2. apply G.
Qed.
Lemma resolved_to_cross : forall eps pts l, resolved eps pts -> (forall q, In q l -> In q pts) -> resolved_cross eps l.
Proof.
  intros eps pts l [He [_ Hc]] Hin. split; [lra|]. intros a b c Ha Hb Hcc H. destruct (Hc a b c) as [G|G]; auto. rewrite orient_cr in G. lra.
Qed.

(** ** A convex polygon contains what is left of its edges *)
Lemma in_hull_mono : forall h h' q, (forall x, In x h -> In x h') -> in_hull h q -> in_hull h' q.
Proof. intros h h' q H [a [b [c [u [v [w [Ha [Hb [Hc R]]]]]]]]]. exists a, b, c, u, v, w. split; auto. Qed.
Lemma in_hull_vertex : forall h q, In q h -> in_hull h q.
Proof. intros h [x y] H. exists (x, y), (x, y), (x, y), 1, 0, 0. repeat (split; [auto; lra|]). cbn [fst snd]. f_equal; ring. Qed.
Lemma triangle : forall a b c q, 0 < cr a b c -> 0 <= cr a b q -> 0 <= cr b c q -> 0 <= cr c a q -> in_hull [a; b; c] q.
Proof.
  intros [ax ay] [bx by_] [cx cy] [x y] HD H1 H2 H3. rewrite !cr_eq in *. cbn [fst snd] in *.
  set (D := (bx - ax) * (cy - ay) - (by_ - ay) * (cx - ax)) in *.
  exists (ax, ay), (bx, by_), (cx, cy), (((cx - bx) * (y - by_) - (cy - by_) * (x - bx)) / D), (((ax - cx) * (y - cy) - (ay - cy) * (x - cx)) / D), (((bx - ax) * (y - ay) - (by_ - ay) * (x - ax)) / D).
  assert (PD : forall z, 0 <= z -> 0 <= z / D). { intros z Hz. apply Rmult_le_pos; auto. left. apply Rinv_0_lt_compat; auto. }
  split; [cbn; auto|]. split; [cbn; auto|]. split; [cbn; auto|]. split; [auto|]. split; [auto|]. split; [auto|].
  split. { unfold D. field. fold D. lra. }
  cbn [fst snd]. f_equal; unfold D; field; fold D; lra.
Qed.
Lemma segment : forall a b q, cr a b q = 0 -> (q = a \/ plt a q) -> (q = b \/ plt q b) -> in_hull [a; b] q.
Proof.
  intros a b q H1 H2 H3. destruct H2 as [->|H2]; [apply in_hull_vertex; cbn; auto|]. destruct H3 as [->|H3]; [apply in_hull_vertex; cbn; auto|].
  destruct a as [ax ay], b as [bx by_], q as [x y]. rewrite cr_eq in H1. unfold plt in *. cbn [fst snd] in *.
  destruct (Rtotal_order ax bx) as [C|[C|C]]; [| |lra].
  - exists (ax, ay), (bx, by_), (bx, by_), ((bx - x) / (bx - ax)), ((x - ax) / (bx - ax)), 0.
    assert (PD : forall z, 0 <= z -> 0 <= z / (bx - ax)). { intros z Hz. apply Rmult_le_pos; auto. left. apply Rinv_0_lt_compat; lra. }
    split; [cbn; auto|]. split; [cbn; auto|]. split; [cbn; auto|]. split; [apply PD; lra|]. split; [apply PD; lra|]. split; [lra|]. split; [field; lra|].
    cbn [fst snd]. f_equal; [field; lra|]. apply (Rmult_eq_reg_l (bx - ax)); [|lra]. transitivity ((bx - x) * ay + (x - ax) * by_); [lra|field; lra].
  - assert (x = ax) by lra. subst x bx.
    exists (ax, ay), (ax, by_), (ax, by_), ((by_ - y) / (by_ - ay)), ((y - ay) / (by_ - ay)), 0.
    assert (PD : forall z, 0 <= z -> 0 <= z / (by_ - ay)). { intros z Hz. apply Rmult_le_pos; auto. left. apply Rinv_0_lt_compat; lra. }
    split; [cbn; auto|]. split; [cbn; auto|]. split; [cbn; auto|]. split; [apply PD; lra|]. split; [apply PD; lra|]. split; [lra|]. split; [field; lra|].
    cbn [fst snd]. f_equal; field; lra.
Qed.
(** fan of triangles at vertex 0 *)
Lemma fan : forall h q, strictly_convex_ccw h -> (3 <= length h)%nat -> left_of_edges h q -> in_hull h q.
Proof.
  intros h q HC Hl HL. set (n := length h) in *.
  assert (E0 : 0 <= cr (vertex h 0) (vertex h 1) q).
  { specialize (HL 0%nat ltac:(lia)). unfold after in HL. rewrite Nat.mod_small in HL by (fold n; lia). exact HL. }
  assert (EN : 0 <= cr (vertex h (n - 1)) (vertex h 0) q).
  { specialize (HL (n - 1)%nat ltac:(fold n; lia)). unfold after in HL. replace (n - 1 + 1)%nat with (length h) in HL by (fold n; lia). rewrite Nat.mod_same in HL by (fold n; lia). exact HL. }
  assert (IVT : forall k, (1 <= k)%nat -> (k < n)%nat -> cr (vertex h 0) (vertex h k) q <= 0 ->
     exists i, (1 <= i)%nat /\ (i < n)%nat /\ ((i = 1)%nat /\ cr (vertex h 0) (vertex h 1) q = 0 \/ (2 <= i)%nat /\ 0 <= cr (vertex h 0) (vertex h (i - 1)) q /\ cr (vertex h 0) (vertex h i) q <= 0)).
  { induction k as [|k IH]; intros K1 K2 K3; [lia|]. destruct (Nat.eq_dec k 0) as [->|K4].
    - exists 1%nat. split; [lia|]. split; [lia|]. left. split; auto. lra.
    - destruct (Rle_or_lt 0 (cr (vertex h 0) (vertex h k) q)) as [G|G].
      + exists (S k). split; [lia|]. split; auto. right. split; [lia|]. replace (S k - 1)%nat with k by lia. auto.
      + apply IH; try lia. lra. }
  destruct (IVT (n - 1)%nat) as [i [I1 [I2 I3]]]; [lia|lia|rewrite cr_eq in *; lra|].
  assert (VI : forall i, (i < n)%nat -> In (vertex h i) h) by (intros; apply nth_In; auto).
  assert (TR : forall j, (2 <= j)%nat -> (j < n)%nat -> 0 <= cr (vertex h 0) (vertex h (j - 1)) q -> cr (vertex h 0) (vertex h j) q <= 0 -> in_hull h q).
  { intros j J1 J2 J3 J4. apply (in_hull_mono [vertex h 0; vertex h (j - 1); vertex h j]).
    { intros x [<-|[<-|[<-|[]]]]; apply VI; lia. }
    assert (Ea : after h (j - 1) = vertex h j). { unfold after. fold n. rewrite Nat.mod_small by lia. f_equal; lia. }
    pose proof (HL (j - 1)%nat ltac:(fold n; lia)) as L1. rewrite Ea, orient_cr in L1.
    pose proof (HC (j - 1)%nat 0%nat ltac:(fold n; lia) ltac:(fold n; lia) ltac:(lia)) as C1. fold n in C1. rewrite Nat.mod_small in C1 by lia. specialize (C1 ltac:(lia)). rewrite Ea, orient_cr in C1.
    apply triangle; auto; rewrite cr_eq in *; lra. }
  destruct I3 as [[-> I3]|[I3 [I4 I5]]]; [|apply (TR i); auto].
  destruct (Rle_or_lt (cr (vertex h 0) (vertex h 2) q) 0) as [G|G].
  - apply (TR 2%nat); try lia; auto.
  - exfalso.
    (* on the line of edge 0 but left of 0 -> 2 and of 1 -> 2: behind vertex 0, contradicting the last edge *)
    destruct (Nat.eq_dec n 3) as [N3|N3].
    { replace (n - 1)%nat with 2%nat in EN by lia. rewrite cr_eq in *. lra. }
    pose proof (HC 0%nat 2%nat ltac:(fold n; lia) ltac:(fold n; lia) ltac:(lia)) as C1. pose proof (HC 0%nat (n - 1)%nat ltac:(fold n; lia) ltac:(fold n; lia) ltac:(lia)) as C2.
    unfold after in C1, C2. fold n in C1, C2. rewrite Nat.mod_small in C1, C2 by lia. specialize (C1 ltac:(lia)). specialize (C2 ltac:(lia)). cbn [Nat.add] in C1, C2.
    rewrite orient_cr in *. revert E0 EN I3 G C1 C2. generalize (vertex h 0) (vertex h 1) (vertex h 2) (vertex h (n - 1)). clear.
    intros [ax ay] [bx by_] [cx cy] [dx dy] E0 EN I3 G C1 C2. destruct q as [x y]. rewrite cr_eq in *. cbn [fst snd] in *.
    set (ux := bx - ax) in *. set (uy := by_ - ay) in *.
    assert (E1 : ux * ((cx - ax) * (y - ay) - (cy - ay) * (x - ax)) = (cx - ax) * (ux * (y - ay) - uy * (x - ax)) - (x - ax) * (ux * (cy - ay) - uy * (cx - ax))) by ring.
    assert (E2 : uy * ((cx - ax) * (y - ay) - (cy - ay) * (x - ax)) = (cy - ay) * (ux * (y - ay) - uy * (x - ax)) - (y - ay) * (ux * (cy - ay) - uy * (cx - ax))) by ring.
    assert (E3 : (ux * (cy - ay) - uy * (cx - ax)) * ((ax - dx) * (y - dy) - (ay - dy) * (x - dx)) = - ((cx - ax) * (y - ay) - (cy - ay) * (x - ax)) * (ux * (dy - ay) - uy * (dx - ax)) + (ux * (y - ay) - uy * (x - ax)) * ((cx - ax) * (dy - ay) - (cy - ay) * (dx - ax))) by ring.
    rewrite I3 in E3.
    assert (0 <= (ux * (cy - ay) - uy * (cx - ax)) * ((ax - dx) * (y - dy) - (ay - dy) * (x - dx))) by (apply Rmult_le_pos; lra).
    assert (0 < ((cx - ax) * (y - ay) - (cy - ay) * (x - ax)) * (ux * (dy - ay) - uy * (dx - ax))) by (apply Rmult_lt_0_compat; lra). lra.
Qed.
Lemma in_hull_affine : forall h q al be ga, in_hull h q -> (forall v, In v h -> 0 <= affine al be ga v) -> 0 <= affine al be ga q.
Proof.
  intros h q al be ga [a [b [c [u [v [w [Ha [Hb [Hc [Hu [Hv [Hw [Hs ->]]]]]]]]]]]]] H. unfold affine in *. cbn [fst snd].
  replace (al * (u * fst a + v * fst b + w * fst c) + be * (u * snd a + v * snd b + w * snd c) + ga)
    with (u * (al * fst a + be * snd a + ga) + v * (al * fst b + be * snd b + ga) + w * (al * fst c + be * snd c + ga)) by (replace ga with ((u + v + w) * ga) at 4 by (rewrite Hs; ring); ring).
  assert (P : forall x, In x h -> forall t, 0 <= t -> 0 <= t * (al * fst x + be * snd x + ga)) by (intros; apply Rmult_le_pos; auto).
  pose proof (P a Ha u Hu). pose proof (P b Hb v Hv). pose proof (P c Hc w Hw). lra.
Qed.
