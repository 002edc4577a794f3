(** * Proofs about polygon clipping, over the real numbers *)

From Coq Require Import List Bool Arith ZArith Lia Permutation Reals Lra.
From Verif Require Import Base Num RootFind_Model RootFind_Proofs Geom_Model Geom_Spec.
Import ListNotations.
Local Open Scope R_scope.

Notation pt := (R * R)%type.
Notation cr := (cross Rarith).
Lemma cr_orient : forall a b c, cr a b c = orient a b c.
Proof. reflexivity. Qed.
Lemma cr_between : forall s e a b t, cr s e (between a b t) = cr s e a + t * (cr s e b - cr s e a).
Proof. intros. change (cross Rarith) with orient. unfold orient, between. cbn [fst snd]. ring. Qed.
Lemma between0 : forall a b, between a b 0 = a.
Proof. intros [x y] b. unfold between. cbn [fst snd]. f_equal; ring. Qed.
Lemma between1 : forall a b, between a b 1 = b.
Proof. intros a [x y]. unfold between. cbn [fst snd]. f_equal; ring. Qed.
Lemma between_lo : forall u v t m, m <= u -> m <= v -> 0 <= t <= 1 -> m <= u + t * (v - u).
Proof. intros u v t m H1 H2 H3. replace (u + t * (v - u)) with (u * (1 - t) + v * t) by ring. pose proof (Rmult_le_compat_r (1 - t) m u ltac:(lra) H1). pose proof (Rmult_le_compat_r t m v ltac:(lra) H2). lra. Qed.
Lemma between_hi : forall u v t m, u <= m -> v <= m -> 0 <= t <= 1 -> u + t * (v - u) <= m.
Proof. intros u v t m H1 H2 H3. replace (u + t * (v - u)) with (u * (1 - t) + v * t) by ring. pose proof (Rmult_le_compat_r (1 - t) u m ltac:(lra) H1). pose proof (Rmult_le_compat_r t v m ltac:(lra) H2). lra. Qed.
Lemma between_hi_lt : forall u v t m, u < m -> v < m -> 0 <= t <= 1 -> u + t * (v - u) < m.
Proof.
  intros u v t m H1 H2 H3. destruct (Rle_or_lt u v) as [C|C].
  - pose proof (between_hi u v t v C ltac:(lra) H3). lra.
  - pose proof (between_hi u v t u ltac:(lra) ltac:(lra) H3). lra.
Qed.

(** ** The cut of a segment by a line *)
Lemma cut_t : forall p1 p2 s e, cr s e p1 - cr s e p2 <> 0 ->
  ((fst s - fst p1) * (snd e - snd s) - (snd s - snd p1) * (fst e - fst s)) / ((fst p2 - fst p1) * (snd e - snd s) - (snd p2 - snd p1) * (fst e - fst s))
  = cr s e p1 / (cr s e p1 - cr s e p2).
Proof.
  intros p1 p2 s e H. change (cross Rarith) with orient in *. unfold orient in *.
  replace ((fst p2 - fst p1) * (snd e - snd s) - (snd p2 - snd p1) * (fst e - fst s)) with ((fst e - fst s) * (snd p1 - snd s) - (snd e - snd s) * (fst p1 - fst s) - ((fst e - fst s) * (snd p2 - snd s) - (snd e - snd s) * (fst p2 - fst s))) by ring.
  unfold Rdiv. f_equal. ring.
Qed.
Lemma Rmin_amin : forall a b, amin Rarith a b = Rmin a b.
Proof. intros a b. unfold amin, Rmin. cbn [altb Rarith]. destruct (Rltb_spec b a), (Rle_dec a b); lra. Qed.
Lemma Rmax_amax : forall a b, amax Rarith a b = Rmax a b.
Proof. intros a b. unfold amax, Rmax. cbn [altb Rarith]. destruct (Rltb_spec a b), (Rle_dec a b); lra. Qed.

(** what a cut between an inside and an outside end is *)
Lemma seg_line_spec : forall eps p1 p2 s e, 0 <= eps ->
  (- eps <= cr s e p1 /\ cr s e p2 < - eps) \/ (cr s e p1 < - eps /\ - eps <= cr s e p2) ->
  match seg_line Rarith eps p1 p2 s e with
  | Some q => exists t, 0 <= t <= 1 /\ q = between p1 p2 t /\ - eps <= cr s e q <= 0
  | None => (- eps <= cr s e p1 < 0) \/ (- eps <= cr s e p2 < 0)
  end.
Proof.
  intros eps p1 p2 s e He H. set (c1 := cr s e p1) in *. set (c2 := cr s e p2) in *.
  assert (ND : c1 - c2 <> 0) by lra. pose proof (cut_t p1 p2 s e ND) as CT. fold c1 c2 in CT.
  unfold seg_line. rewrite Rabs_aabs, Rmin_amin, Rmax_amax. cbn [altb alit Rarith aops Rnum nsub nmul nadd ndiv nopp] in *.
  set (den := (fst p2 - fst p1) * (snd e - snd s) - (snd p2 - snd p1) * (fst e - fst s)) in *.
  assert (Ed : den = c1 - c2) by (unfold den, c1, c2; change (cross Rarith) with orient; unfold orient; ring).
  change (if Rltb (Rabs den) eps then None else if Rltb (((fst s - fst p1) * (snd e - snd s) - (snd s - snd p1) * (fst e - fst s)) / den) (- eps) || Rltb (1 + eps) (((fst s - fst p1) * (snd e - snd s) - (snd s - snd p1) * (fst e - fst s)) / den) then None
    else Some (fst p1 + Rmax 0 (Rmin 1 (((fst s - fst p1) * (snd e - snd s) - (snd s - snd p1) * (fst e - fst s)) / den)) * (fst p2 - fst p1), snd p1 + Rmax 0 (Rmin 1 (((fst s - fst p1) * (snd e - snd s) - (snd s - snd p1) * (fst e - fst s)) / den)) * (snd p2 - snd p1)))
    with (if Rltb (Rabs den) eps then None else if Rltb (((fst s - fst p1) * (snd e - snd s) - (snd s - snd p1) * (fst e - fst s)) / den) (- eps) || Rltb (1 + eps) (((fst s - fst p1) * (snd e - snd s) - (snd s - snd p1) * (fst e - fst s)) / den) then None
    else Some (between p1 p2 (Rmax 0 (Rmin 1 (((fst s - fst p1) * (snd e - snd s) - (snd s - snd p1) * (fst e - fst s)) / den))))).
  rewrite CT. set (t := c1 / (c1 - c2)). assert (Et : t * (c1 - c2) = c1) by (unfold t; field; exact ND).
  destruct (Rltb_spec (Rabs den) eps) as [S|S].
  { rewrite Ed in S. destruct H as [[H1 H2]|[H1 H2]].
    - left. rewrite Rabs_pos_eq in S by lra. lra.
    - right. rewrite Rabs_left in S by lra. lra. }
  assert (T : (0 <= t <= 1) \/ (t < 0 /\ - eps <= c1 < 0) \/ (1 < t /\ - eps <= c2 < 0)).
  { destruct H as [[H1 H2]|[H1 H2]].
    - destruct (Rle_or_lt 0 c1) as [C|C].
      + left. split; [unfold t; apply Rmult_le_pos; [auto|left; apply Rinv_0_lt_compat; lra]|]. apply (Rmult_le_reg_r (c1 - c2)); lra.
      + right; left. split; [|lra]. apply (Rmult_lt_reg_r (c1 - c2)); lra.
    - destruct (Rle_or_lt 0 c2) as [C|C].
      + left. assert (Et' : t * (c2 - c1) = - c1) by lra. split; [apply (Rmult_le_reg_r (c2 - c1)); lra|apply (Rmult_le_reg_r (c2 - c1)); lra].
      + right; right. split; [|lra]. assert (Et' : t * (c2 - c1) = - c1) by lra. apply (Rmult_lt_reg_r (c2 - c1)); lra. }
  destruct (Rltb_spec t (- eps)) as [S1|S1]; cbn [orb].
  { destruct T as [T|[[T1 T2]|[T1 T2]]]; [lra|left; auto|lra]. }
  destruct (Rltb_spec (1 + eps) t) as [S2|S2].
  { destruct T as [T|[[T1 T2]|[T1 T2]]]; [lra|lra|right; auto]. }
  destruct T as [T|[[T1 T2]|[T1 T2]]].
  - rewrite Rmin_right, Rmax_right by lra. exists t. split; auto. split; auto. rewrite cr_between. fold c1 c2. lra.
  - rewrite Rmin_right, Rmax_left by lra. exists 0. split; [lra|]. split; auto. rewrite cr_between. fold c1 c2. lra.
  - rewrite Rmin_left, Rmax_right by lra. exists 1. split; [lra|]. split; auto. rewrite cr_between. fold c1 c2. lra.
Qed.
(** the cut is found when the inside end is on the left of the line *)
Lemma seg_line_found : forall eps p1 p2 s e, 0 <= eps -> (0 <= cr s e p1 /\ cr s e p2 < - eps) \/ (cr s e p1 < - eps /\ 0 <= cr s e p2) ->
  exists q t, seg_line Rarith eps p1 p2 s e = Some q /\ 0 <= t <= 1 /\ q = between p1 p2 t /\ cr s e q = 0.
Proof.
  intros eps p1 p2 s e He H. pose proof (seg_line_spec eps p1 p2 s e He) as S. destruct (seg_line Rarith eps p1 p2 s e) as [q|] eqn:E.
  - destruct S as [t [T1 [T2 T3]]]; [lra|]. exists q, t. split; auto. split; auto. split; auto.
    (* the parameter is the exact one *)
    revert E. unfold seg_line. rewrite Rabs_aabs, Rmin_amin, Rmax_amax. cbn [altb alit Rarith aops Rnum nsub nmul nadd ndiv nopp].
    assert (ND : cr s e p1 - cr s e p2 <> 0) by lra. rewrite (cut_t p1 p2 s e ND). set (c1 := cr s e p1) in *. set (c2 := cr s e p2) in *. set (u := c1 / (c1 - c2)).
    assert (Et : u * (c1 - c2) = c1) by (unfold u; field; exact ND).
    assert (U : 0 <= u <= 1).
    { destruct H as [[H1 H2]|[H1 H2]].
      - split; apply (Rmult_le_reg_r (c1 - c2)); lra.
      - assert (u * (c2 - c1) = - c1) by lra. split; apply (Rmult_le_reg_r (c2 - c1)); lra. }
    destruct (Rltb _ eps); [discriminate|]. destruct (Rltb u (- eps) || Rltb (1 + eps) u); [discriminate|]. rewrite Rmin_right, Rmax_right by lra. intros E. injection E as E.
    rewrite <- E. change (cr s e (between p1 p2 u) = 0). rewrite cr_between. fold c1 c2. lra.
  - destruct S as [S|S]; lra.
Qed.

Lemma inside_spec : forall eps s e p, reflect (- eps <= cr s e p) (clip_inside Rarith eps s e p).
Proof. intros eps s e p. unfold clip_inside. cbn [altb Rarith nopp aops Rnum]. destruct (Rltb_spec (cr s e p) (- eps)); cbn [negb]; constructor; lra. Qed.

(** ** One edge of the clip polygon *)
(** the vertices of the result: kept vertices and cuts *)
Lemma clip_one_in : forall eps s e c n v, 0 <= eps -> In v (clip_one Rarith eps s e c n) ->
  - eps <= cr s e v /\ (v = c \/ exists t, 0 <= t <= 1 /\ v = between c n t).
Proof.
  intros eps s e c n v He H. unfold clip_one in H. destruct (inside_spec eps s e c) as [C|C], (inside_spec eps s e n) as [N|N].
  - destruct H as [<-|[]]. auto.
  - destruct H as [<-|H]; auto. pose proof (seg_line_spec eps c n s e He ltac:(left; lra)) as S. destruct (seg_line Rarith eps c n s e) as [q|]; [|destruct H].
    destruct H as [<-|[]]. destruct S as [t [T1 [T2 T3]]]. split; [lra|]. right. eauto.
  - pose proof (seg_line_spec eps c n s e He ltac:(right; lra)) as S. destruct (seg_line Rarith eps c n s e) as [q|]; [|destruct H].
    destruct H as [<-|[]]. destruct S as [t [T1 [T2 T3]]]. split; [lra|]. right. eauto.
  - destruct H.
Qed.
Lemma clip_edge_eq : forall eps s e P, clip_edge Rarith eps s e P = flat_map (fun cn => clip_one Rarith eps s e (fst cn) (snd cn)) (edges P).
Proof. intros eps s e [|p P]; reflexivity. Qed.
Lemma edges_in : forall (P : list pt) (a b : pt), In (a, b) (edges P) -> In a P /\ In b P.
Proof.
  intros [|p P] a b H; [destruct H|]. unfold edges in H. split; [eapply in_combine_l; eauto|]. apply in_combine_r in H. apply in_app_or in H. destruct H as [H|[<-|[]]]; [right|left]; auto.
Qed.
Lemma edges_length : forall P, length (@edges R P) = length P.
Proof. intros [|p P]; [reflexivity|]. unfold edges. rewrite combine_length, app_length. cbn [length]. lia. Qed.
Lemma edges_fst : forall P, map fst (@edges R P) = P.
Proof.
  intros [|p P]; [reflexivity|]. unfold edges. assert (G : forall (l1 l2 : list pt), length l1 = length l2 -> map fst (combine l1 l2) = l1).
  { induction l1 as [|x l1 IH]; intros [|y l2] E; try discriminate; [reflexivity|]. cbn. f_equal. apply IH. cbn in E; lia. }
  apply G. rewrite app_length. cbn. lia.
Qed.
Lemma edges_index : forall (P : list pt) (a b : pt), In (a, b) (edges P) <-> exists i, (i < length P)%nat /\ a = vertex P i /\ b = after P i.
Proof.
  intros P a b. assert (N : forall i, (i < length P)%nat -> nth i (edges P) ((0, 0), (0, 0)) = (vertex P i, after P i)).
  { intros i Hi. destruct P as [|p P]; [cbn in Hi; lia|]. unfold edges. rewrite combine_nth by (rewrite app_length; cbn; lia). unfold vertex, after. f_equal.
    destruct (Nat.eq_dec (S i) (length (p :: P))) as [Q|Q].
    - replace (i + 1)%nat with (length (p :: P)) by lia. rewrite Nat.mod_same by (cbn; lia). cbn [length] in Q. rewrite app_nth2 by lia. replace (i - length P)%nat with 0%nat by lia. reflexivity.
    - rewrite Nat.mod_small by lia. cbn [length] in Q, Hi. rewrite app_nth1 by lia. replace (i + 1)%nat with (S i) by lia. reflexivity. }
  split.
  - intros H. apply (In_nth _ _ ((0, 0), (0, 0))) in H. destruct H as [i [Hi E]]. rewrite edges_length in Hi. rewrite N in E by auto. injection E as <- <-. eauto.
  - intros [i [Hi [-> ->]]]. rewrite <- N by auto. apply nth_In. rewrite edges_length; auto.
Qed.

Lemma clip_edge_in : forall eps s e P v, 0 <= eps -> In v (clip_edge Rarith eps s e P) -> - eps <= cr s e v /\ (In v P \/ exists a b, In (a, b) (edges P) /\ on_segment a b v).
Proof.
  intros eps s e P v He H. rewrite clip_edge_eq in H. apply in_flat_map in H. destruct H as [[c n] [H1 H2]]. cbn [fst snd] in H2.
  destruct (clip_one_in eps s e c n v He H2) as [G [->|[t [T1 T2]]]]; split; auto.
  - left. exact (proj1 (edges_in P c n H1)).
  - right. exists c, n. split; auto. exists t; auto.
Qed.
(** anything convex that holds of all the vertices holds of the vertices of the result *)
Lemma clip_edge_convex : forall (Q : pt -> Prop) eps s e P, 0 <= eps -> (forall a b t, Q a -> Q b -> 0 <= t <= 1 -> Q (between a b t)) ->
  (forall v, In v P -> Q v) -> forall v, In v (clip_edge Rarith eps s e P) -> Q v.
Proof.
  intros Q eps s e P He HQ HP v Hv. destruct (clip_edge_in eps s e P v He Hv) as [_ [G|[a [b [G [t [T1 ->]]]]]]]; auto.
  destruct (edges_in _ _ _ G) as [Ga Gb]. auto.
Qed.

(** ** All the edges *)
Definition clip_all (eps : R) (es : list (pt * pt)) (P : list pt) : list pt :=
  fold_left (fun out e => match out with [] => [] | _ => clip_edge Rarith eps (fst e) (snd e) out end) es P.
Lemma clip_all_cons : forall eps e es P, clip_all eps (e :: es) P = clip_all eps es (clip_edge Rarith eps (fst e) (snd e) P).
Proof. intros eps e es P. unfold clip_all. cbn [fold_left]. destruct P; reflexivity. Qed.
Lemma clip_all_nil : forall eps es, clip_all eps es [] = [].
Proof. intros eps es. induction es as [|e es IH]; [reflexivity|]. rewrite clip_all_cons. exact IH. Qed.
Lemma clip_all_convex : forall (Q : pt -> Prop) eps es, 0 <= eps -> (forall a b t, Q a -> Q b -> 0 <= t <= 1 -> Q (between a b t)) ->
  forall P, (forall v, In v P -> Q v) -> forall v, In v (clip_all eps es P) -> Q v.
Proof.
  intros Q eps es He HQ. induction es as [|e es IH]; intros P HP v Hv; [auto|]. rewrite clip_all_cons in Hv. eapply IH; [|exact Hv]. eapply clip_edge_convex; eauto.
Qed.
Lemma half_convex : forall s e m a b t, m <= cr s e a -> m <= cr s e b -> 0 <= t <= 1 -> m <= cr s e (between a b t).
Proof. intros. rewrite cr_between. apply between_lo; auto. Qed.
Lemma clip_all_inside : forall eps es, 0 <= eps -> forall P v, In v (clip_all eps es P) -> forall s e, In (s, e) es -> - eps <= cr s e v.
Proof.
  intros eps es He. induction es as [|[s0 e0] es IH]; intros P v Hv s e Hin; [destruct Hin|]. rewrite clip_all_cons in Hv. cbn [fst snd] in Hv.
  destruct Hin as [E|Hin]; [|eapply IH; eauto]. injection E as -> ->.
  eapply (clip_all_convex (fun v => - eps <= cr s e v)); eauto. { intros a b t. apply half_convex. }
  intros w Hw. apply (clip_edge_in eps s e P w He Hw).
Qed.
Lemma clip_edge_same : forall eps s e P, (forall v, In v P -> - eps <= cr s e v) -> clip_edge Rarith eps s e P = P.
Proof.
  intros eps s e P H. rewrite clip_edge_eq. rewrite <- (edges_fst P) at 2. pose proof (edges_in P) as EI. revert EI. generalize (edges P). intros l. induction l as [|[a b] l IH]; intros EI; [reflexivity|].
  cbn [flat_map map fst snd]. rewrite IH by (intros; apply EI; right; auto). destruct (EI a b (or_introl eq_refl)) as [Ia Ib]. unfold clip_one.
  destruct (inside_spec eps s e a) as [C|C]; [|exfalso; apply C; auto]. destruct (inside_spec eps s e b) as [N|N]; [|exfalso; apply N; auto]. reflexivity.
Qed.
Lemma clip_all_same : forall eps es P, (forall v, In v P -> forall s e, In (s, e) es -> - eps <= cr s e v) -> clip_all eps es P = P.
Proof.
  intros eps es. induction es as [|[s e] es IH]; intros P H; [reflexivity|]. rewrite clip_all_cons. cbn [fst snd]. rewrite clip_edge_same; [apply IH|]; intros v Hv.
  - intros s' e' Hin. apply H; auto. right; auto.
  - apply H; auto. left; auto.
Qed.
Lemma clip_edge_none : forall eps s e P, (forall v, In v P -> cr s e v < - eps) -> clip_edge Rarith eps s e P = [].
Proof.
  intros eps s e P H. rewrite clip_edge_eq. pose proof (edges_in P) as EI. revert EI. generalize (edges P). intros l. induction l as [|[a b] l IH]; intros EI; [reflexivity|].
  cbn [flat_map fst snd]. rewrite IH by (intros; apply EI; right; auto). destruct (EI a b (or_introl eq_refl)) as [Ia Ib]. unfold clip_one.
  destruct (inside_spec eps s e a) as [C|C]; [specialize (H a Ia); lra|]. destruct (inside_spec eps s e b) as [N|N]; [specialize (H b Ib); lra|]. reflexivity.
Qed.
Lemma clip_all_none : forall eps es s e P, 0 <= eps -> In (s, e) es -> (forall v, In v P -> cr s e v < - eps) -> clip_all eps es P = [].
Proof.
  intros eps es s e P He. revert P. induction es as [|[s0 e0] es IH]; intros P Hin H; [destruct Hin|]. rewrite clip_all_cons. cbn [fst snd]. destruct Hin as [E|Hin].
  - injection E as -> ->. rewrite clip_edge_none by auto. apply clip_all_nil.
  - apply IH; auto. eapply (clip_edge_convex (fun v => cr s e v < - eps)); eauto. intros a b t Ha Hb Ht. rewrite cr_between. apply between_hi_lt; auto.
Qed.

(** ** A kept vertex keeps three vertices *)
Lemma flat_map_perm_length : forall {A B} (f : A -> list B) l l', Permutation l l' -> length (flat_map f l) = length (flat_map f l').
Proof. intros A B f l l' H. induction H; cbn; rewrite ?app_length; lia. Qed.
Lemma edges_rotate : forall (pre : list pt) v post, Permutation (edges (pre ++ v :: post)) (edges (v :: post ++ pre)).
Proof.
  intros pre. induction pre as [|x pre IH]; intros v post; cbn [app]. { rewrite app_nil_r. reflexivity. }
  assert (R1 : forall (y : pt) l, Permutation (edges (y :: l)) (edges (l ++ [y]))).
  { clear. intros y l. destruct l as [|z l]; [reflexivity|]. unfold edges. cbn [app].
    assert (G : forall (l : list pt) z w, combine ((z :: l) ++ [y]) ((l ++ [y]) ++ [w]) = combine (z :: l) (l ++ [y]) ++ [(y, w)]).
    { clear. induction l as [|u l IH]; intros z w; [reflexivity|]. cbn [app combine]. f_equal. apply IH. }
    pose proof (G l z z) as Gz. cbn [app] in Gz. rewrite Gz. apply (Permutation_cons_append (combine (z :: l) (l ++ [y])) (y, z)). }
  rewrite R1. rewrite <- app_assoc. cbn [app]. rewrite IH. rewrite <- app_assoc. reflexivity.
Qed.
Lemma flat_map_in_length : forall {A B} (f : A -> list B) l x, In x l -> (length (f x) <= length (flat_map f l))%nat.
Proof. intros A B f l x. induction l as [|y l IH]; intros []; cbn; rewrite app_length; [subst; lia|]. specialize (IH H). lia. Qed.
Lemma clip_edge_keeps : forall eps s e P v, 0 <= eps -> In v P -> 0 <= cr s e v -> In v (clip_edge Rarith eps s e P) /\ ((3 <= length P)%nat -> (3 <= length (clip_edge Rarith eps s e P))%nat).
Proof.
  intros eps s e P v He Hv Hc. split.
  - rewrite clip_edge_eq. apply in_flat_map. rewrite <- (edges_fst P) in Hv. apply in_map_iff in Hv. destruct Hv as [[a b] [E Hin]]. cbn in E. subst a.
    exists (v, b). split; auto. cbn [fst snd]. unfold clip_one. destruct (inside_spec eps s e v) as [C|C]; [left; auto|exfalso; lra].
  - intros HL. rewrite clip_edge_eq. apply in_split in Hv. destruct Hv as [pre [post ->]].
    rewrite (flat_map_perm_length _ _ _ (edges_rotate pre v post)).
    assert (HL2 : (2 <= length (post ++ pre))%nat) by (rewrite app_length in *; cbn in HL; lia).
    destruct (post ++ pre) as [|x1 l] eqn:E1; [cbn in HL2; lia|]. destruct (exists_last (l := l)) as [l' [xm E2]]; [destruct l; [cbn in HL2; lia|discriminate]|]. subst l.
    assert (EE : edges (v :: x1 :: l' ++ [xm]) = (v, x1) :: combine (x1 :: l') (l' ++ [xm]) ++ [(xm, v)]).
    { unfold edges. cbn [app combine]. f_equal. clear. revert x1. induction l' as [|y l' IH]; intros x1; cbn; [reflexivity|]. f_equal. apply IH. }
    rewrite EE. cbn [flat_map fst snd]. rewrite flat_map_app, !app_length. cbn [flat_map fst snd]. rewrite app_nil_r.
    unfold clip_one at 1. destruct (inside_spec eps s e v) as [C|C]; [|exfalso; lra].
    assert (Last : (1 <= length (clip_one Rarith eps s e xm v))%nat).
    { unfold clip_one. destruct (inside_spec eps s e xm) as [D|D]; [cbn; lia|]. destruct (inside_spec eps s e v) as [D'|D']; [|contradiction].
      destruct (seg_line_found eps xm v s e He) as [q [t [Q _]]]; [right; lra|]. rewrite Q. cbn. lia. }
    destruct (inside_spec eps s e x1) as [D|D].
    + cbn [length]. destruct l' as [|y l'].
      * cbn [app combine flat_map fst snd]. rewrite app_nil_r. unfold clip_one at 1. destruct (inside_spec eps s e x1) as [D'|D']; [|contradiction]. cbn [length]. lia.
      * cbn [app combine flat_map fst snd]. unfold clip_one at 1. destruct (inside_spec eps s e x1) as [D'|D']; [|contradiction]. rewrite app_length. cbn [length]. lia.
    + destruct (seg_line_found eps v x1 s e He) as [q [t [Q _]]]; [left; lra|]. rewrite Q. cbn [length]. lia.
Qed.
Lemma clip_all_keeps : forall eps es P v, 0 <= eps -> In v P -> (forall s e, In (s, e) es -> 0 <= cr s e v) ->
  In v (clip_all eps es P) /\ ((3 <= length P)%nat -> (3 <= length (clip_all eps es P))%nat).
Proof.
  intros eps es P v He. revert P. induction es as [|[s e] es IH]; intros P Hv H; [auto|]. rewrite clip_all_cons. cbn [fst snd].
  destruct (clip_edge_keeps eps s e P v He Hv (H s e (or_introl eq_refl))) as [K1 K2]. destruct (IH _ K1) as [J1 J2]. { intros s' e' Hin; apply H; right; auto. } auto.
Qed.

(** ** The edges of the result *)
Fixpoint linked (l : list (pt * pt)) : Prop := match l with (_, b) :: (((a, _) :: _) as l') => b = a /\ linked l' | _ => True end.
Fixpoint consec (R : pt -> pt -> Prop) (l : list pt) : Prop := match l with a :: ((b :: _) as l') => R a b /\ consec R l' | _ => True end.
Lemma consec_cons : forall R a l, (match l with b :: _ => R a b | [] => True end) -> consec R l -> consec R (a :: l).
Proof. intros R a [|b l] H1 H2; cbn; auto. Qed.

(** a linked sequence of segments is clipped to a sequence of points; each step of it is part of one segment, or runs
    along the line from an exit to an entry *)
Section OneEdge.
Context (eps : R) (He : 0 <= eps) (s e : pt) (segs : pt -> pt -> Prop) (ok : pt -> pt -> Prop)
  (* exits and entries *)
  (ex en : pt -> Prop)
  (Hsub : forall c n t u, segs c n -> 0 <= t <= u -> u <= 1 -> ok (between c n t) (between c n u))
  (Hex : forall c n t, segs c n -> cr s e n < - eps -> - eps <= cr s e c -> 0 <= t <= 1 -> - eps <= cr s e (between c n t) <= 0 -> ex (between c n t))
  (Hen : forall c n t, segs c n -> cr s e c < - eps -> - eps <= cr s e n -> 0 <= t <= 1 -> - eps <= cr s e (between c n t) <= 0 -> en (between c n t))
  (Halong : forall a b, ex a -> en b -> ok a b).
Lemma clip_consec : forall l, linked l -> (forall a b, In (a, b) l -> segs a b) ->
  let out := flat_map (fun cn => clip_one Rarith eps s e (fst cn) (snd cn)) l in
  consec ok out /\ match l, out with (c, _) :: _, x :: _ => if clip_inside Rarith eps s e c then x = c else en x | _, _ => True end.
Proof.
  induction l as [|[c n] l IH]; intros HL HS; [cbn; auto|]. cbv zeta in *.
  assert (HL' : linked l) by (destruct l as [|[a b] l]; [exact I|apply HL]). destruct (IH HL') as [I1 I2]. { intros a b Hin; apply HS; right; auto. }
  assert (SC : segs c n) by (apply HS; left; auto).
  cbn [flat_map fst snd]. set (out := flat_map _ l) in *.
  assert (I3 : match out with x :: _ => if clip_inside Rarith eps s e n then x = n else en x | [] => True end).
  { destruct l as [|[a b] l]; [exact I|]. destruct HL as [-> _]. exact I2. }
  clear I2 IH. pose proof (Hsub c n) as HB. unfold clip_one. destruct (inside_spec eps s e c) as [C|C], (inside_spec eps s e n) as [N|N]; cbn [app].
  - split; auto. apply consec_cons; auto. destruct out as [|x out]; auto. subst x. specialize (HB 0 1 SC ltac:(lra) ltac:(lra)). rewrite between0, between1 in HB. exact HB.
  - pose proof (seg_line_spec eps c n s e He ltac:(left; lra)) as S. destruct (seg_line Rarith eps c n s e) as [x|]; cbn [app].
    + destruct S as [t [T1 [-> T3]]]. split; auto. apply consec_cons; [specialize (HB 0 t SC ltac:(lra) ltac:(lra)); rewrite between0 in HB; exact HB|]. apply consec_cons; auto.
      destruct out as [|y out]; auto. apply Halong; auto. apply Hex; auto. lra.
    + split; auto. apply consec_cons; auto. destruct out as [|y out]; auto. apply Halong; auto. rewrite <- (between0 c n). apply Hex; auto; rewrite ?between0; lra.
  - pose proof (seg_line_spec eps c n s e He ltac:(right; lra)) as S. destruct (seg_line Rarith eps c n s e) as [x|]; cbn [app].
    + destruct S as [t [T1 [-> T3]]]. split; [|apply Hen; auto; lra]. apply consec_cons; auto. destruct out as [|y out]; auto. subst y. specialize (HB t 1 SC ltac:(lra) ltac:(lra)). rewrite between1 in HB. exact HB.
    + split; auto. destruct out as [|y out]; auto. subst y. rewrite <- (between1 c n). apply Hen; auto; rewrite ?between1; lra.
  - split; auto.
Qed.
End OneEdge.
(** edges of a polygon, as the steps of going round it twice *)
Lemma edges_linked2 : forall P : list pt, linked (edges P ++ edges P).
Proof.
  intros [|p P]; [exact I|]. unfold edges.
  assert (L1 : forall (l : list pt) x, linked (combine (x :: l) (l ++ [p]))).
  { induction l as [|y l IH]; intros x; [exact I|]. specialize (IH y). destruct l; cbn [combine app linked] in *; auto. }
  assert (K : forall (l : list pt) x, linked (combine (x :: l) (l ++ [p]) ++ combine (p :: P) (P ++ [p]))).
  { induction l as [|y l IH]; intros x.
    - pose proof (L1 P p) as LP. destruct P; cbn [combine app linked] in *; auto.
    - specialize (IH y). destruct l; cbn [combine app linked] in *; auto. }
  apply K.
Qed.
Lemma edges_consec : forall (R : pt -> pt -> Prop) P, consec R (P ++ P) -> forall a b, In (a, b) (edges P) -> R a b.
Proof.
  intros R P H a b Hin. destruct P as [|p P]; [destruct Hin|]. unfold edges in Hin.
  assert (G : forall (l : list pt) x rest, consec R ((x :: l) ++ p :: rest) -> In (a, b) (combine (x :: l) (l ++ [p])) -> R a b).
  { induction l as [|y l IH]; intros x rest H0 Hi; cbn [app combine] in *.
    - destruct Hi as [E|[]]. injection E as -> ->. apply H0.
    - destruct Hi as [E|Hi]; [injection E as -> ->; apply H0|]. eapply IH; [apply H0|exact Hi]. }
  apply (G P p P); auto.
Qed.
Lemma clip_edge_edges : forall eps s e (segs ok : pt -> pt -> Prop) (ex en : pt -> Prop) P, 0 <= eps ->
  (forall c n t u, segs c n -> 0 <= t <= u -> u <= 1 -> ok (between c n t) (between c n u)) ->
  (forall c n t, segs c n -> cr s e n < - eps -> - eps <= cr s e c -> 0 <= t <= 1 -> - eps <= cr s e (between c n t) <= 0 -> ex (between c n t)) ->
  (forall c n t, segs c n -> cr s e c < - eps -> - eps <= cr s e n -> 0 <= t <= 1 -> - eps <= cr s e (between c n t) <= 0 -> en (between c n t)) ->
  (forall a b, ex a -> en b -> ok a b) ->
  (forall a b, In (a, b) (edges P) -> segs a b) -> forall a b, In (a, b) (edges (clip_edge Rarith eps s e P)) -> ok a b.
Proof.
  intros eps s e segs ok ex en P He H1 H2 H3 H4 HS. apply edges_consec. rewrite clip_edge_eq, <- flat_map_app.
  apply (clip_consec eps He s e segs ok ex en H1 H2 H3 H4). { apply edges_linked2. } intros a b Hin. apply in_app_or in Hin. destruct Hin; auto.
Qed.
