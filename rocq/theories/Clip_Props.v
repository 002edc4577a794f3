(** * C43: polygon clipping *)

From Coq Require Import List Bool Arith ZArith Lia Permutation Reals Lra QArith Qcanon.
From Verif Require Import Base Num RootFind_Model RootFind_Proofs RootFind_Props Geom_Model Geom_Spec Clip_Proofs Hull_Props.
Import ListNotations.
Local Open Scope R_scope.

Lemma clip_polygon_eq : forall eps S C, clip_polygon Rarith eps S C =
  if ((length S <? 3) || (length C <? 3))%nat then [] else if (3 <=? length (clip_all eps (edges C) S))%nat then clip_all eps (edges C) S else [].
Proof. reflexivity. Qed.
Lemma clip_polygon_in : forall eps S C v, In v (clip_polygon Rarith eps S C) -> In v (clip_all eps (edges C) S).
Proof. intros eps S C v. rewrite clip_polygon_eq. destruct (_ || _)%nat; [intros []|]. destruct (3 <=? _)%nat; [auto|intros []]. Qed.

(** ** C43 *)
(** every vertex of the result is on the left of every edge of the clip polygon, up to the tolerance *)
Theorem C43_inside_clip : forall eps subject clip v, 0 <= eps -> In v (clip_polygon Rarith eps subject clip) ->
  forall i, (i < length clip)%nat -> - eps <= orient (vertex clip i) (after clip i) v.
Proof. intros eps S C v He Hv i Hi. apply clip_polygon_in in Hv. apply (clip_all_inside eps (edges C) He S v Hv). apply edges_index. eauto. Qed.

(** and in the region of the subject *)
Theorem C43_inside_subject : forall eps subject clip v, 0 <= eps -> In v (clip_polygon Rarith eps subject clip) -> region subject v.
Proof.
  intros eps S C v He Hv. apply clip_polygon_in in Hv. revert v Hv. apply clip_all_convex; auto. { intros; apply region_segment; auto. } intros v; apply region_vertex.
Qed.

(** every edge of the result is part of an edge of the subject, or runs along the line of an edge of the clip polygon *)
Definition part_of (P : list rpt) (a b : rpt) : Prop := exists i, (i < length P)%nat /\ on_segment (vertex P i) (after P i) a /\ on_segment (vertex P i) (after P i) b.
Definition along (eps : R) (clip : list rpt) (a b : rpt) : Prop := exists i, (i < length clip)%nat /\
  - eps <= orient (vertex clip i) (after clip i) a <= 0 /\ - eps <= orient (vertex clip i) (after clip i) b <= 0.
Lemma between_between : forall a b t u v, between (between a b t) (between a b u) v = between a b (t + v * (u - t)).
Proof. intros. unfold between. cbn [fst snd]. f_equal; ring. Qed.
Lemma clip_all_edges : forall eps es0 S, 0 <= eps -> forall es P, (forall a b, In (a, b) es -> In (a, b) es0) ->
  let ok := fun a b => (exists p q, In (p, q) (edges S) /\ on_segment p q a /\ on_segment p q b) \/ (exists s e, In (s, e) es0 /\ - eps <= cr s e a <= 0 /\ - eps <= cr s e b <= 0) in
  (forall a b, In (a, b) (edges P) -> ok a b) -> forall a b, In (a, b) (edges (clip_all eps es P)) -> ok a b.
Proof.
  intros eps es0 S He es. induction es as [|[s e] es IH]; intros P Hes ok HP; [exact HP|]. rewrite clip_all_cons. cbn [fst snd].
  apply IH; [intros; apply Hes; right; auto|]. fold ok.
  apply (clip_edge_edges eps s e ok ok (fun x => - eps <= cr s e x <= 0) (fun x => - eps <= cr s e x <= 0) P He); auto.
  - intros c n t u [[p [q [H1 [[t1 [T1 ->]] [t2 [T2 ->]]]]]]|[s' [e' [H1 [H2 H3]]]]] Ht Hu; [left|right].
    + exists p, q. split; auto. rewrite !between_between. split; eexists; (split; [|reflexivity]); split; try (apply between_lo; lra); apply between_hi; lra.
    + exists s', e'. split; auto. rewrite !cr_between. split; split; try (apply between_lo; lra); apply between_hi; lra.
  - intros a b Ha Hb. right. exists s, e. split; auto. apply Hes; left; auto.
Qed.
Theorem C43_boundary : forall eps subject clip i, 0 <= eps -> let r := clip_polygon Rarith eps subject clip in (i < length r)%nat ->
  part_of subject (vertex r i) (after r i) \/ along eps clip (vertex r i) (after r i).
Proof.
  intros eps S C i He r Hi.
  assert (Hin : In (vertex r i, after r i) (edges (clip_all eps (edges C) S))).
  { unfold r in *. rewrite clip_polygon_eq in *. destruct (_ || _)%nat; [cbn in Hi; lia|]. destruct (3 <=? _)%nat; [|cbn in Hi; lia]. apply edges_index. eauto. }
  apply (clip_all_edges eps (edges C) S He (edges C) S) in Hin; auto.
  - destruct Hin as [[p [q [H1 [H2 H3]]]]|[s [e [H1 [H2 H3]]]]]; [left|right]; apply edges_index in H1; destruct H1 as [k [K1 [-> ->]]]; exists k; auto.
  - intros a b Hab. left. exists a, b. split; auto. split; [exists 0|exists 1]; (split; [lra|]); [rewrite between0|rewrite between1]; auto.
Qed.

(** a subject vertex on the left of every clip edge is a vertex of the result *)
Theorem C43_keeps : forall eps subject clip v, 0 <= eps -> (3 <= length subject)%nat -> (3 <= length clip)%nat -> In v subject -> left_of_edges clip v ->
  In v (clip_polygon Rarith eps subject clip).
Proof.
  intros eps S C v He LS LC Hv HL. rewrite clip_polygon_eq. destruct (Nat.ltb_spec (length S) 3); [lia|]. destruct (Nat.ltb_spec (length C) 3); [lia|]. cbn [orb].
  destruct (clip_all_keeps eps (edges C) S v He Hv) as [K1 K2]. { intros s e Hin. apply edges_index in Hin. destruct Hin as [i [Hi [-> ->]]]. apply HL; auto. }
  destruct (Nat.leb_spec 3 (length (clip_all eps (edges C) S))); [auto|]. specialize (K2 LS). lia.
Qed.
(** a subject inside the clip polygon (up to the tolerance) is returned unchanged *)
Theorem C43_unchanged : forall eps subject clip, (3 <= length subject)%nat -> (3 <= length clip)%nat ->
  (forall v i, In v subject -> (i < length clip)%nat -> - eps <= orient (vertex clip i) (after clip i) v) -> clip_polygon Rarith eps subject clip = subject.
Proof.
  intros eps S C LS LC H. rewrite clip_polygon_eq. destruct (Nat.ltb_spec (length S) 3); [lia|]. destruct (Nat.ltb_spec (length C) 3); [lia|]. cbn [orb].
  rewrite clip_all_same. { destruct (Nat.leb_spec 3 (length S)); [auto|lia]. }
  intros v Hv s e Hin. apply edges_index in Hin. destruct Hin as [i [Hi [-> ->]]]. apply H; auto.
Qed.
(** a subject outside one edge gives the empty polygon *)
Theorem C43_outside : forall eps subject clip i, 0 <= eps -> (i < length clip)%nat -> (forall v, In v subject -> orient (vertex clip i) (after clip i) v < - eps) ->
  clip_polygon Rarith eps subject clip = [].
Proof.
  intros eps S C i He Hi H. rewrite clip_polygon_eq. destruct (_ || _)%nat; [reflexivity|]. rewrite (clip_all_none eps (edges C) (vertex C i) (after C i) S He); auto. apply edges_index; eauto.
Qed.

(** ** Exactness with tolerance zero *)
Section Exact.
Context (s e : rpt).
Let lx := fst e - fst s.
Let ly := snd e - snd s.
Definition dotl (a b : rpt) : R := (fst b - fst a) * (fst e - fst s) + (snd b - snd a) * (snd e - snd s).
Lemma on_line : forall a b, cr s e a = 0 -> cr s e b = 0 ->
  (lx * lx + ly * ly) * (fst b - fst a) = dotl a b * lx /\ (lx * lx + ly * ly) * (snd b - snd a) = dotl a b * ly.
Proof.
  intros a b Ha Hb. change (cross Rarith) with orient in *. unfold orient, dotl in *. fold lx ly in Ha, Hb |- *.
  assert (E : lx * (snd b - snd a) - ly * (fst b - fst a) = 0) by lra. split.
  - transitivity (((fst b - fst a) * lx + (snd b - snd a) * ly) * lx - ly * (lx * (snd b - snd a) - ly * (fst b - fst a))); [ring|rewrite E; ring].
  - transitivity (((fst b - fst a) * lx + (snd b - snd a) * ly) * ly + lx * (lx * (snd b - snd a) - ly * (fst b - fst a))); [ring|rewrite E; ring].
Qed.
Lemma line_nonzero : forall n, cr s e n < 0 -> 0 < lx * lx + ly * ly.
Proof.
  intros n H. change (cross Rarith) with orient in *. unfold orient in H. fold lx ly in H. destruct (Req_dec lx 0) as [E1|E1].
  - destruct (Req_dec ly 0) as [E2|E2]; [rewrite E1, E2 in H; lra|]. pose proof (Rsqr_pos_lt ly E2) as K. pose proof (Rle_0_sqr lx). unfold Rsqr in *. lra.
  - pose proof (Rsqr_pos_lt lx E1) as K. pose proof (Rle_0_sqr ly). unfold Rsqr in *. lra.
Qed.
(** the line crosses the polygon from its exit to its entry *)
Lemma exit_first : forall c n a w, cr s e n < 0 -> 0 <= cr s e c -> cr s e a = 0 -> cr s e w = 0 -> cr c n a = 0 -> 0 <= cr c n w -> 0 <= dotl a w.
Proof.
  intros c n a w Hn Hc Ha Hw Ka Kw. pose proof (line_nonzero n Hn) as LN. destruct (on_line a w Ha Hw) as [O1 O2].
  set (D := lx * lx + ly * ly) in *. set (d := dotl a w) in *.
  assert (E : D * (cr c n w - cr c n a) = d * (cr s e c - cr s e n)).
  { change (cross Rarith) with orient in *. unfold orient. fold lx ly.
    transitivity ((fst n - fst c) * (D * (snd w - snd a)) - (snd n - snd c) * (D * (fst w - fst a))); [ring|]. rewrite O1, O2. ring. }
  assert (0 <= d * (cr s e c - cr s e n)) by (rewrite <- E; apply Rmult_le_pos; lra).
  destruct (Rle_or_lt 0 d) as [|N]; auto. exfalso. assert (0 < - d * (cr s e c - cr s e n)) by (apply Rmult_lt_0_compat; lra). lra.
Qed.
Lemma entry_last : forall c n b w, cr s e c < 0 -> 0 <= cr s e n -> cr s e b = 0 -> cr s e w = 0 -> cr c n b = 0 -> 0 <= cr c n w -> 0 <= dotl w b.
Proof.
  intros c n b w Hc Hn Hb Hw Kb Kw. pose proof (line_nonzero c Hc) as LN. destruct (on_line b w Hb Hw) as [O1 O2].
  set (D := lx * lx + ly * ly) in *. set (d := dotl b w) in *.
  assert (E : D * (cr c n w - cr c n b) = d * (cr s e c - cr s e n)).
  { change (cross Rarith) with orient in *. unfold orient. fold lx ly.
    transitivity ((fst n - fst c) * (D * (snd w - snd b)) - (snd n - snd c) * (D * (fst w - fst b))); [ring|]. rewrite O1, O2. ring. }
  assert (0 <= d * (cr s e c - cr s e n)) by (rewrite <- E; apply Rmult_le_pos; lra).
  assert (d <= 0). { destruct (Rle_or_lt d 0) as [|N]; auto. exfalso. assert (0 < d * (cr s e n - cr s e c)) by (apply Rmult_lt_0_compat; lra). lra. }
  unfold d, dotl in *. lra.
Qed.
Lemma along_line : forall a b v, 0 < lx * lx + ly * ly -> cr s e a = 0 -> cr s e b = 0 -> 0 <= dotl a b -> 0 <= cr s e v -> 0 <= cr a b v.
Proof.
  intros a b v LN Ha Hb Hd Hv. destruct (on_line a b Ha Hb) as [O1 O2]. set (D := lx * lx + ly * ly) in *. set (d := dotl a b) in *.
  assert (E : D * cr a b v = d * (cr s e v - cr s e a)).
  { change (cross Rarith) with orient in *. unfold orient. fold lx ly. transitivity ((D * (fst b - fst a)) * (snd v - snd a) - (D * (snd b - snd a)) * (fst v - fst a)); [ring|]. rewrite O1, O2. ring. }
  assert (0 <= D * cr a b v) by (rewrite E; apply Rmult_le_pos; lra).
  destruct (Rle_or_lt 0 (cr a b v)) as [|N]; auto. exfalso. assert (0 < D * - cr a b v) by (apply Rmult_lt_0_compat; lra). lra.
Qed.
Lemma between_on_line : forall a b w, 0 < lx * lx + ly * ly -> cr s e a = 0 -> cr s e b = 0 -> cr s e w = 0 -> 0 <= dotl a w -> 0 <= dotl w b -> exists t, 0 <= t <= 1 /\ w = between a b t.
Proof.
  intros a b w LN Ha Hb Hw H1 H2. assert (S : dotl a b = dotl a w + dotl w b) by (unfold dotl; ring).
  destruct (on_line a w Ha Hw) as [O1 O2]. destruct (on_line a b Ha Hb) as [O3 O4]. set (D := lx * lx + ly * ly) in *.
  destruct (Req_dec (dotl a b) 0) as [Z|Z].
  - exists 0. split; [lra|]. rewrite between0. assert (Zw : dotl a w = 0) by lra. rewrite Zw in *. destruct a as [ax ay], w as [wx wy]. cbn [fst snd] in *.
    f_equal; apply (Rmult_eq_reg_l D); lra.
  - assert (Dp : 0 < dotl a b) by lra. exists (dotl a w / dotl a b). split.
    + split; [apply Rmult_le_pos; [auto|left; apply Rinv_0_lt_compat; auto]|]. apply (Rmult_le_reg_r (dotl a b)); auto. unfold Rdiv. rewrite Rmult_assoc, Rinv_l by auto. lra.
    + destruct w as [wx wy]. unfold between. cbn [fst snd] in *. set (da := dotl a (wx, wy)) in *. set (db := dotl a b) in *.
      assert (F : forall W A B l, D * (W - A) = da * l -> D * (B - A) = db * l -> W = A + da / db * (B - A)).
      { intros W A B l F1 F2. apply (Rmult_eq_reg_l D); [|lra]. transitivity (D * A + da / db * (D * (B - A))); [|ring]. rewrite F2. replace (da / db * (db * l)) with (da * l) by (field; auto). lra. }
      f_equal; [apply (F _ _ _ lx)|apply (F _ _ _ ly)]; auto.
Qed.

(** a polygon with a vertex on each side has an edge that leaves and one that enters *)
Lemma crossing_edge : forall (f : rpt -> bool) P u w, In u P -> In w P -> f u = true -> f w = false -> exists a b, In (a, b) (edges P) /\ f a = true /\ f b = false.
Proof.
  intros f P u w Hu Hw Fu Fw. apply (In_nth _ _ (0, 0)) in Hu. destruct Hu as [i [Hi Ei]]. apply (In_nth _ _ (0, 0)) in Hw. destruct Hw as [j [Hj Ej]]. set (n := length P) in *.
  assert (G : forall k, f (vertex P ((i + k) mod n)) = false -> exists a b, In (a, b) (edges P) /\ f a = true /\ f b = false).
  { induction k as [|k IH]; intros H.
    - rewrite Nat.add_0_r, Nat.mod_small in H by auto. unfold vertex in H. congruence.
    - destruct (f (vertex P ((i + k) mod n))) eqn:F; [|auto]. exists (vertex P ((i + k) mod n)), (after P ((i + k) mod n)).
      assert (Hm : ((i + k) mod n < n)%nat) by (apply Nat.mod_upper_bound; lia).
      split; [apply edges_index; exists ((i + k) mod n)%nat; auto|]. split; auto. unfold after. fold n. rewrite Nat.add_mod_idemp_l by lia. replace (i + k + 1)%nat with (i + S k)%nat by lia. exact H. }
  apply (G (n - i + j)%nat). replace (i + (n - i + j))%nat with (j + 1 * n)%nat by lia. rewrite Nat.mod_add by lia. rewrite Nat.mod_small by auto. unfold vertex. congruence.
Qed.

Context (P : list rpt) (HP : forall a b v, In (a, b) (edges P) -> In v P -> 0 <= cr a b v).
Let out := clip_edge Rarith 0 s e P.
Lemma region_half : forall (h : list rpt) a b, (forall v, In v h -> 0 <= cr a b v) -> forall x, region h x -> 0 <= cr a b x.
Proof. intros h a b H x Hx. induction Hx; auto. rewrite cr_between. apply between_lo; auto. Qed.
Lemma out_facts : forall v, In v out -> region P v /\ 0 <= cr s e v.
Proof.
  intros v Hv. split.
  - revert v Hv. apply clip_edge_convex; [lra|intros; apply region_segment; auto|intros; apply region_vertex; auto].
  - destruct (clip_edge_in 0 s e P v ltac:(lra) Hv) as [G _]. lra.
Qed.
Lemma cut_on_edge : forall c n t, cr c n (between c n t) = 0.
Proof. intros. rewrite cr_between. change (cross Rarith) with orient. unfold orient. ring. Qed.
Lemma out_convex : forall a b v, In (a, b) (edges out) -> In v out -> 0 <= cr a b v.
Proof.
  intros a b v Hab Hv. destruct (out_facts v Hv) as [V1 V2]. revert a b Hab.
  set (segs := fun c n => (forall x, region P x -> 0 <= cr c n x) /\ region P c /\ region P n).
  apply (clip_edge_edges 0 s e segs (fun a b => 0 <= cr a b v)
     (fun a => 0 < lx * lx + ly * ly /\ cr s e a = 0 /\ forall w, region P w -> cr s e w = 0 -> 0 <= dotl a w)
     (fun b => cr s e b = 0 /\ region P b) P); [lra| | | | |].
  - intros c n t u [H1 _] Ht Hu. specialize (H1 v V1). replace (cr (between c n t) (between c n u) v) with ((u - t) * cr c n v).
    + apply Rmult_le_pos; lra.
    + change (cross Rarith) with orient. unfold orient, between. cbn [fst snd]. ring.
  - intros c n t [H1 [H2 H3]] Hn Hc Ht Hb. split; [apply (line_nonzero n); lra|]. split; [lra|]. intros w Hw Kw.
    apply (exit_first c n); try lra; [apply cut_on_edge|apply H1; auto].
  - intros c n t [H1 [H2 H3]] Hc Hn Ht Hb. split; [lra|apply region_segment; auto].
  - intros a b [A1 [A2 A3]] [B1 B2]. apply along_line; auto.
  - intros a b Hab. destruct (edges_in _ _ _ Hab) as [Ia Ib]. split; [|split; apply region_vertex; auto]. apply region_half. intros x Hx. apply HP; auto.
Qed.
Lemma cut_in_out : forall c n, In (c, n) (edges P) -> (0 <= cr s e c /\ cr s e n < 0) \/ (cr s e c < 0 /\ 0 <= cr s e n) -> exists t, 0 <= t <= 1 /\ In (between c n t) out /\ cr s e (between c n t) = 0.
Proof.
  intros c n Hin H. destruct (seg_line_found 0 c n s e ltac:(lra)) as [x [t [E [T [-> Z]]]]]; [lra|]. exists t. split; auto. split; auto. unfold out. rewrite clip_edge_eq. apply in_flat_map. exists (c, n). split; auto. cbn [fst snd]. unfold clip_one. rewrite E.
  destruct (inside_spec 0 s e c) as [C|C], (inside_spec 0 s e n) as [N|N]; cbn [In]; auto; lra.
Qed.
Lemma out_region : forall x, region out x <-> region P x /\ 0 <= cr s e x.
Proof.
  intros x. split.
  { intros H. induction H as [v Hv|a b t Ha [IA1 IA2] Hb [IB1 IB2] Ht]; [apply out_facts; auto|]. split; [apply region_segment; auto|]. rewrite cr_between. apply between_lo; auto. }
  intros [H Hc].
  assert (CROSS : forall a b t, region P a -> region P b -> 0 <= cr s e a -> cr s e b < 0 -> 0 <= t <= 1 -> cr s e (between a b t) = 0 -> region out (between a b t)).
  { intros a b t Ra Rb Ca Cb Ht Hz.
    assert (Iu : exists u, In u P /\ 0 <= cr s e u).
    { destruct (Exists_dec (fun v => 0 <= cr s e v) P) as [E|E]. { intros v. destruct (Rle_dec 0 (cr s e v)); auto. } { apply Exists_exists in E. exact E. }
      exfalso. assert (K : forall y, region P y -> cr s e y < 0).
      { intros y Hy. induction Hy as [v Hv|p q0 r Hp IP Hq IQ Hr]. { destruct (Rle_or_lt 0 (cr s e v)) as [G|G]; auto. exfalso. apply E. apply Exists_exists. eauto. }
        rewrite cr_between. apply between_hi_lt; auto. }
      specialize (K a Ra). lra. }
    assert (Iw : exists w, In w P /\ cr s e w < 0).
    { destruct (Exists_dec (fun v => cr s e v < 0) P) as [E|E]. { intros v. destruct (Rlt_dec (cr s e v) 0); auto. } { apply Exists_exists in E. exact E. }
      exfalso. pose proof (region_half P s e) as K. specialize (K ltac:(intros v Hv; destruct (Rle_or_lt 0 (cr s e v)) as [G|G]; auto; exfalso; apply E; apply Exists_exists; eauto) b Rb). lra. }
    destruct Iu as [u [Iu Cu]], Iw as [w [Iw Cw]].
    destruct (crossing_edge (clip_inside Rarith 0 s e) P u w Iu Iw) as [c1 [n1 [E1 [F1 G1]]]].
    { destruct (inside_spec 0 s e u); [auto|lra]. } { destruct (inside_spec 0 s e w); [lra|auto]. }
    destruct (crossing_edge (fun v => negb (clip_inside Rarith 0 s e v)) P w u Iw Iu) as [c2 [n2 [E2 [F2 G2]]]].
    { destruct (inside_spec 0 s e w); [lra|auto]. } { destruct (inside_spec 0 s e u); [auto|lra]. }
    destruct (inside_spec 0 s e c1) as [A1|]; [|discriminate]. destruct (inside_spec 0 s e n1) as [|B1]; [discriminate|].
    destruct (inside_spec 0 s e c2) as [|A2]; [discriminate|]. destruct (inside_spec 0 s e n2) as [B2|]; [|discriminate].
    destruct (cut_in_out c1 n1 E1) as [t1 [T1 [I1 Z1]]]; [lra|]. destruct (cut_in_out c2 n2 E2) as [t2 [T2 [I2 Z2]]]; [lra|].
    set (y := between a b t) in *. assert (Ry : region P y) by (apply region_segment; auto).
    destruct (between_on_line (between c1 n1 t1) (between c2 n2 t2) y) as [r [R1 R2]]; auto.
    - apply (line_nonzero n1). lra.
    - apply (exit_first c1 n1); try lra; [apply cut_on_edge|]. apply (region_half P); auto.
    - apply (entry_last c2 n2); try lra; [apply cut_on_edge|]. apply (region_half P); auto.
    - rewrite R2. apply region_segment; auto; apply region_vertex; auto. }
  assert (MIX : forall a b t, region P a -> region P b -> region out a -> 0 <= cr s e a -> cr s e b < 0 -> 0 <= t <= 1 -> 0 <= cr s e (between a b t) -> region out (between a b t)).
  { intros a b t Ra Rb Oa Ca Cb Ht Hz. set (ca := cr s e a) in *. set (cb := cr s e b) in *. set (r := ca / (ca - cb)). assert (Er : r * (ca - cb) = ca) by (unfold r; field; lra).
    assert (R01 : 0 <= r <= 1) by (split; apply (Rmult_le_reg_r (ca - cb)); lra).
    rewrite cr_between in Hz. fold ca cb in Hz. assert (Htr : t <= r) by (apply (Rmult_le_reg_r (ca - cb)); lra).
    assert (W : region out (between a b r)). { apply CROSS; auto. rewrite cr_between. fold ca cb. lra. }
    destruct (Req_dec r 0) as [Z|Z].
    - assert (t = 0) by lra. subst t. rewrite between0. auto.
    - replace (between a b t) with (between a (between a b r) (t / r)).
      + apply region_segment; auto. split; [apply Rmult_le_pos; [lra|left; apply Rinv_0_lt_compat; lra]|]. apply (Rmult_le_reg_r r); [lra|]. unfold Rdiv. rewrite Rmult_assoc, Rinv_l by auto. lra.
      + unfold between. cbn [fst snd]. f_equal; field; auto. }
  induction H as [v Hv|a b t Ha IA Hb IB Ht].
  - apply region_vertex. apply clip_edge_keeps; auto. lra.
  - destruct (Rle_or_lt 0 (cr s e a)) as [Ca|Ca], (Rle_or_lt 0 (cr s e b)) as [Cb|Cb].
    + apply region_segment; auto.
    + apply MIX; auto.
    + replace (between a b t) with (between b a (1 - t)) in * by (unfold between; f_equal; ring). apply MIX; auto. lra.
    + exfalso. rewrite cr_between in Hc. pose proof (between_hi_lt (cr s e a) (cr s e b) t 0 Ca Cb Ht). lra.
Qed.
Lemma out_length : (3 <= length P)%nat -> out = [] \/ (3 <= length out)%nat.
Proof.
  intros HL. destruct (Exists_dec (fun v => 0 <= cr s e v) P) as [E|E]. { intros v. destruct (Rle_dec 0 (cr s e v)); auto. }
  - apply Exists_exists in E. destruct E as [v [Hv Hc]]. right. apply (clip_edge_keeps 0 s e P v); auto. lra.
  - left. apply clip_edge_none. intros v Hv. destruct (Rle_or_lt 0 (cr s e v)) as [G|G]; [|lra]. exfalso. apply E. apply Exists_exists. eauto.
Qed.
End Exact.

Lemma clip_all_exact : forall es P, (forall a b v, In (a, b) (edges P) -> In v P -> 0 <= cr a b v) ->
  (forall x, region (clip_all 0 es P) x <-> region P x /\ forall s e, In (s, e) es -> 0 <= cr s e x) /\ ((3 <= length P)%nat -> clip_all 0 es P = [] \/ (3 <= length (clip_all 0 es P))%nat).
Proof.
  induction es as [|[s e] es IH]; intros P HP. { split; [|auto]. intros x. cbn. firstorder. }
  rewrite clip_all_cons. cbn [fst snd]. destruct (IH _ (out_convex s e P HP)) as [I1 I2]. split.
  - intros x. rewrite I1, (out_region s e P HP). cbn [In]. split.
    + intros [[H1 H2] H3]. split; auto. intros s' e' [E|E]; [injection E as <- <-|]; auto.
    + intros [H1 H2]. split; auto.
  - intros HL. destruct (out_length s e P HL) as [E|E]; auto. rewrite E, clip_all_nil. auto.
Qed.
(** with tolerance zero and a convex subject the region of the result is exactly the part of the subject's region on the
    left of every clip edge *)
Theorem C43_exact : forall subject clip, (3 <= length subject)%nat -> (3 <= length clip)%nat -> convex_ccw subject ->
  forall x, region (clip_polygon Rarith 0 subject clip) x <-> region subject x /\ left_of_edges clip x.
Proof.
  intros S C LS LC HC x.
  assert (HP : forall a b v, In (a, b) (edges S) -> In v S -> 0 <= cr a b v). { intros a b v Hin Hv. apply edges_index in Hin. destruct Hin as [i [Hi [-> ->]]]. apply HC; auto. }
  destruct (clip_all_exact (edges C) S HP) as [I1 I2]. specialize (I2 LS).
  assert (E : clip_polygon Rarith 0 S C = clip_all 0 (edges C) S).
  { rewrite clip_polygon_eq. destruct (Nat.ltb_spec (length S) 3); [lia|]. destruct (Nat.ltb_spec (length C) 3); [lia|]. cbn [orb]. destruct (Nat.leb_spec 3 (length (clip_all 0 (edges C) S))); auto. destruct I2 as [->|]; [auto|lia]. }
  rewrite E, I1. split; intros [H1 H2]; split; auto.
  - intros i Hi. apply H2. apply edges_index. eauto.
  - intros s e Hin. apply edges_index in Hin. destruct Hin as [i [Hi [-> ->]]]. apply H2; auto.
Qed.
(** ClipToRect: the rectangle *)
Theorem C43_rect : forall subject x0 y0 x1 y1, (3 <= length subject)%nat -> convex_ccw subject -> x0 < x1 -> y0 < y1 ->
  forall x y, region (clip_to_rect Rarith 0 subject x0 y0 x1 y1) (x, y) <-> region subject (x, y) /\ x0 <= x <= x1 /\ y0 <= y <= y1.
Proof.
  intros S x0 y0 x1 y1 LS HC Hx Hy x y. unfold clip_to_rect. rewrite C43_exact by (auto; cbn; lia).
  assert (E : left_of_edges [(x0, y0); (x1, y0); (x1, y1); (x0, y1)] (x, y) <-> x0 <= x <= x1 /\ y0 <= y <= y1); [|tauto].
  assert (M : forall d z, 0 < d -> 0 <= d * z -> 0 <= z). { intros d z Hd H. apply (Rmult_le_reg_l d); lra. }
  split.
  - intros H. pose proof (H 0%nat ltac:(cbn; lia)) as H0. pose proof (H 1%nat ltac:(cbn; lia)) as H1. pose proof (H 2%nat ltac:(cbn; lia)) as H2. pose proof (H 3%nat ltac:(cbn; lia)) as H3.
    unfold after, vertex, orient in *. cbn in H0, H1, H2, H3.
    assert (0 <= y - y0) by (apply (M (x1 - x0)); lra). assert (0 <= x1 - x) by (apply (M (y1 - y0)); lra). assert (0 <= y1 - y) by (apply (M (x1 - x0)); lra). assert (0 <= x - x0) by (apply (M (y1 - y0)); lra). lra.
  - intros H i Hi. cbn in Hi. destruct i as [|[|[|[|i]]]]; [| | | |lia]; unfold after, vertex, orient; cbn.
    + assert (0 <= (x1 - x0) * (y - y0)) by (apply Rmult_le_pos; lra). lra.
    + assert (0 <= (y1 - y0) * (x1 - x)) by (apply Rmult_le_pos; lra). lra.
    + assert (0 <= (x1 - x0) * (y1 - y)) by (apply Rmult_le_pos; lra). lra.
    + assert (0 <= (y1 - y0) * (x - x0)) by (apply Rmult_le_pos; lra). lra.
Qed.

Print Assumptions C43_inside_clip.
Print Assumptions C43_inside_subject.
Print Assumptions C43_boundary.
Print Assumptions C43_keeps.
Print Assumptions C43_unchanged.
Print Assumptions C43_outside.
Print Assumptions C43_exact.
Print Assumptions C43_rect.

(** the hypotheses are met *)
Example C43_convex_square : convex_ccw [(0, 0); (4, 0); (4, 4); (0, 4)].
Proof.
  intros v Hv i Hi. cbn in Hi. destruct i as [|[|[|[|i]]]]; [| | | |lia]; unfold after, vertex, orient; cbn; destruct Hv as [<-|[<-|[<-|[<-|[]]]]]; cbn; lra.
Qed.

(** ** Computed, over the rationals *)
Local Open Scope nat_scope.
Definition eps10 : Qc := q 1 10000000000.
Example C43_computed : map showp (clip_polygon Qarith eps10 [qp 0 0; qp 4 0; qp 0 4] [qp 1 (-1); qp 5 1; qp 1 3]) =
  [((1%Z, 1%positive), (0%Z, 1%positive)); ((3%Z, 1%positive), (0%Z, 1%positive)); ((11%Z, 3%positive), (1%Z, 3%positive)); ((1%Z, 1%positive), (3%Z, 1%positive)); ((1%Z, 1%positive), (3%Z, 1%positive))].
Proof. vm_compute. reflexivity. Qed.
Example C43_rect_computed : map iz (clip_to_rect Qarith eps10 [qp 0 0; qp 8 0; qp 8 8; qp 0 8] (q 2 1) (q 3 1) (q 5 1) (q 9 1)) = [(5, 8); (2, 8); (2, 3); (5, 3)]%Z.
Proof. vm_compute. reflexivity. Qed.
(** the clip polygon must also be counter-clockwise, which the documentation ("must be convex!") does not say: a
    clockwise square around the subject clips it away *)
Theorem C43_clockwise_refuted : clip_polygon Qarith eps10 [qp 2 2; qp 3 2; qp 3 3] [qp 0 0; qp 0 8; qp 8 8; qp 8 0] = [] /\
  map iz (clip_polygon Qarith eps10 [qp 2 2; qp 3 2; qp 3 3] [qp 8 0; qp 8 8; qp 0 8; qp 0 0]) = [(2, 2); (3, 2); (3, 3)]%Z.
Proof. vm_compute. auto. Qed.
(** PolygonUnionApprox ("exact for convex!"): the union of two disjoint squares contains a point of neither *)
Theorem C43_union_refuted : let a := [qp 0 0; qp 1 0; qp 1 1; qp 0 1] in let b := [qp 5 0; qp 6 0; qp 6 1; qp 5 1] in
  map (map iz) (polygon_union Qarith eps10 a b) = [[(0, 0); (6, 0); (6, 1); (0, 1)]]%Z.
Proof. vm_compute. reflexivity. Qed.
Print Assumptions C43_clockwise_refuted.
Print Assumptions C43_union_refuted.
