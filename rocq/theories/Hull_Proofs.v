(** * Proofs about the convex hull, over the real numbers *)

From Coq Require Import List Bool Arith ZArith Lia Permutation Sorted Reals Lra.
From Verif Require Import Base Num RootFind_Model RootFind_Proofs Geom_Model.
Import ListNotations.
Local Open Scope R_scope.

Notation pt := (R * R)%type.
Notation cr := (cross Rarith).
Lemma cr_eq : forall o a b, cr o a b = (fst a - fst o) * (snd b - snd o) - (snd a - snd o) * (fst b - fst o).
Proof. reflexivity. Qed.

(** ** Directions in the right half plane are ordered by angle *)
Definition plt (a b : pt) : Prop := fst a < fst b \/ (fst a = fst b /\ snd a < snd b).
Lemma plt_trans : forall a b c, plt a b -> plt b c -> plt a c.
Proof. unfold plt. intros. lra. Qed.
Lemma plt_irr : forall a, ~ plt a a.
Proof. unfold plt. intros. lra. Qed.
Lemma plt_total : forall a b, plt a b \/ a = b \/ plt b a.
Proof.
  intros [ax ay] [bx by_]. unfold plt; cbn [fst snd]. destruct (Rtotal_order ax bx) as [?|[->|?]]; auto. destruct (Rtotal_order ay by_) as [?|[->|?]]; auto.
Qed.
Definition X (ux uy vx vy : R) : R := ux * vy - uy * vx.
Definition lexpos (x y : R) : Prop := 0 < x \/ (x = 0 /\ 0 < y).
Lemma pos_mul : forall a b, 0 < a -> 0 <= a * b -> 0 <= b.
Proof. intros a b Ha H. destruct (Rle_or_lt 0 b); auto. exfalso. assert (a * b < 0) by (apply Ropp_lt_cancel; rewrite Ropp_0, Ropp_mult_distr_r; apply Rmult_lt_0_compat; lra). lra. Qed.
Lemma pos_mul_lt : forall a b, 0 < a -> 0 < a * b -> 0 < b.
Proof. intros a b Ha H. destruct (Rlt_or_le 0 b); auto. exfalso. assert (0 <= a * - b) by (apply Rmult_le_pos; lra). lra. Qed.
Lemma angle_trans : forall ux uy vx vy wx wy, lexpos ux uy -> lexpos vx vy -> lexpos wx wy ->
  0 <= X ux uy vx vy -> 0 <= X vx vy wx wy -> 0 <= X ux uy wx wy.
Proof.
  unfold X, lexpos. intros ux uy vx vy wx wy Hu Hv Hw H1 H2.
  destruct Hv as [Hv|[-> Hv]].
  - apply (pos_mul vx); auto.
    replace (vx * (ux * wy - uy * wx)) with (wx * (ux * vy - uy * vx) + ux * (vx * wy - vy * wx)) by ring.
    apply Rplus_le_le_0_compat; apply Rmult_le_pos; lra.
  - assert (Hwx : wx <= 0) by (assert (0 <= vy * - wx) by lra; apply pos_mul in H; lra).
    assert (wx = 0) by lra. subst wx. assert (0 < wy) by lra.
    replace (ux * wy - uy * 0) with (ux * wy) by ring. apply Rmult_le_pos; lra.
Qed.
Lemma angle_trans_lt : forall ux uy vx vy wx wy, lexpos ux uy -> lexpos vx vy -> lexpos wx wy ->
  0 <= X ux uy vx vy -> 0 <= X vx vy wx wy -> (0 < X ux uy vx vy \/ 0 < X vx vy wx wy) -> 0 < X ux uy wx wy.
Proof.
  unfold X, lexpos. intros ux uy vx vy wx wy Hu Hv Hw H1 H2 H3.
  destruct Hv as [Hv|[-> Hv]].
  - apply (pos_mul_lt vx); auto.
    replace (vx * (ux * wy - uy * wx)) with (wx * (ux * vy - uy * vx) + ux * (vx * wy - vy * wx)) by ring.
    destruct Hu as [Hu|[-> Hu]].
    + destruct Hw as [Hw|[-> Hw]].
      * assert (0 <= wx * (ux * vy - uy * vx)) by (apply Rmult_le_pos; lra). assert (0 <= ux * (vx * wy - vy * wx)) by (apply Rmult_le_pos; lra).
        destruct H3 as [H3|H3].
        -- assert (0 < wx * (ux * vy - uy * vx)) by (apply Rmult_lt_0_compat; lra). lra.
        -- assert (0 < ux * (vx * wy - vy * wx)) by (apply Rmult_lt_0_compat; lra). lra.
      * assert (0 < vx * wy) by (apply Rmult_lt_0_compat; lra). assert (0 < ux * (vx * wy - vy * 0)) by (apply Rmult_lt_0_compat; lra). lra.
    + assert (0 < uy * vx) by (apply Rmult_lt_0_compat; lra). lra.
  - assert (Hwx : wx <= 0) by (assert (0 <= vy * - wx) by lra; apply pos_mul in H; lra).
    assert (wx = 0) by lra. subst wx. assert (0 < wy) by lra.
    replace (ux * wy - uy * 0) with (ux * wy) by ring.
    assert (0 < ux) by (destruct H3 as [H3|H3]; [assert (H4 : 0 < vy * ux) by lra; exact (pos_mul_lt vy ux Hv H4)|lra]).
    apply Rmult_lt_0_compat; lra.
Qed.
Lemma plt_pos : forall a b, plt a b -> lexpos (fst b - fst a) (snd b - snd a).
Proof. unfold plt, lexpos. intros. lra. Qed.

(** ** Chains.  A stack is given top first *)
Fixpoint good (Q : list pt) (st : list pt) : Prop :=
  match st with
  | b :: ((a :: st2) as st1) => plt a b /\ (forall q, In q Q -> 0 <= cr a b q) /\ match st2 with c :: _ => 0 < cr c a b | [] => True end /\ good Q st1
  | _ => True
  end.

Section Chain.
Context (eps : R) (Q : list pt).
Notation popw := (pop_while Rarith eps 2).

Lemma cross_le : forall a b p, negb (altb Rarith eps (cr a b p)) = true <-> cr a b p <= eps.
Proof. intros a b p. cbn [Rarith altb]. destruct (Rltb_spec eps (cr a b p)); cbn [negb]; split; auto; try discriminate; intros; lra || (exfalso; lra). Qed.

(** the loop that pops: [p] comes after every point of Q *)
Lemma pop_ok : forall p st bot, (forall q, In q Q -> plt q p) -> (forall q, In q Q -> q = bot \/ plt bot q) ->
  (forall a b, In a Q -> In b Q -> cr a b p <= eps -> cr a b p <= 0) -> 0 <= eps ->
  st <> [] -> last st bot = bot -> Forall (fun x => In x Q) st -> good Q st ->
  (match st with b :: _ => forall q, In q Q -> plt b q -> 0 <= cr b p q | [] => True end) ->
  exists b st', popw p st = b :: st' /\ last (b :: st') bot = bot /\ Forall (fun x => In x Q) (b :: st') /\ good Q (b :: st') /\
    (forall q, In q Q -> 0 <= cr b p q) /\ match st' with a :: _ => 0 < cr a b p | [] => True end /\ (length (b :: st') <= length st)%nat.
Proof.
  intros p st bot Hp Hbot Hres Heps. induction st as [|b st1 IH]; intros Hne Hl HF HG H3; [congruence|].
  destruct st1 as [|a st2].
  - cbn [last] in Hl. subst b. exists bot, []. cbn [pop_while]. split; auto. split; auto. split; auto. split; auto. split; [|split; auto].
    intros q Hq. destruct (Hbot q Hq) as [->|Hb]; auto. rewrite cr_eq. right. ring.
  - destruct HG as [Gab [GQ [Gc G1]]].
    assert (Ia : In a Q) by (inversion HF as [|? ? ? HF']; inversion HF'; auto).
    assert (Ib : In b Q) by (inversion HF; auto).
    pose proof (plt_pos _ _ Gab) as Pab. pose proof (plt_pos _ _ (Hp b Ib)) as Pbp. pose proof (plt_pos _ _ (Hp a Ia)) as Pap.
    cbn [pop_while]. change (2 <=? length (b :: a :: st2))%nat with true. cbn [andb].
    destruct (negb (altb Rarith eps (cr a b p))) eqn:E.
    + apply cross_le in E. apply Hres in E; auto.
      destruct (IH ltac:(discriminate) Hl) as [b' [st' [E' [L' [F' [G' [R1 [R2 R3]]]]]]]].
      * inversion HF; auto.
      * exact G1.
      * intros q Hq Haq. pose proof (plt_pos _ _ Haq) as Paq. specialize (GQ q Hq).
        destruct (plt_total q b) as [Hqb|[->|Hbq]].
        -- (* p <= b <= q by angle, seen from a *)
           pose proof (angle_trans _ _ _ _ _ _ Pap Pab Paq) as AT. unfold X in AT. rewrite cr_eq in *.
           assert (A1 : 0 <= (fst p - fst a) * (snd b - snd a) - (snd p - snd a) * (fst b - fst a)) by lra.
           specialize (AT A1 GQ). lra.
        -- rewrite cr_eq in *. lra.
        -- specialize (H3 q Hq Hbq). rewrite cr_eq in *. lra.
      * exists b', st'. split; [exact E'|]. split; auto. split; auto. split; auto. split; auto. split; auto. cbn [length] in *. lia.
    + assert (Hpos : 0 < cr a b p).
      { destruct (Rle_or_lt (cr a b p) eps) as [C|C]; [apply cross_le in C; congruence|lra]. }
      exists b, (a :: st2). split; auto. split; auto. split; auto. split. { split; auto. } split; [|split; auto].
      intros q Hq. destruct (plt_total q b) as [Hqb|[->|Hbq]].
      * pose proof (plt_pos _ _ Hqb) as Pqb. specialize (GQ q Hq).
        pose proof (angle_trans _ _ _ _ _ _ Pqb Pab Pbp) as AT. unfold X in AT. rewrite cr_eq in *.
        assert (A1 : 0 <= (fst b - fst q) * (snd b - snd a) - (snd b - snd q) * (fst b - fst a)) by lra.
        assert (A2 : 0 <= (fst b - fst a) * (snd p - snd b) - (snd b - snd a) * (fst p - fst b)) by lra.
        specialize (AT A1 A2). lra.
      * rewrite cr_eq. right. ring.
      * auto.
Qed.
End Chain.

(** one chain over strictly ascending points *)
Definition chain (eps : R) (pts : list pt) : list pt := fold_left (chain_step Rarith eps 2) pts [].
Definition resolved_cross (eps : R) (pts : list pt) : Prop :=
  0 <= eps /\ forall a b c, In a pts -> In b pts -> In c pts -> cr a b c <= eps -> cr a b c <= 0.

Lemma good_mono : forall Q Q' st, (forall q, In q Q' -> In q Q) -> good Q st -> good Q' st.
Proof.
  intros Q Q' st H. induction st as [|b [|a st2] IH]; intros G; auto. destruct G as [G1 [G2 [G3 G4]]]. split; [auto|split; [auto|split; auto]].
Qed.
Lemma good_add : forall Q p st, Forall (fun x => In x Q) st -> (forall q, In q Q -> plt q p) -> good Q st ->
  match st with b :: _ => forall q, In q Q -> 0 <= cr b p q | [] => True end ->
  match st with b :: a :: _ => 0 < cr a b p | _ => True end ->
  good (Q ++ [p]) (p :: st).
Proof.
  intros Q p st HF Hp HG He Ht.
  assert (GE : forall st, Forall (fun x => In x Q) st -> good Q st -> match st with b :: a :: _ => 0 < cr a b p | _ => True end -> good (Q ++ [p]) st).
  { clear st HF HG He Ht. intros st. induction st as [|b [|a st2] IH]; intros HF HG Ht; auto.
    destruct HG as [G1 [G2 [G3 G4]]]. inversion HF as [|? ? Ib HF']; subst. inversion HF' as [|? ? Ia HF'']; subst.
    split; auto. split.
    { intros q Hq. apply in_app_or in Hq. destruct Hq as [Hq|[<-|[]]]; auto. lra. }
    split; auto. apply IH; auto.
    destruct st2 as [|c st3]; auto. destruct G4 as [Gca _].
    pose proof (plt_pos _ _ Gca) as Pca. pose proof (plt_pos _ _ G1) as Pab. pose proof (plt_pos _ _ (Hp b Ib)) as Pbp.
    pose proof (angle_trans _ _ _ _ _ _ Pca Pab Pbp) as AT. unfold X in AT. rewrite cr_eq in *.
    specialize (AT ltac:(lra) ltac:(lra)). lra. }
  specialize (GE st HF HG Ht). destruct st as [|b st1]; [exact I|]. inversion HF as [|? ? Ib HF']; subst.
  split; [apply Hp; auto|]. split.
  { intros q Hq. apply in_app_or in Hq. destruct Hq as [Hq|[<-|[]]]; auto. rewrite cr_eq; right; ring. }
  split; [destruct st1; auto|exact GE].
Qed.

(** a chain over ascending points: from the first to the last, convex, with every point on its left *)
Definition chain_spec (pts st : list pt) : Prop :=
  match pts with
  | [] => st = []
  | p0 :: _ => Forall (fun x => In x pts) st /\ good pts st /\ last st p0 = p0 /\ hd p0 st = last pts p0 /\ st <> [] /\ (length st <= length pts)%nat
  end.
Lemma last_app1 : forall A (l : list A) x d, last (l ++ [x]) d = x.
Proof. intros A l x d. apply last_last. Qed.
Lemma last_cons_ne : forall A (x : A) l d, l <> [] -> last (x :: l) d = last l d.
Proof. intros A x [|y l] d H; [congruence|reflexivity]. Qed.
Lemma sorted_app_last : forall l x, StronglySorted plt (l ++ [x]) -> StronglySorted plt l /\ forall q, In q l -> plt q x.
Proof.
  induction l as [|a l IH]; intros x H. { split; [constructor|intros q []]. }
  cbn [app] in H. inversion H as [|? ? HS HF]; subst. destruct (IH x HS) as [I1 I2]. rewrite Forall_forall in HF. split.
  - constructor; auto. apply Forall_forall. intros y Hy. apply HF, in_or_app; auto.
  - intros q [<-|Hq]; auto. apply HF, in_or_app. right; left; auto.
Qed.
Lemma sorted_bot : forall p0 l q, StronglySorted plt (p0 :: l) -> In q (p0 :: l) -> q = p0 \/ plt p0 q.
Proof. intros p0 l q H [<-|Hq]; auto. inversion H as [|? ? HS HF]; subst. rewrite Forall_forall in HF. auto. Qed.

Lemma chain_ok : forall eps pts, resolved_cross eps pts -> StronglySorted plt pts -> chain_spec pts (chain eps pts).
Proof.
  intros eps pts. induction pts as [|p pts IH] using rev_ind; intros [He Hr] HS; [reflexivity|].
  destruct (sorted_app_last _ _ HS) as [HS1 Hp].
  assert (Hr1 : resolved_cross eps pts). { split; auto. intros a b c Ha Hb Hc. apply Hr; apply in_or_app; auto. }
  specialize (IH Hr1 HS1). unfold chain in *. rewrite fold_left_app. cbn [fold_left].
  destruct pts as [|p0 pts0].
  { unfold chain_spec. cbn. split; [repeat constructor|]. split; auto. split; auto. split; auto. split; [discriminate|lia]. }
  set (pts := p0 :: pts0) in *. set (st := fold_left (chain_step Rarith eps 2) pts []) in *.
  destruct IH as [F [G [L [H [N Len]]]]].
  destruct (pop_ok eps pts p st p0 Hp) as [b [st' [E [L' [F' [G' [R1 [R2 R3]]]]]]]]; auto.
  { intros q Hq. eapply sorted_bot; eauto. }
  { intros a b Ha Hb. apply Hr; apply in_or_app; auto. right; left; auto. }
  { destruct st as [|b st1]; auto. cbn [hd] in H. intros q Hq Hbq. exfalso.
    (* b is the last point *)
    subst b. clear -HS1 Hq Hbq. unfold pts in *. clearbody pts. 
    assert (G : forall l d q, StronglySorted plt l -> In q l -> ~ plt (last l d) q).
    { induction l as [|a l IH]; intros d q0 HS Hin Hlt; [destruct Hin|]. inversion HS as [|? ? HS' HF]; subst. rewrite Forall_forall in HF.
      destruct l as [|a' l]. { destruct Hin as [<-|[]]. cbn in Hlt. exact (plt_irr _ Hlt). }
      rewrite last_cons_ne in Hlt by discriminate. destruct Hin as [<-|Hin]; [|exact (IH d q0 HS' Hin Hlt)].
      assert (In (last (a' :: l) d) (a' :: l)). { clear. destruct (exists_last (l := a' :: l)) as [l' [z ->]]; [discriminate|]. rewrite last_last. apply in_or_app; right; left; auto. }
      apply (plt_irr a). eapply plt_trans; [apply HF; eauto|exact Hlt]. }
    exact (G _ _ _ HS1 Hq Hbq). }
  unfold chain_step. rewrite E.
  change ((p0 :: pts0) ++ [p]) with (p0 :: (pts0 ++ [p])). change (p0 :: (pts0 ++ [p])) with (pts ++ [p]).
  unfold chain_spec. change (pts ++ [p]) with (p0 :: (pts0 ++ [p])) at 1. cbv iota.
  split. { constructor; [apply in_or_app; right; left; auto|]. eapply Forall_impl; [|exact F']. intros x Hx; apply in_or_app; auto. }
  split. { apply good_add; auto. }
  split. { rewrite last_cons_ne by discriminate. exact L'. }
  split. { cbn [hd]. rewrite last_last. reflexivity. }
  split; [discriminate|]. rewrite app_length. cbn [length] in *. lia.
Qed.

(** ** Edges of a chain *)
Lemma good_adj : forall Q st pre a b post, good Q st -> st = pre ++ b :: a :: post -> plt a b /\ (forall q, In q Q -> 0 <= cr a b q).
Proof.
  intros Q st pre. revert st. induction pre as [|x pre IH]; intros st a b post G E; subst st; cbn [app] in G.
  - destruct G as [G1 [G2 _]]. auto.
  - eapply IH; [|reflexivity]. destruct pre as [|y pre]; cbn [app] in *; destruct G as [_ [_ [_ G]]]; exact G.
Qed.
Lemma good_turn : forall Q st pre a b c post, good Q st -> st = pre ++ c :: b :: a :: post -> 0 < cr a b c.
Proof.
  intros Q st pre. revert st. induction pre as [|x pre IH]; intros st a b c post G E; subst st; cbn [app] in G.
  - destruct G as [_ [_ [G3 _]]]. auto.
  - eapply IH; [|reflexivity]. destruct pre as [|y pre]; cbn [app] in *; destruct G as [_ [_ [_ G]]]; exact G.
Qed.
Lemma good_sorted : forall Q st, good Q st -> StronglySorted (fun b a => plt a b) st.
Proof.
  intros Q st. induction st as [|b [|a st2] IH]; intros G; [constructor|repeat constructor|].
  destruct G as [G1 [_ [_ G4]]]. specialize (IH G4). constructor; auto. inversion IH as [|? ? HS HF]; subst.
  constructor; auto. eapply Forall_impl; [|exact HF]. cbv beta. intros c Hc. eapply plt_trans; eauto.
Qed.

Section ChainGeom.
Context (Q st : list pt) (HG : good Q st) (HQ : Forall (fun x => In x Q) st) (bot top : pt) (Hbot : last st bot = bot) (Htop : hd bot st = top) (Hne : st <> [])
        (Hmin : forall q, In q Q -> q = bot \/ plt bot q) (Hmax : forall q, In q Q -> q = top \/ plt q top).

Lemma edge_cases : forall pre a b post v, st = pre ++ b :: a :: post -> In v Q -> 0 < cr a b v \/ v = a \/ v = b \/ (plt a v /\ plt v b /\ cr a b v = 0).
Proof.
  intros pre a b post v E Hv.
  destruct (good_adj _ _ _ _ _ _ HG E) as [Pab GQ]. pose proof (plt_pos _ _ Pab) as Lab.
  destruct (Rle_lt_or_eq_dec _ _ (GQ v Hv)) as [C|C]; [left; auto|]. right.
  destruct (plt_total v a) as [Hva|[->|Hav]]; auto.
  - (* v before a: there is an edge below a *)
    exfalso. destruct post as [|c post].
    { assert (a = bot). { rewrite E in Hbot. clear -Hbot. assert (G : forall l, last (l ++ [b; a]) bot = a). { intros l. change [b; a] with ([b] ++ [a]). rewrite app_assoc. apply last_last. } rewrite G in Hbot. auto. }
      subst a. destruct (Hmin v Hv) as [->|Hb]; [exact (plt_irr _ Hva)|exact (plt_irr _ (plt_trans _ _ _ Hva Hb))]. }
    assert (E2 : st = (pre ++ [b]) ++ a :: c :: post) by (rewrite <- app_assoc; exact E).
    destruct (good_adj _ _ _ _ _ _ HG E2) as [Pca GQ2]. pose proof (good_turn _ _ _ _ _ _ _ HG E) as T.
    pose proof (plt_pos _ _ Pca) as Lca. pose proof (plt_pos _ _ Hva) as Lva. pose proof (GQ2 v Hv) as G2.
    pose proof (angle_trans_lt _ _ _ _ _ _ Lva Lca Lab) as AT. unfold X in AT. rewrite cr_eq in *.
    specialize (AT ltac:(lra) ltac:(lra)). assert (A := AT ltac:(right; lra)). lra.
  - destruct (plt_total v b) as [Hvb|[->|Hbv]]; auto.
    exfalso. destruct (exists_last (l := pre ++ [b])) as [pre' [z Ez]]. { destruct pre; discriminate. }
    destruct pre as [|c0 pre0] eqn:Epre.
    { rewrite E in Htop. cbn in Htop. subst b. destruct (Hmax v Hv) as [->|Hb]; [exact (plt_irr _ Hbv)|exact (plt_irr _ (plt_trans _ _ _ Hbv Hb))]. }
    destruct (exists_last (l := c0 :: pre0)) as [pre1 [c Ec]]; [discriminate|]. rewrite Ec in E.
    assert (E1 : st = pre1 ++ c :: b :: a :: post) by (rewrite E, <- app_assoc; reflexivity).
    destruct (good_adj _ _ _ _ _ _ HG E1) as [Pbc GQ2]. pose proof (good_turn _ _ _ _ _ _ _ HG E1) as T.
    pose proof (plt_pos _ _ Pbc) as Lbc. pose proof (plt_pos _ _ Hbv) as Lbv. pose proof (GQ2 v Hv) as G2.
    pose proof (angle_trans_lt _ _ _ _ _ _ Lab Lbc Lbv) as AT. unfold X in AT. rewrite cr_eq in *.
    specialize (AT ltac:(lra) ltac:(lra)). assert (A := AT ltac:(left; lra)). lra.
Qed.

(** inside the chain: strictly below the chord *)
Lemma chord : forall pre a g c post, st = pre ++ c :: g :: a :: post -> 0 < cr bot g top.
Proof.
  intros pre a g c post E.
  assert (E2 : st = (pre ++ [c]) ++ g :: a :: post) by (rewrite <- app_assoc; exact E).
  destruct (good_adj _ _ _ _ _ _ HG E) as [Pgc G1]. destruct (good_adj _ _ _ _ _ _ HG E2) as [Pag G2].
  pose proof (good_turn _ _ _ _ _ _ _ HG E) as T.
  assert (Ibot : In bot Q). { rewrite Forall_forall in HQ. apply HQ. destruct (exists_last Hne) as [l [z Ez]]. rewrite Ez in Hbot |- *. rewrite last_last in Hbot. subst z. apply in_or_app; right; left; auto. }
  assert (Itop : In top Q). { rewrite Forall_forall in HQ. apply HQ. destruct st as [|z l]; [congruence|]. cbn in Htop. left; auto. }
  assert (Ia : In a Q). { rewrite Forall_forall in HQ. apply HQ. rewrite E. apply in_or_app; right. right; right; left; auto. }
  assert (Ic : In c Q). { rewrite Forall_forall in HQ. apply HQ. rewrite E. apply in_or_app; right. left; auto. }
  assert (Pbg : plt bot g). { destruct (Hmin a Ia) as [<-|H]; auto. eapply plt_trans; eauto. }
  assert (Pgt : plt g top). { destruct (Hmax c Ic) as [<-|H]; auto. eapply plt_trans; eauto. }
  pose proof (G2 bot Ibot) as B1. pose proof (G1 top Itop) as B2.
  pose proof (plt_pos _ _ Pbg) as L1. pose proof (plt_pos _ _ Pag) as L2. pose proof (plt_pos _ _ Pgc) as L3. pose proof (plt_pos _ _ Pgt) as L4.
  pose proof (angle_trans_lt _ _ _ _ _ _ L1 L2 L3) as AT1. pose proof (angle_trans_lt _ _ _ _ _ _ L1 L3 L4) as AT2. unfold X in *. rewrite cr_eq in *.
  specialize (AT1 ltac:(lra) ltac:(lra)). assert (A1 := AT1 ltac:(right; lra)).
  specialize (AT2 ltac:(lra) ltac:(lra)). assert (A2 := AT2 ltac:(left; lra)). lra.
Qed.
(** a vertex of the chain is its first, its last or inside *)
Lemma vertex_cases : forall v, In v st -> v = bot \/ v = top \/ exists pre c a post, st = pre ++ c :: v :: a :: post.
Proof.
  intros v Hv. apply in_split in Hv. destruct Hv as [l1 [l2 E]].
  destruct l2 as [|a post].
  { left. rewrite E in Hbot. rewrite last_last in Hbot. auto. }
  destruct l1 as [|c0 l0] eqn:El. { right; left. rewrite E in Htop. cbn in Htop. auto. }
  right; right. destruct (exists_last (l := c0 :: l0)) as [pre [c Ec]]; [discriminate|]. rewrite Ec in E.
  exists pre, c, a, post. rewrite E, <- app_assoc. reflexivity.
Qed.
Lemma vertex_chord : forall v, In v st -> cr bot top v <= 0.
Proof.
  intros v Hv. destruct (vertex_cases v Hv) as [->|[->|[pre [c [a [post E]]]]]].
  - rewrite cr_eq. right; ring.
  - rewrite cr_eq. right; ring.
  - apply chord in E. rewrite cr_eq in *. lra.
Qed.
(** no vertex lies strictly between two neighbours *)
Lemma not_between : forall pre a b post v, st = pre ++ b :: a :: post -> In v st -> plt a v -> plt v b -> False.
Proof.
  intros pre a b post v E Hv H1 H2. pose proof (good_sorted _ _ HG) as HS.
  assert (G : forall l, StronglySorted (fun b a => plt a b) l -> forall pre, l = pre ++ b :: a :: post -> In v l -> False).
  { clear -H1 H2. induction l as [|x l IH]; intros HS pre E Hv. { destruct pre; discriminate. }
    inversion HS as [|? ? HS' HF]; subst. rewrite Forall_forall in HF. destruct pre as [|y pre]; cbn [app] in E; injection E as E1 E2.
    - subst x. destruct Hv as [->|Hv]; [exact (plt_irr _ H2)|]. subst l. destruct Hv as [->|Hv]; [exact (plt_irr _ H1)|].
      inversion HS' as [|? ? HS'' HF']; subst. rewrite Forall_forall in HF'. specialize (HF' v Hv). cbv beta in HF'. exact (plt_irr _ (plt_trans _ _ _ H1 HF')).
    - subst y. destruct Hv as [->|Hv].
      + assert (Hb : In b l) by (rewrite E2; apply in_or_app; right; left; auto). specialize (HF b Hb). cbv beta in HF. exact (plt_irr _ (plt_trans _ _ _ H2 HF)).
      + exact (IH HS' pre E2 Hv). }
  exact (G st HS pre E Hv).
Qed.
End ChainGeom.

Lemma between_affine : forall a v b p q, plt a v -> plt v b -> cr a b v = 0 -> cr p q a <= 0 -> cr p q b <= 0 -> cr p q v <= 0.
Proof.
  intros [ax ay] [vx vy] [bx by_] [px py] [qx qy] H1 H2 H3 Ha Hb. unfold plt in *. rewrite cr_eq in *. cbn [fst snd] in *.
  destruct (Rtotal_order ax bx) as [C|[C|C]].
  - assert (E : (bx - ax) * - ((qx - px) * (vy - py) - (qy - py) * (vx - px)) =
      (bx - vx) * - ((qx - px) * (ay - py) - (qy - py) * (ax - px)) + (vx - ax) * - ((qx - px) * (by_ - py) - (qy - py) * (bx - px)) - (qx - px) * ((bx - ax) * (vy - ay) - (by_ - ay) * (vx - ax))) by ring.
    rewrite H3 in E.
    assert (0 <= - ((qx - px) * (vy - py) - (qy - py) * (vx - px))); [|lra]. apply (pos_mul (bx - ax)); [lra|]. rewrite E.
    assert (0 <= (bx - vx) * - ((qx - px) * (ay - py) - (qy - py) * (ax - px))) by (apply Rmult_le_pos; lra).
    assert (0 <= (vx - ax) * - ((qx - px) * (by_ - py) - (qy - py) * (bx - px))) by (apply Rmult_le_pos; lra). lra.
  - assert (vx = ax) by lra. subst vx bx.
    assert (E : (by_ - ay) * - ((qx - px) * (vy - py) - (qy - py) * (ax - px)) =
      (by_ - vy) * - ((qx - px) * (ay - py) - (qy - py) * (ax - px)) + (vy - ay) * - ((qx - px) * (by_ - py) - (qy - py) * (ax - px))) by ring.
    assert (0 <= - ((qx - px) * (vy - py) - (qy - py) * (ax - px))); [|lra]. apply (pos_mul (by_ - ay)); [lra|]. rewrite E.
    assert (0 <= (by_ - vy) * - ((qx - px) * (ay - py) - (qy - py) * (ax - px))) by (apply Rmult_le_pos; lra).
    assert (0 <= (vy - ay) * - ((qx - px) * (by_ - py) - (qy - py) * (ax - px))) by (apply Rmult_le_pos; lra). lra.
  - lra.
Qed.

(** ** Point reflection *)
Definition neg (p : pt) : pt := (- fst p, - snd p).
Lemma neg_neg : forall p, neg (neg p) = p.
Proof. intros [x y]. unfold neg; cbn. rewrite !Ropp_involutive. reflexivity. Qed.
Lemma neg_inj : forall p q, neg p = neg q -> p = q.
Proof. intros p q H. rewrite <- (neg_neg p), <- (neg_neg q), H. reflexivity. Qed.
Lemma cr_neg : forall a b c, cr (neg a) (neg b) (neg c) = cr a b c.
Proof. intros. rewrite !cr_eq. unfold neg; cbn [fst snd]. ring. Qed.
Lemma plt_neg : forall a b, plt (neg a) (neg b) <-> plt b a.
Proof. intros a b. unfold plt, neg; cbn [fst snd]. lra. Qed.
Lemma map_neg_neg : forall l, map neg (map neg l) = l.
Proof. intros l. rewrite map_map. rewrite <- (map_id l) at 2. apply map_ext. apply neg_neg. Qed.
Definition flip (l : list pt) : list pt := map neg (rev l).
Lemma flip_flip : forall l, flip (flip l) = l.
Proof. intros l. unfold flip. rewrite <- map_rev, rev_involutive. apply map_neg_neg. Qed.
Lemma flip_in : forall l p, In p (flip l) <-> In (neg p) l.
Proof.
  intros l p. unfold flip. rewrite in_map_iff. split.
  - intros [x [<- Hx]]. rewrite neg_neg. apply in_rev; auto.
  - intros H. exists (neg p). rewrite neg_neg. split; auto. apply -> in_rev; auto.
Qed.
Lemma flip_sorted : forall l, StronglySorted plt l -> StronglySorted plt (flip l).
Proof.
  induction 1 as [|a l HS IH HF]; unfold flip in *; cbn [rev]; [constructor|]. rewrite map_app. cbn [map].
  assert (G : forall l x, StronglySorted plt l -> (forall q, In q l -> plt q x) -> StronglySorted plt (l ++ [x])).
  { clear. induction l as [|y l IH]; intros x HS H; cbn [app]; [repeat constructor|]. inversion HS as [|? ? HS' HF]; subst. constructor.
    - apply IH; auto. intros q Hq; apply H; right; auto.
    - apply Forall_app; split; auto. constructor; auto. apply H; left; auto. }
  apply G; auto. intros q Hq. apply in_map_iff in Hq. destruct Hq as [y [<- Hy]]. apply plt_neg. rewrite Forall_forall in HF. apply HF. apply in_rev; auto.
Qed.
Lemma resolved_flip : forall eps l, resolved_cross eps l -> resolved_cross eps (flip l).
Proof.
  intros eps l [H1 H2]. split; auto. intros a b c Ha Hb Hc. rewrite flip_in in Ha, Hb, Hc. rewrite <- (cr_neg a b c). auto.
Qed.

(** ** Both chains together *)
Section TwoChains.
Context (eps : R).
(** the facts about one chain that are used below *)
Lemma chain_facts : forall p0 l, resolved_cross eps (p0 :: l) -> StronglySorted plt (p0 :: l) ->
  let st := chain eps (p0 :: l) in let pn := last (p0 :: l) p0 in
  good (p0 :: l) st /\ Forall (fun x => In x (p0 :: l)) st /\ last st p0 = p0 /\ hd p0 st = pn /\ st <> [] /\
  (forall q, In q (p0 :: l) -> q = p0 \/ plt p0 q) /\ (forall q, In q (p0 :: l) -> q = pn \/ plt q pn) /\ (length st <= length (p0 :: l))%nat.
Proof.
  intros p0 l HR HS st pn. pose proof (chain_ok eps _ HR HS) as [F [G [L [H [N Len]]]]].
  split; auto. split; auto. split; auto. split; auto. split; auto. split. { intros q. apply sorted_bot; auto. } split; auto.
  intros q Hq. unfold pn. clear -HS Hq. destruct (exists_last (l := p0 :: l)) as [l' [z E]]; [discriminate|]. rewrite E in *. rewrite last_last.
  destruct (sorted_app_last _ _ HS) as [_ H]. apply in_app_or in Hq. destruct Hq as [Hq|[->|[]]]; auto.
Qed.

Lemma side : forall pts, resolved_cross eps pts -> StronglySorted plt pts ->
  forall pre a b post, chain eps pts = pre ++ b :: a :: post ->
  (forall q, In q pts -> 0 <= cr a b q) /\
  (forall v, In v (chain eps pts) \/ In (neg v) (chain eps (flip pts)) -> v = a \/ v = b \/ 0 < cr a b v).
Proof.
  intros pts HR HS pre a b post E. destruct pts as [|p0 l].
  { cbn in E. destruct pre; discriminate. }
  destruct (chain_facts p0 l HR HS) as [G [F [L [H [N [Mn [Mx Ln]]]]]]].
  set (pts := p0 :: l) in *. set (pn := last pts p0) in *.
  split. { apply (good_adj _ _ _ _ _ _ G E). }
  assert (LC : forall v, In v (chain eps pts) -> v = a \/ v = b \/ 0 < cr a b v).
  { intros v Hv. assert (Vp : In v pts) by (rewrite Forall_forall in F; auto).
    destruct (edge_cases _ _ G p0 pn L H Mn Mx pre a b post v E Vp) as [C|[C|[C|[C1 [C2 C3]]]]]; auto.
    exfalso. exact (not_between _ _ G pre a b post v E Hv C1 C2). }
  intros v [Hv|Hv]; auto.
  (* the flipped chain *)
  pose proof (flip_sorted _ HS) as HS'. pose proof (resolved_flip _ _ HR) as HR'.
  destruct (exists_last (l := pts)) as [l' [z Ez]]; [discriminate|].
  assert (Ezn : z = pn) by (unfold pn; rewrite Ez, last_last; reflexivity).
  assert (Ef : flip pts = neg pn :: flip l') by (unfold flip; rewrite Ez, rev_app_distr; cbn; rewrite Ezn; reflexivity).
  assert (El : last (flip pts) (neg pn) = neg p0).
  { unfold flip, pts. cbn [rev]. rewrite map_app. cbn [map]. apply last_last. }
  rewrite Ef in HS', HR', Hv, El. destruct (chain_facts (neg pn) (flip l') HR' HS') as [G' [F' [L' [H' [N' [Mn' [Mx' _]]]]]]]. rewrite El in *.
  assert (Vp : In v pts).
  { rewrite Forall_forall in F'. specialize (F' _ Hv). rewrite <- Ef in F'. apply (flip_in pts (neg v)) in F'. rewrite neg_neg in F'. auto. }
  destruct (edge_cases _ _ G p0 pn L H Mn Mx pre a b post v E Vp) as [C|[C|[C|[C1 [C2 C3]]]]]; auto. exfalso.
  destruct (vertex_cases _ (neg pn) (neg p0) L' H' (neg v) Hv) as [C|[C|[pre' [c' [a' [post' E']]]]]].
  - apply neg_inj in C. subst v. assert (In pn (chain eps pts)). { revert H N. generalize (chain eps pts). clear. intros [|t0 t1] H N; [congruence|]. cbn in H. left. auto. }
    exact (not_between _ _ G pre a b post pn E H0 C1 C2).
  - apply neg_inj in C. subst v. assert (In p0 (chain eps pts)). { destruct (exists_last N) as [t1 [t0 Et]]. fold pts in Et. rewrite Et in L |- *. rewrite last_last in L. subst t0. apply in_or_app; right; left; auto. }
    exact (not_between _ _ G pre a b post p0 E H0 C1 C2).
  - pose proof (chord _ _ G' F' (neg pn) (neg p0) L' H' N' Mn' Mx' pre' a' (neg v) c' post' E') as K. rewrite cr_neg in K.
    assert (Va : cr p0 pn a <= 0). { apply (vertex_chord _ _ G F p0 pn L H N Mn Mx). rewrite E. apply in_or_app; right; right; left; auto. }
    assert (Vb : cr p0 pn b <= 0). { apply (vertex_chord _ _ G F p0 pn L H N Mn Mx). rewrite E. apply in_or_app; right; left; auto. }
    pose proof (between_affine a v b p0 pn C1 C2 C3 Va Vb) as B. rewrite cr_eq in *. lra.
Qed.
End TwoChains.

(** ** The two chains of the code *)
Lemma pop_unf : forall eps lowest p b a st, pop_while Rarith eps lowest p (b :: a :: st) =
  if (lowest <=? length (b :: a :: st))%nat && negb (altb Rarith eps (cr a b p)) then pop_while Rarith eps lowest p (a :: st) else b :: a :: st.
Proof. reflexivity. Qed.
Lemma pop_app : forall eps lowest p Lt U, (length Lt + 2 = lowest)%nat -> U <> [] ->
  pop_while Rarith eps lowest p (U ++ Lt) = pop_while Rarith eps 2 p U ++ Lt.
Proof.
  intros eps lowest p Lt U HL. induction U as [|b [|a U] IH]; intros HN; [congruence| |].
  - cbn [app pop_while]. destruct Lt as [|c Lt]; [reflexivity|]. cbn [length] in *.
    replace (lowest <=? S (S (length Lt)))%nat with false by (symmetry; apply Nat.leb_gt; lia). reflexivity.
  - change ((b :: a :: U) ++ Lt) with (b :: a :: (U ++ Lt)). rewrite !pop_unf.
    replace (lowest <=? length (b :: a :: (U ++ Lt)))%nat with true by (symmetry; apply Nat.leb_le; cbn [length]; rewrite app_length; lia).
    replace (2 <=? length (b :: a :: U))%nat with true by reflexivity. cbn [andb].
    destruct (negb (altb Rarith eps (cr a b p))); [|reflexivity]. apply IH. discriminate.
Qed.
Lemma fold_app : forall eps lowest Lt l U, (length Lt + 2 = lowest)%nat -> U <> [] ->
  fold_left (chain_step Rarith eps lowest) l (U ++ Lt) = fold_left (chain_step Rarith eps 2) l U ++ Lt.
Proof.
  intros eps lowest Lt l. induction l as [|p l IH]; intros U HL HN; [reflexivity|]. cbn [fold_left].
  unfold chain_step at 2 4. rewrite (pop_app eps lowest p Lt U HL HN). change (p :: pop_while Rarith eps 2 p U ++ Lt) with ((p :: pop_while Rarith eps 2 p U) ++ Lt).
  apply IH; auto. discriminate.
Qed.
Lemma pop_neg : forall eps lowest p st, pop_while Rarith eps lowest (neg p) (map neg st) = map neg (pop_while Rarith eps lowest p st).
Proof.
  intros eps lowest p st. induction st as [|b [|a st] IH]; [reflexivity..|].
  cbn [map] in *. rewrite !pop_unf, cr_neg. replace (length (neg b :: neg a :: map neg st)) with (length (b :: a :: st)) by (cbn; rewrite map_length; reflexivity).
  destruct ((lowest <=? length (b :: a :: st))%nat && negb (altb Rarith eps (cr a b p))); [exact IH|reflexivity].
Qed.
Lemma chain_neg : forall eps lowest l st, fold_left (chain_step Rarith eps lowest) (map neg l) (map neg st) = map neg (fold_left (chain_step Rarith eps lowest) l st).
Proof.
  intros eps lowest l. induction l as [|p l IH]; intros st; [reflexivity|]. cbn [map fold_left].
  unfold chain_step at 2 4. rewrite pop_neg. change (neg p :: map neg (pop_while Rarith eps lowest p st)) with (map neg (p :: pop_while Rarith eps lowest p st)). apply IH.
Qed.
Lemma chain_flip : forall eps pts, fold_left (chain_step Rarith eps 2) (rev pts) [] = map neg (chain eps (flip pts)).
Proof. intros eps pts. unfold chain, flip. change (@nil pt) with (map neg []) at 2. rewrite chain_neg, map_neg_neg. reflexivity. Qed.

(** the stack at the end: the upper chain above the lower one, sharing the last point *)
Lemma hull_stack_eq : forall eps p0 l, resolved_cross eps (p0 :: l) -> StronglySorted plt (p0 :: l) ->
  hull_stack Rarith eps (p0 :: l) = map neg (chain eps (flip (p0 :: l))) ++ tl (chain eps (p0 :: l)).
Proof.
  intros eps p0 l HR HS. destruct (chain_facts eps p0 l HR HS) as [_ [_ [_ [H [N _]]]]]. set (pts := p0 :: l) in *.
  destruct (exists_last (l := pts)) as [l' [z Ez]]; [discriminate|].
  assert (Ezn : last pts p0 = z) by (rewrite Ez; apply last_last).
  unfold hull_stack. fold (chain eps pts). destruct (chain eps pts) as [|t Lt] eqn:EL; [congruence|]. cbn [hd] in H. rewrite Ezn in H. subst t.
  rewrite <- chain_flip. replace (length pts - 1)%nat with (length l') by (rewrite Ez, app_length; cbn; lia).
  rewrite Ez at 1. rewrite firstn_app, Nat.sub_diag, firstn_all. cbn [firstn]. rewrite app_nil_r.
  rewrite Ez, rev_app_distr. cbn [rev app fold_left tl]. change (chain_step Rarith eps 2 [] z) with [z].
  change (z :: Lt) with ([z] ++ Lt) at 2. apply fold_app; [cbn; lia|discriminate].
Qed.
