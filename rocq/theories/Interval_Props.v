(** * C27: interval set operations

    [D] with its [<] is any strict weak order (finite IEEE doubles, the reals, ...). *)

From Coq Require Import List Bool Arith ZArith Lia Reals Lra.
Local Open Scope nat_scope.
From Verif Require Import Base Interval_Model.
Import ListNotations.

(** [<] is a strict weak order *)
Record order_laws {D : Type} (ltb : D -> D -> bool) : Prop := {
  ol_irrefl : forall a, ltb a a = false;
  ol_trans : forall a b c, ltb a b = true -> ltb b c = true -> ltb a c = true;
  ol_ntrans : forall a b c, ltb a c = true -> ltb a b = true \/ ltb b c = true }.

Section C27.
Context {D : Type} (ltb : D -> D -> bool) (OL : order_laws ltb) (nmax pmax : D).
Notation interval := (@interval D).
Notation contains := (i_contains ltb).
Notation ccontains := (c_contains ltb).

(** ** Specification *)
(** the intervals a user can build (without holes) *)
Inductive built : interval -> Prop :=
| b_all : built (CompleteR nmax pmax)
| b_oo : forall lo up, built (OpenI lo up)
| b_oc : forall lo up, built (OpenClosedI lo up)
| b_cc : forall lo up, built (ClosedI lo up)
| b_co : forall lo up, built (ClosedOpenI lo up)
| b_no : forall up, built (NegInfToOpen nmax up)
| b_nc : forall up, built (NegInfToClosed nmax up)
| b_oi : forall lo, built (OpenToInf pmax lo)
| b_ci : forall lo, built (ClosedToInf pmax lo).
(** the set described by the end points and their types *)
Definition in_set (i : interval) (x : D) : Prop :=
  match i_loT i with OPEN => ltb (i_lo i) x = true | CLOSED => ltb x (i_lo i) = false | _ => True end /\
  match i_upT i with OPEN => ltb x (i_up i) = true | CLOSED => ltb (i_up i) x = false | _ => True end.
Definition bounded (i : interval) : Prop := (i_loT i = OPEN \/ i_loT i = CLOSED) /\ (i_upT i = OPEN \/ i_upT i = CLOSED).
(** the lower end point is below the upper one, or they coincide and both belong to the interval *)
Definition proper (i : interval) : Prop :=
  ltb (i_lo i) (i_up i) = true \/ (eqbD ltb (i_lo i) (i_up i) = true /\ i_loT i = CLOSED /\ i_upT i = CLOSED).
(** x differs from an end point *)
Definition not_at (x e : D) : Prop := ltb x e = true \/ ltb e x = true.

(** ** A finite set of points of D behaves like integers *)
Definition rank (L : list D) (d : D) : Z := Z.of_nat (length (filter (fun e => ltb e d) L)).
Lemma filter_sub : forall (f g : D -> bool) L, (forall e, f e = true -> g e = true) -> length (filter f L) <= length (filter g L).
Proof.
  intros f g L H. induction L as [|e L IH]; simpl; auto. destruct (f e) eqn:Ef; [rewrite (H e Ef); simpl; lia|]. destruct (g e); simpl; lia.
Qed.
Lemma filter_sub_strict : forall (f g : D -> bool) L x, (forall e, f e = true -> g e = true) -> In x L -> f x = false -> g x = true -> length (filter f L) < length (filter g L).
Proof.
  intros f g L x H. induction L as [|e L IH]; simpl; [tauto|]. intros [->|Hin] Hf Hg.
  - rewrite Hf, Hg. simpl. pose proof (filter_sub f g L H). lia.
  - specialize (IH Hin Hf Hg). destruct (f e) eqn:Ef; [rewrite (H e Ef); simpl; lia|]. destruct (g e); simpl; lia.
Qed.
Lemma rank_ok : forall L a b, In a L -> In b L -> ltb a b = Z.ltb (rank L a) (rank L b).
Proof.
  intros L a b Ha Hb. unfold rank. destruct (ltb a b) eqn:E; symmetry.
  - apply Z.ltb_lt. apply inj_lt. apply (filter_sub_strict _ _ _ a); auto.
    + intros e He. eapply (ol_trans _ OL); eauto.
    + apply (ol_irrefl _ OL).
  - apply Z.ltb_ge. apply inj_le. apply filter_sub. intros e He. destruct (ol_ntrans _ OL e a b He) as [H|H]; auto. congruence.
Qed.

Ltac ranked L := let f := fresh "f" in let E := fresh "E" in
  assert (E : forall a b, In a L -> In b L -> ltb a b = Z.ltb (rank L a) (rank L b)) by (apply rank_ok);
  generalize dependent (rank L); intros f E;
  repeat match goal with |- context [ltb ?u ?v] => rewrite (E u v) by (simpl; tauto) | H : context [ltb ?u ?v] |- _ => lazymatch type of H with forall a b, In a _ -> _ => fail | _ => rewrite (E u v) in H by (simpl; tauto) end end.

(** contains() is membership in the described set *)
Theorem C27_contains : forall i x, built i -> (contains i x = true <-> in_set i x).
Proof.
  intros i x B. unfold in_set, i_contains, leb. destruct B; simpl; rewrite ?andb_true_iff, ?negb_true_iff; tauto.
Qed.

Lemma mk_bounded_contains : forall lt ut lo up x, contains (mk_bounded lt ut lo up) x =
  match lt, ut with
  | CLOSED, CLOSED => negb (ltb x lo) && negb (ltb up x)
  | OPEN, CLOSED => ltb lo x && negb (ltb up x)
  | CLOSED, OPEN => negb (ltb x lo) && ltb x up
  | _, _ => ltb lo x && ltb x up
  end.
Proof. intros [] [] lo up x; reflexivity. Qed.

Lemma c_contains_exists : forall l x, ccontains l x = true <-> exists i, In i l /\ contains i x = true.
Proof.
  induction l as [|i l IH]; intros x; simpl; [split; [discriminate|intros (i & [] & _)]|]. destruct (contains i x) eqn:E.
  - split; auto. intros _. exists i. auto.
  - rewrite IH. split; [intros (j & Hj & H); exists j; auto|]. intros (j & [->|Hj] & H); [congruence|eauto].
Qed.
(** a composite contains x iff one of its components does *)
Theorem C27_composite : forall l x, (forall i, In i l -> built i) -> (ccontains l x = true <-> exists i, In i l /\ in_set i x).
Proof.
  intros l x B. rewrite c_contains_exists. split; intros (i & Hi & H); exists i; split; auto; apply C27_contains; auto.
Qed.

(** Complement: exact for every interval and every x *)
Theorem C27_complement : forall a x, built a -> (ccontains (i_complement nmax pmax a) x = true <-> ~ in_set a x).
Proof.
  intros a x B. unfold in_set. destruct B; simpl; unfold i_contains, leb; cbn [i_lo i_up i_loT i_upT i_class NegInfToOpen NegInfToClosed OpenToInf ClosedToInf];
    repeat match goal with |- context [ltb ?u ?v] => destruct (ltb u v) eqn:? end; simpl; intuition congruence.
Qed.

(** ** One side at a time *)
Definition low_ok (t : etype) (l x : D) : bool := match t with OPEN => ltb l x | CLOSED => negb (ltb x l) | _ => true end.
Definition up_ok (t : etype) (u x : D) : bool := match t with OPEN => ltb x u | CLOSED => negb (ltb u x) | _ => true end.
Definition oc (t : etype) : Prop := t = OPEN \/ t = CLOSED.
Lemma in_set_ok : forall i x, in_set i x <-> low_ok (i_loT i) (i_lo i) x && up_ok (i_upT i) (i_up i) x = true.
Proof. intros [c l lt u ut] x. unfold in_set, low_ok, up_ok. cbn. rewrite andb_true_iff. destruct lt, ut; rewrite ?negb_true_iff; tauto. Qed.
Lemma mk_bounded_ok : forall lt ut lo up x, oc lt -> oc ut -> contains (mk_bounded lt ut lo up) x = low_ok lt lo x && up_ok ut up x.
Proof. intros lt ut lo up x [->| ->] [->| ->]; reflexivity. Qed.

Local Ltac zcases := repeat (match goal with |- context [Z.ltb ?u ?v] => destruct (Z.ltb_spec u v); try (exfalso; lia) end); cbn [negb andb orb is_closed is_open].

Lemma inter_low : forall ta la tb lb x,
  (ta = NEG_INF -> ltb lb la = false /\ ltb la x = true) -> (tb = NEG_INF -> ltb la lb = false /\ ltb lb x = true) -> ta <> POS_INF -> tb <> POS_INF ->
  let l := maxD ltb la lb in
  let t := if eqbD ltb l la && eqbD ltb l lb then if is_closed ta && is_closed tb then CLOSED else OPEN else if eqbD ltb l la then ta else tb in
  oc t /\ low_ok t l x = low_ok ta la x && low_ok tb lb x.
Proof.
  intros ta la tb lb x Ha Hb Pa Pb. unfold maxD, eqbD, low_ok, oc. cbv zeta. destruct (ltb la lb) eqn:Eab;
  (destruct ta, tb; try congruence; try (specialize (Ha eq_refl); destruct Ha); try (specialize (Hb eq_refl); destruct Hb); clear Pa Pb; cbn [is_closed andb];
  ranked [la; lb; x]; zcases; split; auto).
Qed.
Lemma inter_up : forall ta ua tb ub x,
  (ta = POS_INF -> ltb ua ub = false /\ ltb x ua = true) -> (tb = POS_INF -> ltb ub ua = false /\ ltb x ub = true) -> ta <> NEG_INF -> tb <> NEG_INF ->
  let u := minD ltb ua ub in
  let t := if eqbD ltb u ua && eqbD ltb u ub then if is_closed ta && is_closed tb then CLOSED else OPEN else if eqbD ltb u ua then ta else tb in
  oc t /\ up_ok t u x = up_ok ta ua x && up_ok tb ub x.
Proof.
  intros ta la tb lb x Ha Hb Pa Pb. unfold minD, eqbD, up_ok, oc. cbv zeta. destruct (ltb lb la) eqn:Eab;
  (destruct ta, tb; try congruence; try (specialize (Ha eq_refl); destruct Ha); try (specialize (Hb eq_refl); destruct Hb); clear Pa Pb; cbn [is_closed andb];
  ranked [la; lb; x]; zcases; split; auto).
Qed.

Lemma built_types : forall a, built a -> (i_loT a = NEG_INF -> i_lo a = nmax) /\ (i_upT a = POS_INF -> i_up a = pmax) /\ i_loT a <> POS_INF /\ i_upT a <> NEG_INF.
Proof. intros a []; cbn; repeat split; intros; congruence. Qed.

(** all end points lie in the range of the finite numbers *)
Definition in_range (i : interval) : Prop := ltb (i_lo i) nmax = false /\ ltb pmax (i_up i) = false.

(** Intersection: exact for every pair of intervals and every x strictly between -max and max *)
Theorem C27_intersection : forall a b x, built a -> built b -> in_range a -> in_range b -> ltb nmax x = true -> ltb x pmax = true ->
  (ccontains (i_intersection ltb a b) x = true <-> in_set a x /\ in_set b x).
Proof.
  intros a b x Ba Bb [Ra1 Ra2] [Rb1 Rb2] Hn Hp. rewrite !in_set_ok, !andb_true_iff.
  destruct (built_types a Ba) as (A1 & A2 & A3 & A4), (built_types b Bb) as (B1 & B2 & B3 & B4).
  pose proof (inter_low (i_loT a) (i_lo a) (i_loT b) (i_lo b) x) as HL. pose proof (inter_up (i_upT a) (i_up a) (i_upT b) (i_up b) x) as HU.
  destruct HL as [L1 L2]; auto; [intros E; rewrite (A1 E); auto|intros E; rewrite (B1 E); auto|].
  destruct HU as [U1 U2]; auto; [intros E; rewrite (A2 E); auto|intros E; rewrite (B2 E); auto|].
  cbv zeta in *. unfold i_intersection. match type of L1 with oc ?t => set (lt := t) in * end. match type of U1 with oc ?t => set (ut := t) in * end.
  set (l := maxD ltb (i_lo a) (i_lo b)) in *. set (u := minD ltb (i_up a) (i_up b)) in *. clearbody lt ut. cbv zeta.
  destruct (ltb u l) eqn:E.
  - cbn [c_contains]. split; [discriminate|]. intros [[P1 P2] [P3 P4]]. rewrite P1, P3 in L2. rewrite P2, P4 in U2. exfalso. cbn [andb] in *. clearbody l u.
    clear - L1 L2 U1 U2 E OL. revert L2 U2 E. unfold low_ok, up_ok. destruct L1 as [-> | ->], U1 as [-> | ->]; ranked [l; u; x]; zcases; discriminate.
  - cbn [c_contains]. rewrite mk_bounded_ok by auto. rewrite L2, U2. clear.
    destruct (low_ok (i_loT a) (i_lo a) x), (low_ok (i_loT b) (i_lo b) x), (up_ok (i_upT a) (i_up a) x), (up_ok (i_upT b) (i_up b) x); cbn; intuition congruence.
Qed.

(** ** Union *)
Lemma union_low : forall ta la tb lb x, oc ta -> oc tb ->
  let l := minD ltb la lb in
  let t := if eqbD ltb l la && eqbD ltb l lb then if is_closed ta || is_closed tb then CLOSED else OPEN else if eqbD ltb l la then ta else tb in
  oc t /\ low_ok t l x = low_ok ta la x || low_ok tb lb x.
Proof.
  intros ta la tb lb x Ha Hb. unfold minD, eqbD, low_ok. cbv zeta. destruct (ltb lb la) eqn:Eab;
  (destruct Ha as [-> | ->], Hb as [-> | ->]; unfold oc; cbn [is_closed orb]; ranked [la; lb; x]; zcases; split; auto).
Qed.
Lemma union_up : forall ta ua tb ub x, oc ta -> oc tb ->
  let u := maxD ltb ua ub in
  let t := if eqbD ltb u ua && eqbD ltb u ub then if is_closed ta || is_closed tb then CLOSED else OPEN else if eqbD ltb u ua then ta else tb in
  oc t /\ up_ok t u x = up_ok ta ua x || up_ok tb ub x.
Proof.
  intros ta la tb lb x Ha Hb. unfold maxD, eqbD, up_ok. cbv zeta. destruct (ltb la lb) eqn:Eab;
  (destruct Ha as [-> | ->], Hb as [-> | ->]; unfold oc; cbn [is_closed orb]; ranked [la; lb; x]; zcases; split; auto).
Qed.
(** no gap between overlapping or adjacent intervals *)
Definition overlap (a b : interval) : bool :=
  if ltb (i_lo b) (i_up a) && ltb (i_lo a) (i_up b) then true
    else if eqbD ltb (i_up a) (i_lo b) then is_closed (i_upT a) || is_closed (i_loT b)
    else if eqbD ltb (i_up b) (i_lo a) then is_closed (i_upT b) || is_closed (i_loT a)
    else false.
Local Ltac tobool := repeat match goal with
  | H : negb _ = true |- _ => apply negb_true_iff in H
  | H : negb _ = false |- _ => apply negb_false_iff in H
  | H : _ && _ = true |- _ => apply andb_true_iff in H; destruct H end.
Local Ltac toz := repeat match goal with
  | H : Z.ltb _ _ = true |- _ => apply Z.ltb_lt in H
  | H : Z.ltb _ _ = false |- _ => apply Z.ltb_ge in H end.
Lemma no_gap : forall a b x, bounded a -> bounded b -> proper a -> proper b -> overlap a b = true ->
  (up_ok (i_upT a) (i_up a) x = false -> low_ok (i_loT b) (i_lo b) x = false -> False) /\
  (up_ok (i_upT b) (i_up b) x = false -> low_ok (i_loT a) (i_lo a) x = false -> False).
Proof.
  intros [ac al at1 au at2] [bc bl bt1 bu bt2] x [Ta1 Ta2] [Tb1 Tb2] Pa Pb. unfold overlap, proper, eqbD, up_ok, low_ok in *. cbn in *.
  intros Ho. split; intros H1 H2; revert Ho;
  destruct Ta2 as [-> | ->], Tb1 as [-> | ->], Tb2 as [-> | ->], Ta1 as [-> | ->]; cbn [is_closed orb]; 
  (destruct Pa as [Pa|(Pa & P1 & P2)]; [|try discriminate P1; try discriminate P2]); (destruct Pb as [Pb|(Pb & P3 & P4)]; [|try discriminate P3; try discriminate P4]);
  tobool; ranked [al; au; bl; bu; x]; toz; zcases; congruence.
Qed.

Lemma single : forall t1 t2 l u x, oc t1 -> oc t2 -> contains (mk_bounded t1 t2 l u) x = low_ok t1 l x && up_ok t2 u x.
Proof. intros. apply mk_bounded_ok; auto. Qed.

(** Union: exact for every pair of bounded proper intervals and every x *)
Theorem C27_union : forall a b x, built a -> built b -> bounded a -> bounded b -> proper a -> proper b ->
  (ccontains (i_union ltb a b) x = true <-> in_set a x \/ in_set b x).
Proof.
  intros a b x _ _ Ta Tb Pa Pb. rewrite !in_set_ok. destruct (Ta) as [Ta1 Ta2]. destruct (Tb) as [Tb1 Tb2].
  unfold i_union. fold (overlap a b). cbv zeta. destruct (overlap a b) eqn:Eo.
  - destruct (no_gap a b x Ta Tb Pa Pb Eo) as [G1 G2]. cbn [c_contains].
    destruct (union_low (i_loT a) (i_lo a) (i_loT b) (i_lo b) x Ta1 Tb1) as [L1 L2]. destruct (union_up (i_upT a) (i_up a) (i_upT b) (i_up b) x Ta2 Tb2) as [U1 U2].
    cbv zeta in *. rewrite mk_bounded_ok by auto. rewrite L2, U2. clear - G1 G2.
    destruct (low_ok (i_loT a) (i_lo a) x) eqn:E1, (low_ok (i_loT b) (i_lo b) x) eqn:E2, (up_ok (i_upT a) (i_up a) x) eqn:E3, (up_ok (i_upT b) (i_up b) x) eqn:E4; cbn;
      try (split; intros; auto; congruence); try (split; [tauto|intuition congruence]); exfalso; auto.
  - destruct (ltb (i_lo a) (i_lo b)); cbn [c_contains]; rewrite !single by auto;
    destruct (low_ok (i_loT a) (i_lo a) x && up_ok (i_upT a) (i_up a) x), (low_ok (i_loT b) (i_lo b) x && up_ok (i_upT b) (i_up b) x); intuition congruence.
Qed.

(** ** Points that are not end points *)
Lemma not_at_neg : forall x e, not_at x e -> negb (ltb x e) = ltb e x.
Proof. intros x e H. unfold not_at in H. revert H. ranked [x; e]. zcases; intros [|]; congruence. Qed.
Lemma away : forall t1 t2 l u x, not_at x l -> not_at x u -> contains (mk_bounded t1 t2 l u) x = ltb l x && ltb x u.
Proof.
  intros t1 t2 l u x H1 H2. rewrite mk_bounded_contains. rewrite (not_at_neg x l), (not_at_neg u x) by (unfold not_at in *; tauto). destruct t1, t2; reflexivity.
Qed.
Lemma in_set_away : forall i x, built i -> ltb nmax x = true -> ltb x pmax = true -> not_at x (i_lo i) -> not_at x (i_up i) -> (in_set i x <-> ltb (i_lo i) x && ltb x (i_up i) = true).
Proof.
  intros i x B Hn Hp H1 H2. rewrite andb_true_iff. unfold in_set.
  assert (E1 : ltb x (i_lo i) = negb (ltb (i_lo i) x)) by (rewrite (not_at_neg (i_lo i) x); auto; unfold not_at in *; tauto).
  assert (E2 : ltb (i_up i) x = negb (ltb x (i_up i))) by (rewrite (not_at_neg x (i_up i)); auto; unfold not_at in *; tauto).
  rewrite E1, E2. destruct B; cbn in *; rewrite ?Hn, ?Hp, ?negb_false_iff; tauto.
Qed.
Lemma min_test : forall a b x, ltb (minD ltb a b) x = ltb a x || ltb b x.
Proof. intros a b x. unfold minD. destruct (ltb b a) eqn:E; ranked [a; b; x]; toz; zcases; auto. Qed.
Lemma max_test : forall a b x, ltb x (maxD ltb a b) = ltb x a || ltb x b.
Proof. intros a b x. unfold maxD. destruct (ltb a b) eqn:E; ranked [a; b; x]; toz; zcases; auto. Qed.
Lemma overlap_le : forall a b, proper a -> proper b -> overlap a b = true -> ltb (i_up b) (i_lo a) = false /\ ltb (i_up a) (i_lo b) = false.
Proof.
  intros a b. unfold overlap. destruct a as [ac la t1 ua t2], b as [bc lb t3 ub t4]. unfold proper, eqbD in *. cbn in *.
  intros Pa Pb Ho. revert Ho. destruct (is_closed t2 || is_closed t3), (is_closed t4 || is_closed t1); (destruct Pa as [Pa|(Pa & _)]; destruct Pb as [Pb|(Pb & _)]); tobool; ranked [la; ua; lb; ub]; toz; zcases; auto; try discriminate.
Qed.
Lemma not_between : forall u l x, ltb u l = false -> not_at x u -> not_at x l -> ltb x u = false -> ltb l x = false -> False.
Proof. intros u l x. unfold not_at. ranked [u; l; x]. zcases; intros ? [|] [|]; congruence. Qed.

(** Union with infinite or degenerate end point types: exact at every x that is not an end point *)
Theorem C27_union_interior : forall a b x, built a -> built b -> proper a -> proper b -> ltb nmax x = true -> ltb x pmax = true ->
  not_at x (i_lo a) -> not_at x (i_up a) -> not_at x (i_lo b) -> not_at x (i_up b) ->
  (ccontains (i_union ltb a b) x = true <-> in_set a x \/ in_set b x).
Proof.
  intros a b x Ba Bb Pa Pb Hn Hp N1 N2 N3 N4. rewrite !in_set_away by auto. clear Ba Bb Hn Hp. unfold i_union. fold (overlap a b).
  destruct (overlap a b) eqn:Eo; cbv zeta.
  - destruct (overlap_le a b Pa Pb Eo) as [G1 G2]. cbn [c_contains].
    rewrite away by (unfold minD, maxD; repeat match goal with |- context [if ?c then _ else _] => destruct c end; auto).
    rewrite min_test, max_test. pose proof (not_between (i_up b) (i_lo a) x G1 N4 N1) as K1. pose proof (not_between (i_up a) (i_lo b) x G2 N2 N3) as K2.
    destruct (ltb (i_lo a) x) eqn:E1, (ltb (i_lo b) x) eqn:E2, (ltb x (i_up a)) eqn:E3, (ltb x (i_up b)) eqn:E4; cbn;
      try (split; intros; auto; congruence); try (split; [tauto|intuition congruence]); exfalso; auto.
  - destruct (ltb (i_lo a) (i_lo b)); cbn [c_contains]; rewrite !away by auto;
    destruct (ltb (i_lo a) x && ltb x (i_up a)), (ltb (i_lo b) x && ltb x (i_up b)); intuition congruence.
Qed.

(** ** Difference *)
Lemma sep : forall t t' l u x, ltb u l = true -> low_ok t l x = true -> up_ok t' u x = true -> t <> NEG_INF -> t' <> POS_INF -> t <> POS_INF -> t' <> NEG_INF -> False.
Proof. intros [] [] l u x; unfold low_ok, up_ok; intros H1 H2 H3; try congruence; tobool; ranked [l; u; x]; toz; lia. Qed.
Lemma low_mono : forall t t' l l' x, ltb l' l = true -> oc t -> oc t' -> low_ok t l x = true -> low_ok t' l' x = true.
Proof. intros t t' l l' x H [-> | ->] [-> | ->]; unfold low_ok; intros H2; tobool; ranked [l; l'; x]; toz; zcases; auto. Qed.
Lemma up_mono : forall t t' u u' x, ltb u u' = true -> oc t -> oc t' -> up_ok t u x = true -> up_ok t' u' x = true.
Proof. intros t t' u u' x H [-> | ->] [-> | ->]; unfold up_ok; intros H2; tobool; ranked [u; u'; x]; toz; zcases; auto. Qed.
Lemma low_flip : forall t u x, oc t -> low_ok (flip t) u x = negb (up_ok t u x).
Proof. intros t u x [-> | ->]; unfold low_ok, up_ok, flip; cbn; auto. rewrite negb_involutive. auto. Qed.
Lemma up_flip : forall t l x, oc t -> up_ok (flip t) l x = negb (low_ok t l x).
Proof. intros t u x [-> | ->]; unfold low_ok, up_ok, flip; cbn; auto. rewrite negb_involutive. auto. Qed.
Lemma oc_flip : forall t, oc (flip t).
Proof. intros []; unfold oc, flip; cbn; auto. Qed.
Lemma low_up : forall t t' l u x, ltb l u = true -> oc t -> oc t' -> up_ok t' u x = false -> low_ok t l x = true.
Proof. intros t t' l u x H [-> | ->] [-> | ->]; unfold up_ok, low_ok; intros H2; tobool; ranked [l; u; x]; toz; zcases; auto. Qed.
Lemma up_low : forall t t' l u x, ltb l u = true -> oc t -> oc t' -> low_ok t l x = false -> up_ok t' u x = true.
Proof. intros t t' l u x H [-> | ->] [-> | ->]; unfold up_ok, low_ok; intros H2; tobool; ranked [l; u; x]; toz; zcases; auto. Qed.
Lemma lt_le_lt : forall a b c, ltb a b = true -> ltb c b = false -> ltb a c = true.
Proof. intros a b c. ranked [a; b; c]. zcases; congruence. Qed.
Lemma le_lt_lt : forall a b c, ltb b a = false -> ltb b c = true -> ltb a c = true.
Proof. intros a b c. ranked [a; b; c]. zcases; congruence. Qed.
Lemma le_ne : forall a b, ltb a b = false -> not_at a b -> ltb b a = true.
Proof. intros a b H [N|N]; congruence. Qed.

(** exact for every x when no end point of a coincides with an end point of b *)
Theorem C27_difference : forall a b x, built a -> built b -> bounded a -> bounded b -> ltb (i_up b) (i_lo b) = false ->
  not_at (i_lo a) (i_lo b) -> not_at (i_lo a) (i_up b) -> not_at (i_up a) (i_lo b) -> not_at (i_up a) (i_up b) ->
  (ccontains (i_difference ltb a b) x = true <-> in_set a x /\ ~ in_set b x).
Proof.
  intros a b x _ _ [Ta1 Ta2] [Tb1 Tb2] Pb N1 N2 N3 N4. rewrite !in_set_ok. unfold i_difference, leb.
  destruct a as [ac la t1 ua t2], b as [bc lb t3 ub t4]. cbn [i_lo i_up i_loT i_upT] in *.
  assert (O1 := oc_flip t3). assert (O2 := oc_flip t4).
  assert (SW : forall p q, not_at p q -> not_at q p) by (unfold not_at; tauto).
  assert (SP : forall t t' l u, oc t -> oc t' -> ltb u l = true -> low_ok t l x = true -> up_ok t' u x = true -> False).
  { intros t t' l u [-> | ->] [-> | ->] H1 H2 H3; refine (sep _ _ l u x H1 H2 H3 _ _ _ _); discriminate. }
  destruct (ltb la ub) eqn:E1; cbn [negb orb].
  2:{ apply le_ne in E1; auto. cbn [c_contains]. rewrite mk_bounded_ok by auto.
      pose proof (SP t1 t4 la ub Ta1 Tb2 E1) as K. destruct (low_ok t1 la x), (up_ok t2 ua x), (low_ok t3 lb x), (up_ok t4 ub x); cbn; intuition congruence. }
  destruct (ltb lb ua) eqn:E2; cbn [negb].
  2:{ apply le_ne in E2; auto. cbn [c_contains]. rewrite mk_bounded_ok by auto.
      pose proof (SP t3 t2 lb ua Tb1 Ta2 E2) as K. destruct (low_ok t1 la x), (up_ok t2 ua x), (low_ok t3 lb x), (up_ok t4 ub x); cbn; intuition congruence. }
  destruct (ltb la lb) eqn:E3, (ltb ub ua) eqn:E4; cbn [negb andb].
  - (* split *)
    cbn [c_contains]. rewrite !mk_bounded_ok by auto. rewrite low_flip, up_flip by auto.
    pose proof (low_up t1 t4 la ub x E1 Ta1 Tb2) as K1. pose proof (up_low t3 t2 lb ua x E2 Tb1 Ta2) as K2.
    destruct (low_ok t1 la x), (up_ok t2 ua x), (low_ok t3 lb x), (up_ok t4 ub x); cbn; intuition congruence.
  - apply le_ne in E4; auto. cbn [c_contains]. rewrite !mk_bounded_ok by auto. rewrite up_flip by auto.
    pose proof (up_mono t2 t4 ua ub x E4 Ta2 Tb2) as K1. pose proof (up_low t3 t2 lb ua x E2 Tb1 Ta2) as K2.
    destruct (low_ok t1 la x), (up_ok t2 ua x), (low_ok t3 lb x), (up_ok t4 ub x); cbn; intuition congruence.
  - apply le_ne in E3; auto. cbn [c_contains]. rewrite !mk_bounded_ok by auto. rewrite low_flip by auto.
    pose proof (low_mono t1 t3 la lb x E3 Ta1 Tb1) as K1. pose proof (low_up t1 t4 la ub x E1 Ta1 Tb2) as K2.
    destruct (low_ok t1 la x), (up_ok t2 ua x), (low_ok t3 lb x), (up_ok t4 ub x); cbn; intuition congruence.
  - apply le_ne in E3; auto. apply le_ne in E4; auto. cbn [c_contains].
    pose proof (low_mono t1 t3 la lb x E3 Ta1 Tb1) as K1. pose proof (up_mono t2 t4 ua ub x E4 Ta2 Tb2) as K2.
    destruct (low_ok t1 la x), (up_ok t2 ua x), (low_ok t3 lb x), (up_ok t4 ub x); cbn; intuition congruence.
Qed.

(** for all intervals, at every x that is not an end point *)
Theorem C27_difference_interior : forall a b x, built a -> built b -> ltb (i_up b) (i_lo b) = false -> ltb nmax x = true -> ltb x pmax = true ->
  not_at x (i_lo a) -> not_at x (i_up a) -> not_at x (i_lo b) -> not_at x (i_up b) ->
  (ccontains (i_difference ltb a b) x = true <-> in_set a x /\ ~ in_set b x).
Proof.
  intros a b x Ba Bb Pb Hn Hp N1 N2 N3 N4. rewrite !in_set_away by auto. clear Ba Bb Hn Hp. unfold i_difference, leb.
  destruct a as [ac la t1 ua t2], b as [bc lb t3 ub t4]. cbn [i_lo i_up i_loT i_upT] in *.
  assert (T1 : forall p q, ltb p q = false -> not_at x p -> not_at x q -> ltb x q = true -> ltb x p = true).
  { intros p q. unfold not_at. ranked [p; q; x]. zcases; auto; intros ? [|] [|]; congruence. }
  assert (T2 : forall p q, ltb p q = true -> ltb q p = false). { intros p q. ranked [p; q]. zcases; auto; congruence. }
  assert (X : forall p, not_at x p -> ltb p x = negb (ltb x p)). { intros p Np. rewrite (not_at_neg x p Np). auto. }
  rewrite (X la N1), (X lb N3). pose proof (T1 lb la) as A1. pose proof (T1 la lb) as A2. pose proof (T1 ua ub) as A3. pose proof (T1 ub ua) as A4.
  pose proof (T1 la ub) as A5. pose proof (T1 ub la) as A6. pose proof (T1 lb ua) as A7. pose proof (T1 ua lb) as A8. pose proof (T1 ub lb Pb N4 N3) as A9.
  assert (AW : forall t1 t2 l u, not_at x l -> not_at x u -> contains (mk_bounded t1 t2 l u) x = negb (ltb x l) && ltb x u).
  { intros tt1 tt2 l u M1 M2. rewrite away by auto. rewrite (X l M1). auto. }
  destruct (ltb la ub) eqn:E1; cbn [negb orb].
  2:{ cbn [c_contains]. rewrite AW by auto. destruct (ltb x la), (ltb x ua), (ltb x lb), (ltb x ub); cbn; intuition congruence. }
  destruct (ltb lb ua) eqn:E2; cbn [negb].
  2:{ cbn [c_contains]. rewrite AW by auto. destruct (ltb x la), (ltb x ua), (ltb x lb), (ltb x ub); cbn; intuition congruence. }
  assert (B1 := T2 _ _ E1). assert (B2 := T2 _ _ E2).
  destruct (ltb la lb) eqn:E3, (ltb ub ua) eqn:E4; cbn [negb andb]; try assert (B3 := T2 _ _ E3); try assert (B4 := T2 _ _ E4); cbn [c_contains]; rewrite ?AW by auto;
  destruct (ltb x la), (ltb x ua), (ltb x lb), (ltb x ub); cbn; intuition congruence.
Qed.

(** ** Bounds and intersects *)
(** getLowerBound/getUpperBound of a non-empty composite: a bound of every component, attained by one *)
Theorem C27_bounds : forall zero l, l <> [] ->
  (forall i, In i l -> ltb (i_lo i) (c_lower ltb zero l) = false) /\ (exists i, In i l /\ c_lower ltb zero l = i_lo i) /\
  (forall i, In i l -> ltb (c_upper ltb zero l) (i_up i) = false) /\ (exists i, In i l /\ c_upper ltb zero l = i_up i).
Proof.
  intros zero l Hne.
  assert (G1 : forall l m, (forall i, In i l -> ltb (i_lo i) (fold_left (fun m i => minD ltb m (i_lo i)) l m) = false) /\
     ltb m (fold_left (fun m i => minD ltb m (i_lo i)) l m) = false /\ (fold_left (fun m i => minD ltb m (i_lo i)) l m = m \/ exists i, In i l /\ fold_left (fun m i => minD ltb m (i_lo i)) l m = i_lo i)).
  { induction l0 as [|i l0 IH]; intros m; cbn [fold_left]; [split; [intros i []|split; [apply (ol_irrefl _ OL)|auto]]|].
    destruct (IH (minD ltb m (i_lo i))) as (I1 & I2 & I3). set (F := fold_left (fun m i => minD ltb m (i_lo i)) l0 (minD ltb m (i_lo i))) in *. clearbody F.
    assert (J : ltb m F = false /\ ltb (i_lo i) F = false). { revert I2. unfold minD. destruct (ltb (i_lo i) m) eqn:E; generalize dependent (i_lo i); intros e; intros; ranked [m; e; F]; toz; zcases; auto; congruence. }
    split; [intros j [<-|Hj]; [tauto|auto]|]. split; [tauto|]. destruct I3 as [->|(j & Hj & ->)]; [|right; exists j; split; [right; auto|auto]].
    unfold minD. destruct (ltb (i_lo i) m); [right; exists i; split; [left; auto|auto]|auto]. }
  assert (G2 : forall l m, (forall i, In i l -> ltb (fold_left (fun m i => maxD ltb m (i_up i)) l m) (i_up i) = false) /\
     ltb (fold_left (fun m i => maxD ltb m (i_up i)) l m) m = false /\ (fold_left (fun m i => maxD ltb m (i_up i)) l m = m \/ exists i, In i l /\ fold_left (fun m i => maxD ltb m (i_up i)) l m = i_up i)).
  { induction l0 as [|i l0 IH]; intros m; cbn [fold_left]; [split; [intros i []|split; [apply (ol_irrefl _ OL)|auto]]|].
    destruct (IH (maxD ltb m (i_up i))) as (I1 & I2 & I3). set (F := fold_left (fun m i => maxD ltb m (i_up i)) l0 (maxD ltb m (i_up i))) in *. clearbody F.
    assert (J : ltb F m = false /\ ltb F (i_up i) = false). { revert I2. unfold maxD. destruct (ltb m (i_up i)) eqn:E; generalize dependent (i_up i); intros e; intros; ranked [m; e; F]; toz; zcases; auto; congruence. }
    split; [intros j [<-|Hj]; [tauto|auto]|]. split; [tauto|]. destruct I3 as [->|(j & Hj & ->)]; [|right; exists j; split; [right; auto|auto]].
    unfold maxD. destruct (ltb m (i_up i)); [right; exists i; split; [left; auto|auto]|auto]. }
  destruct l as [|i l]; [congruence|]. unfold c_lower, c_upper. destruct (G1 (i :: l) (i_lo i)) as (A1 & A2 & A3). destruct (G2 (i :: l) (i_up i)) as (B1 & B2 & B3).
  split; auto. split; [destruct A3 as [->|A3]; [exists i; split; [left; auto|auto]|auto]|]. split; auto. destruct B3 as [->|B3]; [exists i; split; [left; auto|auto]|auto].
Qed.

(** if x belongs to a bounded component and to a bounded interval o, then intersects(o) *)
Theorem C27_intersects : forall l o x, bounded o -> in_set o x -> (exists i, In i l /\ bounded i /\ in_set i x) -> c_intersects ltb l o = true.
Proof.
  intros l o x [To1 To2] Ho (i & Hi & [Ti1 Ti2] & Hx). unfold c_intersects. apply existsb_exists. exists i. split; auto. revert Ho Hx. unfold in_set, leb.
  destruct i as [ic il it1 iu it2], o as [oc' ol ot1 ou ot2]. cbn in *.
  assert (A1 : forall t l y, (t = OPEN \/ t = CLOSED) -> match t with OPEN => ltb l y = true | CLOSED => ltb y l = false | _ => True end -> ltb y l = false).
  { intros t l0 y [-> | ->]; auto. ranked [l0; y]. zcases; congruence. }
  assert (A2 : forall t u y, (t = OPEN \/ t = CLOSED) -> match t with OPEN => ltb y u = true | CLOSED => ltb u y = false | _ => True end -> ltb u y = false).
  { intros t u y [-> | ->]; auto. ranked [u; y]. zcases; congruence. }
  intros [O1 O2] [I1 I2]. apply A1 in O1; auto. apply A2 in O2; auto. apply A1 in I1; auto. apply A2 in I2; auto.
  assert (TR : forall p q r, ltb q p = false -> ltb r q = false -> ltb r p = false). { intros p q r. ranked [p; q; r]. zcases; congruence. }
  rewrite (TR il x ou), (TR ol x iu) by auto. reflexivity.
Qed.

(** ** What is false of the code *)
Local Ltac crunch := repeat (progress (cbn; repeat match goal with H : ltb ?a ?b = _ |- context [ltb ?a ?b] => rewrite H end; rewrite ?orb_true_r, ?orb_false_r, ?andb_true_r, ?andb_false_r)).
(** Difference keeps the shared end point of touching closed intervals, and drops the end points of a closed
    interval when the open interval with the same end points is removed *)
Theorem C27_difference_refuted : forall p q r, ltb p q = true -> ltb q r = true ->
  (ccontains (i_difference ltb (ClosedI p q) (ClosedI q r)) q = true /\ in_set (ClosedI q r) q) /\
  (ccontains (i_difference ltb (ClosedI p q) (OpenI p q)) p = false /\ in_set (ClosedI p q) p /\ ~ in_set (OpenI p q) p).
Proof.
  intros p q r H1 H2. pose proof (ol_irrefl _ OL p) as Ip. pose proof (ol_irrefl _ OL q) as Iq. pose proof (ol_trans _ OL p q r H1 H2) as A3.
  assert (A : ltb q p = false /\ ltb r q = false). { ranked [p; q; r]. toz. zcases. auto. }
  destruct A as [A1 A2]. unfold i_difference, in_set, leb. crunch. unfold i_contains, leb. crunch. intuition congruence.
Qed.
(** Union with an unbounded interval drops the closed end point of the other side *)
Theorem C27_union_refuted : forall p q, ltb nmax p = true -> ltb p q = true ->
  ccontains (i_union ltb (NegInfToClosed nmax q) (ClosedI p p)) q = false /\ in_set (NegInfToClosed nmax q) q.
Proof.
  intros p q H1 H2. pose proof (ol_irrefl _ OL q) as Iq. pose proof (ol_irrefl _ OL nmax) as In0. pose proof (ol_trans _ OL _ _ _ H1 H2) as A3.
  assert (A : ltb p nmax = false /\ ltb q p = false). { ranked [p; q; nmax]. toz. zcases. auto. } destruct A as [A1 A2].
  unfold i_union, in_set, minD, maxD, eqbD. crunch. unfold i_contains, leb. crunch. auto.
Qed.
(** Intersection of two intervals unbounded below misses the most negative number *)
Theorem C27_intersection_refuted : forall p, ltb nmax p = true ->
  ccontains (i_intersection ltb (NegInfToClosed nmax p) (NegInfToClosed nmax p)) nmax = false /\ in_set (NegInfToClosed nmax p) nmax.
Proof.
  intros p H. pose proof (ol_irrefl _ OL p) as Ip. pose proof (ol_irrefl _ OL nmax) as In0. assert (A : ltb p nmax = false). { ranked [p; nmax]. toz. zcases. auto. }
  unfold i_intersection, in_set, maxD, minD, eqbD. crunch. unfold i_contains, leb. crunch. auto.
Qed.
(** intersects answers true for intervals that only touch at an excluded end point *)
Theorem C27_intersects_refuted : forall p q r, ltb p q = true -> ltb q r = true ->
  c_intersects ltb [ClosedOpenI p q] (OpenClosedI q r) = true /\ forall x, ~ (in_set (ClosedOpenI p q) x /\ in_set (OpenClosedI q r) x).
Proof.
  intros p q r H1 H2. unfold c_intersects, leb, in_set. cbn. pose proof (ol_irrefl _ OL q) as Iq. assert (A : ltb r p = false). { ranked [p; q; r]. toz. zcases. auto. }
  rewrite Iq, A. split; auto. intros x ((_ & K1) & (K2 & _)). ranked [q; x]. toz. lia.
Qed.
End C27.

(** ** C46: GetEquidistantCovering over the reals *)
Definition Rltb (a b : R) : bool := if Rlt_dec a b then true else false.
Lemma Rltb_laws : order_laws Rltb.
Proof.
  unfold Rltb. split.
  - intros a. destruct (Rlt_dec a a); auto. exfalso; lra.
  - intros a b c. destruct (Rlt_dec a b), (Rlt_dec b c), (Rlt_dec a c); auto; try discriminate. exfalso; lra.
  - intros a b c. destruct (Rlt_dec a b), (Rlt_dec b c), (Rlt_dec a c); auto; try discriminate. exfalso; lra.
Qed.
Lemma Rltb_true : forall a b, Rltb a b = true <-> (a < b)%R.
Proof. intros a b. unfold Rltb. destruct (Rlt_dec a b); split; auto; discriminate. Qed.
Lemma Rltb_false : forall a b, Rltb a b = false <-> (b <= a)%R.
Proof. intros a b. unfold Rltb. destruct (Rlt_dec a b); split; auto; try discriminate; intros; lra. Qed.

(** numPoints points, all of them in the interval; end points that belong to the interval are the first and last *)
Theorem C46_covering : forall i n, bounded i -> (i_lo i < i_up i)%R -> (1 <= n)%Z ->
  length (i_covering i n) = Z.to_nat n /\ (forall x, In x (i_covering i n) -> in_set Rltb i x) /\
  ((2 <= n)%Z -> i_loT i = CLOSED -> hd_error (i_covering i n) = Some (i_lo i)) /\
  ((2 <= n)%Z -> i_upT i = CLOSED -> nth_error (i_covering i n) (Z.to_nat n - 1) = Some (i_up i)).
Proof.
  intros [c lo t1 up t2] n [T1 T2] Hlt Hn. cbn [i_lo i_up i_loT i_upT] in *. unfold i_covering. rewrite (proj2 (Z.leb_gt n 0)) by lia. cbn [i_lo i_up i_loT i_upT].
  assert (El : match t1 with NEG_INF => (- 10 ^ 10)%R | _ => lo end = lo) by (destruct T1 as [-> | ->]; auto). rewrite El.
  assert (Eu : match t2 with POS_INF => (10 ^ 10)%R | _ => up end = up) by (destruct T2 as [-> | ->]; auto). rewrite Eu. clear El Eu.
  assert (IS : forall x, (lo < x)%R -> (x < up)%R -> in_set Rltb (mkI c lo t1 up t2) x).
  { intros x H1 H2. unfold in_set. cbn. destruct T1 as [-> | ->], T2 as [-> | ->]; rewrite ?Rltb_true, ?Rltb_false; split; lra. }
  destruct (Z.eqb_spec n 1) as [->|Hn1].
  - split; [reflexivity|]. split; [|split; intros; lia]. intros x [<-|[]]. apply IS; lra.
  - set (N := Z.to_nat n). assert (HN : (2 <= N)%nat) by (unfold N; lia). set (d := ((up - lo) / IZR (n - 1))%R).
    assert (En : IZR (n - 1) = INR (N - 1)). { rewrite INR_IZR_INZ. f_equal. unfold N. lia. }
    assert (P : (0 < INR (N - 1))%R) by (apply lt_0_INR; lia).
    assert (D : (0 < d)%R). { unfold d. rewrite En. apply Rdiv_lt_0_compat; lra. }
    assert (Du : (INR (N - 1) * d = up - lo)%R). { unfold d. rewrite En. field. lra. }
    set (F := fun k : nat => _).
    assert (HF : forall k, (k < N)%nat -> in_set Rltb (mkI c lo t1 up t2) (F k)).
    { intros k Hk. unfold F. cbv zeta.
      assert (K : (0 <= INR k)%R) by apply pos_INR.
      destruct (Nat.eqb_spec k 0) as [->|Hk0].
      - rewrite (proj2 (Nat.eqb_neq 0 (N - 1))) by lia. cbn [andb]. assert (d <= up - lo)%R. { rewrite <- Du. assert (1 <= INR (N - 1))%R by (apply (le_INR 1); lia). nra. }
        destruct T1 as [-> | ->]; cbn [is_open]; [apply IS; simpl INR; lra|]. unfold in_set. cbn. simpl INR. split; [apply Rltb_false; lra|]. destruct T2 as [-> | ->]; [apply Rltb_true|apply Rltb_false]; lra.
      - assert (K1 : (1 <= INR k)%R) by (apply (le_INR 1); lia). cbn [andb]. destruct (Nat.eqb_spec k (N - 1)) as [->|Hk1].
        + assert (lo + INR (N - 1) * d = up)%R as -> by lra. cbn [andb]. assert (d <= up - lo)%R by (rewrite <- Du; nra).
          destruct T2 as [-> | ->]; cbn [is_open]; [apply IS; lra|]. unfold in_set. cbn. split; [|apply Rltb_false; lra]. destruct T1 as [-> | ->]; [apply Rltb_true|apply Rltb_false]; lra.
        + cbn [andb]. assert (K2 : (INR k + 1 <= INR (N - 1))%R) by (rewrite <- S_INR; apply le_INR; lia). apply IS; nra. }
    split; [rewrite map_length, seq_length; auto|]. split; [|split].
    + intros x Hx. apply in_map_iff in Hx as (k & <- & Hk). apply HF. apply in_seq in Hk. lia.
    + intros _ ->. destruct N as [|[|N']]; try lia. cbn [seq map hd_error]. f_equal. unfold F. cbn [is_open]. rewrite andb_false_r. cbn. ring.
    + intros _ ->. rewrite (map_nth_error F (N - 1) (seq 0 N) (d := N - 1)); [|].
      * f_equal. unfold F. cbn [is_open]. rewrite andb_false_r. rewrite (proj2 (Nat.eqb_neq (N - 1) 0)) by lia. cbn [andb]. lra.
      * rewrite (nth_error_nth' _ 0) by (rewrite seq_length; lia). rewrite seq_nth by lia. auto.
Qed.
Theorem C46_nothing : forall i n, (n <= 0)%Z -> i_covering i n = [].
Proof. intros i n H. unfold i_covering. rewrite (proj2 (Z.leb_le n 0)) by lia. auto. Qed.
(** for an interval unbounded below whose upper end lies under -10^10 the points are outside the interval *)
Theorem C46_unbounded_refuted : forall nmax up n, (up < - 10 ^ 10)%R -> (2 <= n)%Z -> exists x, In x (i_covering (NegInfToClosed nmax up) n) /\ ~ in_set Rltb (NegInfToClosed nmax up) x.
Proof.
  intros nmax up n Hu Hn. exists (- 10 ^ 10)%R. split.
  - unfold i_covering. rewrite (proj2 (Z.leb_gt n 0)), (proj2 (Z.eqb_neq n 1)) by lia. cbn [i_loT i_upT i_lo i_up NegInfToClosed]. apply in_map_iff. exists 0%nat. split.
    + cbn [is_open]. rewrite !andb_false_r. simpl INR. lra.
    + apply in_seq. lia.
  - unfold in_set. cbn [i_loT i_upT i_lo i_up NegInfToClosed]. intros [_ K]. apply Rltb_false in K. lra.
Qed.

(** ** Computed instances, with integers between -1000 and 1000 *)
Lemma Zltb_laws : order_laws Z.ltb.
Proof. split; intros; rewrite ?Z.ltb_lt, ?Z.ltb_ge, ?Z.ltb_irrefl in *; try lia; auto. Qed.
Local Open Scope Z_scope.
Example C27_intersection_computed : map (c_contains Z.ltb (i_intersection Z.ltb (OpenClosedI 0 5) (ClosedToInf 1000 3))) [2; 3; 5; 6] = [false; true; true; false].
Proof. reflexivity. Qed.
Example C27_union_computed : map (c_contains Z.ltb (i_union Z.ltb (ClosedOpenI 0 2) (ClosedI 2 4))) [-1; 0; 2; 4; 5] = [false; true; true; true; false].
Proof. reflexivity. Qed.
Example C27_difference_computed : map (c_contains Z.ltb (i_difference Z.ltb (ClosedI 0 9) (OpenClosedI 3 5))) [0; 3; 4; 5; 6; 9] = [true; true; false; false; true; true].
Proof. reflexivity. Qed.
Example C27_difference_wrong_computed : c_contains Z.ltb (i_difference Z.ltb (ClosedI 0 1) (ClosedI 1 2)) 1 = true /\ c_contains Z.ltb (i_difference Z.ltb (ClosedI 0 1) (OpenI 0 1)) 0 = false.
Proof. split; reflexivity. Qed.
Example C27_hypotheses_met : bounded (ClosedI 0 9) /\ proper Z.ltb (ClosedI 0 9) /\ in_range Z.ltb (-1000) 1000 (ClosedI 0 9) /\ not_at Z.ltb 0 3.
Proof. unfold bounded, proper, in_range, not_at. cbn. intuition. Qed.

Print Assumptions C27_contains.
Print Assumptions C27_composite.
Print Assumptions C27_complement.
Print Assumptions C27_intersection.
Print Assumptions C27_union.
Print Assumptions C27_union_interior.
Print Assumptions C27_difference.
Print Assumptions C27_difference_interior.
Print Assumptions C27_bounds.
Print Assumptions C27_intersects.
Print Assumptions C27_difference_refuted.
Print Assumptions C27_union_refuted.
Print Assumptions C27_intersection_refuted.
Print Assumptions C27_intersects_refuted.
Print Assumptions C46_covering.
Print Assumptions C46_nothing.
Print Assumptions C46_unbounded_refuted.
