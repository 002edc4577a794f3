(** * Proofs about the KD-tree model *)

From Coq Require Import List Bool Arith ZArith Lia Permutation.
From Verif Require Import Base Kd_Model.
Import ListNotations.

(** The laws of Real the queries rely on.  [okc]: an admissible coordinate (for doubles: finite); [okn]: a value that
    is comparable (for doubles: not a NaN).  The monotonicity laws hold for doubles as well, because rounding is
    monotone (instance in Kd_Float.v). *)
Record kd_laws {T : Type} (K : kdops T) (okc okn : T -> Prop) : Prop := {
  kl_cn : forall a, okc a -> okn a;
  kl_zero : okn (k_zero K);
  kl_max : okn (k_max K);
  kl_irr : forall a, okn a -> k_ltb K a a = false;
  kl_trans : forall a b c, okn a -> okn b -> okn c -> k_ltb K a b = true -> k_ltb K b c = true -> k_ltb K a c = true;
  kl_ntrans : forall a b c, okn a -> okn b -> okn c -> k_ltb K a b = false -> k_ltb K b c = false -> k_ltb K a c = false;
  kl_sq : forall a b, okc a -> okc b -> okn (k_mul K (k_sub K a b) (k_sub K a b)) /\ k_ltb K (k_mul K (k_sub K a b) (k_sub K a b)) (k_zero K) = false;
  kl_neg : forall a b, okc a -> okc b -> k_ltb K (k_sub K a b) (k_zero K) = k_ltb K a b;
  kl_monol : forall q s p, okc q -> okc s -> okc p -> k_ltb K q s = true -> k_ltb K p s = false ->
    k_ltb K (k_mul K (k_sub K q p) (k_sub K q p)) (k_mul K (k_sub K q s) (k_sub K q s)) = false;
  kl_monor : forall q s p, okc q -> okc s -> okc p -> k_ltb K q s = false -> k_ltb K s p = false ->
    k_ltb K (k_mul K (k_sub K q p) (k_sub K q p)) (k_mul K (k_sub K q s) (k_sub K q s)) = false;
  kl_mul : forall r, okn r -> k_ltb K r (k_zero K) = false -> okn (k_mul K r r);
  kl_add : forall a b, okn a -> okn b -> k_ltb K a (k_zero K) = false -> k_ltb K b (k_zero K) = false ->
    okn (k_add K a b) /\ k_ltb K (k_add K a b) a = false /\ k_ltb K (k_add K a b) b = false }.

(** What the standard promises of std::nth_element for a strict weak order *)
Definition swo_on (less : nat -> nat -> bool) (l : list nat) : Prop :=
  (forall a, In a l -> less a a = false) /\
  (forall a b c, In a l -> In b l -> In c l -> less a b = true -> less b c = true -> less a c = true) /\
  (forall a b c, In a l -> In b l -> In c l -> less a b = false -> less b c = false -> less a c = false).
Definition nth_el_ok (nth_el : (nat -> nat -> bool) -> list nat -> nat -> list nat) : Prop :=
  forall less l mid, mid < length l -> swo_on less l ->
    Permutation (nth_el less l mid) l /\
    (forall i x y, nth_error (nth_el less l mid) i = Some x -> nth_error (nth_el less l mid) mid = Some y ->
       (i < mid -> less y x = false) /\ (mid < i -> less x y = false)).

Section KdP.
Context {T : Type} (K : kdops T) (Dim : nat) (okc okn : T -> Prop) (HK : kd_laws K okc okn).
Notation ltb := (k_ltb K).
Definition wf_point (p : list T) : Prop := length p = Dim /\ Forall okc p.

Lemma vget_some : forall A (l : list A) i x, nth_error l i = Some x -> vget l i = Ok x.
Proof. intros A l i x H. unfold vget. rewrite H. reflexivity. Qed.
Lemma wf_nth : forall p i, wf_point p -> i < Dim -> exists x, nth_error p i = Some x /\ vget p i = Ok x /\ okc x.
Proof.
  intros p i [Hl Hf] Hi. destruct (nth_error p i) as [x|] eqn:E.
  - exists x. split; auto. split. { apply vget_some; auto. } rewrite Forall_forall in Hf. apply Hf. eapply nth_error_In; eauto.
  - apply nth_error_None in E. lia.
Qed.

(** the squared distance, coordinate by coordinate *)
Definition sqd (a b : T) : T := k_mul K (k_sub K a b) (k_sub K a b).
Definition dval (q p : list T) : T := fold_left (fun s ab => k_add K s (sqd (fst ab) (snd ab))) (combine q p) (k_zero K).

Lemma for_range_dist : forall q p l1 l2 s, length l1 = length l2 ->
  for_each (fun sum i => x <- vget (q ++ l1) i ;; y <- vget (p ++ l2) i ;; let diff := k_sub K x y in Ok (k_add K sum (k_mul K diff diff)))
    (seq (length q) (length l1)) s = Ok (fold_left (fun s ab => k_add K s (sqd (fst ab) (snd ab))) (combine l1 l2) s) \/ length q <> length p.
Proof.
  intros q p l1. revert q p. induction l1 as [|x l1 IH]; intros q p [|y l2] s Hl; try discriminate.
  { left; reflexivity. }
  destruct (Nat.eq_dec (length q) (length p)) as [E|]; [|right; auto]. left.
  cbn [seq length for_each].
  assert (E1 : vget (q ++ x :: l1) (length q) = Ok x).
  { apply vget_some. rewrite nth_error_app2, Nat.sub_diag by lia. reflexivity. }
  assert (E2 : vget (p ++ y :: l2) (length q) = Ok y).
  { apply vget_some. rewrite E, nth_error_app2, Nat.sub_diag by lia. reflexivity. }
  rewrite E1, E2. cbn [bind]. cbv zeta.
  injection Hl as Hl.
  destruct (IH (q ++ [x]) (p ++ [y]) l2 (k_add K s (sqd x y)) Hl) as [H|H].
  2: { rewrite !app_length in H. simpl in H. lia. }
  rewrite <- !app_assoc in H. cbn [app] in H. rewrite app_length in H. cbn [length] in H.
  replace (length q + 1) with (S (length q)) in H by lia.
  exact H.
Qed.
Lemma dist_sq_eq : forall q p, wf_point q -> wf_point p -> dist_sq K Dim q p = Ok (dval q p).
Proof.
  intros q p [Hq _] [Hp _]. unfold dist_sq, for_range, dval. rewrite Nat.sub_0_r.
  destruct (for_range_dist [] [] q p (k_zero K) (eq_trans Hq (eq_sym Hp))) as [H|H]; [|elim H; reflexivity].
  cbn [app length] in H. rewrite Hq in H. exact H.
Qed.

(** every partial sum dominates its summands *)
Lemma fold_dom : forall l s, okn s -> ltb s (k_zero K) = false -> Forall (fun ab => okc (fst ab) /\ okc (snd ab)) l ->
  let v := fold_left (fun s ab => k_add K s (sqd (fst ab) (snd ab))) l s in
  okn v /\ ltb v (k_zero K) = false /\ ltb v s = false /\ (forall ab, In ab l -> ltb v (sqd (fst ab) (snd ab)) = false).
Proof.
  induction l as [|[a b] l IH]; intros s Hs Hs0 HF; cbn [fold_left]; cbv zeta.
  { repeat split; auto. { apply (kl_irr _ _ _ HK); auto. } intros ab []. }
  inversion HF as [|? ? [Ha Hb] HF']; subst. cbn [fst snd] in *.
  destruct (kl_sq _ _ _ HK a b Ha Hb) as [Q1 Q2].
  destruct (kl_add _ _ _ HK s (sqd a b) Hs Q1 Hs0 Q2) as [A1 [A2 A3]].
  assert (A0 : ltb (k_add K s (sqd a b)) (k_zero K) = false).
  { eapply (kl_ntrans _ _ _ HK); [exact A1|exact Hs|apply (kl_zero _ _ _ HK)|exact A2|exact Hs0]. }
  destruct (IH (k_add K s (sqd a b)) A1 A0 HF') as [V1 [V2 [V3 V4]]].
  split; [exact V1|]. split; [exact V2|]. split.
  - eapply (kl_ntrans _ _ _ HK); [exact V1|exact A1|exact Hs|exact V3|exact A2].
  - intros ab [E|Hin].
    + subst ab. cbn [fst snd]. eapply (kl_ntrans _ _ _ HK); [exact V1|exact A1|exact Q1|exact V3|exact A3].
    + apply V4; auto.
Qed.
Lemma combine_nth_in : forall A B (l : list A) (l' : list B) i x y, nth_error l i = Some x -> nth_error l' i = Some y -> In (x, y) (combine l l').
Proof.
  intros A B l. induction l as [|a l IH]; intros [|b l'] [|i] x y H1 H2; simpl in *; try discriminate.
  - injection H1; injection H2; intros; subst; auto.
  - right. eapply IH; eauto.
Qed.
Lemma dval_ok : forall q p, wf_point q -> wf_point p -> okn (dval q p) /\ ltb (dval q p) (k_zero K) = false /\
  (forall i x y, nth_error q i = Some x -> nth_error p i = Some y -> ltb (dval q p) (sqd x y) = false).
Proof.
  intros q p [Hq Fq] [Hp Fp]. unfold dval.
  assert (HF : Forall (fun ab => okc (fst ab) /\ okc (snd ab)) (combine q p)).
  { rewrite Forall_forall in *. intros [a b] Hin. split; [apply Fq; eapply in_combine_l; eauto|apply Fp; eapply in_combine_r; eauto]. }
  assert (Z0 : ltb (k_zero K) (k_zero K) = false) by (apply (kl_irr _ _ _ HK), (kl_zero _ _ _ HK)).
  destruct (fold_dom (combine q p) (k_zero K) (kl_zero _ _ _ HK) Z0 HF) as [V1 [V2 [_ V4]]].
  split; [exact V1|]. split; [exact V2|]. intros i x y Hx Hy. apply (V4 (x, y)). eapply combine_nth_in; eauto.
Qed.

(** ** The trees *)
Context (pts : list (list T)) (Hpts : Forall wf_point pts).
Definition cval (i axis : nat) (x : T) : Prop := exists p, nth_error pts i = Some p /\ nth_error p axis = Some x.
Inductive tree_ok : kd (T:=T) -> list nat -> Prop :=
  | ok_null : tree_ok Null []
  | ok_leaf : forall a s idx, Forall (fun i => i < length pts) idx -> tree_ok (Node a s Null Null idx) idx
  | ok_node : forall a s l r L R, tree_ok l L -> tree_ok r R -> is_null l && is_null r = false -> a < Dim -> okc s ->
      (forall i x, In i L -> cval i a x -> ltb s x = false) -> (forall i x, In i R -> cval i a x -> ltb x s = false) ->
      tree_ok (Node a s l r []) (L ++ R).
Lemma tree_ok_range : forall t S0, tree_ok t S0 -> Forall (fun i => i < length pts) S0.
Proof. induction 1; auto. apply Forall_app; auto. Qed.

Lemma pts_nth : forall i, i < length pts -> exists p, nth_error pts i = Some p /\ vget pts i = Ok p /\ wf_point p.
Proof.
  intros i Hi. destruct (nth_error pts i) as [p|] eqn:E.
  - exists p. split; auto. split. { apply vget_some; auto. } rewrite Forall_forall in Hpts. apply Hpts. eapply nth_error_In; eauto.
  - apply nth_error_None in E. lia.
Qed.
(** the squared distance from the query to point i *)
Definition dnum (q : list T) (i : nat) : T := dval q (nth i pts []).
Lemma nth_pts : forall i p, nth_error pts i = Some p -> nth i pts [] = p.
Proof. intros i p H. apply nth_error_nth. auto. Qed.
Lemma dnum_ok : forall q i, wf_point q -> i < length pts -> okn (dnum q i).
Proof. intros q i Hq Hi. destruct (pts_nth i Hi) as [p [E [_ W]]]. unfold dnum. rewrite (nth_pts _ _ E). apply dval_ok; auto. Qed.

(** the pruning argument: on the far side of the plane, everything is at least as far as the plane *)
Lemma far_side : forall q a s i x, wf_point q -> i < length pts -> okc s -> nth_error q a = Some x -> a < Dim ->
  (ltb x s = true -> (forall y, cval i a y -> ltb y s = false) -> ltb (dnum q i) (sqd x s) = false) /\
  (ltb x s = false -> (forall y, cval i a y -> ltb s y = false) -> ltb (dnum q i) (sqd x s) = false).
Proof.
  intros q a s i x Hq Hi Hs Hx Ha.
  destruct (pts_nth i Hi) as [p [E [_ W]]].
  destruct (wf_nth p a W Ha) as [y [Ey [_ Oy]]].
  assert (Ox : okc x). { destruct (wf_nth q a Hq Ha) as [x' [E' [_ O']]]. congruence. }
  assert (C : cval i a y) by (exists p; auto).
  unfold dnum. rewrite (nth_pts _ _ E).
  destruct (dval_ok q p Hq W) as [V1 [_ V3]].
  assert (G : ltb (sqd x y) (sqd x s) = false -> ltb (dval q p) (sqd x s) = false).
  { intro G. eapply (kl_ntrans _ _ _ HK); [exact V1| | |exact (V3 a x y Hx Ey)|exact G]; apply (kl_sq _ _ _ HK); auto. }
  split; intros H1 H2; apply G.
  - apply (kl_monol _ _ _ HK); auto.
  - apply (kl_monor _ _ _ HK); auto.
Qed.

(** ** Building *)
Lemma coord_ok : forall i a, i < length pts -> a < Dim -> exists x, coord pts i a = Ok x /\ cval i a x /\ okc x.
Proof.
  intros i a Hi Ha. destruct (pts_nth i Hi) as [p [E [V W]]]. destruct (wf_nth p a W Ha) as [x [E' [V' O]]].
  exists x. unfold coord. rewrite V. cbn [bind]. split; auto. split; auto. exists p; auto.
Qed.
Lemma coord_cval : forall i a x, coord pts i a = Ok x -> cval i a x.
Proof.
  intros i a x H. unfold coord, vget in H. destruct (nth_error pts i) as [p|] eqn:E; cbn [bind] in H; [|discriminate].
  destruct (nth_error p a) as [y|] eqn:E'; [|discriminate]. injection H as ->. exists p; auto.
Qed.
Lemma cval_fun : forall i a x y, cval i a x -> cval i a y -> x = y.
Proof. intros i a x y [p [E1 E2]] [p' [E3 E4]]. congruence. Qed.
Lemma coord_swo : forall a l, a < Dim -> Forall (fun i => i < length pts) l -> swo_on (coord_less K pts a) l.
Proof.
  intros a l Ha HF. rewrite Forall_forall in HF.
  assert (C : forall i, In i l -> exists x, coord pts i a = Ok x /\ okn x).
  { intros i Hi. destruct (coord_ok i a (HF i Hi) Ha) as [x [E [_ O]]]. exists x. split; auto. apply (kl_cn _ _ _ HK); auto. }
  unfold swo_on, coord_less. split; [|split].
  - intros i Hi. destruct (C i Hi) as [x [E O]]. rewrite E. apply (kl_irr _ _ _ HK); auto.
  - intros i j k Hi Hj Hk. destruct (C i Hi) as [x [E O]], (C j Hj) as [y [E' O']], (C k Hk) as [z [E'' O'']]. rewrite E, E', E''.
    apply (kl_trans _ _ _ HK); auto.
  - intros i j k Hi Hj Hk. destruct (C i Hi) as [x [E O]], (C j Hj) as [y [E' O']], (C k Hk) as [z [E'' O'']]. rewrite E, E', E''.
    apply (kl_ntrans _ _ _ HK); auto.
Qed.
Lemma coords_checked : forall a l, a < Dim -> Forall (fun i => i < length pts) l ->
  for_each (fun (_ : unit) i => _ <- coord pts i a ;; Ok tt) l tt = Ok tt.
Proof.
  intros a l Ha HF. induction HF as [|i l Hi HF IH]; cbn [for_each]; auto.
  destruct (coord_ok i a Hi Ha) as [x [E _]]. rewrite E. cbn [bind]. exact IH.
Qed.

Context (nth_el : (nat -> nat -> bool) -> list nat -> nat -> list nat) (Hne : nth_el_ok nth_el) (HD : 0 < Dim).

Lemma firstn_in_nth : forall A (l : list A) n x, In x (firstn n l) -> exists i, i < n /\ nth_error l i = Some x.
Proof.
  intros A l n x H. apply In_nth_error in H. destruct H as [i Hi]. exists i.
  assert (Hl : i < length (firstn n l)) by (apply nth_error_Some; congruence).
  rewrite firstn_length in Hl. split; [lia|].
  rewrite <- (firstn_skipn n l). rewrite nth_error_app1; auto. rewrite firstn_length; lia.
Qed.
Lemma skipn_in_nth : forall A (l : list A) n x, In x (skipn n l) -> exists i, n <= i /\ nth_error l i = Some x.
Proof.
  intros A l n x H. apply In_nth_error in H. destruct H as [i Hi].
  exists (n + i). split; [lia|].
  assert (Hl : i < length (skipn n l)) by (apply nth_error_Some; congruence).
  rewrite skipn_length in Hl.
  rewrite <- (firstn_skipn n l). rewrite nth_error_app2; rewrite firstn_length; [|lia].
  replace (n + i - Nat.min n (length l)) with i by lia. auto.
Qed.

(** the facts about one split *)
Lemma split_step : forall a l, a < Dim -> Forall (fun i => i < length pts) l -> l <> [] ->
  let mid := length l / 2 in let l' := nth_el (coord_less K pts a) l mid in
  Permutation l' l /\ exists m sv, vget l' mid = Ok m /\ coord pts m a = Ok sv /\ okc sv /\
    (forall i x, In i (firstn mid l') -> cval i a x -> ltb sv x = false) /\
    (forall i x, In i (skipn mid l') -> cval i a x -> ltb x sv = false).
Proof.
  intros a l Ha HF Hne0 mid l'.
  assert (Hm : mid < length l).
  { unfold mid. destruct l; [congruence|]. apply Nat.div_lt; simpl; lia. }
  destruct (Hne (coord_less K pts a) l mid Hm (coord_swo a l Ha HF)) as [P O]. fold l' in P, O.
  split; auto.
  assert (Hl' : length l' = length l) by (apply Permutation_length; auto).
  destruct (nth_error l' mid) as [m|] eqn:Em. 2: { apply nth_error_None in Em. lia. }
  assert (HF' : Forall (fun i => i < length pts) l') by (eapply Permutation_Forall; [apply Permutation_sym; exact P|auto]).
  rewrite Forall_forall in HF'.
  assert (Im : In m l') by (eapply nth_error_In; eauto).
  destruct (coord_ok m a (HF' m Im) Ha) as [sv [Es [Cs Os]]].
  exists m, sv. split. { apply vget_some; auto. } split; auto. split; auto.
  assert (L : forall i x, In i l' -> cval i a x -> coord pts i a = Ok x).
  { intros i x Hi C. destruct (coord_ok i a (HF' i Hi) Ha) as [x' [E' [C' _]]]. rewrite (cval_fun _ _ _ _ C C'). auto. }
  split.
  - intros i x Hi C. assert (Ii : In i l'). { rewrite <- (firstn_skipn mid l'). apply in_or_app; auto. }
    apply firstn_in_nth in Hi. destruct Hi as [j [Hj Ej]].
    destruct (O j i m Ej eq_refl) as [O1 _]. specialize (O1 Hj). unfold coord_less in O1. rewrite Es, (L i x Ii C) in O1. exact O1.
  - intros i x Hi C. assert (Ii : In i l'). { rewrite <- (firstn_skipn mid l'). apply in_or_app; auto. }
    apply skipn_in_nth in Hi. destruct Hi as [j [Hj Ej]].
    destruct (Nat.eq_dec j mid) as [->|Hjm].
    + assert (i = m) by congruence. subst i. rewrite (cval_fun _ _ _ _ C Cs). apply (kl_irr _ _ _ HK). apply (kl_cn _ _ _ HK); auto.
    + destruct (O j i m Ej eq_refl) as [_ O1]. specialize (O1 ltac:(lia)). unfold coord_less in O1. rewrite Es, (L i x Ii C) in O1. exact O1.
Qed.

Lemma build_rec_ok : forall leafmax, (1 <= leafmax)%Z -> forall n l depth s fuel, length l <= n -> n < fuel -> Forall (fun i => i < length pts) l ->
  exists t n' lv' md', build_rec K Dim nth_el fuel pts leafmax l depth s = Ok (t, (n', lv', md')) /\
    (exists S0, tree_ok t S0 /\ Permutation S0 l) /\ (l <> [] -> is_null t = false) /\
    (let '(nodes, leaves, maxd) := s in
      maxd <= md' /\ (l = [] -> n' = nodes /\ lv' = leaves /\ md' = maxd) /\
      (l <> [] -> n' + 1 + 2 * leaves = nodes + 2 * lv' /\ lv' <= leaves + length l /\ leaves < lv' /\ depth <= md') /\
      (forall d, length l <= 2 ^ d -> md' <= Nat.max maxd (depth + d))).
Proof.
  intros leafmax Hlm. induction n as [n IH] using lt_wf_ind. intros l depth [[nodes leaves] maxd] fuel Hn Hf HF.
  destruct fuel as [|fuel]; [lia|]. cbn [build_rec].
  destruct l as [|i0 l0].
  { exists Null, nodes, leaves, maxd. split; auto. split. { exists []. split; constructor. } split; [congruence|].
    split; auto. split; auto. split; [congruence|]. intros; lia. }
  set (l := i0 :: l0) in *. assert (Hlne : l <> []) by discriminate. cbv iota zeta.
  destruct (Z.leb_spec (Z.of_nat (length l)) leafmax) as [Hleaf|Hbig].
  { exists (Node 0 (k_zero K) Null Null l), (S nodes), (S leaves), (Nat.max maxd depth). split; auto.
    split. { exists l. split; [apply ok_leaf; auto|auto]. } split; auto.
    split; [lia|]. split; [congruence|]. split. { intros _. unfold l; cbn [length]. lia. } intros; lia. }
  assert (H2 : 2 <= length l) by lia.
  assert (Ha : depth mod Dim < Dim) by (apply Nat.mod_upper_bound; lia).
  rewrite (coords_checked _ _ Ha HF). cbn [bind].
  set (mid := length l / 2) in *. set (l' := nth_el (coord_less K pts (depth mod Dim)) l mid) in *.
  destruct (split_step (depth mod Dim) l Ha HF Hlne) as [P [m [sv [Em [Es [Os [HL HR]]]]]]]. fold mid l' in P, Em, HL, HR.
  rewrite Em. cbn [bind]. rewrite Es. cbn [bind].
  assert (Hl' : length l' = length l) by (apply Permutation_length; auto).
  assert (Hmid1 : 1 <= mid). { unfold mid. apply (Nat.div_le_lower_bound (length l) 2 1); lia. }
  assert (Hmid2 : mid < length l). { unfold mid. apply Nat.div_lt; lia. }
  assert (Hmid3 : 2 * mid <= length l /\ length l <= 2 * mid + 1). { unfold mid. pose proof (Nat.div_mod (length l) 2 ltac:(lia)). pose proof (Nat.mod_upper_bound (length l) 2 ltac:(lia)). lia. }
  assert (Hfl : length (firstn mid l') = mid) by (rewrite firstn_length; lia).
  assert (Hsl : length (skipn mid l') = length l - mid) by (rewrite skipn_length; lia).
  assert (HF' : Forall (fun i => i < length pts) l') by (eapply Permutation_Forall; [apply Permutation_sym; exact P|auto]).
  assert (HFf : Forall (fun i => i < length pts) (firstn mid l')).
  { rewrite <- (firstn_skipn mid l') in HF'. apply Forall_app in HF'. tauto. }
  assert (HFs : Forall (fun i => i < length pts) (skipn mid l')).
  { rewrite <- (firstn_skipn mid l') in HF'. apply Forall_app in HF'. tauto. }
  destruct (IH mid ltac:(lia) (firstn mid l') (S depth) (S nodes, leaves, Nat.max maxd depth) fuel ltac:(lia) ltac:(lia) HFf)
    as [tl [nl [ll [ml [El [[SL [TL PL]] [NL [M1 [_ [A1 D1]]]]]]]]]].
  rewrite El. cbn [bind].
  destruct (IH (length l - mid) ltac:(lia) (skipn mid l') (S depth) (nl, ll, ml) fuel ltac:(lia) ltac:(lia) HFs)
    as [tr [nr [lr [mr [Er [[SR [TR PR]] [NR [M2 [_ [A2 D2]]]]]]]]]].
  rewrite Er. cbn [bind].
  assert (Nf : firstn mid l' <> []) by (intro E; rewrite E in Hfl; cbn [length] in Hfl; lia).
  assert (Ns : skipn mid l' <> []) by (intro E; assert (Z0 : length (skipn mid l') = 0) by (rewrite E; reflexivity); lia).
  specialize (A1 Nf). specialize (A2 Ns). specialize (NL Nf). specialize (NR Ns).
  exists (Node (depth mod Dim) sv tl tr []), nr, lr, mr. split; auto.
  split.
  { exists (SL ++ SR). split.
    - apply ok_node; auto.
      + rewrite NL. reflexivity.
      + intros i x Hi. apply HL. eapply Permutation_in; eauto.
      + intros i x Hi. apply HR. eapply Permutation_in; eauto.
    - rewrite <- P. rewrite <- (firstn_skipn mid l') at 1. apply Permutation_app; auto. }
  split; auto. split; [lia|]. split; [congruence|]. split.
  { intros _. split; [lia|]. split; lia. }
  intros d Hd. destruct d as [|d]. { change (2 ^ 0) with 1 in Hd. lia. }
  assert (P2 : 2 ^ S d = 2 * 2 ^ d) by reflexivity.
  specialize (D1 d ltac:(lia)). specialize (D2 d ltac:(lia)). lia.
Qed.

Lemma build_rec_loops : forall leafmax, (leafmax <= 0)%Z -> forall fuel l depth s, Forall (fun i => i < length pts) l -> l <> [] ->
  build_rec K Dim nth_el fuel pts leafmax l depth s = NoFuel.
Proof.
  intros leafmax Hlm. induction fuel as [|fuel IH]; intros l depth [[nodes leaves] maxd] HF Hlne; auto.
  cbn [build_rec]. destruct l as [|i0 l0]; [congruence|]. set (l := i0 :: l0) in *. cbv iota zeta.
  destruct (Z.leb_spec (Z.of_nat (length l)) leafmax) as [Hleaf|Hbig]. { unfold l in Hleaf; cbn [length] in Hleaf. lia. }
  assert (Ha : depth mod Dim < Dim) by (apply Nat.mod_upper_bound; lia).
  rewrite (coords_checked _ _ Ha HF). cbn [bind].
  set (mid := length l / 2) in *. set (l' := nth_el (coord_less K pts (depth mod Dim)) l mid) in *.
  destruct (split_step (depth mod Dim) l Ha HF Hlne) as [P [m [sv [Em [Es _]]]]]. fold mid l' in P, Em.
  rewrite Em. cbn [bind]. rewrite Es. cbn [bind].
  assert (Hl' : length l' = length l) by (apply Permutation_length; auto).
  assert (Hmid2 : mid < length l). { unfold mid. apply Nat.div_lt; unfold l; cbn [length]; lia. }
  assert (HF' : Forall (fun i => i < length pts) l') by (eapply Permutation_Forall; [apply Permutation_sym; exact P|auto]).
  rewrite <- (firstn_skipn mid l') in HF'. apply Forall_app in HF'. destruct HF' as [HFf HFs].
  destruct (firstn mid l') as [|i1 l1] eqn:Ef.
  - destruct fuel as [|fuel']; [reflexivity|].
    change (build_rec K Dim nth_el (S fuel') pts leafmax [] (S depth) (S nodes, leaves, Nat.max maxd depth)) with (Ok (@Null T, (S nodes, leaves, Nat.max maxd depth))).
    cbn [bind]. rewrite IH; auto. intro E. apply (f_equal (@length nat)) in E. rewrite skipn_length in E. simpl in E. lia.
  - rewrite IH; auto. discriminate.
Qed.

(** ** Queries *)
Context (q : list T) (Hq : wf_point q).
Notation d := (dnum q).
Lemma leaf_dist : forall i, i < length pts -> exists p, vget pts i = Ok p /\ dist_sq K Dim q p = Ok (d i).
Proof.
  intros i Hi. destruct (pts_nth i Hi) as [p [E [V W]]]. exists p. split; auto. rewrite dist_sq_eq; auto. unfold dnum. rewrite (nth_pts _ _ E). reflexivity.
Qed.
Lemma okd : forall i, i < length pts -> okn (d i).
Proof. intros. apply dnum_ok; auto. Qed.
Lemma lt_asym : forall a b, okn a -> okn b -> ltb a b = true -> ltb b a = false.
Proof.
  intros a b Ha Hb H. destruct (ltb b a) eqn:E; auto. pose proof (kl_trans _ _ _ HK a b a Ha Hb Ha H E) as C. rewrite (kl_irr _ _ _ HK a Ha) in C. discriminate.
Qed.
(** far points, given the point's place in the tree *)
Lemma pruned : forall a s x L R i, nth_error q a = Some x -> a < Dim -> okc s ->
  Forall (fun i => i < length pts) L -> Forall (fun i => i < length pts) R ->
  (forall i y, In i L -> cval i a y -> ltb s y = false) -> (forall i y, In i R -> cval i a y -> ltb y s = false) ->
  In i (if ltb x s then R else L) -> ltb (d i) (sqd x s) = false.
Proof.
  intros a s x L R i Hx Ha Os FL FR HL HR Hin. rewrite Forall_forall in FL, FR.
  destruct (ltb x s) eqn:E.
  - apply (proj1 (far_side q a s i x Hq (FR i Hin) Os Hx Ha)); [exact E|intros y C; exact (HR i y Hin C)].
  - apply (proj2 (far_side q a s i x Hq (FL i Hin) Os Hx Ha)); [exact E|intros y C; exact (HL i y Hin C)].
Qed.

(** nearest neighbour: [P] has been looked at *)
Definition near_inv (P : list nat) (st : nstate (T:=T)) : Prop :=
  Forall (fun i => i < length pts) P /\ okn (snd (fst st)) /\ (forall j, In j P -> ltb (d j) (snd (fst st)) = false) /\
  match fst (fst st) with None => snd (fst st) = k_max K | Some i => In i P /\ snd (fst st) = d i /\ ltb (snd (fst st)) (k_max K) = true end.
Lemma near_inv_perm : forall P P' st, Permutation P P' -> near_inv P st -> near_inv P' st.
Proof.
  intros P P' [[bi bd] nv] HP [H0 [H1 [H2 H3]]]. cbn [fst snd] in *.
  split. { eapply Permutation_Forall; eauto. } split; auto. cbn [fst snd].
  split. { intros j Hj. apply H2. eapply Permutation_in; [apply Permutation_sym|]; eauto. }
  destruct bi; auto. destruct H3 as [A B]. split; auto. eapply Permutation_in; eauto.
Qed.
(** points known to be at least as far as the best *)
Lemma near_inv_skip : forall P S0 st, near_inv P st -> Forall (fun i => i < length pts) S0 -> (forall i, In i S0 -> ltb (d i) (snd (fst st)) = false) -> near_inv (P ++ S0) st.
Proof.
  intros P S0 [[bi bd] nv] [H0 [H1 [H2 H3]]] HF HS. cbn [fst snd] in *. split. { apply Forall_app; auto. } split; auto. cbn [fst snd].
  split. { intros j Hj. apply in_app_or in Hj. destruct Hj; auto. }
  destruct bi; auto. destruct H3 as [A B]. split; auto. apply in_or_app; auto.
Qed.

Lemma nearest_rec_ok : forall t S0, tree_ok t S0 -> forall P st, near_inv P st ->
  wp (nearest_rec K Dim pts q t st) (near_inv (P ++ S0)).
Proof.
  induction 1 as [|a s idx HF|a s l r L R TL IHL TR IHR Nn Ha Os HL HR]; intros P st Hst.
  - cbn [nearest_rec]. apply wp_Ok. rewrite app_nil_r. auto.
  - cbn [nearest_rec]. destruct st as [[bi bd] nv]. cbn [is_null andb].
    apply (for_each_inv _ _ _ (fun pre st' => near_inv (P ++ pre) st')).
    + rewrite app_nil_r. exact Hst.
    + intros pre i post st' Hl Hi.
      assert (Hr : i < length pts). { rewrite Forall_forall in HF. apply HF. rewrite Hl. apply in_or_app. right; left; auto. }
      destruct (leaf_dist i Hr) as [p [E1 E2]]. rewrite E1. cbn [bind]. rewrite E2. cbn [bind].
      destruct st' as [[bi' bd'] nv']. destruct Hi as [F [O [A B]]]. cbn [fst snd] in *. apply wp_Ok. rewrite app_assoc.
      assert (F' : Forall (fun i => i < length pts) ((P ++ pre) ++ [i])) by (apply Forall_app; auto).
      destruct (ltb (d i) bd') eqn:E; (split; [exact F'|]); cbn [fst snd].
      * split; [apply okd; auto|]. split.
        -- intros j Hj. apply in_app_or in Hj. destruct Hj as [Hj|[->|[]]].
           ++ assert (Hjr : j < length pts) by (rewrite Forall_forall in F; auto).
              eapply (kl_ntrans _ _ _ HK); [apply okd, Hjr|exact O|apply okd; auto|apply A; auto|apply lt_asym; auto; apply okd; auto].
           ++ apply (kl_irr _ _ _ HK). apply okd; auto.
        -- split. { apply in_or_app. right; left; auto. } split; auto.
           destruct bi' as [i'|]. { destruct B as [_ [B1 B2]]. eapply (kl_trans _ _ _ HK); [apply okd; auto|exact O|apply (kl_max _ _ _ HK)|exact E|exact B2]. } subst; auto.
      * split; auto. split.
        -- intros j Hj. apply in_app_or in Hj. destruct Hj as [Hj|[->|[]]]; auto.
        -- destruct bi' as [i'|]; auto. destruct B as [B1 B2]. split; auto. apply in_or_app; auto.
  - cbn [nearest_rec]. destruct st as [[bi bd] nv]. rewrite Nn.
    destruct (wf_nth q a Hq Ha) as [x [Ex [Vx Ox]]]. rewrite Vx. cbn [bind]. cbv zeta.
    rewrite (kl_neg _ _ _ HK) by auto.
    pose proof (tree_ok_range _ _ TL) as FL. pose proof (tree_ok_range _ _ TR) as FR.
    pose proof (fun i => pruned a s x L R i Ex Ha Os FL FR HL HR) as PR.
    assert (Hst' : near_inv P (bi, bd, S nv)) by exact Hst.
    apply wp_bind. destruct (ltb x s) eqn:E.
    + eapply wp_mono; [apply IHL; exact Hst'|]. intros [[bi' bd'] nv'] H. cbv beta iota in *.
      fold (sqd x s). destruct (ltb (sqd x s) bd') eqn:E2.
      * eapply wp_mono; [apply IHR; exact H|]. intros st2 H2. rewrite app_assoc. exact H2.
      * apply wp_Ok. rewrite app_assoc. apply near_inv_skip; auto. intros i Hi. cbn [fst snd].
        destruct H as [_ [O _]]. cbn [fst snd] in O. rewrite Forall_forall in FR.
        eapply (kl_ntrans _ _ _ HK); [apply okd; auto| |exact O|apply PR; auto|exact E2]. apply (kl_sq _ _ _ HK); auto.
    + assert (PM : forall X Y Z : list nat, Permutation ((X ++ Z) ++ Y) (X ++ Y ++ Z)).
      { intros X Y Z. rewrite <- app_assoc. apply Permutation_app_head, Permutation_app_comm. }
      eapply wp_mono; [apply IHR; exact Hst'|]. intros [[bi' bd'] nv'] H. cbv beta iota in *.
      fold (sqd x s). destruct (ltb (sqd x s) bd') eqn:E2.
      * eapply wp_mono; [apply IHL; exact H|]. intros st2 H2. eapply near_inv_perm; [|exact H2]. apply PM.
      * apply wp_Ok. eapply near_inv_perm; [apply PM|]. apply near_inv_skip; auto. intros i Hi. cbn [fst snd].
        destruct H as [_ [O _]]. cbn [fst snd] in O. rewrite Forall_forall in FL.
        eapply (kl_ntrans _ _ _ HK); [apply okd; auto| |exact O|apply PR; auto|exact E2]. apply (kl_sq _ _ _ HK); auto.
Qed.

(** k nearest: [P] has been looked at, the heap holds the k closest of them *)
Fixpoint desc (h : list (T * nat)) : Prop :=
  match h with [] => True | y :: h' => (forall e, In e h' -> ltb (fst y) (fst e) = false) /\ desc h' end.
Definition knear_inv (k : Z) (P : list nat) (st : kstate (T:=T)) : Prop :=
  Forall (fun i => i < length pts) P /\ (Z.of_nat (length (fst st)) <= k)%Z /\ desc (fst st) /\
  (forall e, In e (fst st) -> fst e = d (snd e)) /\
  exists rest, Permutation P (map snd (fst st) ++ rest) /\ ((Z.of_nat (length (fst st)) < k)%Z -> rest = []) /\
    (forall j e, In j rest -> In e (fst st) -> ltb (d j) (fst e) = false).

Lemma heap_push_perm : forall x h, Permutation (heap_push K x h) (x :: h).
Proof.
  intros x h. induction h as [|y h IH]; cbn [heap_push]; auto. destruct (pair_less K x y); auto.
  rewrite IH. apply perm_swap.
Qed.
Lemma heap_push_desc : forall x h, okn (fst x) -> (forall e, In e h -> okn (fst e)) -> desc h -> desc (heap_push K x h).
Proof.
  intros x h Ox. induction h as [|y h IH]; cbn [heap_push]; intros Oh Hd.
  { simpl. split; auto. intros e []. }
  destruct Hd as [H1 H2].
  destruct (pair_less K x y) eqn:E.
  - cbn [desc]. split.
    + intros e He. eapply Permutation_in in He; [|apply heap_push_perm]. destruct He as [<-|He]; auto.
      unfold pair_less in E. apply orb_prop in E. destruct E as [E|E].
      * apply lt_asym; auto. apply Oh; left; auto.
      * apply andb_prop in E. destruct E as [E _]. destruct (ltb (fst y) (fst x)); auto; discriminate.
    + apply IH; auto. intros e He. apply Oh; right; auto.
  - cbn [desc]. split.
    + intros e [<-|He].
      * unfold pair_less in E. destruct (ltb (fst x) (fst y)); auto; discriminate.
      * assert (Hxy : ltb (fst x) (fst y) = false) by (unfold pair_less in E; destruct (ltb (fst x) (fst y)); auto; discriminate).
        eapply (kl_ntrans _ _ _ HK); [exact Ox| | |exact Hxy|apply H1; auto]; apply Oh; [left|right]; auto.
    + split; auto.
Qed.
Lemma knear_range : forall k P st e, knear_inv k P st -> In e (fst st) -> In (snd e) P /\ snd e < length pts.
Proof.
  intros k P st e [F [_ [_ [_ [rest [PP _]]]]]] He.
  assert (In (snd e) P). { eapply Permutation_in; [apply Permutation_sym; exact PP|]. apply in_or_app. left. apply in_map; auto. }
  split; auto. rewrite Forall_forall in F. auto.
Qed.
Lemma knear_okn : forall k P st e, knear_inv k P st -> In e (fst st) -> okn (fst e).
Proof.
  intros k P st e H He. destruct (knear_range k P st e H He) as [_ Hr]. destruct H as [_ [_ [_ [V _]]]]. rewrite (V e He). apply okd; auto.
Qed.
Lemma knear_perm : forall k P P' st, Permutation P P' -> knear_inv k P st -> knear_inv k P' st.
Proof.
  intros k P P' st HP [F [A [B [C [rest [PP [R1 R2]]]]]]]. split. { eapply Permutation_Forall; eauto. } split; auto. split; auto. split; auto.
  exists rest. split; auto. rewrite <- HP. auto.
Qed.
Lemma knear_skip : forall k P S0 st, knear_inv k P st -> Forall (fun i => i < length pts) S0 -> (Z.of_nat (length (fst st)) >= k)%Z ->
  (forall j e, In j S0 -> In e (fst st) -> ltb (d j) (fst e) = false) -> knear_inv k (P ++ S0) st.
Proof.
  intros k P S0 st [F [A [B [C [rest [PP [R1 R2]]]]]]] HF Hk HS. split. { apply Forall_app; auto. } split; auto. split; auto. split; auto.
  exists (rest ++ S0). split. { rewrite app_assoc. apply Permutation_app_tail; auto. } split; [lia|].
  intros j e Hj He. apply in_app_or in Hj. destruct Hj; auto.
Qed.

Lemma knearest_rec_ok : forall k, (0 < k)%Z -> forall t S0, tree_ok t S0 -> forall P st, knear_inv k P st ->
  wp (knearest_rec K Dim pts q k t st) (knear_inv k (P ++ S0)).
Proof.
  intros k Hk. induction 1 as [|a s idx HF|a s l r L R TL IHL TR IHR Nn Ha Os HL HR]; intros P st Hst.
  - cbn [knearest_rec]. apply wp_Ok. rewrite app_nil_r. auto.
  - cbn [knearest_rec]. cbn [is_null andb].
    apply (for_each_inv _ _ _ (fun pre st' => knear_inv k (P ++ pre) st')).
    + rewrite app_nil_r. exact Hst.
    + intros pre i post st' Hl Hi.
      assert (Hr : i < length pts). { rewrite Forall_forall in HF. apply HF. rewrite Hl. apply in_or_app. right; left; auto. }
      destruct (leaf_dist i Hr) as [p [E1 E2]]. rewrite E1. cbn [bind]. rewrite E2. cbn [bind]. cbv zeta.
      pose proof (fun e => knear_okn k (P ++ pre) st' e Hi) as Okn0.
      assert (Hi0 := Hi). destruct Hi0 as [F [A [B [C [rest [PP [R1 R2]]]]]]]. rewrite app_assoc.
      assert (F' : Forall (fun i => i < length pts) ((P ++ pre) ++ [i])) by (apply Forall_app; auto).
      destruct (Z.ltb_spec (Z.of_nat (length (fst st'))) k) as [Hlt|Hge].
      * apply wp_Ok. split; [exact F'|]. cbn [fst]. specialize (R1 Hlt). subst rest. rewrite app_nil_r in PP.
        pose proof (heap_push_perm (d i, i) (fst st')) as HP.
        split. { rewrite (Permutation_length HP). cbn [length]. lia. }
        split. { apply heap_push_desc; auto. cbn [fst]. apply okd; auto. }
        split. { intros e He. eapply Permutation_in in He; [|exact HP]. destruct He as [<-|He]; auto. }
        exists []. rewrite app_nil_r. split. { rewrite PP. rewrite (Permutation_map snd HP). cbn [map snd]. symmetry. apply Permutation_cons_append. }
        split; auto. intros j e [].
      * destruct (fst st') as [|y h'] eqn:Eh. { cbn [length] in Hge. lia. }
        destruct (ltb (d i) (fst y)) eqn:E.
        -- apply wp_Ok. split; [exact F'|]. cbn [fst]. destruct B as [B1 B2].
           pose proof (heap_push_perm (d i, i) h') as HP.
           split. { rewrite (Permutation_length HP). cbn [length] in A |- *. lia. }
           split. { apply heap_push_desc; auto. { cbn [fst]. apply okd; auto. } intros e He. apply Okn0; right; auto. }
           split. { intros e He. eapply Permutation_in in He; [|exact HP]. destruct He as [<-|He]; auto. apply C; right; auto. }
           exists (snd y :: rest). split.
           { rewrite PP. rewrite (Permutation_map snd HP). cbn [map snd app].
             change (snd y :: (map snd h' ++ rest) ++ [i]) with ((snd y :: map snd h' ++ rest) ++ [i]). etransitivity; [apply Permutation_sym, Permutation_cons_append|]. apply perm_skip. apply Permutation_cons_app. reflexivity. }
           split. { rewrite (Permutation_length HP). cbn [length] in A, Hge |- *. lia. }
           assert (Oy : okn (fst y)) by (apply Okn0; left; auto).
           assert (Cy : fst y = d (snd y)) by (apply C; left; auto).
           intros j e Hj He. eapply Permutation_in in He; [|exact HP].
           assert (Oj : okn (d j)).
           { destruct Hj as [<-|Hj]. { rewrite <- Cy; auto. } apply okd. rewrite Forall_forall in F. apply F.
             eapply Permutation_in; [apply Permutation_sym; exact PP|]. apply in_or_app; right; auto. }
           assert (Hjy : ltb (d j) (fst y) = false).
           { destruct Hj as [<-|Hj]. { rewrite <- Cy. apply (kl_irr _ _ _ HK); auto. } apply R2; auto. left; auto. }
           assert (Oe : okn (fst e)) by (destruct He as [<-|He]; [apply okd; auto|apply Okn0; right; auto]).
           eapply (kl_ntrans _ _ _ HK); [exact Oj|exact Oy|exact Oe|exact Hjy|].
           destruct He as [<-|He]; [|apply B1; auto]. cbn [fst]. apply lt_asym; auto.
        -- apply wp_Ok. rewrite <- Eh in *. apply knear_skip; auto. { lia. }
           intros j e [<-|[]] He. rewrite Eh in He, B. destruct B as [B1 B2].
           assert (Oy : okn (fst y)) by (apply Okn0; rewrite Eh; left; auto).
           destruct He as [<-|He]; auto.
           eapply (kl_ntrans _ _ _ HK); [apply okd; auto|exact Oy| |exact E|apply B1; auto]. apply Okn0. rewrite Eh; right; auto.
  - cbn [knearest_rec]. rewrite Nn.
    destruct (wf_nth q a Hq Ha) as [x [Ex [Vx Ox]]]. rewrite Vx. cbn [bind]. cbv zeta.
    rewrite (kl_neg _ _ _ HK) by auto.
    pose proof (tree_ok_range _ _ TL) as FL. pose proof (tree_ok_range _ _ TR) as FR.
    pose proof (fun i => pruned a s x L R i Ex Ha Os FL FR HL HR) as PR.
    assert (Hst' : knear_inv k P (fst st, S (snd st))) by exact Hst.
    fold (sqd x s).
    assert (SK : forall X S1 st1, knear_inv k X st1 -> Forall (fun i => i < length pts) S1 -> (forall i, In i S1 -> ltb (d i) (sqd x s) = false) ->
      (Z.of_nat (length (fst st1)) <? k)%Z || ltb (sqd x s) (match fst st1 with [] => k_max K | y :: _ => fst y end) = false -> knear_inv k (X ++ S1) st1).
    { intros X S1 st1 HX HS1 Hfar Hc. apply orb_false_iff in Hc. destruct Hc as [Hc1 Hc2]. apply Z.ltb_ge in Hc1.
      apply knear_skip; auto; [lia|]. intros j e Hj He.
      pose proof (fun e => knear_okn k X st1 e HX) as Okn0. rewrite Forall_forall in HS1.
      destruct HX as [_ [_ [B _]]]. destruct (fst st1) as [|y h']; [destruct He|].
      assert (Osq : okn (sqd x s)) by (apply (kl_sq _ _ _ HK); auto).
      assert (Hjy : ltb (d j) (fst y) = false).
      { eapply (kl_ntrans _ _ _ HK); [apply okd; auto|exact Osq|apply Okn0; left; auto|apply Hfar; auto|exact Hc2]. }
      destruct He as [<-|He]; auto. destruct B as [B1 _].
      eapply (kl_ntrans _ _ _ HK); [apply okd; auto| | |exact Hjy|apply B1; auto]; apply Okn0; [left|right]; auto. }
    apply wp_bind. destruct (ltb x s) eqn:E.
    + eapply wp_mono; [apply IHL; exact Hst'|]. intros st1 H. cbv beta in *.
      destruct (_ || _) eqn:E2.
      * eapply wp_mono; [apply IHR; exact H|]. intros st2 H2. rewrite app_assoc. exact H2.
      * apply wp_Ok. rewrite app_assoc. apply SK; auto.
    + assert (PM : forall X Y Z : list nat, Permutation ((X ++ Z) ++ Y) (X ++ Y ++ Z)).
      { intros X Y Z. rewrite <- app_assoc. apply Permutation_app_head, Permutation_app_comm. }
      eapply wp_mono; [apply IHR; exact Hst'|]. intros st1 H. cbv beta in *.
      destruct (_ || _) eqn:E2.
      * eapply wp_mono; [apply IHL; exact H|]. intros st2 H2. eapply knear_perm; [|exact H2]. apply PM.
      * apply wp_Ok. eapply knear_perm; [apply PM|]. apply SK; auto.
Qed.

(** radius search *)
Lemma radius_rec_ok : forall r2, okn r2 -> forall t S0, tree_ok t S0 -> forall st,
  wp (radius_rec K Dim pts q r2 t st) (fun st' => exists I, fst st' = fst st ++ I /\ snd st' = snd st ++ map d I /\ Permutation I (filter (fun i => negb (ltb r2 (d i))) S0)).
Proof.
  intros r2 Or. induction 1 as [|a s idx HF|a s l r L R TL IHL TR IHR Nn Ha Os HL HR]; intros st.
  - cbn [radius_rec]. apply wp_Ok. exists []. cbn. rewrite !app_nil_r. auto.
  - cbn [radius_rec]. cbn [is_null andb].
    eapply wp_mono.
    { apply (for_each_inv _ _ _ (fun pre st' => fst st' = fst st ++ filter (fun i => negb (ltb r2 (d i))) pre /\ snd st' = snd st ++ map d (filter (fun i => negb (ltb r2 (d i))) pre))).
      - cbn. rewrite !app_nil_r. auto.
      - intros pre i post st' Hl [H1 H2].
        assert (Hr : i < length pts). { rewrite Forall_forall in HF. apply HF. rewrite Hl. apply in_or_app. right; left; auto. }
        destruct (leaf_dist i Hr) as [p [E1 E2]]. rewrite E1. cbn [bind]. rewrite E2. cbn [bind]. apply wp_Ok.
        rewrite filter_app. cbn [filter]. destruct (ltb r2 (d i)); cbn [negb fst snd].
        + rewrite app_nil_r. auto.
        + rewrite H1, H2, map_app, !app_assoc. auto. }
    cbv beta. intros st' [H1 H2]. exists (filter (fun i => negb (ltb r2 (d i))) idx). auto.
  - cbn [radius_rec]. rewrite Nn.
    destruct (wf_nth q a Hq Ha) as [x [Ex [Vx Ox]]]. rewrite Vx. cbn [bind]. cbv zeta.
    rewrite (kl_neg _ _ _ HK) by auto.
    pose proof (tree_ok_range _ _ TL) as FL. pose proof (tree_ok_range _ _ TR) as FR.
    pose proof (fun i => pruned a s x L R i Ex Ha Os FL FR HL HR) as PR.
    fold (sqd x s).
    assert (SK : forall S1, Forall (fun i => i < length pts) S1 -> (forall i, In i S1 -> ltb (d i) (sqd x s) = false) -> negb (ltb r2 (sqd x s)) = false ->
       filter (fun i => negb (ltb r2 (d i))) S1 = []).
    { intros S1 HF1 Hfar Hc. apply negb_false_iff in Hc. induction HF1 as [|i S1 Hi HF1 IH]; auto. cbn [filter].
      assert (E : ltb r2 (d i) = true).
      { destruct (ltb r2 (d i)) eqn:E; auto. exfalso.
        assert (C : ltb r2 (sqd x s) = false).
        { eapply (kl_ntrans _ _ _ HK); [exact Or|apply okd; exact Hi| |exact E|apply Hfar; left; auto]. apply (kl_sq _ _ _ HK); auto. }
        congruence. }
      rewrite E. cbn [negb]. apply IH. intros j Hj. apply Hfar; right; auto. }
    rewrite filter_app.
    destruct (ltb x s) eqn:E; apply wp_bind.
    + eapply wp_mono; [apply IHL|]. intros st1 [I1 [H1 [H2 H3]]]. cbv beta.
      destruct (negb (ltb r2 (sqd x s))) eqn:E2.
      * eapply wp_mono; [apply IHR|]. intros st2 [I2 [G1 [G2 G3]]]. exists (I1 ++ I2).
        rewrite G1, G2, H1, H2, map_app, !app_assoc. split; auto. split; auto. apply Permutation_app; auto.
      * apply wp_Ok. exists I1. split; auto. split; auto. rewrite (SK R FR (fun i Hi => PR i Hi) eq_refl), app_nil_r. auto.
    + eapply wp_mono; [apply IHR|]. intros st1 [I1 [H1 [H2 H3]]]. cbv beta.
      destruct (negb (ltb r2 (sqd x s))) eqn:E2.
      * eapply wp_mono; [apply IHL|]. intros st2 [I2 [G1 [G2 G3]]]. exists (I1 ++ I2).
        rewrite G1, G2, H1, H2, map_app, !app_assoc. split; auto. split; auto. rewrite Permutation_app_comm. apply Permutation_app; auto.
      * apply wp_Ok. exists I1. split; auto. split; auto. rewrite (SK L FL (fun i Hi => PR i Hi) eq_refl). auto.
Qed.

(** box search; [inside p] is the test of one point *)
Definition insideb (lo hi p : list T) : bool := forallb (fun c => negb (ltb (fst c) (fst (snd c)) || ltb (snd (snd c)) (fst c))) (combine p (combine lo hi)).
Lemma in_box_gen : forall p lo hi p1 lo1 hi1 b, length p = length lo -> length p = length hi -> length p1 = length lo1 -> length p1 = length hi1 ->
  for_each (fun inside i => if inside : bool then x <- vget (p ++ p1) i ;; a <- vget (lo ++ lo1) i ;; b <- vget (hi ++ hi1) i ;; Ok (negb (ltb x a || ltb b x)) else Ok false)
    (seq (length p) (length p1)) b = Ok (b && insideb lo1 hi1 p1).
Proof.
  intros p lo hi p1. revert p lo hi. induction p1 as [|x p1 IH]; intros p lo hi [|a lo1] [|c hi1] b H1 H2 H3 H4; try discriminate.
  { cbn. rewrite andb_true_r. reflexivity. }
  cbn [length seq for_each].
  assert (E1 : vget (p ++ x :: p1) (length p) = Ok x) by (apply vget_some; rewrite nth_error_app2, Nat.sub_diag by lia; reflexivity).
  assert (E2 : vget (lo ++ a :: lo1) (length p) = Ok a) by (apply vget_some; rewrite H1, nth_error_app2, Nat.sub_diag by lia; reflexivity).
  assert (E3 : vget (hi ++ c :: hi1) (length p) = Ok c) by (apply vget_some; rewrite H2, nth_error_app2, Nat.sub_diag by lia; reflexivity).
  injection H3 as H3. injection H4 as H4.
  assert (IH' := fun b => IH (p ++ [x]) (lo ++ [a]) (hi ++ [c]) lo1 hi1 b ltac:(rewrite !app_length; simpl; lia) ltac:(rewrite !app_length; simpl; lia) H3 H4).
  rewrite <- !app_assoc in IH'. cbn [app] in IH'. rewrite app_length in IH'. cbn [length] in IH'. replace (length p + 1) with (S (length p)) in IH' by lia.
  destruct b.
  - rewrite E1, E2, E3. cbn [bind]. rewrite IH'. reflexivity.
  - cbn [bind]. rewrite IH'. reflexivity.
Qed.
Lemma in_box_eq : forall p lo hi, length p = Dim -> length lo = Dim -> length hi = Dim -> in_box K Dim p lo hi = Ok (insideb lo hi p).
Proof.
  intros p lo hi Hp Hlo Hhi. unfold in_box, for_range. rewrite Nat.sub_0_r.
  pose proof (in_box_gen [] [] [] p lo hi true eq_refl eq_refl ltac:(lia) ltac:(lia)) as H. cbn [app length andb] in H. rewrite Hp in H. exact H.
Qed.
Lemma insideb_spec : forall lo hi p, length lo = length p -> length hi = length p ->
  (insideb lo hi p = true <-> forall i x a b, nth_error p i = Some x -> nth_error lo i = Some a -> nth_error hi i = Some b -> ltb x a = false /\ ltb b x = false).
Proof.
  intros lo hi p. revert lo hi. unfold insideb. induction p as [|x p IH]; intros [|a lo] [|b hi] Hlo Hhi; try discriminate.
  { split; auto. intros _ [|i] ? ? ?; discriminate. }
  cbn [combine forallb fst snd]. injection Hlo as Hlo. injection Hhi as Hhi. rewrite andb_true_iff, IH by auto. rewrite negb_true_iff, orb_false_iff.
  split.
  - intros [H1 H2] [|i] x' a' b' E1 E2 E3; cbn in E1, E2, E3; [|eapply H2; eauto]. injection E1; injection E2; injection E3; intros; subst; auto.
  - intros H. split. { apply (H 0); reflexivity. } intros i x' a' b' E1 E2 E3. apply (H (S i)); auto.
Qed.

Lemma box_rec_ok : forall lo hi, wf_point lo -> wf_point hi -> forall t S0, tree_ok t S0 -> forall st,
  wp (box_rec K Dim pts lo hi t st) (fun st' => st' = st ++ filter (fun i => insideb lo hi (nth i pts [])) S0).
Proof.
  intros lo hi Wlo Whi. induction 1 as [|a s idx HF|a s l r L R TL IHL TR IHR Nn Ha Os HL HR]; intros st.
  - cbn. rewrite app_nil_r. auto.
  - cbn [box_rec is_null andb].
    apply (for_each_inv _ _ _ (fun pre st' => st' = st ++ filter (fun i => insideb lo hi (nth i pts [])) pre)).
    + cbn. rewrite app_nil_r. auto.
    + intros pre i post st' Hl H1.
      assert (Hr : i < length pts). { rewrite Forall_forall in HF. apply HF. rewrite Hl. apply in_or_app. right; left; auto. }
      destruct (pts_nth i Hr) as [p [E [V W]]]. rewrite V. cbn [bind]. rewrite in_box_eq by (apply W || apply Wlo || apply Whi). cbn [bind].
      apply wp_Ok. rewrite filter_app. cbn [filter]. rewrite (nth_pts _ _ E). destruct (insideb lo hi p).
      * rewrite H1, app_assoc. auto.
      * rewrite app_nil_r. auto.
  - cbn [box_rec]. rewrite Nn.
    destruct (wf_nth lo a Wlo Ha) as [x [Ex [Vx Ox]]]. rewrite Vx. cbn [bind].
    destruct (wf_nth hi a Whi Ha) as [y [Ey [Vy Oy]]].
    pose proof (tree_ok_range _ _ TL) as FL. pose proof (tree_ok_range _ _ TR) as FR. rewrite Forall_forall in FL, FR.
    assert (NN : forall S1, (forall i, In i S1 -> insideb lo hi (nth i pts []) = false) -> filter (fun i => insideb lo hi (nth i pts [])) S1 = []).
    { intros S1 H. induction S1 as [|i S1 IH]; auto. cbn [filter]. rewrite H by (left; auto). apply IH. intros; apply H; right; auto. }
    assert (CT : forall i, i < length pts -> insideb lo hi (nth i pts []) = true -> exists z, cval i a z /\ okc z /\ ltb z x = false /\ ltb y z = false).
    { intros i Hi Hb. destruct (pts_nth i Hi) as [p [E [V W]]]. rewrite (nth_pts _ _ E) in Hb.
      destruct (wf_nth p a W Ha) as [z [Ez [_ Oz]]]. rewrite insideb_spec in Hb.
      2,3: destruct W, Wlo, Whi; lia.
      exists z. split. { exists p; auto. } split; auto. eapply Hb; eauto. }
    pose proof (kl_cn _ _ _ HK) as CN.
    apply wp_bind.
    assert (GL : wp (if negb (ltb s x) then box_rec K Dim pts lo hi l st else Ok st) (fun st1 => st1 = st ++ filter (fun i => insideb lo hi (nth i pts [])) L)).
    { destruct (ltb s x) eqn:E; cbn [negb]; auto. apply wp_Ok. rewrite NN, app_nil_r; auto.
      intros i Hi. destruct (insideb lo hi (nth i pts [])) eqn:Eb; auto. destruct (CT i (FL i Hi) Eb) as [z [C [Oz [Z1 Z2]]]].
      pose proof (HL i z Hi C) as Z3. pose proof (kl_ntrans _ _ _ HK s z x ltac:(auto) ltac:(auto) ltac:(auto) Z3 Z1). congruence. }
    eapply wp_mono; [exact GL|]. cbv beta. intros st1 ->. rewrite Vy. cbn [bind]. rewrite filter_app, app_assoc.
    destruct (ltb y s) eqn:E; cbn [negb]; auto. apply wp_Ok. rewrite (NN R), app_nil_r; auto.
    intros i Hi. destruct (insideb lo hi (nth i pts [])) eqn:Eb; auto. destruct (CT i (FR i Hi) Eb) as [z [C [Oz [Z1 Z2]]]].
    pose proof (HR i z Hi C) as Z3. pose proof (kl_ntrans _ _ _ HK y z s ltac:(auto) ltac:(auto) ltac:(auto) Z2 Z3). congruence.
Qed.
End KdP.
