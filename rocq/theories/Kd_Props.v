(** * Properties of the KD-tree *)

From Coq Require Import List Bool Arith ZArith Lia Permutation Reals Lra.
From Verif Require Import Base Num RootFind_Proofs Kd_Model Kd_Proofs.
Import ListNotations.
Local Open Scope nat_scope.

(** ** Specification *)
(** squared distance: the sum over the coordinates, from left to right, of the squared differences *)
Definition dist2 {T} (K : kdops T) (q p : list T) : T :=
  fold_left (fun s ab => k_add K s (k_mul K (k_sub K (fst ab) (snd ab)) (k_sub K (fst ab) (snd ab)))) (combine q p) (k_zero K).
(** squared distance from q to the i-th point *)
Definition dto {T} (K : kdops T) (pts : list (list T)) (q : list T) (i : nat) : T := dist2 K q (nth i pts []).
(** a point of dimension Dim with admissible coordinates *)
Definition is_point {T} (Dim : nat) (okc : T -> Prop) (p : list T) : Prop := length p = Dim /\ Forall okc p.
(** the point lies in the closed box *)
Definition in_closed_box {T} (K : kdops T) (lo hi p : list T) : Prop :=
  forall i x a b, nth_error p i = Some x -> nth_error lo i = Some a -> nth_error hi i = Some b -> k_ltb K x a = false /\ k_ltb K b x = false.

Section KdT.
Context {T : Type} (K : kdops T) (Dim : nat) (okc okn : T -> Prop) (HK : kd_laws K okc okn) (HD : 0 < Dim).
Context (nth_el : (nat -> nat -> bool) -> list nat -> nat -> list nat) (Hne : nth_el_ok nth_el).
Notation build := (kd_build K Dim nth_el).
Notation ltb := (k_ltb K).

Lemma build_rec_mono : forall pts leafmax fuel l depth s r, build_rec K Dim nth_el fuel pts leafmax l depth s = Ok r ->
  forall fuel', fuel <= fuel' -> build_rec K Dim nth_el fuel' pts leafmax l depth s = Ok r.
Proof.
  intros pts leafmax. induction fuel as [|fuel IH]; intros l depth s r H fuel' Hle; [discriminate|].
  destruct fuel' as [|fuel']; [lia|]. cbn [build_rec] in *. destruct l as [|i0 l0]; auto. set (l := i0 :: l0) in *.
  destruct s as [[nodes leaves] maxd]. cbv zeta in *. destruct (_ <=? _)%Z; auto.
  destruct (for_each _ l tt) as [u|e| |]; cbn [bind] in *; try discriminate.
  destruct (vget _ _) as [m|e| |]; cbn [bind] in *; try discriminate.
  destruct (coord pts m _) as [sv|e| |]; cbn [bind] in *; try discriminate.
  destruct (build_rec K Dim nth_el fuel pts leafmax (firstn _ _) _ _) as [[tl s1]|e| |] eqn:E1; cbn [bind] in H; try discriminate.
  rewrite (IH _ _ _ _ E1 fuel') by lia. cbn [bind].
  destruct (build_rec K Dim nth_el fuel pts leafmax (skipn _ _) _ _) as [[tr s2]|e| |] eqn:E2; cbn [bind] in H; try discriminate.
  rewrite (IH _ _ _ _ E2 fuel') by lia. cbn [bind]. exact H.
Qed.

Lemma seq_range : forall n, Forall (fun i => i < n) (seq 0 n).
Proof. intros n. apply Forall_forall. intros i Hi. apply in_seq in Hi. lia. Qed.

(** what a finished build has made *)
Lemma built : forall pts leafmax fuel t, Forall (is_point Dim okc) pts -> build fuel pts leafmax = Ok t ->
  t_points t = pts /\ st_points (t_stats t) = length pts /\ (pts = [] -> t_root t = Null /\ t_stats t = mkStats 0 0 0 0) /\
  (pts <> [] -> is_null (t_root t) = false /\ exists S0, tree_ok K Dim okc pts (t_root t) S0 /\ Permutation S0 (seq 0 (length pts))) /\
  (pts <> [] -> st_nodes (t_stats t) + 1 = 2 * st_leaves (t_stats t) /\ 1 <= st_leaves (t_stats t) <= length pts /\
     forall d, length pts <= 2 ^ d -> st_depth (t_stats t) <= d).
Proof.
  intros pts leafmax fuel t Hp H. unfold kd_build in H. destruct pts as [|p0 pts0].
  { injection H as <-. repeat split; auto; congruence. }
  set (pts := p0 :: pts0) in *.
  destruct (Z.leb_spec 1 leafmax) as [Hlm|Hlm].
  2: { rewrite (build_rec_loops K Dim okc okn HK pts Hp nth_el Hne HD leafmax ltac:(lia)) in H; [discriminate|apply seq_range|discriminate]. }
  destruct (build_rec K Dim nth_el fuel pts leafmax (seq 0 (length pts)) 0 (0, 0, 0)) as [[r s]|e| |] eqn:E; cbn [bind] in H; try discriminate.
  pose proof (build_rec_mono _ _ _ _ _ _ _ E (fuel + S (length pts)) ltac:(lia)) as E'.
  destruct (build_rec_ok K Dim okc okn HK pts Hp nth_el Hne HD leafmax Hlm (length pts) (seq 0 (length pts)) 0 (0, 0, 0) (fuel + S (length pts))
    ltac:(rewrite seq_length; lia) ltac:(lia) (seq_range _)) as [t' [n' [l' [m' [E2 [HS [Hn [_ [_ [A D]]]]]]]]]].
  rewrite E2 in E'. injection E' as <- <-. injection H as <-. cbn [t_points t_root t_stats st_points st_nodes st_leaves st_depth].
  rewrite seq_length in A, D.
  assert (Hs : seq 0 (length pts) <> []) by discriminate.
  specialize (A Hs). specialize (Hn Hs).
  split; auto. split; auto. split; [discriminate|]. split; [intros _; auto|]. intros _. split; [lia|]. split; [lia|].
  intros d Hd. specialize (D d Hd). lia.
Qed.

(** ** The build terminates; its statistics describe a full binary tree of logarithmic depth *)
Theorem C41_build : forall pts leafmax, Forall (is_point Dim okc) pts -> (1 <= leafmax)%Z ->
  exists N, forall fuel, N <= fuel -> exists t, build fuel pts leafmax = Ok t /\ t_points t = pts /\
    st_points (t_stats t) = length pts /\ (is_null (t_root t) = true <-> pts = []) /\
    (pts <> [] -> st_nodes (t_stats t) + 1 = 2 * st_leaves (t_stats t) /\ 1 <= st_leaves (t_stats t) <= length pts /\
      forall d, length pts <= 2 ^ d -> st_depth (t_stats t) <= d).
Proof.
  intros pts leafmax Hp Hlm. exists (S (length pts)). intros fuel Hf.
  assert (E : exists t, build fuel pts leafmax = Ok t).
  { unfold kd_build. destruct pts as [|p0 pts0]; [eexists; reflexivity|]. set (pts := p0 :: pts0) in *.
    destruct (build_rec_ok K Dim okc okn HK pts Hp nth_el Hne HD leafmax Hlm (length pts) (seq 0 (length pts)) 0 (0, 0, 0) fuel
      ltac:(rewrite seq_length; lia) ltac:(lia) (seq_range _)) as [t' [n' [l' [m' [E2 _]]]]].
    rewrite E2. cbn [bind]. eexists; reflexivity. }
  destruct E as [t E]. exists t. split; auto. destruct (built _ _ _ _ Hp E) as [A [B [C [D F]]]].
  split; auto. split; auto. split; auto.
  destruct pts as [|p0 pts0].
  - destruct (C eq_refl) as [C1 _]. rewrite C1. split; auto.
  - destruct (D ltac:(discriminate)) as [D1 _]. rewrite D1. split; discriminate.
Qed.

(** a leaf size below one never gets anywhere: the single-point list is split into nothing and itself *)
Theorem C41_leaf_size_refuted : forall pts leafmax, Forall (is_point Dim okc) pts -> (leafmax <= 0)%Z -> pts <> [] ->
  forall fuel, build fuel pts leafmax = NoFuel.
Proof.
  intros pts leafmax Hp Hlm Hn fuel. unfold kd_build. destruct pts as [|p0 pts0]; [congruence|]. set (pts := p0 :: pts0) in *.
  rewrite (build_rec_loops K Dim okc okn HK pts Hp nth_el Hne HD leafmax Hlm); [reflexivity|apply seq_range|discriminate].
Qed.

(** ** findNearest *)
Theorem C41_nearest : forall pts leafmax fuel t q, Forall (is_point Dim okc) pts -> build fuel pts leafmax = Ok t -> is_point Dim okc q ->
  exists r nv, find_nearest K Dim t q = Ok (r, nv) /\
    match r with
    | Some (i, dist) => i < length pts /\ dist = k_sqrt K (dto K pts q i) /\ ltb (dto K pts q i) (k_max K) = true /\
        (forall j, j < length pts -> ltb (dto K pts q j) (dto K pts q i) = false)
    | None => forall j, j < length pts -> ltb (dto K pts q j) (k_max K) = false
    end.
Proof.
  intros pts leafmax fuel t q Hp Hb Hq. destruct (built _ _ _ _ Hp Hb) as [A [_ [C [D _]]]].
  unfold find_nearest. destruct pts as [|p0 pts0].
  { destruct (C eq_refl) as [C1 _]. rewrite C1. exists None, 0. split; auto. intros j Hj. simpl in Hj. lia. }
  set (pts := p0 :: pts0) in *. destruct (D ltac:(discriminate)) as [D1 [S0 [D2 D3]]].
  assert (I0 : near_inv K okn pts q [] (None, k_max K, 0)).
  { split; auto. cbn [fst snd]. split. { apply (kl_max _ _ _ HK). } split; auto. intros j []. }
  pose proof (nearest_rec_ok K Dim okc okn HK pts Hp q Hq (t_root t) S0 D2 [] (None, k_max K, 0) I0) as W.
  apply wp_elim in W. destruct W as [[[bi bd] nv] [W1 W2]]. cbn [app] in W2.
  destruct (t_root t) as [|ax sv l r idx] eqn:Er; [discriminate|]. rewrite A, W1. cbn [bind].
  destruct W2 as [F [O [M B]]]. cbn [fst snd] in *.
  assert (IN : forall j, j < length pts -> In j S0).
  { intros j Hj. eapply Permutation_in; [apply Permutation_sym; exact D3|]. apply in_seq. lia. }
  eexists. eexists. split; [reflexivity|]. destruct bi as [i|].
  - destruct B as [B1 [B2 B3]]. subst bd. rewrite Forall_forall in F. split; [apply F; auto|]. split; [reflexivity|]. split; [exact B3|].
    intros j Hj. apply M. apply IN; auto.
  - subst bd. intros j Hj. apply M, IN; auto.
Qed.

(** ** findKNearest *)
Lemma desc_sorted : forall h i j, desc K h -> forall a b, nth_error (rev h) i = Some a -> nth_error (rev h) j = Some b -> i < j -> ltb (fst b) (fst a) = false.
Proof.
  intros h. induction h as [|y h IH]; intros i j Hd a b Ha Hb Hij.
  { destruct i; discriminate. }
  destruct Hd as [H1 H2]. cbn [rev] in Ha, Hb.
  assert (Hj : j <= length (rev h)).
  { assert (j < length (rev h ++ [y])) by (apply nth_error_Some; congruence). rewrite app_length in H. simpl in H. lia. }
  rewrite nth_error_app1 in Ha by lia.
  destruct (Nat.eq_dec j (length (rev h))) as [->|Hne'].
  - rewrite nth_error_app2, Nat.sub_diag in Hb by lia. injection Hb as <-. apply H1. apply in_rev. eapply nth_error_In; eauto.
  - rewrite nth_error_app1 in Hb by lia. eapply IH; eauto.
Qed.

Theorem C41_knearest : forall pts leafmax fuel t q k, Forall (is_point Dim okc) pts -> build fuel pts leafmax = Ok t -> is_point Dim okc q ->
  exists is_ ds nv, find_knearest K Dim t q k = Ok (is_, ds, nv) /\
    length is_ = Nat.min (Z.to_nat k) (length pts) /\ NoDup is_ /\ Forall (fun i => i < length pts) is_ /\
    ds = map (fun i => k_sqrt K (dto K pts q i)) is_ /\
    (forall m n i j, m < n -> nth_error is_ m = Some i -> nth_error is_ n = Some j -> ltb (dto K pts q j) (dto K pts q i) = false) /\
    (forall i j, In i is_ -> j < length pts -> ~ In j is_ -> ltb (dto K pts q j) (dto K pts q i) = false).
Proof.
  intros pts leafmax fuel t q k Hp Hb Hq. destruct (built _ _ _ _ Hp Hb) as [A [_ [C [D _]]]].
  assert (EMP : Nat.min (Z.to_nat k) (length pts) = 0 -> exists is_ ds nv, Ok ([] : list nat, [] : list T, 0) = Ok (is_, ds, nv) /\
    length is_ = Nat.min (Z.to_nat k) (length pts) /\ NoDup is_ /\ Forall (fun i => i < length pts) is_ /\
    ds = map (fun i => k_sqrt K (dto K pts q i)) is_ /\
    (forall m n i j, m < n -> nth_error is_ m = Some i -> nth_error is_ n = Some j -> ltb (dto K pts q j) (dto K pts q i) = false) /\
    (forall i j, In i is_ -> j < length pts -> ~ In j is_ -> ltb (dto K pts q j) (dto K pts q i) = false)).
  { intros H0. exists [], [], 0. split; auto. split; auto. split; [constructor|]. split; [constructor|]. split; auto. split.
    - intros m n i j _ E. destruct m; discriminate.
    - intros i j []. }
  unfold find_knearest. destruct pts as [|p0 pts0].
  { destruct (C eq_refl) as [C1 _]. rewrite C1. apply EMP. simpl. lia. }
  set (pts := p0 :: pts0) in *. destruct (D ltac:(discriminate)) as [D1 [S0 [D2 D3]]].
  destruct (t_root t) as [|ax sv l r idx] eqn:Er; [discriminate|]. rewrite <- Er in *.
  destruct (Z.leb_spec k 0) as [Hk|Hk]. { apply EMP. lia. }
  assert (I0 : knear_inv K pts q k [] ([], 0)).
  { split; auto. cbn [fst]. split; [simpl; lia|]. split; [exact I|]. split. { intros e []. } exists []. split; auto. split; auto. intros j e []. }
  pose proof (knearest_rec_ok K Dim okc okn HK pts Hp HD q Hq k Hk (t_root t) S0 D2 [] ([], 0) I0) as W.
  apply wp_elim in W. destruct W as [[h nv] [W1 W2]]. cbn [app] in W2. rewrite A, W1. cbn [bind].
  destruct W2 as [F [L [Ds [V [rest [PP [R1 R2]]]]]]]. cbn [fst] in *.
  assert (PS : Permutation (seq 0 (length pts)) (map snd h ++ rest)) by (rewrite <- D3; exact PP).
  assert (ND : NoDup (map snd h ++ rest)). { eapply Permutation_NoDup; [exact PS|apply seq_NoDup]. }
  assert (PR : Permutation (map snd (rev h)) (map snd h)) by (apply Permutation_map, Permutation_sym, Permutation_rev).
  assert (IR : forall i, In i (map snd (rev h)) -> In i (map snd h)) by (intros i; apply Permutation_in; auto).
  exists (map snd (rev h)), (map (fun e => k_sqrt K (fst e)) (rev h)), nv. split; auto.
  split.
  { rewrite map_length, rev_length. pose proof (Permutation_length PS) as PL. rewrite seq_length, app_length, map_length in PL.
    destruct (Z.ltb_spec (Z.of_nat (length h)) k) as [Hs|Hs].
    - rewrite (R1 Hs) in PL. change (length (@nil nat)) with 0 in PL. lia.
    - lia. }
  split. { eapply Permutation_NoDup; [apply Permutation_sym; exact PR|]. clear -ND. induction (map snd h) as [|x m IH]; [constructor|]. simpl in ND. inversion ND; subst. constructor; auto. intro Hi. apply H1, in_or_app; auto. }
  split. { apply Forall_forall. intros i Hi. apply IR in Hi. assert (In i (seq 0 (length pts))). { eapply Permutation_in; [apply Permutation_sym; exact PS|]. apply in_or_app; auto. } apply in_seq in H. lia. }
  split. { rewrite map_map. apply map_ext_in. intros e He. f_equal. apply V. apply in_rev; auto. }
  split.
  - intros m n i j Hmn Hi Hj. rewrite nth_error_map in Hi, Hj.
    destruct (nth_error (rev h) m) as [a|] eqn:Ea; [|discriminate]. destruct (nth_error (rev h) n) as [b|] eqn:Eb; [|discriminate].
    injection Hi as <-. injection Hj as <-. change (ltb (dnum K pts q (snd b)) (dnum K pts q (snd a)) = false).
    rewrite <- (V a), <- (V b). { eapply desc_sorted; eauto. }
    all: apply in_rev; eapply nth_error_In; eauto.
  - intros i j Hi Hj Hnj. apply IR in Hi. apply in_map_iff in Hi. destruct Hi as [e [<- He]].
    change (ltb (dnum K pts q j) (dnum K pts q (snd e)) = false). rewrite <- (V e He). apply R2; auto.
    assert (Hin : In j (map snd h ++ rest)). { eapply Permutation_in; [exact PS|]. apply in_seq. lia. }
    apply in_app_or in Hin. destruct Hin as [Hin|Hin]; auto. elim Hnj. eapply Permutation_in; [apply Permutation_sym; exact PR|auto].
Qed.

(** ** findInRadius *)
Theorem C41_radius : forall pts leafmax fuel t q radius, Forall (is_point Dim okc) pts -> build fuel pts leafmax = Ok t -> is_point Dim okc q -> okn radius ->
  exists is_ ds, find_in_radius K Dim t q radius = Ok (is_, ds) /\ NoDup is_ /\ ds = map (fun i => k_sqrt K (dto K pts q i)) is_ /\
    (forall i, In i is_ <-> i < length pts /\ ltb radius (k_zero K) = false /\ ltb (k_mul K radius radius) (dto K pts q i) = false).
Proof.
  intros pts leafmax fuel t q radius Hp Hb Hq Or. destruct (built _ _ _ _ Hp Hb) as [A [_ [C [D _]]]].
  unfold find_in_radius. destruct pts as [|p0 pts0].
  { destruct (C eq_refl) as [C1 _]. rewrite C1. exists [], []. split; auto. split; [constructor|]. split; auto. intros i. simpl. split; [tauto|lia]. }
  set (pts := p0 :: pts0) in *. destruct (D ltac:(discriminate)) as [D1 [S0 [D2 D3]]].
  destruct (t_root t) as [|ax sv l r idx] eqn:Er; [discriminate|]. rewrite <- Er in *.
  destruct (ltb radius (k_zero K)) eqn:E0.
  { exists [], []. split; auto. split; [constructor|]. split; auto. intros i. split; [intros []|intros [_ [? _]]; discriminate]. }
  pose proof (radius_rec_ok K Dim okc okn HK pts Hp q Hq (k_mul K radius radius) (kl_mul _ _ _ HK radius Or E0) (t_root t) S0 D2 ([], [])) as W.
  apply wp_elim in W. destruct W as [[is_ ds] [W1 [I1 [W2 [W3 W4]]]]]. cbn [app fst snd] in *. subst is_ ds. rewrite A, W1. cbn [bind].
  exists I1, (map (k_sqrt K) (map (dnum K pts q) I1)). split; auto.
  assert (ND : NoDup S0) by (eapply Permutation_NoDup; [apply Permutation_sym; exact D3|apply seq_NoDup]).
  split. { eapply Permutation_NoDup; [apply Permutation_sym; exact W4|]. apply NoDup_filter; auto. }
  split. { rewrite map_map. reflexivity. }
  intros i. split.
  - intros Hi. eapply Permutation_in in Hi; [|exact W4]. apply filter_In in Hi. destruct Hi as [Hi Hc].
    eapply Permutation_in in Hi; [|exact D3]. apply in_seq in Hi. split; [lia|]. split; auto. apply negb_true_iff in Hc. exact Hc.
  - intros [Hi [_ Hc]]. eapply Permutation_in; [apply Permutation_sym; exact W4|]. apply filter_In. split.
    + eapply Permutation_in; [apply Permutation_sym; exact D3|]. apply in_seq. lia.
    + apply negb_true_iff. exact Hc.
Qed.

(** ** findInBox *)
Theorem C41_box : forall pts leafmax fuel t lo hi, Forall (is_point Dim okc) pts -> build fuel pts leafmax = Ok t -> is_point Dim okc lo -> is_point Dim okc hi ->
  exists is_, find_in_box K Dim t lo hi = Ok is_ /\ NoDup is_ /\
    (forall i, In i is_ <-> exists p, nth_error pts i = Some p /\ in_closed_box K lo hi p).
Proof.
  intros pts leafmax fuel t lo hi Hp Hb Hlo Hhi. destruct (built _ _ _ _ Hp Hb) as [A [_ [C [D _]]]].
  unfold find_in_box. destruct pts as [|p0 pts0].
  { destruct (C eq_refl) as [C1 _]. rewrite C1. exists []. split; auto. split; [constructor|]. intros i. split; [intros []|]. intros [p [E _]]. destruct i; discriminate. }
  set (pts := p0 :: pts0) in *. destruct (D ltac:(discriminate)) as [D1 [S0 [D2 D3]]].
  destruct (t_root t) as [|ax sv l r idx] eqn:Er; [discriminate|]. rewrite <- Er in *.
  pose proof (box_rec_ok K Dim okc okn HK pts Hp HD lo hi Hlo Hhi (t_root t) S0 D2 []) as W.
  apply wp_elim in W. destruct W as [is_ [W1 W2]]. cbn [app] in W2. subst is_. rewrite A, W1.
  eexists. split; [reflexivity|]. split. { apply NoDup_filter. eapply Permutation_NoDup; [apply Permutation_sym; exact D3|apply seq_NoDup]. }
  intros i. rewrite filter_In.
  assert (IN : In i S0 <-> i < length pts).
  { split; intro Hi.
    - eapply Permutation_in in Hi; [|exact D3]. apply in_seq in Hi. lia.
    - eapply Permutation_in; [apply Permutation_sym; exact D3|]. apply in_seq. lia. }
  rewrite IN. split.
  - intros [Hi Hc]. destruct (pts_nth Dim okc pts Hp i Hi) as [p [E [_ W]]]. exists p. split; auto.
    rewrite (nth_error_nth pts i [] E) in Hc. unfold in_closed_box in *; apply (insideb_spec K lo hi p); auto; destruct Hlo, Hhi, W; lia.
  - intros [p [E Hc]]. assert (Hi : i < length pts) by (apply nth_error_Some; congruence). split; auto.
    destruct (pts_nth Dim okc pts Hp i Hi) as [p' [E' [_ W]]]. assert (p' = p) by congruence. subst p'.
    rewrite (nth_error_nth pts i [] E). unfold in_closed_box in *; apply (insideb_spec K lo hi p); auto; destruct Hlo, Hhi, W; lia.
Qed.

(** ** The brute-force search *)
Lemma brute_ok : forall pts q, Forall (is_point Dim okc) pts -> is_point Dim okc q -> pts <> [] ->
  exists bi bd, brute_force K Dim pts q = Ok (Some (bi, k_sqrt K bd)) /\
    (forall j, j < length pts -> ltb (dist2 K (nth j pts []) q) bd = false) /\
    match bi with Some i => i < length pts /\ bd = dist2 K (nth i pts []) q /\ ltb bd (k_max K) = true | None => bd = k_max K end.
Proof.
  intros pts q Hp Hq Hn. unfold brute_force. destruct pts as [|p0 pts0]; [congruence|]. set (pts := p0 :: pts0) in *.
  assert (W : wp (for_range 0 (length pts) (fun s i => p <- vget pts i ;; d <- dist_sq K Dim p q ;; Ok (if ltb d (snd s) then (Some i, d) else s)) (None, k_max K))
    (fun s => okn (snd s) /\ (forall j, j < length pts -> ltb (dist2 K (nth j pts []) q) (snd s) = false) /\
      match fst s with Some i => i < length pts /\ snd s = dist2 K (nth i pts []) q /\ ltb (snd s) (k_max K) = true | None => snd s = k_max K end)).
  { eapply wp_mono.
    { apply (for_range_inv _ _ (fun n s => okn (snd s) /\ (forall j, j < n -> ltb (dist2 K (nth j pts []) q) (snd s) = false) /\
        match fst s with Some i => i < length pts /\ snd s = dist2 K (nth i pts []) q /\ ltb (snd s) (k_max K) = true | None => snd s = k_max K end)).
      - lia.
      - cbn [fst snd]. split. { apply (kl_max _ _ _ HK). } split; auto. intros; lia.
      - intros i s _ Hi [O [M B]]. destruct (pts_nth Dim okc pts Hp i ltac:(lia)) as [p [E [V W]]]. rewrite V. cbn [bind].
        rewrite (dist_sq_eq K Dim okc p q W Hq). cbn [bind]. apply wp_Ok.
        assert (Ed : dval K p q = dist2 K (nth i pts []) q) by (rewrite (nth_error_nth pts i [] E); reflexivity).
        destruct (dval_ok K Dim okc okn HK p q W Hq) as [Od _]. rewrite Ed in *.
        destruct (ltb (dist2 K (nth i pts []) q) (snd s)) eqn:El; cbn [fst snd].
        + split; auto. split.
          * intros j Hj. destruct (Nat.eq_dec j i) as [->|Hji]. { apply (kl_irr _ _ _ HK); auto. }
            destruct (pts_nth Dim okc pts Hp j ltac:(lia)) as [pj [Ej [_ Wj]]].
            destruct (dval_ok K Dim okc okn HK pj q Wj Hq) as [Oj _].
            eapply (kl_ntrans _ _ _ HK); [| |exact Od|apply M; lia|apply (lt_asym K okc okn HK); auto]; auto.
            rewrite (nth_error_nth pts j [] Ej). exact Oj.
          * split; [lia|]. split; auto. destruct (fst s) as [i'|].
            { destruct B as [_ [_ B]]. eapply (kl_trans _ _ _ HK); [exact Od|exact O|apply (kl_max _ _ _ HK)|exact El|exact B]. }
            rewrite <- B. exact El.
        + split; auto. split; auto. intros j Hj. destruct (Nat.eq_dec j i) as [->|Hji]; auto. apply M; lia. }
    cbv beta. intros s H. exact H. }
  apply wp_elim in W. destruct W as [[bi bd] [W1 [_ [W2 W3]]]]. rewrite W1. cbn [bind fst snd] in *. exists bi, bd. auto.
Qed.
(** the brute-force search gives a closest point too *)
Theorem C41_brute_force : forall pts q, Forall (is_point Dim okc) pts -> is_point Dim okc q ->
  (exists j, j < length pts /\ ltb (dist2 K (nth j pts []) q) (k_max K) = true) ->
  exists i, brute_force K Dim pts q = Ok (Some (Some i, k_sqrt K (dist2 K (nth i pts []) q))) /\ i < length pts /\
    forall j, j < length pts -> ltb (dist2 K (nth j pts []) q) (dist2 K (nth i pts []) q) = false.
Proof.
  intros pts q Hp Hq [j [Hj Hd]]. destruct (brute_ok pts q Hp Hq) as [bi [bd [E [M B]]]]. { intros ->; simpl in Hj; lia. }
  destruct bi as [i|].
  - destruct B as [B1 [B2 B3]]. subst bd. exists i. auto.
  - subst bd. rewrite (M j Hj) in Hd. discriminate.
Qed.
(** if every squared distance reaches the largest number, the brute-force search claims success without an index,
    where the tree reports failure *)
Theorem C41_brute_overflow_refuted : forall pts q, Forall (is_point Dim okc) pts -> is_point Dim okc q -> pts <> [] ->
  (forall j, j < length pts -> ltb (dist2 K (nth j pts []) q) (k_max K) = false) ->
  brute_force K Dim pts q = Ok (Some (None, k_sqrt K (k_max K))).
Proof.
  intros pts q Hp Hq Hn Hall. destruct (brute_ok pts q Hp Hq Hn) as [bi [bd [E [M B]]]].
  destruct bi as [i|].
  - destruct B as [B1 [B2 B3]]. subst bd. rewrite (Hall i B1) in B3. discriminate.
  - subst bd. exact E.
Qed.
End KdT.
Print Assumptions C41_build. Print Assumptions C41_nearest. Print Assumptions C41_knearest. Print Assumptions C41_radius. Print Assumptions C41_box.
Print Assumptions C41_leaf_size_refuted. Print Assumptions C41_brute_force. Print Assumptions C41_brute_overflow_refuted.

(** ** An nth_element, and the exact arithmetics *)
(** insertion sort meets the contract *)
Fixpoint ins_by (less : nat -> nat -> bool) (x : nat) (l : list nat) : list nat :=
  match l with [] => [x] | y :: l' => if less y x then y :: ins_by less x l' else x :: l end.
Definition sort_by (less : nat -> nat -> bool) (l : list nat) (mid : nat) : list nat := fold_right (ins_by less) [] l.
Lemma ins_by_perm : forall less x l, Permutation (ins_by less x l) (x :: l).
Proof. intros less x l. induction l as [|y l IH]; simpl; auto. destruct (less y x); auto. rewrite IH. apply perm_swap. Qed.
Lemma sort_by_perm : forall less l mid, Permutation (sort_by less l mid) l.
Proof. intros less l mid. unfold sort_by. induction l as [|x l IH]; simpl; auto. rewrite ins_by_perm. auto. Qed.
Fixpoint asc_by (less : nat -> nat -> bool) (l : list nat) : Prop := match l with [] => True | x :: l' => (forall y, In y l' -> less y x = false) /\ asc_by less l' end.
Lemma asc_nth : forall less l i j x y, asc_by less l -> i < j -> nth_error l i = Some x -> nth_error l j = Some y -> less y x = false.
Proof.
  intros less l. induction l as [|z l IH]; intros i j x y HA Hij Hx Hy; [destruct i; discriminate|]. destruct HA as [H1 H2]. destruct i as [|i], j as [|j]; try lia.
  - injection Hx as <-. apply H1. eapply nth_error_In; eauto.
  - simpl in Hx, Hy. eapply (IH i j); eauto; lia.
Qed.
Lemma sort_by_ok : nth_el_ok sort_by.
Proof.
  intros less l mid Hm [S1 [S2 S3]]. split; [apply sort_by_perm|].
  assert (A : asc_by less (sort_by less l mid)).
  { clear Hm. unfold sort_by. induction l as [|x l IH]; [exact I|]. cbn [fold_right].
    assert (IH' : asc_by less (fold_right (ins_by less) [] l)).
    { apply IH; [intros a Ha; apply S1; right; auto|intros a b c Ha Hb Hc; apply (S2 a b c); right; auto|intros a b c Ha Hb Hc; apply (S3 a b c); right; auto]. }
    assert (HP : forall y, In y (fold_right (ins_by less) [] l) -> In y l). { intros y. apply Permutation_in. apply (sort_by_perm less l 0). }
    set (m := fold_right (ins_by less) [] l) in *. clearbody m. clear IH.
    induction m as [|y m IHm]; cbn [ins_by]. { split; [intros ? []|exact I]. }
    destruct IH' as [A1 A2]. specialize (IHm A2 (fun z Hz => HP z (or_intror Hz))).
    assert (Hy : In y l) by (apply HP; left; auto).
    destruct (less y x) eqn:E.
    - split; auto. intros z Hz. eapply Permutation_in in Hz; [|apply ins_by_perm]. destruct Hz as [<-|Hz]; auto.
      destruct (less x y) eqn:E2; auto. rewrite <- (S1 x (or_introl eq_refl)). symmetry. eapply (S2 x y x); simpl; auto.
    - split; [|split; auto]. intros z [<-|Hz]; auto. apply (S3 z y x); simpl; auto. right. apply HP. right; auto. }
  intros i x y Hx Hy. split; intro Hi.
  - eapply asc_nth; [exact A| |exact Hx|exact Hy]; auto.
  - eapply asc_nth; [exact A| |exact Hy|exact Hx]; auto.
Qed.

Definition Zkd (M : Z) : kdops Z := mkKd Z Z.sub Z.mul Z.add 0%Z Z.ltb M Z.sqrt.
Lemma Zkd_laws : forall M, kd_laws (Zkd M) (fun _ => True) (fun _ => True).
Proof.
  intros M. constructor; cbn; auto; intros; rewrite ?Z.ltb_lt, ?Z.ltb_ge in *; try lia; try (split; auto; nia); try nia.
  split; auto. apply Z.square_nonneg.
Qed.
Definition Rkd (M : R) : kdops R := mkKd R Rminus Rmult Rplus 0%R Rltb M sqrt.
Lemma Rkd_laws : forall M, kd_laws (Rkd M) (fun _ => True) (fun _ => True).
Proof.
  intros M.
  assert (LT : forall a b, Rltb a b = true <-> (a < b)%R). { intros a b. destruct (Rltb_spec a b); split; auto; try discriminate; lra. }
  assert (GE : forall a b, Rltb a b = false <-> (b <= a)%R). { intros a b. destruct (Rltb_spec a b); split; auto; try discriminate; lra. }
  constructor; cbn; auto; intros; rewrite ?LT, ?GE in *; try lra; try (split; auto; nra); try nra.
  - split; auto. apply Rle_0_sqr.
  - destruct (Rltb_spec (a - b) 0), (Rltb_spec a b); auto; lra.
Qed.

(** *** In exact arithmetic: findNearest minimises the Euclidean distance *)
Definition euclid2 (q p : list R) : R := fold_right Rplus 0%R (map (fun ab => ((fst ab - snd ab) * (fst ab - snd ab))%R) (combine q p)).
Lemma dist2_euclid : forall M q p, dist2 (Rkd M) q p = euclid2 q p.
Proof.
  intros M q p. unfold dist2, euclid2. cbn [Rkd k_add k_mul k_sub k_zero].
  assert (G : forall l s, fold_left (fun s ab => (s + (fst ab - snd ab) * (fst ab - snd ab))%R) l s = (s + fold_right Rplus 0%R (map (fun ab => ((fst ab - snd ab) * (fst ab - snd ab))%R) l))%R).
  { induction l as [|x l IH]; intros s; cbn [fold_left map fold_right]; [lra|]. rewrite IH. lra. }
  rewrite G. lra.
Qed.
Theorem C41_euclid : forall (M : R) Dim nth_el pts leafmax fuel t q, 0 < Dim -> nth_el_ok nth_el ->
  Forall (fun p => length p = Dim) pts -> length q = Dim -> kd_build (Rkd M) Dim nth_el fuel pts leafmax = Ok t ->
  (exists j, j < length pts /\ (euclid2 q (nth j pts []) < M)%R) ->
  exists i nv, find_nearest (Rkd M) Dim t q = Ok (Some (i, sqrt (euclid2 q (nth i pts []))), nv) /\ i < length pts /\
    forall j, j < length pts -> (sqrt (euclid2 q (nth i pts [])) <= sqrt (euclid2 q (nth j pts [])))%R.
Proof.
  intros M Dim nth_el pts leafmax fuel t q HD Hne Hp Hq Hb [j0 [Hj0 Hm]].
  assert (TT : forall l : list R, Forall (fun _ => True) l) by (induction l; auto).
  assert (Hp' : Forall (is_point Dim (fun _ : R => True)) pts) by (eapply Forall_impl; [|exact Hp]; intros p H; split; auto).
  destruct (C41_nearest (Rkd M) Dim _ _ (Rkd_laws M) HD nth_el Hne pts leafmax fuel t q Hp' Hb (conj Hq (TT q))) as [r [nv [E H]]].
  destruct r as [[i dist]|].
  - destruct H as [Hi [-> [_ H]]]. exists i, nv. unfold dto in *. rewrite dist2_euclid in *. split; [exact E|]. split; auto.
    intros j Hj. apply sqrt_le_1_alt. specialize (H j Hj). rewrite dist2_euclid in H. cbn [Rkd k_ltb] in H. destruct (Rltb_spec (euclid2 q (nth j pts [])) (euclid2 q (nth i pts []))); [discriminate|lra].
  - specialize (H j0 Hj0). unfold dto in H. rewrite dist2_euclid in H. cbn [Rkd k_ltb k_max] in H. destruct (Rltb_spec (euclid2 q (nth j0 pts [])) M); [discriminate|lra].
Qed.
Print Assumptions C41_euclid.

(** ** Worked example: seven points in the plane (one twice), leaf size 1 *)
Definition ex_pts : list (list Z) := [[2;3];[5;4];[9;6];[4;7];[8;1];[7;2];[5;4]]%Z.
Lemma ex_pts_ok : Forall (is_point 2 (fun _ : Z => True)) ex_pts.
Proof. repeat constructor. Qed.
Definition ex_tree : res (kdtree (T:=Z)) := kd_build (Zkd 1000) 2 sort_by 20 ex_pts 1.
Example C41_ex_stats : (t <- ex_tree ;; Ok (t_stats t)) = Ok (mkStats 7 13 7 3).
Proof. reflexivity. Qed.
Example C41_ex_nearest : (t <- ex_tree ;; r <- find_nearest (Zkd 1000) 2 t [9;2]%Z ;; Ok (fst r)) = Ok (Some (4, 1%Z)).
Proof. reflexivity. Qed.
Example C41_ex_knearest : (t <- ex_tree ;; r <- find_knearest (Zkd 1000) 2 t [5;5]%Z 4 ;; Ok (fst r)) = Ok ([1; 6; 3; 5], [1; 1; 2; 3]%Z).
Proof. reflexivity. Qed.
Example C41_ex_radius : (t <- ex_tree ;; r <- find_in_radius (Zkd 1000) 2 t [5;5]%Z 3%Z ;; Ok (fst r)) = Ok [6; 1; 3].
Proof. reflexivity. Qed.
Example C41_ex_box : (t <- ex_tree ;; find_in_box (Zkd 1000) 2 t [5;2]%Z [9;4]%Z) = Ok [1; 5; 6].
Proof. reflexivity. Qed.
Example C41_ex_brute : brute_force (Zkd 1000) 2 ex_pts [9;2]%Z = Ok (Some (Some 4, 1%Z)).
Proof. reflexivity. Qed.
Example C41_ex_brute_far : brute_force (Zkd 1000) 2 ex_pts [900;2]%Z = Ok (Some (None, 31%Z)) /\ (t <- ex_tree ;; find_nearest (Zkd 1000) 2 t [900;2]%Z) = Ok (None, 6).
Proof. split; reflexivity. Qed.
