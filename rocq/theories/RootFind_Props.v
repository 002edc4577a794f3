(** * C38, C39, C40, C47: root bracketing and root finding over the reals

    A function is [R -> option R]; [None] is a value that is not finite.  [between a b x]: x lies in the bracket
    with end points a and b, in either order. *)

From Coq Require Import List Bool Arith ZArith Lia QArith Qcanon Reals Lra Psatz Ranalysis5.
From Verif Require Import Base Num RootFind_Model RootFind_Proofs.
Import ListNotations.
Local Open Scope R_scope.

(** f agrees on the bracket with g, which is finite and continuous there *)
Definition continuous_on (f : R -> option R) (g : R -> R) (x1 x2 : R) : Prop :=
  forall x, between x1 x2 x -> f x = Some (g x) /\ continuity_pt g x.

Lemma start_signs : forall u v, negb (Rltb (u * v) 0) = false -> (u < 0 /\ 0 < v) \/ (0 < u /\ v < 0).
Proof. intros u v. destruct (Rltb_spec (u * v) 0) as [H|H]; cbn; [intros _|discriminate]. destruct (Rtotal_order u 0) as [K|[->|K]]; [left|lra|right]; split; nra. Qed.

(** ** C38: bisection *)
(** any function: when it reports convergence the result is an end of a sub-bracket with a sign change (value <= 0 at
    the result, > 0 at the other end), of width achieved_tolerance < tolerance unless the result is an exact zero *)
Theorem C38_bisection : forall dflt f x1 x2 tol max_it, let r := FindRootBisection Rarith dflt f x1 x2 tol max_it in
  (rr_conv r = false -> rr_err r = true) /\ (rr_iters r <= max_iter max_it dflt)%nat /\
  (rr_conv r = true -> between x1 x2 (rr_root r) /\ exists v y w, f (rr_root r) = Some v /\ v <= 0 /\ rr_fval r = Some v /\
     f y = Some w /\ 0 < w /\ between x1 x2 y /\ Rabs (y - rr_root r) = rr_tol r /\ (rr_tol r < tol \/ v = 0)).
Proof.
  intros dflt f x1 x2 tol mi. unfold FindRootBisection. rnum. cbv zeta.
  destruct (f x1) as [u|] eqn:E1, (f x2) as [v|] eqn:E2; try (cbn; split; [auto|split; [lia|discriminate]]).
  destruct (negb (Rltb (u * v) 0)) eqn:S; [cbn; split; [auto|split; [lia|discriminate]]|].
  apply start_signs in S. destruct (Rltb_spec u 0) as [L|L].
  - destruct S as [[S1 S2]|[S1 S2]]; [|lra]. assert (E : x2 = x1 + (x2 - x1)) by ring.
    destruct (bisect_inv f tol (max_iter mi dflt) 0 (x2 - x1) x1 u v) as (A1 & A2 & A3 & A4); auto; [lra|rewrite <- E; auto|]. rewrite <- E in A1, A4.
    split; auto. split; [lia|]. intros C. split; auto.
  - destruct S as [[S1 S2]|[S1 S2]]; [lra|]. assert (E : x1 = x2 + (x1 - x2)) by ring.
    destruct (bisect_inv f tol (max_iter mi dflt) 0 (x1 - x2) x2 v u) as (A1 & A2 & A3 & A4); auto; [lra|rewrite <- E; auto|]. rewrite <- E in A1, A4.
    split; auto. split; [lia|]. intros C. split; [apply between_sym; auto|]. destruct (A4 C) as (a & y & w & ? & ? & ? & ? & ? & B & ?). exists a, y, w. apply between_sym in B. tauto.
Qed.

(** continuous function: a converged result is within the tolerance of a true root inside the bracket *)
Theorem C38_near_root : forall dflt f g x1 x2 tol max_it, continuous_on f g x1 x2 -> 0 < tol ->
  let r := FindRootBisection Rarith dflt f x1 x2 tol max_it in
  rr_conv r = true -> exists z, between x1 x2 z /\ g z = 0 /\ Rabs (rr_root r - z) < tol.
Proof.
  intros dflt f g x1 x2 tol mi Hc Ht r C. destruct (C38_bisection dflt f x1 x2 tol mi) as (_ & _ & H). fold r in H. destruct (H C) as (B & v & y & w & Ev & Kv & _ & Ew & Kw & By & Ed & Hd).
  destruct (Hc _ B) as [G1 _]. destruct (Hc _ By) as [G2 _]. rewrite G1 in Ev. rewrite G2 in Ew. inversion Ev; inversion Ew; subst v w.
  destruct Hd as [Hd|Hd].
  - destruct (ivt g (rr_root r) y) as (z & Hz & E0); try lra.
    + intros z Hz. apply Hc. eapply between_trans; [exact B|exact By|exact Hz].
    + exists z. split; [eapply between_trans; [exact B|exact By|exact Hz]|]. split; auto. apply Rle_lt_trans with (Rabs (y - rr_root r)); [|lra].
      revert Hz. unfold between, Rmin, Rmax, Rabs. repeat match goal with |- context [Rcase_abs ?a] => destruct (Rcase_abs a) | |- context [Rle_dec ?a ?b] => destruct (Rle_dec a b) end; lra.
  - exists (rr_root r). split; auto. split; auto. replace (rr_root r - rr_root r) with 0 by ring. rewrite Rabs_R0. lra.
Qed.

(** a bracketed sign change and a positive tolerance: it converges within k iterations as soon as
    |x2 - x1| < 2^k tolerance, if the limit allows k iterations *)
Theorem C38_converges : forall dflt f g x1 x2 tol max_it k, (forall x, between x1 x2 x -> f x = Some (g x)) -> g x1 * g x2 < 0 -> 0 < tol ->
  (1 <= k <= max_iter max_it dflt)%nat -> Rabs (x2 - x1) < 2 ^ k * tol ->
  let r := FindRootBisection Rarith dflt f x1 x2 tol max_it in rr_conv r = true /\ (rr_iters r <= k)%nat.
Proof.
  intros dflt f g x1 x2 tol mi k Hf Hs Ht Hk Hd. unfold FindRootBisection. rewrite (Hf x1 (between_l _ _)), (Hf x2 (between_r _ _)). rnum. cbv zeta.
  destruct (Rltb_spec (g x1 * g x2) 0) as [_|K]; [|lra]. cbn [negb]. destruct (Rltb_spec (g x1) 0) as [L|L].
  - apply (bisect_converges f tol k (max_iter mi dflt) 0 (x2 - x1) x1); auto. intros x Hx. exists (g x). apply Hf. replace (x1 + (x2 - x1)) with x2 in Hx by ring. auto.
  - apply (bisect_converges f tol k (max_iter mi dflt) 0 (x1 - x2) x2); auto; [rewrite Rabs_minus_sym; auto|]. intros x Hx. exists (g x). apply Hf. replace (x2 + (x1 - x2)) with x1 in Hx by ring. apply between_sym. auto.
Qed.

(** without a strict sign change, or with a non-finite end value, nothing is reported: also when an end point is an exact root *)
Theorem C38_rejects : forall dflt f x1 x2 tol max_it,
  (f x1 = None \/ f x2 = None \/ exists u v, f x1 = Some u /\ f x2 = Some v /\ 0 <= u * v) ->
  let r := FindRootBisection Rarith dflt f x1 x2 tol max_it in rr_conv r = false /\ rr_err r = true /\ or_throw r = Throw NumericalError.
Proof.
  intros dflt f x1 x2 tol mi H. cbv zeta. assert (E : FindRootBisection Rarith dflt f x1 x2 tol mi = rr_fail Rarith); [|rewrite E; auto].
  unfold FindRootBisection. destruct H as [->|[->|(u & v & -> & -> & K)]]; auto; [destruct (f x1); auto|]. rnum. destruct (Rltb_spec (u * v) 0); [lra|]. auto.
Qed.

(** ** C39: bracketing *)
Lemma bracket_inv : forall f n x1 x2, x1 <> x2 ->
  let '(b, y1, y2) := bracket_loop Rarith f n x1 x2 (f x1) (f x2) in
  (b = true -> f y1 * f y2 < 0) /\ y1 <> y2 /\ between y1 y2 x1 /\ between y1 y2 x2 /\ (exists k, (k <= n)%nat /\ y2 - y1 = (26 / 10) ^ k * (x2 - x1)) /\
  (b = false -> y2 - y1 = (26 / 10) ^ n * (x2 - x1)).
Proof.
  intros f. induction n as [|n IH]; intros x1 x2 Hne; cbn [bracket_loop]; rnum.
  - split; [discriminate|]. split; auto. split; [apply between_l|]. split; [apply between_r|]. split; [exists 0%nat; split; auto; simpl; ring|]. intros _. simpl. ring.
  - destruct (Rltb_spec (f x1 * f x2) 0) as [H|H].
    + split; auto. split; auto. split; [apply between_l|]. split; [apply between_r|]. split; [exists 0%nat; split; [lia|simpl; ring]|discriminate].
    + rewrite ?Rabs_aabs. destruct (Rltb_spec (Rabs (f x1)) (Rabs (f x2))) as [L|L].
      * cbv zeta. set (y := x1 + 16 / 10 * (x1 - x2)). assert (N : y <> x2) by (intros E; apply Hne; unfold y in E; lra). specialize (IH y x2 N).
        destruct (bracket_loop Rarith f n y x2 (f y) (f x2)) as [[b z1] z2]. destruct IH as (I1 & I2 & I3 & I4 & (k & Hk & Ek) & I6).
        split; auto. split; auto. split; [apply (between_trans _ _ y x2); auto; unfold y, between, Rmin, Rmax; destruct (Rle_dec (x1 + 16 / 10 * (x1 - x2)) x2); lra|].
        split; auto. split; [exists (S k); split; [lia|]; rewrite Ek; unfold y; simpl; field|]. intros B. rewrite (I6 B). unfold y. simpl. field.
      * cbv zeta. set (y := x2 + 16 / 10 * (x2 - x1)). assert (N : x1 <> y) by (intros E; apply Hne; unfold y in E; lra). specialize (IH x1 y N).
        destruct (bracket_loop Rarith f n x1 y (f x1) (f y)) as [[b z1] z2]. destruct IH as (I1 & I2 & I3 & I4 & (k & Hk & Ek) & I6).
        split; auto. split; auto. split; auto. split; [apply (between_trans _ _ x1 y); auto; unfold y, between, Rmin, Rmax; destruct (Rle_dec x1 (x2 + 16 / 10 * (x2 - x1))); lra|].
        split; [exists (S k); split; [lia|]; rewrite Ek; unfold y; simpl; field|]. intros B. rewrite (I6 B). unfold y. simpl. field.
Qed.

(** true: the new end points have values of opposite sign; always: the new interval contains the old one and is
    2.6^k times as long for some k <= MaxTry (k = MaxTry if false is returned) *)
Theorem C39_bracket : forall f x1 x2 n, x1 <> x2 -> exists b y1 y2, BracketRoot Rarith f x1 x2 n = Ok (b, y1, y2) /\
  (b = true -> f y1 * f y2 < 0) /\ between y1 y2 x1 /\ between y1 y2 x2 /\
  (exists k, (k <= Z.to_nat n)%nat /\ y2 - y1 = (26 / 10) ^ k * (x2 - x1) /\ (b = false -> k = Z.to_nat n)).
Proof.
  intros f x1 x2 n Hne. unfold BracketRoot. destruct (Raeqb x1 x2) as [E|_]; [contradiction|]. pose proof (bracket_inv f (Z.to_nat n) x1 x2 Hne) as H.
  destruct (bracket_loop Rarith f (Z.to_nat n) x1 x2 (f x1) (f x2)) as [[b y1] y2]. destruct H as (H1 & H2 & H3 & H4 & (k & Hk & Ek) & H6). exists b, y1, y2. split; auto. split; auto. split; auto. split; auto.
  destruct b; [exists k; split; auto; split; auto; discriminate|]. exists (Z.to_nat n). split; auto.
Qed.
Theorem C39_bracket_at_once : forall f x1 x2 n, (1 <= n)%Z -> f x1 * f x2 < 0 -> BracketRoot Rarith f x1 x2 n = Ok (true, x1, x2).
Proof.
  intros f x1 x2 n Hn H. unfold BracketRoot. destruct (Raeqb x1 x2) as [->|_]; [nra|]. destruct (Z.to_nat n) as [|k] eqn:E; [lia|]. cbn [bracket_loop]. rnum. destruct (Rltb_spec (f x1 * f x2) 0); [auto|contradiction].
Qed.
Theorem C39_bracket_bad : forall f x n, BracketRoot Rarith f x x n = Throw NumericalError.
Proof. intros f x n. unfold BracketRoot. destruct (Raeqb x x); [auto|contradiction]. Qed.
(** false does not mean that no bracket was found: the interval produced by the last expansion is not tested *)
Theorem C39_bracket_false_refuted : exists f x1 x2 n y1 y2, BracketRoot Rarith f x1 x2 n = Ok (false, y1, y2) /\ f y1 * f y2 < 0.
Proof.
  exists (fun x => x), 1, 2, 1%Z, (1 + 16 / 10 * (1 - 2)), 2. split; [|lra]. unfold BracketRoot. destruct (Raeqb 1 2) as [E|_]; [lra|]. change (Z.to_nat 1) with 1%nat. cbn [bracket_loop]. rnum.
  destruct (Rltb_spec (1 * 2) 0); [lra|]. rewrite !Rabs_pos_eq by lra. destruct (Rltb_spec 1 2); [|lra]. cbv zeta. reflexivity.
Qed.

(** the i-th of n+1 equally spaced points from x1 to x2 *)
Definition sample (x1 x2 : R) (n i : nat) : R := x1 + INR i * ((x2 - x1) / INR n).
Definition no_same_sign (f : R -> R) (p : R * R) : bool := if Rle_dec (f (fst p) * f (snd p)) 0 then true else false.
(** the consecutive sample intervals whose end values do not have the same strict sign, in order *)
Definition sign_changes (f : R -> R) (x1 x2 : R) (n m : nat) : list (R * R) :=
  filter (no_same_sign f) (map (fun i => (sample x1 x2 n i, sample x1 x2 n (S i))) (seq 0 m)).

Lemma vresize_keep : forall (v : list R) n i, (length v <= n)%nat -> (i < length v)%nat -> nth_error (vresize Rarith v n) i = nth_error v i.
Proof. intros v n i H Hi. unfold vresize. rewrite firstn_all2 by auto. apply nth_error_app1. auto. Qed.
Lemma vresize_length : forall (v : list R) n, length (vresize Rarith v n) = n.
Proof. intros v n. unfold vresize. rewrite app_length, firstn_length, repeat_length. lia. Qed.

(** the bracket list: no undefined behaviour whatever the number of brackets, and the first numRoots entries of
    xb1, xb2 are exactly the sample intervals without a strict common sign, in order *)
Theorem C39_brackets : forall f x1 x2 n xb1 xb2, exists ys1 ys2, let B := sign_changes f x1 x2 (Z.to_nat n) (Z.to_nat n) in
  FindRootBrackets Rarith f x1 x2 n xb1 xb2 = Ok (length B, ys1, ys2) /\
  (length B < length ys1)%nat /\ length ys2 = length ys1 /\
  firstn (length B) ys1 = map fst B /\ firstn (length B) ys2 = map snd B.
Proof.
  intros f x1 x2 n xb1 xb2. unfold FindRootBrackets. set (N := Z.to_nat n). set (dx := ndiv (aops Rarith) (nsub (aops Rarith) x2 x1) (alit Rarith n)).
  set (Inv := fun i s => bs_x s = x1 + INR i * dx /\ bs_fp s = f (bs_x s) /\ (bs_num s < bs_cap s)%nat /\ length (bs_xb1 s) = bs_cap s /\ length (bs_xb2 s) = bs_cap s /\
     bs_num s = length (sign_changes f x1 x2 N i) /\
     forall k, (k < bs_num s)%nat -> nth_error (bs_xb1 s) k = nth_error (map fst (sign_changes f x1 x2 N i)) k /\ nth_error (bs_xb2 s) k = nth_error (map snd (sign_changes f x1 x2 N i)) k).
  match goal with |- context [for_range 0 N ?g ?s0] => assert (W : wp (for_range 0 N g s0) (Inv N)) end.
  - apply (for_range_inv _ _ Inv); [lia| |].
    + unfold Inv. cbn [bs_x bs_fp bs_num bs_cap bs_xb1 bs_xb2]. rewrite !vresize_length. split; [simpl; ring|]. split; auto. split; [lia|]. split; auto. split; auto. split; auto. intros k Hk. lia.
    + intros i s _ Hi (I1 & I2 & I3 & I4 & I5 & I6 & I7). cbv beta. rewrite Nat.add_1_r. rnum.
      assert (Ed : dx = (x2 - x1) / INR N). { unfold dx. rnum. rewrite INR_IZR_INZ. unfold N. rewrite Z2Nat.id by (unfold N in Hi; lia). reflexivity. }
      assert (P1 : bs_x s = sample x1 x2 N i) by (rewrite I1, Ed; reflexivity).
      assert (P2 : bs_x s + dx = sample x1 x2 N (S i)). { rewrite I1. unfold sample. rewrite Ed, S_INR. ring. }
      assert (SC : sign_changes f x1 x2 N (S i) = sign_changes f x1 x2 N i ++ (if no_same_sign f (sample x1 x2 N i, sample x1 x2 N (S i)) then [(sample x1 x2 N i, sample x1 x2 N (S i))] else [])).
      { unfold sign_changes. rewrite seq_S, map_app, filter_app. cbn [map filter plus]. reflexivity. }
      assert (EX : bs_x s + dx = x1 + INR (S i) * dx) by (rewrite I1, S_INR; ring).
      cbv zeta. destruct (Rltb_spec 0 (f (bs_x s + dx) * bs_fp s)) as [K|K]; cbn [negb].
      * apply wp_Ok. assert (NS : no_same_sign f (sample x1 x2 N i, sample x1 x2 N (S i)) = false). { unfold no_same_sign. cbn [fst snd]. rewrite <- P1, <- P2. destruct (Rle_dec (f (bs_x s) * f (bs_x s + dx)) 0); auto. rewrite I2 in K. lra. }
        rewrite NS, app_nil_r in SC. unfold Inv. cbn [bs_x bs_fp bs_num bs_cap bs_xb1 bs_xb2]. rewrite SC. repeat (split; auto); apply I7; auto.
      * assert (NS : no_same_sign f (sample x1 x2 N i, sample x1 x2 N (S i)) = true). { unfold no_same_sign. cbn [fst snd]. rewrite <- P1, <- P2. destruct (Rle_dec (f (bs_x s) * f (bs_x s + dx)) 0); auto. rewrite I2 in K. lra. }
        rewrite NS in SC. apply wp_bind. apply vset_wp; [lia|]. apply wp_bind. apply vset_wp; [lia|].
        assert (V : forall k, (k < S (bs_num s))%nat -> nth_error (upd (bs_xb1 s) (bs_num s) (bs_x s + dx - dx)) k = nth_error (map fst (sign_changes f x1 x2 N (S i))) k /\ nth_error (upd (bs_xb2 s) (bs_num s) (bs_x s + dx)) k = nth_error (map snd (sign_changes f x1 x2 N (S i))) k).
        { intros k Hk. rewrite SC, !map_app, !nth_error_upd. cbn [map fst snd]. destruct (Nat.eq_dec k (bs_num s)) as [->|Hne].
          - rewrite Nat.eqb_refl, I4, I5. rewrite (proj2 (Nat.ltb_lt _ _) I3). cbn [andb]. rewrite I6, !nth_error_app2 by (rewrite map_length; lia). rewrite !map_length, Nat.sub_diag. cbn. split; f_equal; [lra|auto].
          - rewrite (proj2 (Nat.eqb_neq (bs_num s) k)) by auto. cbn [andb]. rewrite !nth_error_app1 by (rewrite map_length; lia). apply I7. lia. }
        assert (L : S (bs_num s) = length (sign_changes f x1 x2 N (S i))) by (rewrite SC, app_length, <- I6; cbn; lia).
        destruct (Nat.eqb_spec (S (bs_num s)) (bs_cap s)) as [E|E]; apply wp_Ok; unfold Inv; cbn [bs_x bs_fp bs_num bs_cap bs_xb1 bs_xb2].
        -- rewrite !vresize_length. split; auto. split; auto. split; [lia|]. split; auto. split; auto. split; auto. intros k Hk. rewrite !vresize_keep by (rewrite upd_length; lia). apply V. auto.
        -- rewrite !upd_length. split; auto. split; auto. split; [lia|]. repeat (split; auto); apply V; auto.
  - apply wp_elim in W. destruct W as (s & -> & (I1 & I2 & I3 & I4 & I5 & I6 & I7)). cbn [bind]. exists (bs_xb1 s), (bs_xb2 s). rewrite <- I6. split; auto. split; [lia|]. split; [lia|].
    assert (FN : forall (l l' : list R) m, length l' = m -> (m <= length l)%nat -> (forall k, (k < m)%nat -> nth_error l k = nth_error l' k) -> firstn m l = l').
    { intros l l'. revert l. induction l' as [|a l' IH]; intros l m Hm Hle H; cbn in Hm; subst m; auto. destruct l as [|b l]; [cbn in Hle; lia|]. cbn [firstn]. pose proof (H 0%nat ltac:(lia)) as H0. cbn in H0. inversion H0; subst. f_equal. apply IH; auto; [cbn in Hle; lia|]. intros k Hk. apply (H (S k)). lia. }
    split; apply FN; try (rewrite map_length; auto); try lia; intros k Hk; apply I7; auto.
Qed.
(** a continuous function has a root in every reported interval *)
Theorem C39_brackets_roots : forall f x1 x2 n a b, continuity f -> In (a, b) (sign_changes f x1 x2 n n) -> exists z, between a b z /\ f z = 0.
Proof.
  intros f x1 x2 n a b Hc H. apply filter_In in H as [_ H]. unfold no_same_sign in H. cbn in H. destruct (Rle_dec (f a * f b) 0) as [K|]; [|discriminate].
  assert (HC : forall z, continuity_pt f z) by (intros z; apply Hc).
  destruct (Rle_dec (f a) 0); [destruct (Rle_dec 0 (f b))|].
  - destruct (ivt f a b) as (z & Hz & E); eauto.
  - destruct (Req_dec (f a) 0) as [E|E]; [exists a; split; auto; apply between_l|]. exfalso. nra.
  - destruct (Rle_dec (f b) 0); [|exfalso; nra]. destruct (ivt f b a) as (z & Hz & E); eauto; [lra|]. exists z. split; auto. apply between_sym. auto.
Qed.
(** a strict change of sign between consecutive sample points is never missed *)
Theorem C39_brackets_complete : forall f x1 x2 n i, (i < n)%nat -> f (sample x1 x2 n i) * f (sample x1 x2 n (S i)) <= 0 ->
  In (sample x1 x2 n i, sample x1 x2 n (S i)) (sign_changes f x1 x2 n n).
Proof.
  intros f x1 x2 n i Hi H. apply filter_In. split; [apply in_map_iff; exists i; split; auto; apply in_seq; lia|]. unfold no_same_sign. cbn. destruct (Rle_dec _ 0); auto.
Qed.
(** the documentation says xb1 and xb2 are resized to the number of brackets; they never are *)
Theorem C39_size_refuted : forall f x1 x2 n xb1 xb2 k ys1 ys2, FindRootBrackets Rarith f x1 x2 n xb1 xb2 = Ok (k, ys1, ys2) -> length ys1 <> k.
Proof.
  intros f x1 x2 n xb1 xb2 k ys1 ys2 H. destruct (C39_brackets f x1 x2 n xb1 xb2) as (z1 & z2 & E & L & _). cbv zeta in E. rewrite H in E. inversion E; subst. lia.
Qed.

(** ** C40: the result of the bracketing methods stays in the bracket *)
(** FindRootFalsePosition: every function *)
Theorem C40_false_position : forall dflt f x1 x2 tol max_it u v, f x1 = Some u -> f x2 = Some v -> u * v < 0 ->
  let r := FindRootFalsePosition Rarith dflt f x1 x2 tol max_it in
  between x1 x2 (rr_root r) /\ (rr_iters r <= max_iter max_it dflt)%nat /\ rr_fval r = f (rr_root r) /\ (rr_conv r = false -> rr_err r = true) /\
  (rr_conv r = true -> exists v, f (rr_root r) = Some v /\
     (Rabs v < tol \/ exists y w, f y = Some w /\ between x1 x2 y /\ ((v < 0 /\ 0 <= w) \/ (0 <= v /\ w < 0)) /\ Rabs (y - rr_root r) < tol)).
Proof.
  intros dflt f x1 x2 tol mi u v E1 E2 K. unfold FindRootFalsePosition. rewrite E1, E2. rnum. destruct (Rltb_spec (u * v) 0) as [_|]; [|contradiction]. cbn [negb].
  destruct (Rltb_spec 0 u) as [L|L].
  - destruct (falsi_inv f tol (max_iter mi dflt) 0 x2 v x1 u x2) as (A1 & A2 & A3 & A4 & A5); auto using between_l; try nra. cbv zeta.
    split; [apply between_sym; auto|]. split; [lia|]. split; auto. split; auto. intros C. destruct (A5 C) as (w & B1 & [B2|(y & z & B2 & B3 & B4)]); exists w; split; auto. right. exists y, z. apply between_sym in B3. auto.
  - assert (u < 0) by (destruct (Req_dec u 0); subst; nra). destruct (falsi_inv f tol (max_iter mi dflt) 0 x1 u x2 v x1) as (A1 & A2 & A3 & A4 & A5); auto using between_l; try nra. cbv zeta. split; auto. split; [lia|]. auto.
Qed.
(** FindRootRidders: every function, positive tolerance, bracket further than the tolerance from -10^99 *)
Theorem C40_ridders : forall dflt f x1 x2 tol max_it u v, f x1 = Some u -> f x2 = Some v -> u * v < 0 -> 0 < tol -> - 10 ^ 99 + tol < Rmin x1 x2 ->
  let r := FindRootRidders Rarith dflt f x1 x2 tol max_it in
  (rr_conv r = false -> rr_err r = true) /\ (rr_iters r <= max_iter max_it dflt)%nat /\
  (rr_conv r = true -> between x1 x2 (rr_root r) /\ exists v, f (rr_root r) = Some v /\ rr_fval r = Some v /\
     (Rabs v < tol \/
      exists a b fa fb, f a = Some fa /\ f b = Some fb /\ fa * fb < 0 /\ between x1 x2 a /\ between x1 x2 b /\ (rr_root r = a \/ rr_root r = b) /\
         (Rabs (b - a) <= tol \/ exists fm, f ((a + b) / 2) = Some fm /\ Rabs (ridders_estimate a fa b fb fm - rr_root r) <= tol))).
Proof.
  intros dflt f x1 x2 tol mi u v E1 E2 K Ht Hf. unfold FindRootRidders. rewrite E1, E2. rnum. destruct (Rltb_spec (u * v) 0) as [_|]; [|contradiction]. cbn [negb]. cbv zeta.
  destruct (ridders_inv f tol (max_iter mi dflt) 0 x1 u x2 v (ridders_start Rarith)) as (A1 & A2 & A3); auto.
  - right. right. intros z [Hz _]. unfold ridders_start. rnum. rewrite pow_IZR in Hf. replace (10 ^ Z.of_nat 99)%Z with (10 ^ 99)%Z in Hf by reflexivity. rewrite Rabs_pos_eq; lra.
  - split; [exact A1|]. split; [lia|]. exact A3.
Qed.
(** FindRootBrent: every function and every tolerance *)
Theorem C40_brent : forall dflt eps f x1 x2 tol max_it u v, f x1 = Some u -> f x2 = Some v -> u * v < 0 ->
  let r := FindRootBrent Rarith dflt eps f x1 x2 tol max_it in
  between x1 x2 (rr_root r) /\ (rr_iters r <= max_iter max_it dflt)%nat /\ rr_fval r = f (rr_root r) /\ (rr_conv r = false -> rr_err r = true) /\
  (rr_conv r = true -> exists v y w, f (rr_root r) = Some v /\ f y = Some w /\ between x1 x2 y /\ Rabs v <= Rabs w /\
     (v = 0 \/ (v * w < 0 /\ Rabs (y - rr_root r) <= 4 * eps * Rabs (rr_root r) + tol))).
Proof.
  intros dflt eps f x1 x2 tol mi u v E1 E2 K. unfold FindRootBrent. rewrite E1, E2. rnum. destruct (Rltb_spec (u * v) 0) as [_|]; [|contradiction]. cbn [negb].
  destruct (brent_inv f eps tol x1 x2 (max_iter mi dflt) 0 x1 x2 x2 0 0 u v v 0) as (A1 & A2 & A3 & A4 & A5); auto using between_l, between_r.
  - intros ->. lra.
  - cbv zeta. split; auto. split; [lia|]. auto.
Qed.
Lemma near : forall a b z, between a b z -> Rabs (a - z) <= Rabs (b - a).
Proof. intros a b z. unfold between, Rmin, Rmax, Rabs. repeat match goal with |- context [Rcase_abs ?a] => destruct (Rcase_abs a) | |- context [Rle_dec ?a ?b] => destruct (Rle_dec a b) end; lra. Qed.
Lemma ivt_any : forall (g : R -> R) x y, (forall z, between x y z -> continuity_pt g z) -> g x * g y <= 0 -> exists r, between x y r /\ g r = 0.
Proof.
  intros g x y Hc H. destruct (Rle_dec (g x) 0) as [L|L].
  - destruct (Rle_dec 0 (g y)); [apply ivt; auto|]. exists x. split; [apply between_l|]. nra.
  - assert (g y <= 0) by nra. destruct (ivt g y x) as (r & Hr & E); [intros z Hz; apply Hc; apply between_sym; auto|lra|lra|]. exists r. split; auto. apply between_sym. auto.
Qed.
(** continuous function: Brent's converged result is within 4 eps |root| + tolerance of a true root; false position's is
    either that close (tolerance) or has |f| < tolerance *)
Theorem C40_brent_near_root : forall dflt eps f g x1 x2 tol max_it, continuous_on f g x1 x2 -> g x1 * g x2 < 0 -> 0 <= tol -> 0 <= eps ->
  let r := FindRootBrent Rarith dflt eps f x1 x2 tol max_it in
  rr_conv r = true -> exists z, between x1 x2 z /\ g z = 0 /\ Rabs (rr_root r - z) <= 4 * eps * Rabs (rr_root r) + tol.
Proof.
  intros dflt eps f g x1 x2 tol mi Hc Hs Ht He r C. destruct (Hc x1 (between_l _ _)) as [F1 _]. destruct (Hc x2 (between_r _ _)) as [F2 _].
  destruct (C40_brent dflt eps f x1 x2 tol mi _ _ F1 F2 Hs) as (B & _ & _ & _ & H). fold r in B, H. destruct (H C) as (v & y & w & Ev & Ew & By & _ & D). clear H.
  destruct (Hc _ B) as [G1 _]. destruct (Hc _ By) as [G2 _]. rewrite G1 in Ev. rewrite G2 in Ew. inversion Ev; inversion Ew; subst v w. destruct D as [D|[D1 D2]].
  - exists (rr_root r). split; auto. split; auto. replace (rr_root r - rr_root r) with 0 by ring. rewrite Rabs_R0. pose proof (Rabs_pos (rr_root r)). nra.
  - destruct (ivt_any g (rr_root r) y) as (z & Hz & E); [|lra|].
    + intros z Hz. apply Hc. eapply between_trans; [exact B|exact By|exact Hz].
    + exists z. split; [eapply between_trans; [exact B|exact By|exact Hz]|]. split; auto. apply near in Hz. lra.
Qed.
Theorem C40_false_position_near_root : forall dflt f g x1 x2 tol max_it, continuous_on f g x1 x2 -> g x1 * g x2 < 0 ->
  let r := FindRootFalsePosition Rarith dflt f x1 x2 tol max_it in
  rr_conv r = true -> Rabs (g (rr_root r)) < tol \/ exists z, between x1 x2 z /\ g z = 0 /\ Rabs (rr_root r - z) < tol.
Proof.
  intros dflt f g x1 x2 tol mi Hc Hs r C. destruct (Hc x1 (between_l _ _)) as [F1 _]. destruct (Hc x2 (between_r _ _)) as [F2 _].
  destruct (C40_false_position dflt f x1 x2 tol mi _ _ F1 F2 Hs) as (B & _ & _ & _ & H). fold r in B, H. destruct (H C) as (v & Ev & D). clear H.
  destruct (Hc _ B) as [G1 _]. rewrite G1 in Ev. inversion Ev; subst v. destruct D as [D|(y & w & Ew & By & D1 & D2)]; [auto|]. destruct (Hc _ By) as [G2 _]. rewrite G2 in Ew. inversion Ew; subst w.
  right. destruct (ivt_any g (rr_root r) y) as (z & Hz & E); [|destruct D1; nra|].
  - intros z Hz. apply Hc. eapply between_trans; [exact B|exact By|exact Hz].
  - exists z. split; [eapply between_trans; [exact B|exact By|exact Hz]|]. split; auto. apply near in Hz. lra.
Qed.
(** no strict sign change or a non-finite end value: all three report failure *)
Theorem C40_rejects : forall dflt eps f x1 x2 tol max_it,
  (f x1 = None \/ f x2 = None \/ exists u v, f x1 = Some u /\ f x2 = Some v /\ 0 <= u * v) ->
  or_throw (FindRootFalsePosition Rarith dflt f x1 x2 tol max_it) = Throw NumericalError /\
  or_throw (FindRootRidders Rarith dflt f x1 x2 tol max_it) = Throw NumericalError /\
  or_throw (FindRootBrent Rarith dflt eps f x1 x2 tol max_it) = Throw NumericalError.
Proof.
  intros dflt eps f x1 x2 tol mi H. unfold FindRootFalsePosition, FindRootRidders, FindRootBrent.
  destruct H as [->|[->|(u & v & -> & -> & K)]]; auto; [destruct (f x1); auto|]. rnum. destruct (Rltb_spec (u * v) 0); [lra|]. auto.
Qed.

Ltac rcmp := repeat match goal with |- context [Rltb ?a ?b] => destruct (Rltb_spec a b); try lra end; cbn [negb andb orb].
(** FindRootRidders can report a "root" outside the bracket: the initial value -10^99 of the previous estimate *)
Theorem C40_ridders_sentinel_refuted : exists f x1 x2 tol, 0 < tol /\ continuity f /\ f x1 * f x2 < 0 /\
  forall dflt max_it, (0 < max_it)%Z -> let r := FindRootRidders Rarith dflt (fun x => Some (f x)) x1 x2 tol max_it in rr_conv r = true /\ ~ between x1 x2 (rr_root r).
Proof.
  set (S := - IZR (10 ^ 99)). exists (fun x => x - (S - 2)), (S - 3), (S - 1), 2. split; [lra|]. split; [reg|]. split; [lra|].
  intros dflt mi Hm. unfold FindRootRidders, max_iter. rewrite (proj2 (Z.ltb_lt 0 mi) Hm). destruct (Z.to_nat mi) as [|n] eqn:En; [lia|]. rnum. replace ((S - 3 - (S - 2)) * (S - 1 - (S - 2))) with (-1) by ring. rcmp. cbn [ridders_loop]. rnum. cbv zeta.
  replace (1 / 2 * (S - 3 + (S - 1)) - (S - 2)) with 0 by field. replace (0 * 0 - (S - 3 - (S - 2)) * (S - 1 - (S - 2))) with (1 * 1) by ring. rewrite sqrt_square by lra.
  destruct (Raeqb 1 0) as [E|_]; [lra|]. rewrite ?Rabs_aabs.
  match goal with |- context [Rabs (?e - ridders_start Rarith)] => replace (Rabs (e - ridders_start Rarith)) with 2 end.
  - destruct (Rltb_spec 2 2); [lra|]. cbn [negb rr_conv rr_root]. split; auto. unfold ridders_start. rnum. fold S. unfold between, Rmin, Rmax. destruct (Rle_dec (S - 3) (S - 1)); lra.
  - unfold ridders_start. rnum. fold S. match goal with |- 2 = Rabs ?e => replace e with (- 2) end; [rewrite Rabs_left; lra|]. destruct (Rltb (S - 3 - (S - 2)) (S - 1 - (S - 2))); cbn [negb]; field.
Qed.

(** Ridders: "converged" does not mean that a root is within the tolerance or that |f| is small *)
Definition ramp (x : R) : R := (x + Rabs x) / 2.
Lemma ramp_pos : forall x, 0 <= x -> ramp x = x.
Proof. intros x H. unfold ramp. rewrite Rabs_pos_eq; lra. Qed.
Lemma ramp_neg : forall x, x <= 0 -> ramp x = 0.
Proof. intros x H. unfold ramp. rewrite Rabs_left1; lra. Qed.
(** piecewise linear through (0,-1), (7/10,-4/3), (9/10,-4/3), (14/10,99/20), (2,3/4), (4,1) *)
Definition kinked (x : R) : R :=
  - (4 / 3) + (1 / 3) / (7 / 10) * ramp (7 / 10 - x) + (377 / 60) / (5 / 10) * ramp (x - 9 / 10) + (- (42 / 10) / (6 / 10) - (377 / 60) / (5 / 10)) * ramp (x - 14 / 10) + ((1 / 8) + (42 / 10) / (6 / 10)) * ramp (x - 2).
Ltac kval := unfold kinked; rewrite ?(ramp_pos (7 / 10 - _)), ?(ramp_pos (_ - 9 / 10)), ?(ramp_pos (_ - 14 / 10)), ?(ramp_pos (_ - 2)), ?(ramp_neg (7 / 10 - _)), ?(ramp_neg (_ - 9 / 10)), ?(ramp_neg (_ - 14 / 10)), ?(ramp_neg (_ - 2)) by lra; try lra.
Theorem C40_ridders_root_refuted : exists f x1 x2 tol, 0 < tol /\ continuity f /\ f x1 * f x2 < 0 /\
  forall dflt max_it, (2 <= max_it)%Z -> let r := FindRootRidders Rarith dflt (fun x => Some (f x)) x1 x2 tol max_it in
    rr_conv r = true /\ 1 < Rabs (f (rr_root r)) /\ forall z, f z = 0 -> 4 * tol < Rabs (z - rr_root r).
Proof.
  exists kinked, 0, 4, (2 / 100).
  assert (V0 : kinked 0 = -1). { unfold kinked. rewrite (ramp_pos (7 / 10 - 0)), !ramp_neg by lra. lra. }
  assert (V4 : kinked 4 = 1). { unfold kinked. rewrite (ramp_neg (7 / 10 - 4)), !ramp_pos by lra. lra. }
  assert (V2 : kinked 2 = 3 / 4). { unfold kinked. rewrite (ramp_neg (7 / 10 - 2)), !ramp_pos by lra. lra. }
  assert (V8 : kinked (8 / 10) = - (4 / 3)). { unfold kinked. rewrite !ramp_neg by lra. lra. }
  assert (V14 : kinked (14 / 10) = 99 / 20). { unfold kinked. rewrite (ramp_neg (7 / 10 - 14 / 10)), (ramp_pos (14 / 10 - 9 / 10)), !ramp_neg by lra. lra. }
  split; [lra|]. split.
  { unfold kinked, ramp. reg. }
  split; [rewrite V0, V4; lra|].
  intros dflt mi Hm. unfold FindRootRidders, max_iter. rewrite (proj2 (Z.ltb_lt 0 mi)) by lia. destruct (Z.to_nat mi) as [|[|n]] eqn:En; try lia. rewrite V0, V4. rnum. rcmp. cbn [ridders_loop]. rnum. cbv zeta.
  replace (1 / 2 * (0 + 4)) with 2 by field. rewrite V2. replace (3 / 4 * (3 / 4) - -1 * 1) with ((5 / 4) * (5 / 4)) by field. rewrite sqrt_square by lra. destruct (Raeqb (5 / 4) 0); [lra|].
  destruct (Rltb_spec (-1) 1) as [_|]; [|lra]. cbn [negb]. replace (2 + (2 - 0) * (- (1) * (3 / 4) / (5 / 4))) with (8 / 10) by field. rewrite ?Rabs_aabs.
  destruct (Rltb_spec (2 / 100) (Rabs (8 / 10 - ridders_start Rarith))) as [_|K].
  2:{ exfalso. apply K. unfold ridders_start. rnum. assert (0 < IZR (10 ^ 99)) by (apply IZR_lt; reflexivity). rewrite Rabs_pos_eq; lra. }
  cbn [negb]. rewrite V8. assert (A8 : Rabs (- (4 / 3)) = 4 / 3) by (rewrite Rabs_Ropp, Rabs_pos_eq; lra). rewrite A8. destruct (Rltb_spec (4 / 3) (2 / 100)); [lra|].
  destruct (copysign_eq (3 / 4) (- (4 / 3))) as [[E|E]|_]; [lra|lra|lra|]. cbn [negb]. rewrite ?Rabs_aabs.
  assert (A9 : Rabs (8 / 10 - 2) = 12 / 10) by (replace (8 / 10 - 2) with (- (12 / 10)) by field; rewrite Rabs_Ropp, Rabs_pos_eq; lra). rewrite A9.
  destruct (Rltb_spec (2 / 100) (12 / 10)); [|lra]. cbn [negb].
  replace (1 / 2 * (2 + 8 / 10)) with (14 / 10) by field. rewrite V14. replace (99 / 20 * (99 / 20) - 3 / 4 * - (4 / 3)) with ((101 / 20) * (101 / 20)) by field. rewrite sqrt_square by lra. destruct (Raeqb (101 / 20) 0); [lra|].
  destruct (Rltb_spec (3 / 4) (- (4 / 3))); [lra|]. cbn [negb]. rewrite ?Rabs_aabs.
  match goal with |- context [Rabs (?e - 8 / 10)] => replace (e - 8 / 10) with (12 / 1010) by field end. rewrite (Rabs_pos_eq (12 / 1010)) by lra.
  destruct (Rltb_spec (2 / 100) (12 / 1010)); [lra|]. cbn [negb rr_conv rr_root]. split; auto. rewrite V8, A8. split; [lra|].
  intros z Hz. destruct (Rle_dec (4 * (2 / 100)) (Rabs (z - 8 / 10))) as [L|L].
  - destruct (Req_dec (4 * (2 / 100)) (Rabs (z - 8 / 10))) as [E|E]; [|lra]. exfalso. revert Hz. unfold kinked.
    assert (Z2 : 72 / 100 <= z <= 88 / 100). { revert E. unfold Rabs. destruct (Rcase_abs (z - 8 / 10)); lra. } rewrite !ramp_neg by lra. lra.
  - exfalso. revert Hz. unfold kinked.
    assert (Z2 : 72 / 100 <= z <= 88 / 100). { revert L. unfold Rabs. destruct (Rcase_abs (z - 8 / 10)); lra. } rewrite !ramp_neg by lra. lra.
Qed.

(** ** C47: Newton and secant *)
(** a converged Newton result lies in the bracket and is the end of a Newton step shorter than the tolerance, whatever
    the derivative estimate is; the reported function value is f(root) *)
Theorem C47_newton : forall dflt thr f der x1 x2 tol max_it, f x1 * f x2 <= 0 ->
  let r := FindRootNewton Rarith dflt thr f der x1 x2 tol max_it in
  (rr_conv r = false -> rr_err r = true) /\ (rr_iters r <= max_iter max_it dflt)%nat /\ rr_fval r = Some (f (rr_root r)) /\
  (rr_conv r = true -> between x1 x2 (rr_root r) /\
     exists x df, der x = Some df /\ thr <= Rabs df /\ rr_root r = x - f x / df /\ Rabs (f x / df) < tol /\ rr_tol r = Rabs (f x / df)).
Proof.
  intros dflt thr f der x1 x2 tol mi H. unfold FindRootNewton. rnum. destruct (Rltb_spec 0 (f x1 * f x2)); [lra|]. cbv zeta.
  destruct (newton_inv f der thr x1 x2 tol (max_iter mi dflt) 0 (1 / 2 * (x1 + x2)) 0) as (A1 & A2 & A3 & A4). split; [exact A1|]. split; [lia|]. split; [exact A3|exact A4].
Qed.
(** secant: reported value, iteration count and last step *)
Theorem C47_secant : forall dflt f x1 x2 tol max_it u v, f x1 = Some u -> f x2 = Some v -> u * v <= 0 ->
  let r := FindRootSecant Rarith dflt f x1 x2 tol max_it in
  (rr_conv r = false -> rr_err r = true) /\ (rr_iters r <= max_iter max_it dflt)%nat /\ rr_fval r = f (rr_root r) /\ (rr_conv r = true -> rr_tol r < tol).
Proof.
  intros dflt f x1 x2 tol mi u v E1 E2 H. unfold FindRootSecant. rewrite E1, E2. rnum. destruct (Rltb_spec 0 (u * v)); [lra|]. cbv zeta. rewrite ?Rabs_aabs. destruct (Rltb (Rabs u) (Rabs v)).
  - destruct (secant_inv f tol (max_iter mi dflt) 0 x2 v x1 u 0) as (A1 & A2 & A3 & A4); auto. split; [exact A1|]. split; [lia|]. split; [exact A3|exact A4].
  - destruct (secant_inv f tol (max_iter mi dflt) 0 x1 u x2 v 0) as (A1 & A2 & A3 & A4); auto. split; [exact A1|]. split; [lia|]. split; [exact A3|exact A4].
Qed.
(** a common strict sign at the ends is rejected *)
Theorem C47_rejects : forall dflt thr f der x1 x2 tol max_it, 0 < f x1 * f x2 ->
  or_throw (FindRootNewton Rarith dflt thr f der x1 x2 tol max_it) = Throw NumericalError /\
  or_throw (FindRootSecant Rarith dflt (fun x => Some (f x)) x1 x2 tol max_it) = Throw NumericalError.
Proof.
  intros. unfold FindRootNewton, FindRootSecant. rnum. destruct (Rltb_spec 0 (f x1 * f x2)); [auto|lra].
Qed.
(** affine functions: with two iterations both methods return the exact root *)
Theorem C47_affine : forall dflt thr a b x1 x2 tol max_it, a <> 0 -> thr <= Rabs a -> x1 <> x2 -> (a * x1 + b) * (a * x2 + b) <= 0 -> 0 < tol -> (2 <= max_iter max_it dflt)%nat ->
  let rn := FindRootNewton Rarith dflt thr (fun x => a * x + b) (fun _ => Some a) x1 x2 tol max_it in
  let rs := FindRootSecant Rarith dflt (fun x => Some (a * x + b)) x1 x2 tol max_it in
  rr_conv rn = true /\ a * rr_root rn + b = 0 /\ rr_conv rs = true /\ a * rr_root rs + b = 0.
Proof.
  intros dflt thr a b x1 x2 tol mi Ha Hthr Hne Hs Ht Hm. cbv zeta. assert (Hz : a * (- b / a) + b = 0) by (field; auto).
  assert (IN : 0 <= (x1 - - b / a) * (- b / a - x2)).
  { assert (E : (a * x1 + b) * (a * x2 + b) = - (a * a) * ((x1 - - b / a) * (- b / a - x2))) by (field; auto). rewrite E in Hs. assert (0 < a * a) by (apply Rsqr_pos_lt in Ha; exact Ha). nra. }
  assert (HN : let rn := FindRootNewton Rarith dflt thr (fun x => a * x + b) (fun _ => Some a) x1 x2 tol mi in rr_conv rn = true /\ a * rr_root rn + b = 0).
  { unfold FindRootNewton. rnum. destruct (Rltb_spec 0 ((a * x1 + b) * (a * x2 + b))); [lra|]. destruct (max_iter mi dflt) as [|[|k]]; try lia. cbn [newton_loop]. rnum. cbv zeta. rewrite ?Rabs_aabs.
    destruct (Rltb_spec (Rabs a) thr); [lra|]. set (m := 1 / 2 * (x1 + x2)). replace (m - (a * m + b) / a) with (- b / a) by (field; auto).
    destruct (Rltb_spec ((x1 - - b / a) * (- b / a - x2)) 0); [lra|]. destruct (Rltb_spec (Rabs ((a * m + b) / a)) tol); [cbn; auto|].
    rewrite Hz. replace (- b / a - 0 / a) with (- b / a) by (field; auto). destruct (Rltb_spec ((x1 - - b / a) * (- b / a - x2)) 0); [lra|].
    replace (0 / a) with 0 by (field; auto). rewrite Rabs_R0. destruct (Rltb_spec 0 tol); [cbn; auto|lra]. }
  assert (HL : forall n y1 y2, y1 <> y2 -> let rs := secant_loop Rarith (fun x => Some (a * x + b)) tol (S (S n)) 0 y1 (a * y1 + b) y2 (a * y2 + b) 0 in rr_conv rs = true /\ a * rr_root rs + b = 0).
  { intros n y1 y2 Hy. cbn [secant_loop]. rnum. cbv zeta. rewrite ?Rabs_aabs. assert (D : a * y2 + b - (a * y1 + b) <> 0). { replace (a * y2 + b - (a * y1 + b)) with (a * (y2 - y1)) by ring. apply Rmult_integral_contrapositive. split; auto. lra. }
    destruct (Raeqb (a * y2 + b) (a * y1 + b)) as [E|_]; [exfalso; lra|]. set (dx := (y2 - y1) * (a * y2 + b) / (a * y2 + b - (a * y1 + b))).
    assert (Ed : dx = (a * y2 + b) / a). { unfold dx. field. split; auto. } assert (Er : y2 - dx = - b / a) by (rewrite Ed; field; auto).
    rewrite Er, Hz. destruct (Rltb_spec (Rabs dx) tol) as [L|L]; [cbn; auto|].
    assert (a * y2 + b <> 0). { intros E0. rewrite Ed, E0 in L. apply L. replace (0 / a) with 0 by (field; auto). rewrite Rabs_R0. auto. }
    destruct (Raeqb 0 (a * y2 + b)) as [E|_]; [exfalso; lra|]. replace ((- b / a - y2) * 0 / (0 - (a * y2 + b))) with 0 by (field; lra).
    replace (- b / a - 0) with (- b / a) by ring. rewrite Rabs_R0. destruct (Rltb_spec 0 tol); [cbn; auto|lra]. }
  cbv zeta in HN, HL. destruct HN as [N1 N2]. split; auto. split; auto.
  unfold FindRootSecant. rnum. destruct (Rltb_spec 0 ((a * x1 + b) * (a * x2 + b))); [lra|]. rewrite ?Rabs_aabs. destruct (max_iter mi dflt) as [|[|k]]; try lia.
  destruct (Rltb (Rabs (a * x1 + b)) (Rabs (a * x2 + b))); apply HL; auto.
Qed.

(** ** Computed instances over the rationals *)
Definition Qcltb (a b : Qc) : bool := (QArith_base.Qnum (this a) * QDen (this b) <? QArith_base.Qnum (this b) * QDen (this a))%Z.
Definition Qc_sqrt (a : Qc) : Qc := Q2Qc (Z.sqrt (QArith_base.Qnum (this a)) # Pos.sqrt (Qden (this a))).
Definition Qarith : arith Qc := mkArith Qc Num.Qnum Qcltb (fun z => Q2Qc (inject_Z z)) Qc_sqrt.
Definition q (a : Z) (b : positive) : Qc := Q2Qc (a # b).
Definition showq (a : Qc) : Z * positive := (QArith_base.Qnum (this a), Qden (this a)).
Definition show (r : @rfres Qc) := (rr_conv r, showq (rr_root r), rr_iters r, showq (rr_tol r)).
Definition sq2 (x : Qc) : option Qc := Some (x * x - q 2 1)%Qc.
Example C38_computed : show (FindRootBisection Qarith 100 sq2 (q 1 1) (q 2 1) (q 1 100) 0) = (true, (181%Z, 128%positive), 7%nat, (1%Z, 128%positive)).
Proof. vm_compute. reflexivity. Qed.
Example C38_rejects_exact_root : rr_conv (FindRootBisection Qarith 100 (fun x => Some x) (q 0 1) (q 1 1) (q 1 100) 0) = false.
Proof. vm_compute. reflexivity. Qed.
Example C39_bracket_computed : match BracketRoot Qarith (fun x => x * x - q 30 1)%Qc (q 1 1) (q 2 1) 50 with Ok (b, y1, y2) => Some (b, showq y1, showq y2) | _ => None end
  = Some (true, (1%Z, 1%positive), (194%Z, 25%positive)).
Proof. vm_compute. reflexivity. Qed.
(** three roots, all at sample points: five brackets, vectors of length 20 *)
Example C39_brackets_computed : match FindRootBrackets Qarith (fun x => x * (x - q 2 1) * (x - q 5 2))%Qc (q (-1) 1) (q 3 1) 8 [] [] with
    Ok (n, a, b) => Some (n, map showq (firstn n a), map showq (firstn n b), length a) | _ => None end
  = Some (5%nat, [((-1)%Z, 2%positive); (0%Z, 1%positive); (3%Z, 2%positive); (2%Z, 1%positive); (5%Z, 2%positive)],
                 [(0%Z, 1%positive); (1%Z, 2%positive); (2%Z, 1%positive); (5%Z, 2%positive); (3%Z, 1%positive)], 20%nat).
Proof. vm_compute. reflexivity. Qed.
Example C40_falsi_computed : show (FindRootFalsePosition Qarith 100 sq2 (q 1 1) (q 2 1) (q 1 100) 0) = (true, (24%Z, 17%positive), 3%nat, (10%Z, 17%positive)).
Proof. vm_compute. reflexivity. Qed.
Example C40_brent_computed : show (FindRootBrent Qarith 100 (q 0 1) sq2 (q 1 1) (q 2 1) (q 1 100) 0) = (true, (5939%Z, 4200%positive), 4%nat, (1%Z, 400%positive)).
Proof. vm_compute. reflexivity. Qed.
Example C40_ridders_computed : show (FindRootRidders Qarith 100 (fun x => Some (x - q 1 2))%Qc (q 0 1) (q 2 1) (q 1 100) 0) = (true, (1%Z, 2%positive), 1%nat, (0%Z, 1%positive)).
Proof. vm_compute. reflexivity. Qed.
Example C47_secant_computed : show (FindRootSecant Qarith 100 sq2 (q 1 1) (q 2 1) (q 1 100) 0) = (true, (816%Z, 577%positive), 4%nat, (7%Z, 16733%positive)).
Proof. vm_compute. reflexivity. Qed.
Example C47_newton_computed : show (FindRootNewton Qarith 100 (q 1 1000) (fun x => x * x - q 2 1)%Qc (fun x => Some (q 2 1 * x)%Qc) (q 1 1) (q 2 1) (q 1 100) 0)
  = (true, (577%Z, 408%positive), 2%nat, (1%Z, 408%positive)).
Proof. vm_compute. reflexivity. Qed.
(** the hypotheses of the theorems hold of x^2 - 2 on [1,2] *)
Example C38_hypotheses : continuous_on (fun x => Some (x * x - 2)) (fun x => x * x - 2) 1 2 /\ (1 * 1 - 2) * (2 * 2 - 2) < 0 /\ Rabs (2 - 1) < 2 ^ 7 * (1 / 100) /\ - 10 ^ 99 + 1 / 100 < Rmin 1 2.
Proof.
  split; [intros x _; split; auto; reg|]. split; [lra|]. split; [rewrite Rabs_pos_eq; lra|]. rewrite Rmin_left by lra. lra.
Qed.

Print Assumptions C38_bisection.
Print Assumptions C38_near_root.
Print Assumptions C38_converges.
Print Assumptions C38_rejects.
Print Assumptions C39_bracket.
Print Assumptions C39_bracket_at_once.
Print Assumptions C39_bracket_bad.
Print Assumptions C39_bracket_false_refuted.
Print Assumptions C39_brackets.
Print Assumptions C39_brackets_roots.
Print Assumptions C39_brackets_complete.
Print Assumptions C39_size_refuted.
Print Assumptions C40_false_position.
Print Assumptions C40_ridders.
Print Assumptions C40_brent.
Print Assumptions C40_brent_near_root.
Print Assumptions C40_false_position_near_root.
Print Assumptions C40_rejects.
Print Assumptions C40_ridders_sentinel_refuted.
Print Assumptions C40_ridders_root_refuted.
Print Assumptions C47_newton.
Print Assumptions C47_secant.
Print Assumptions C47_rejects.
Print Assumptions C47_affine.
