(** * Proofs about the QR model over the reals: the state after the rounds *)
From Coq Require Import List Bool Arith ZArith Lia Reals Lra.
From Verif Require Import Base Num Det Mat_Model Mat_Proofs Mat_Props RootFind_Model RootFind_Proofs QR_Model QR_Math.
Import ListNotations.
Local Open Scope R_scope.

Ltac nb := repeat match goal with
  | |- context [(?x <? ?y)%nat] => destruct (Nat.ltb_spec x y)
  | |- context [Nat.eqb ?x ?y] => destruct (Nat.eqb_spec x y)
  end; cbn [andb orb negb]; subst; try lia; auto.

(** the k-th reflection vector stored in w: zero above row k *)
Definition vcol (w : nat -> nat -> R) (k i : nat) : R := if (i <? k)%nat then 0 else w i k.

(** ** Loops *)
Lemma sum_loop : forall k m (step : R -> nat -> res R) (g : nat -> R), (k <= m)%nat ->
  (forall s i, (k <= i < m)%nat -> wp (step s i) (fun s' => s' = s + g i)) ->
  wp (for_range k m step 0) (fun s => s = rsum m (fun i => if (i <? k)%nat then 0 else g i)).
Proof.
  intros k m step g Hk Hs. eapply wp_conseq; [|apply (for_range_inv _ _ (fun j s => s = rsum j (fun i => if (i <? k)%nat then 0 else g i))); auto].
  - auto.
  - symmetry. apply rsum_zero. intros i Hi. nb.
  - intros i s H1 H2 ->. eapply wp_conseq; [|apply (Hs _ i)]; [|lia]. intros s' ->. rewrite Nat.add_1_r. cbn [sumn Rnum nadd]. f_equal. nb.
Qed.
Lemma qr_dot_wp : forall m k n n' Qm M w x j, is_matrix Qm m n w -> is_matrix M m n' x -> (k < n)%nat -> (j < n')%nat -> (k <= m)%nat ->
  wp (qr_dot Rarith m k Qm M j) (fun s => s = dot m (vcol w k) (fun i => x i j)).
Proof.
  intros m k n n' Qm M w x j HQ HM Hk Hj Hkm. unfold qr_dot. change (alit Rarith 0) with 0. eapply wp_conseq; [|apply (sum_loop k m _ (fun i => w i k * x i j)); auto].
  - intros s ->. apply rsum_ext. intros i Hi. unfold vcol. nb; ring.
  - intros s i Hi. apply wp_bind. eapply mget_wp; [exact HQ|lia|lia|]. apply wp_bind. eapply mget_wp; [exact HM|lia|lia|]. apply wp_Ok. reflexivity.
Qed.
(** column j is reflected (the vector is column k of w) *)
Lemma update_wp : forall m k n n' (G : matrix R -> matrix R) M w x j tau, is_matrix M m n' x -> (k < n)%nat -> (j < n')%nat -> (k <= m)%nat ->
  (forall M' x', is_matrix M' m n' x' -> (forall i, (i < m)%nat -> forall l, l <> j -> x' i l = x i l) -> forall i, (i < m)%nat -> forall Q : R -> Prop, Q (w i k) -> wp (mget (G M') i k) Q) ->
  wp (for_range k m (fun M i => x <- mget M i j ;; v <- mget (G M) i k ;; mset M i j (x - tau * v)) M)
     (fun M' => is_matrix M' m n' (fun a b => if Nat.eqb b j then x a j - tau * vcol w k a else x a b)).
Proof.
  intros m k n n' G M w x j tau HM Hk Hj Hkm HG.
  eapply wp_conseq; [|apply (for_range_inv _ _ (fun i M' => is_matrix M' m n' (fun a b => if (Nat.eqb b j && (k <=? a)%nat && (a <? i)%nat) then x a j - tau * w a k else x a b))); auto].
  - intros M' HM'. cbv beta in *. eapply is_matrix_ext; [exact HM'|]. intros a b Ha Hb. cbv beta. unfold vcol. destruct (Nat.eqb_spec b j) as [->|]; cbn [andb]; auto.
    destruct (Nat.leb_spec k a), (Nat.ltb_spec a k), (Nat.ltb_spec a m); cbn [andb]; try lia; auto; lra.
  - eapply is_matrix_ext; [exact HM|]. intros a b Ha Hb. cbv beta. destruct (Nat.eqb_spec b j), (Nat.leb_spec k a), (Nat.ltb_spec a k); cbn [andb]; auto; lia.
  - intros i M' H1 H2 HM'. cbv beta in *. apply wp_bind. eapply mget_wp; [exact HM'|lia|lia|]. apply wp_bind.
    eapply HG; [exact HM'|intros a Ha l Hl; cbv beta; destruct (Nat.eqb_spec l j); [contradiction|reflexivity]|lia|]. eapply mset_wp; [exact HM'|lia|lia|]. intros M2 HM2.
    eapply is_matrix_ext; [exact HM2|]. intros a b Ha Hb. unfold fset. cbv beta. rewrite Nat.eqb_refl. replace (i <? i)%nat with false by (symmetry; apply Nat.ltb_ge; lia). rewrite andb_false_r.
    destruct (Nat.eqb_spec a i) as [->|]; destruct (Nat.eqb_spec b j) as [->|]; cbn [andb]; auto.
    + destruct (Nat.leb_spec k i), (Nat.ltb_spec i (i + 1)); cbn [andb]; auto; lia.
    + destruct (Nat.ltb_spec a i), (Nat.ltb_spec a (i + 1)); auto; lia.
Qed.
Lemma qr_column_wp : forall m k n M w ck j, is_matrix M m n w -> (k < n)%nat -> (j < n)%nat -> (k <= m)%nat -> j <> k -> ck <> 0 ->
  wp (qr_column Rarith m k ck M j) (fun M' => is_matrix M' m n (fun a b => if Nat.eqb b j then house m (vcol w k) ck (fun i => w i j) a else w a b)).
Proof.
  intros m k n M w ck j HM Hk Hj Hkm Hn Hc. unfold qr_column. apply wp_bind. eapply wp_conseq; [|eapply qr_dot_wp; eauto]. intros s ->. cbv zeta.
  eapply wp_conseq; [|apply (update_wp m k n n (fun M => M) M w w j (dot m (vcol w k) (fun i => w i j) / ck)); auto].
  - intros M' HM'. eapply is_matrix_ext; [exact HM'|]. intros a b Ha Hb. cbv beta. destruct (Nat.eqb_spec b j); auto. unfold house. destruct (Req_EM_T ck 0); [contradiction|]. reflexivity.
  - intros M' x' HM' E i Hi Q HQ. eapply mget_wp; [exact HM'|lia|lia|]. rewrite E; auto.
Qed.
Lemma qr_scale_wp : forall m k n M w, is_matrix M m n w -> (k < n)%nat -> (k <= m)%nat ->
  wp (qr_scale Rarith m k M) (fun s => 0 <= s /\ (forall i, (k <= i < m)%nat -> Rabs (w i k) <= s) /\ (s <> 0 -> exists i, (k <= i < m)%nat /\ Rabs (w i k) = s)).
Proof.
  intros m k n M w HM Hk Hkm. unfold qr_scale. change (alit Rarith 0) with 0.
  eapply wp_conseq; [|apply (for_range_inv _ _ (fun j s => 0 <= s /\ (forall i, (k <= i < j)%nat -> Rabs (w i k) <= s) /\ (s <> 0 -> exists i, (k <= i < m)%nat /\ Rabs (w i k) = s))); auto].
  - auto.
  - split; [lra|]. split; [intros; lia|]. intros H; lra.
  - intros j s H1 H2 (G1 & G2 & G3). apply wp_bind. eapply mget_wp; [exact HM|lia|lia|]. cbv zeta. apply wp_Ok. rewrite Rabs_aabs. change (altb Rarith) with Rltb.
    destruct (Rltb_spec s (Rabs (w j k))) as [L|L].
    + split; [apply Rabs_pos|]. split; [|intros _; exists j; split; [lia|reflexivity]]. intros i Hi. destruct (Nat.eq_dec i j) as [->|]; [lra|]. specialize (G2 i ltac:(lia)). lra.
    + split; [auto|]. split; auto. intros i Hi. destruct (Nat.eq_dec i j) as [->|]; [lra|]. apply G2; lia.
Qed.
Lemma scaled_wp : forall m k n M w s, is_matrix M m n w -> (k < n)%nat -> (k <= m)%nat ->
  wp (for_range k m (fun M i => x <- mget M i k ;; mset M i k (x / s)) M) (fun M' => is_matrix M' m n (fun a b => if (Nat.eqb b k && (k <=? a)%nat)%bool then w a k / s else w a b)).
Proof.
  intros m k n M w s HM Hk Hkm.
  eapply wp_conseq; [|apply (for_range_inv _ _ (fun i M' => is_matrix M' m n (fun a b => if (Nat.eqb b k && (k <=? a)%nat && (a <? i)%nat)%bool then w a k / s else w a b))); auto].
  - intros M' HM'. eapply is_matrix_ext; [exact HM'|]. intros a b Ha Hb. cbv beta. rewrite (proj2 (Nat.ltb_lt a m) Ha), andb_true_r. auto.
  - eapply is_matrix_ext; [exact HM|]. intros a b Ha Hb. cbv beta. destruct (Nat.eqb_spec b k), (Nat.leb_spec k a), (Nat.ltb_spec a k); cbn [andb]; auto; lia.
  - intros i M' H1 H2 HM'. cbv beta in *. apply wp_bind. eapply mget_wp; [exact HM'|lia|lia|]. eapply mset_wp; [exact HM'|lia|lia|]. intros M2 HM2. eapply is_matrix_ext; [exact HM2|].
    intros a b Ha Hb. unfold fset. cbv beta. rewrite Nat.eqb_refl. replace (i <? i)%nat with false by (symmetry; apply Nat.ltb_ge; lia). rewrite andb_false_r.
    destruct (Nat.eqb_spec a i) as [->|]; destruct (Nat.eqb_spec b k) as [->|]; cbn [andb]; auto.
    + destruct (Nat.leb_spec k i), (Nat.ltb_spec i (i + 1)); cbn [andb]; auto; lia.
    + destruct (Nat.ltb_spec a i), (Nat.ltb_spec a (i + 1)); auto; lia.
Qed.

(** ** The arithmetic of one Householder reflection *)
Section Reflection.
Variables (m k : nat) (y : nat -> R) (s sigma : R).
Hypothesis Hk : (k < m)%nat.
Hypothesis Hs : 0 < s.
Hypothesis Hmax : exists i, (k <= i < m)%nat /\ y i <> 0.
Let sm := rsum m (fun i => if (i <? k)%nat then 0 else (y i / s) * (y i / s)).
Hypothesis Hsig : (0 <= y k / s /\ sigma = sqrt sm) \/ (y k / s < 0 /\ sigma = - sqrt sm).
Let v (i : nat) : R := if (i <? k)%nat then 0 else if Nat.eqb i k then y k / s + sigma else y i / s.
Let ck := sigma * (y k / s + sigma).
Lemma sm_pos : 0 < sm.
Proof.
  destruct Hmax as (p & Hp & N). apply (rsum_pos_lt m _ p); [lia|intros i Hi; nb; [lra|nra]|]. nb. assert (y p / s <> 0); [|nra]. unfold Rdiv. apply Rmult_integral_contrapositive_currified; auto. apply Rinv_neq_0_compat. lra.
Qed.
Lemma sig_sq : sigma * sigma = sm.
Proof. pose proof sm_pos. destruct Hsig as [[_ ->]|[_ ->]]; [|rewrite Rmult_opp_opp]; apply sqrt_sqrt; lra. Qed.
Lemma sig_pos : 0 <= sigma * (y k / s).
Proof. pose proof (sqrt_pos sm). destruct Hsig as [[H1 ->]|[H1 ->]]; nra. Qed.
Lemma ck_pos : 0 < ck. Proof. unfold ck. pose proof sm_pos. pose proof sig_sq. pose proof sig_pos. nra. Qed.
Lemma sig_nz : sigma <> 0. Proof. pose proof sm_pos. pose proof sig_sq. intros E. rewrite E in *. nra. Qed.
Lemma v_split : forall g, dot m v g = rsum m (fun i => if (i <? k)%nat then 0 else y i / s * g i) + sigma * g k.
Proof.
  intros g. assert (E : sigma * g k = rsum m (fun i => if Nat.eqb i k then sigma * g k else 0)) by (rewrite (rsum_one m k _ Hk) by (intros i _ N; nb); nb).
  rewrite E. rewrite <- rsum_add. apply rsum_ext. intros i Hi. unfold v. nb; ring.
Qed.
Lemma v_norm : dot m v v = 2 * ck.
Proof.
  rewrite v_split. assert (E : rsum m (fun i => if (i <? k)%nat then 0 else y i / s * v i) = sm + y k / s * sigma).
  { transitivity (dot m v (fun i => if (i <? k)%nat then 0 else y i / s)); [unfold dot; apply rsum_ext; intros i Hi; nb; ring|]. rewrite v_split. unfold sm. f_equal; [apply rsum_ext; intros i Hi; nb|]. nb. ring. }
  rewrite E. unfold v, ck. nb. rewrite <- sig_sq. ring.
Qed.
Lemma v_house : forall i, (i < m)%nat -> house m v ck y i = if (i <? k)%nat then y i else if Nat.eqb i k then - s * sigma else 0.
Proof.
  intros i Hi. pose proof ck_pos. unfold house. destruct (Req_EM_T ck 0); [lra|]. assert (E : dot m v y = s * ck).
  { rewrite v_split. assert (E1 : rsum m (fun i => if (i <? k)%nat then 0 else y i / s * y i) = s * sm). { unfold sm. rewrite <- rsum_scal. apply rsum_ext. intros j Hj. nb; [ring|field; lra]. }
    rewrite E1. unfold ck. rewrite <- sig_sq. field. lra. }
  rewrite E. replace (s * ck / ck) with s by (field; auto). unfold v. nb; field; lra.
Qed.
End Reflection.

(** ** The rounds *)
Definition Rf (w : nat -> nat -> R) (df : nat -> R) (i j : nat) : R := if (i <? j)%nat then w i j else if Nat.eqb i j then df j else 0.
(** f sends a vector with a coordinate 1 to a vector of squared length at most t *)
Definition nearly_dependent (m n : nat) (f : nat -> nat -> R) (t : R) : Prop :=
  exists x k, (k < n)%nat /\ x k = 1 /\ dot m (fun i => rsum n (fun j => f i j * x j)) (fun i => rsum n (fun j => f i j * x j)) <= t.
Definition eps : R := qr_eps Rarith.
Lemma eps_pos : 0 < eps.
Proof. unfold eps, qr_eps. rnum. apply Rdiv_lt_0_compat; apply (IZR_lt 0); reflexivity. Qed.
Record Rinv (m n : nat) (f : nat -> nat -> R) (k : nat) (w : nat -> nat -> R) (cf df : nat -> R) (sing : bool) (refl : nat) : Prop := {
  ri_ok : all_ok m (vcol w) cf k;
  ri_rest : forall j i, (k <= j < n)%nat -> (i < m)%nat -> w i j = Qt m (vcol w) cf k (fun i => f i j) i;
  ri_c0 : forall j, (k <= j < n)%nat -> cf j = 0;
  ri_done : sing = false -> refl = k /\ forall j, (j < k)%nat -> cf j <> 0 /\ df j <> 0 /\ forall i, (i < m)%nat -> Qt m (vcol w) cf k (fun i => f i j) i = Rf w df i j;
  ri_sing : sing = true -> nearly_dependent m n f (INR m * (eps * eps)) }.

Lemma upper_solve : forall n (a : nat -> nat -> R) b, (forall i, (i < n)%nat -> a i i <> 0) -> (forall i j, (j < i)%nat -> (i < n)%nat -> a i j = 0) ->
  exists x, forall i, (i < n)%nat -> rsum n (fun j => a i j * x j) = b i.
Proof.
  induction n as [|n IH]; intros a b Hd Hu; [exists (fun _ => 0); intros; lia|].
  destruct (IH a (fun i => b i - a i n * (b n / a n n))) as (x & Hx); [intros; apply Hd; lia|intros; apply Hu; lia|]. exists (fun j => if Nat.eqb j n then b n / a n n else x j).
  intros i Hi. cbn [sumn Rnum nadd nmul]. rewrite Nat.eqb_refl. rewrite (rsum_ext n _ (fun j => a i j * x j)) by (intros j Hj; nb). destruct (Nat.eq_dec i n) as [->|N].
  - rewrite rsum_zero by (intros j Hj; rewrite Hu by lia; ring). field. apply Hd. lia.
  - rewrite Hx by lia. ring.
Qed.

Lemma nearly_from : forall m n f w cf df k t, (k < n)%nat -> (n <= m)%nat -> all_ok m (vcol w) cf k ->
  (forall j, (j < k)%nat -> df j <> 0 /\ forall i, (i < m)%nat -> Qt m (vcol w) cf k (fun i => f i j) i = Rf w df i j) ->
  (forall i, (k <= i < m)%nat -> Rabs (Qt m (vcol w) cf k (fun i => f i k) i) <= t) -> nearly_dependent m n f (INR m * (t * t)).
Proof.
  intros m n f w cf df k t Hk Hnm Hok Hd Ht. set (g := fun i => Qt m (vcol w) cf k (fun i => f i k) i).
  destruct (upper_solve k (Rf w df) g) as (y & Hy); [intros i Hi; unfold Rf; nb; apply Hd; lia|intros i j Hj Hi; unfold Rf; nb|].
  exists (fun j => if (j <? k)%nat then - y j else if Nat.eqb j k then 1 else 0), k. split; [auto|]. split; [nb|].
  set (x := fun j => if (j <? k)%nat then - y j else if Nat.eqb j k then 1 else 0). set (ax := fun i => rsum n (fun j => f i j * x j)).
  change (dot m ax ax <= INR m * (t * t)). rewrite <- (Qt_dot m (vcol w) cf k ax ax Hok).
  assert (E : forall i, (i < m)%nat -> Qt m (vcol w) cf k ax i = if (i <? k)%nat then 0 else g i).
  { intros i Hi. transitivity (Qt m (vcol w) cf k (fun i => rsum n (fun j => x j * f i j)) i); [apply Qt_ext; auto; intros l Hl; unfold ax; apply rsum_ext; intros; ring|].
    rewrite (Qt_sum m (vcol w) cf k n x (fun j i => f i j) i).
    replace n with (k + (n - k))%nat by lia. rewrite (sum_app Rnum Rring). cbn [Rnum nadd].
    assert (E1 : rsum (n - k) (fun i0 => x (k + i0)%nat * Qt m (vcol w) cf k (fun i1 => f i1 (k + i0)%nat) i) = g i).
    { rewrite (rsum_one (n - k) 0) by (try lia; intros l Hl N; unfold x; nb; ring). rewrite Nat.add_0_r. unfold x. nb. unfold g. ring. }
    assert (E2 : rsum k (fun j => x j * Qt m (vcol w) cf k (fun i => f i j) i) = if (i <? k)%nat then - g i else 0).
    { transitivity (rsum k (fun j => (-1) * (Rf w df i j * y j))); [apply rsum_ext; intros j Hj; rewrite (proj2 (Hd j Hj) i Hi); unfold x; nb; ring|]. rewrite rsum_scal.
      destruct (Nat.ltb_spec i k) as [L|L]; [rewrite Hy by auto; ring|]. rewrite rsum_zero; [ring|]. intros j Hj. unfold Rf. nb. ring. }
    cbn [nmul] in *. rewrite E1, E2. nb; ring. }
  unfold dot. rewrite (rsum_ext m _ (fun i => (if (i <? k)%nat then 0 else g i) * (if (i <? k)%nat then 0 else g i))) by (intros i Hi; rewrite E; auto).
  assert (B : forall p, (p <= m)%nat -> rsum p (fun i => (if (i <? k)%nat then 0 else g i) * (if (i <? k)%nat then 0 else g i)) <= INR p * (t * t)).
  { induction p as [|p IHp]; intros Hp; [cbn; lra|]. rewrite S_INR. cbn [sumn Rnum nadd]. specialize (IHp ltac:(lia)).
    assert (Q : (if (p <? k)%nat then 0 else g p) * (if (p <? k)%nat then 0 else g p) <= t * t); [|lra]. destruct (Nat.ltb_spec p k); [nra|].
    specialize (Ht p ltac:(lia)). fold (g p) in Ht. pose proof (Rabs_pos (g p)). rewrite <- (Rabs_right (g p * g p)) by nra. rewrite Rabs_mult. nra. }
  apply (B m (le_n m)).
Qed.


Lemma round_wp : forall m n f k M c d sing refl w cf df, (n <= m)%nat -> (k < n)%nat -> is_matrix M m n w -> is_vector c n cf -> is_vector d n df -> Rinv m n f k w cf df sing refl ->
  wp (qr_round Rarith m n (M, c, d, sing, refl) k) (fun '(M', c', d', sing', refl') => exists w' cf' df', is_matrix M' m n w' /\ is_vector c' n cf' /\ is_vector d' n df' /\ Rinv m n f (k + 1) w' cf' df' sing' refl').
Proof.
  intros m n f k M c d sing refl w cf df Hnm Hk HM Hc Hd [I1 I2 I3 I4 I5]. unfold qr_round. apply wp_bind.
  eapply wp_conseq; [|eapply qr_scale_wp; [exact HM|auto|lia]]. intros s (S1 & S2 & S3). change (altb Rarith) with Rltb. fold eps. pose proof eps_pos as He. destruct (Rltb_spec s eps) as [L|L].
  - (* negligible column *)
    apply wp_bind. eapply vsetf_wp; [exact Hd|auto|]. intros d' Hd'. apply wp_bind. eapply vsetf_wp; [exact Hc|auto|]. intros c' Hc'. apply wp_Ok.
    exists w, (vfset cf k (alit Rarith 0)), (vfset df k (alit Rarith 0)). split; [auto|]. split; [auto|]. split; [auto|].
    assert (EC : forall j, (j < n)%nat -> vfset cf k (alit Rarith 0) j = cf j). { intros j Hj. unfold vfset. destruct (Nat.eqb_spec j k) as [->|]; auto. rewrite I3 by lia. reflexivity. }
    assert (EQ : forall x i, (i < m)%nat -> Qt m (vcol w) (vfset cf k (alit Rarith 0)) (k + 1) x i = Qt m (vcol w) cf k x i).
    { intros x i Hi. rewrite Nat.add_1_r. cbn [Qt]. unfold house. rewrite EC by auto. rewrite (I3 k) by lia. destruct (Req_EM_T 0 0); [|lra]. apply Qt_ext; auto. intros j Hj. apply EC. lia. }
    constructor.
    + intros j Hj. destruct (Nat.eq_dec j k) as [->|]; [intros N; exfalso; apply N; rewrite EC by auto; apply I3; lia|]. intros N. rewrite EC in * by lia. apply I1; auto. lia.
    + intros j i Hj Hi. rewrite EQ by auto. apply I2; auto. lia.
    + intros j Hj. rewrite EC by lia. apply I3. lia.
    + discriminate.
    + intros _. destruct sing; [auto|]. destruct (I4 eq_refl) as (_ & D). apply (nearly_from m n f w cf df k eps Hk Hnm I1).
      * intros j Hj. destruct (D j Hj) as (_ & D1 & D2). split; auto.
      * intros i Hi. rewrite <- I2 by lia. specialize (S2 i Hi). lra.
  - (* a reflection *)
    assert (Hs : 0 < s) by lra. destruct (S3 ltac:(lra)) as (p & Hp & Ep). assert (Hmax : exists i, (k <= i < m)%nat /\ w i k <> 0). { exists p. split; auto. intros E. rewrite E, Rabs_R0 in Ep. lra. }
    apply wp_bind. eapply wp_conseq; [|eapply (scaled_wp m k n M w s); [exact HM|auto|lia]]. intros M1 HM1. cbv beta in HM1.
    apply wp_bind. eapply wp_conseq; [|eapply qr_dot_wp; [exact HM1|exact HM1|auto|auto|lia]]. intros sm Esm.
    apply wp_bind. eapply mget_wp; [exact HM1|lia|auto|]. cbv beta zeta. rewrite Nat.eqb_refl, Nat.leb_refl. cbn [andb].
    assert (Esm' : sm = rsum m (fun i => if (i <? k)%nat then 0 else (w i k / s) * (w i k / s))).
    { rewrite Esm. apply rsum_ext. intros i Hi. unfold vcol. cbv beta. rewrite Nat.eqb_refl. cbn [andb]. destruct (Nat.ltb_spec i k), (Nat.leb_spec k i); try lia; ring. }
    change (alit Rarith 0) with 0. change (asqrt Rarith) with sqrt. change (nopp (aops Rarith)) with Ropp. change (nmul (aops Rarith)) with Rmult. change (nadd (aops Rarith)) with Rplus.
    set (sigma := if negb (Rltb (w k k / s) 0) then sqrt sm else - sqrt sm).
    assert (Hsig : (0 <= w k k / s /\ sigma = sqrt (rsum m (fun i => if (i <? k)%nat then 0 else (w i k / s) * (w i k / s)))) \/ (w k k / s < 0 /\ sigma = - sqrt (rsum m (fun i => if (i <? k)%nat then 0 else (w i k / s) * (w i k / s))))).
    { unfold sigma. rewrite <- Esm'. destruct (Rltb_spec (w k k / s) 0); cbn [negb]; [right|left]; split; auto; lra. }
    assert (Hkm : (k < m)%nat) by lia.
    pose proof (ck_pos m k (fun i => w i k) s sigma Hkm Hs Hmax Hsig) as CK. pose proof (sig_nz m k (fun i => w i k) s sigma Hkm Hs Hmax Hsig) as SN.
    pose proof (v_norm m k (fun i => w i k) s sigma Hkm Hs Hmax Hsig) as VN. pose proof (v_house m k (fun i => w i k) s sigma Hkm Hs Hmax Hsig) as VH. cbv beta in CK, VN, VH.
    set (ck := sigma * (w k k / s + sigma)) in *. set (v := fun i => if (i <? k)%nat then 0 else if Nat.eqb i k then w k k / s + sigma else w i k / s) in *.
    apply wp_bind. eapply mset_wp; [exact HM1|lia|auto|]. intros M2 HM2. apply wp_bind. eapply mget_wp; [exact HM2|lia|auto|]. 
    replace (fset (fun a b => if (Nat.eqb b k && (k <=? a)%nat)%bool then w a k / s else w a b) k k (w k k / s + sigma) k k) with (w k k / s + sigma) by (unfold fset; rewrite !Nat.eqb_refl; reflexivity). fold ck.
    apply wp_bind. eapply vsetf_wp; [exact Hc|auto|]. intros c' Hc'. apply wp_bind. eapply vsetf_wp; [exact Hd|auto|]. intros d' Hd'. apply wp_bind.
    set (w2 := fset (fun a b => if (Nat.eqb b k && (k <=? a)%nat)%bool then w a k / s else w a b) k k (w k k / s + sigma)) in HM2.
    assert (V2 : forall i, vcol w2 k i = v i).
    { intros i. unfold vcol, v, w2, fset. rewrite Nat.eqb_refl. destruct (Nat.ltb_spec i k); auto. destruct (Nat.eqb_spec i k); cbn [andb]; auto. destruct (Nat.leb_spec k i); [reflexivity|lia]. }
    assert (W2 : forall i j, j <> k -> w2 i j = w i j). { intros i j N. unfold w2, fset. destruct (Nat.eqb_spec i k), (Nat.eqb_spec j k); cbn [andb]; auto; contradiction. }
    assert (W2u : forall i, (i < k)%nat -> w2 i k = w i k). { intros i N. unfold w2, fset. destruct (Nat.eqb_spec i k), (Nat.leb_spec k i); try lia. rewrite Nat.eqb_refl. reflexivity. }
    eapply wp_conseq; [|apply (for_range_inv _ _ (fun j M' => is_matrix M' m n (fun a b => if ((k <? b)%nat && (b <? j)%nat)%bool then house m v ck (fun i => w i b) a else w2 a b))); [lia| |]].
    + intros M3 HM3. cbv beta in HM3. set (w' := fun a b => if ((k <? b)%nat && (b <? n)%nat)%bool then house m v ck (fun i => w i b) a else w2 a b) in HM3. apply wp_Ok.
      exists w', (vfset cf k ck), (vfset df k (- s * sigma)). split; [auto|]. split; [auto|]. split; [auto|].
      assert (Vk : forall i, vcol w' k i = v i). { intros i. rewrite <- V2. unfold vcol, w'. rewrite Nat.ltb_irrefl. reflexivity. }
      assert (Wj : forall i j, (j < k)%nat -> w' i j = w i j). { intros i j N. unfold w'. destruct (Nat.ltb_spec k j); [lia|]. cbn [andb]. apply W2. lia. }
      assert (Vj : forall j i, (j < k)%nat -> vcol w' j i = vcol w j i). { intros j i N. unfold vcol. rewrite Wj by auto. reflexivity. }
      assert (Cj : forall j, (j < k)%nat -> vfset cf k ck j = cf j). { intros j N. unfold vfset. nb. }
      assert (Ck : vfset cf k ck k = ck) by (unfold vfset; rewrite Nat.eqb_refl; auto).
      assert (EQ : forall x i, (i < m)%nat -> Qt m (vcol w') (vfset cf k ck) (k + 1) x i = house m v ck (Qt m (vcol w) cf k x) i).
      { intros x i Hi. rewrite Nat.add_1_r. cbn [Qt]. apply house_ext; auto. intros j Hj. apply Qt_ext; auto. }
      assert (HO : house_ok m v ck) by (intros _; exact VN).
      constructor.
      * intros j Hj. destruct (Nat.eq_dec j k) as [->|N].
        -- intros _. rewrite Ck. rewrite (dot_ext m _ _ v v) by auto. exact VN.
        -- intros E. rewrite Cj in * by lia. rewrite (dot_ext m _ _ (vcol w j) (vcol w j)) by (intros; apply Vj; lia). apply I1; auto. lia.
      * intros j i Hj Hi. rewrite EQ by auto. unfold w'. destruct (Nat.ltb_spec k j), (Nat.ltb_spec j n); try lia. cbn [andb]. apply house_ext; auto. intros l Hl. apply I2; auto. lia.
      * intros j Hj. unfold vfset. nb. apply I3. lia.
      * intros E. destruct (I4 E) as (-> & D). split; [reflexivity|]. intros j Hj. destruct (Nat.eq_dec j k) as [->|N].
        -- rewrite Ck. unfold vfset at 1. rewrite Nat.eqb_refl. split; [lra|]. split; [apply Rmult_integral_contrapositive_currified; [lra|auto]|]. intros i Hi. rewrite EQ by auto.
           rewrite (house_ext m v ck _ v ck (fun i => w i k)) by (auto; intros l Hl; symmetry; apply I2; auto). rewrite VH by auto. unfold Rf, vfset, w'. rewrite Nat.ltb_irrefl, Nat.eqb_refl. cbn [andb]. nb. rewrite W2u; auto.
        -- destruct (D j ltac:(lia)) as (D1 & D2 & D3). rewrite Cj by lia. split; auto. unfold vfset at 1. destruct (Nat.eqb_spec j k); [lia|]. split; auto. intros i Hi. rewrite EQ by auto.
           unfold house. destruct (Req_EM_T ck 0); [lra|]. rewrite D3 by auto. replace (dot m v (Qt m (vcol w) cf k (fun i => f i j))) with 0.
           ++ unfold Rf. rewrite Wj by lia. unfold vfset. destruct (Nat.eqb_spec j k); [lia|]. unfold Rdiv. rewrite !Rmult_0_l. lra.
           ++ symmetry. apply rsum_zero. intros l Hl. rewrite D3 by auto. unfold v, Rf. nb; ring.
      * auto.
    + eapply is_matrix_ext; [exact HM2|]. intros a b Ha Hb. cbv beta. destruct (Nat.ltb_spec k b), (Nat.ltb_spec b (k + 1)); cbn [andb]; auto; lia.
    + intros j M3 H1 H2 HM3. cbv beta in *. eapply wp_conseq; [|eapply qr_column_wp; [exact HM3|auto|auto|lia|lia|lra]]. intros M4 HM4. eapply is_matrix_ext; [exact HM4|]. intros a b Ha Hb. cbv beta.
      destruct (Nat.eqb_spec b j) as [->|N].
      * destruct (Nat.ltb_spec k j), (Nat.ltb_spec j (j + 1)); try lia. cbn [andb]. apply house_ext; auto.
        -- intros i Hi. rewrite <- V2. unfold vcol. rewrite Nat.ltb_irrefl. cbn [andb]. reflexivity.
        -- intros i Hi. rewrite Nat.ltb_irrefl. cbn [andb]. apply W2. lia.
      * destruct (Nat.ltb_spec b j), (Nat.ltb_spec b (j + 1)); auto; lia.
Qed.

(** ** The constructor *)
Definition nz (m n : nat) (f : nat -> nat -> R) : Prop := exists i j, (i < m)%nat /\ (j < n)%nat /\ f i j <> 0.
Record QRof (m n : nat) (f : nat -> nat -> R) (Sv : qr R) (w : nat -> nat -> R) (cf df : nat -> R) : Prop := {
  qo_m : q_m Sv = m; qo_n : q_n Sv = n;
  qo_QR : is_matrix (q_QR Sv) m n w; qo_c : is_vector (q_c Sv) n cf; qo_d : is_vector (q_d Sv) n df;
  qo_ok : all_ok m (vcol w) cf (ncols m n);
  qo_c0 : forall j, (ncols m n <= j < n)%nat -> cf j = 0;
  qo_done : q_sing Sv = false -> q_refl Sv = ncols m n /\ (forall j, (j < ncols m n)%nat -> cf j <> 0) /\
     (nz m n f -> forall j, (j < n)%nat -> df j <> 0) /\ forall j, (j < n)%nat -> forall i, (i < m)%nat -> Qt m (vcol w) cf (ncols m n) (fun i => f i j) i = Rf w df i j;
  qo_sing : q_sing Sv = true -> forall B, (forall i j, (i < m)%nat -> (j < n)%nat -> Rabs (f i j) <= B) ->
     nearly_dependent m n f (INR m * (Rmax eps (eps * B * INR n) * Rmax eps (eps * B * INR n))) }.
Lemma ncols_le : forall m n, (ncols m n <= n)%nat. Proof. intros. unfold ncols. nb. Qed.
Lemma nearly_mono : forall m n f t u, t <= u -> nearly_dependent m n f t -> nearly_dependent m n f u.
Proof. intros m n f t u H (x & k & H1 & H2 & H3). exists x, k. split; auto. split; auto. lra. Qed.
Lemma qr_norm_wp : forall m n a f, is_matrix a m n f -> wp (qr_norm Rarith m n a) (fun N => 0 <= N /\ (forall i j, (i < m)%nat -> (j < n)%nat -> Rabs (f i j) <= N) /\
  (forall B, 0 <= B -> (forall i j, (i < m)%nat -> (j < n)%nat -> Rabs (f i j) <= B) -> N <= B)).
Proof.
  intros m n a f HA. unfold qr_norm. change (alit Rarith 0) with 0.
  set (I := fun (P : nat -> nat -> Prop) N => 0 <= N /\ (forall i j, (i < m)%nat -> (j < n)%nat -> P i j -> Rabs (f i j) <= N) /\ (forall B, 0 <= B -> (forall i j, (i < m)%nat -> (j < n)%nat -> Rabs (f i j) <= B) -> N <= B)).
  eapply wp_conseq; [|apply (for_range_inv _ _ (fun i N => I (fun a b => (a < i)%nat) N)); [lia| |]].
  - intros N (H1 & H2 & H3). split; auto.
  - split; [lra|]. split; [intros; lia|]. auto.
  - intros i N _ Hi HI. eapply wp_conseq; [|apply (for_range_inv _ _ (fun j N => I (fun a b => (a < i)%nat \/ a = i /\ (b < j)%nat) N)); [lia| |]].
    + intros N' (H1 & H2 & H3). split; auto. split; auto. intros a' b' Ha Hb L. apply H2; auto. lia.
    + destruct HI as (H1 & H2 & H3). split; auto. split; auto. intros a' b' Ha Hb L. apply H2; auto. lia.
    + intros j N' _ Hj (H1 & H2 & H3). apply wp_bind. eapply mget_wp; [exact HA|auto|auto|]. cbv zeta. apply wp_Ok. rewrite Rabs_aabs. change (altb Rarith) with Rltb.
      destruct (Rltb_spec N' (Rabs (f i j))) as [L|L].
      * split; [apply Rabs_pos|]. split; [|intros B HB HB'; apply HB'; auto]. intros a' b' Ha Hb L'. destruct (Nat.eq_dec a' i) as [->|]; [destruct (Nat.eq_dec b' j) as [->|]; [lra|]|]; specialize (H2 _ _ Ha Hb ltac:(lia)); lra.
      * split; auto. split; auto. intros a' b' Ha Hb L'. destruct (Nat.eq_dec a' i) as [->|]; [destruct (Nat.eq_dec b' j) as [->|]; [lra|]|]; apply H2; auto; lia.
Qed.
Lemma ctor_wp : forall m n a f, (0 < n)%nat -> (n <= m)%nat -> is_matrix a m n f -> wp (qr_ctor Rarith a) (fun Sv => exists w cf df, QRof m n f Sv w cf df).
Proof.
  intros m n a f Hn Hnm HA. pose proof HA as (Er & Ec & _). unfold qr_ctor. rewrite Er, Ec. rewrite (proj2 (Nat.ltb_ge m n)) by auto. apply wp_bind. pose proof (ncols_le m n) as Hle.
  eapply wp_conseq; [|apply (for_range_inv _ _ (fun k '(M, c, d, sing, refl) => exists w cf df, is_matrix M m n w /\ is_vector c n cf /\ is_vector d n df /\ Rinv m n f k w cf df sing refl)); [lia| |]].
  - intros [[[[M c] d] sing] refl] (w & cf & df & HM & Hc & Hd & [I1 I2 I3 I4 I5]). pose proof eps_pos as He. destruct (Nat.eqb_spec m n) as [->|Nm].
    + assert (EK : ncols n n = (n - 1)%nat) by (unfold ncols; rewrite Nat.eqb_refl; auto).
      apply wp_bind. eapply mget_wp; [exact HM|lia|lia|]. apply wp_bind. eapply vsetf_wp; [exact Hd|lia|]. intros d' Hd'. apply wp_bind. eapply wp_conseq; [|eapply qr_norm_wp; exact HA]. intros N (N1 & N2 & N3).
      cbv zeta. apply wp_bind. eapply vgetf_wp; [exact Hd'|lia|]. apply wp_Ok. exists w, cf, (vfset df (n - 1) (w (n - 1)%nat (n - 1)%nat)).
      assert (Ev : vfset df (n - 1) (w (n - 1)%nat (n - 1)%nat) (n - 1)%nat = w (n - 1)%nat (n - 1)%nat) by (unfold vfset; rewrite Nat.eqb_refl; auto). rewrite Ev, Rabs_aabs. change (altb Rarith) with Rltb.
      replace (nmul (aops Rarith) (nmul (aops Rarith) (qr_eps Rarith) N) (alit Rarith (Z.of_nat n))) with (eps * N * INR n) by (cbn [Rarith alit aops Rnum nmul]; rewrite <- INR_IZR_INZ; reflexivity).
      assert (Hn' : 0 < INR n) by (apply lt_0_INR; auto).
      assert (FD : sing = false -> forall j, (j < n)%nat -> forall i, (i < n)%nat -> Qt n (vcol w) cf (ncols n n) (fun i => f i j) i = Rf w (vfset df (n - 1) (w (n - 1)%nat (n - 1)%nat)) i j).
      { intros E j Hj i Hi. destruct (I4 E) as (_ & D). destruct (Nat.eq_dec j (n - 1)) as [->|Nj].
        - rewrite <- I2 by lia. unfold Rf. destruct (Nat.ltb_spec i (n - 1)); auto. destruct (Nat.eqb_spec i (n - 1)); [|lia]. subst i. rewrite Ev. reflexivity.
        - rewrite (proj2 (proj2 (D j ltac:(lia)))) by auto. unfold Rf, vfset. destruct (Nat.eqb_spec j (n - 1)); [lia|auto]. }
      constructor; cbn [q_m q_n q_QR q_c q_d q_sing q_refl]; auto.
      * intros E. destruct (Rltb_spec (Rabs (w (n - 1)%nat (n - 1)%nat)) (eps * N * INR n)) as [L|L]; [discriminate|]. destruct (I4 E) as (E1 & D). split; [auto|]. split; [intros j Hj; apply (D j Hj)|]. split.
        -- intros (i & j & Hi & Hj & Nz) l Hl. destruct (Nat.eq_dec l (n - 1)) as [->|]; [|unfold vfset; destruct (Nat.eqb_spec l (n - 1)); [lia|]; apply D; lia].
           rewrite Ev. intros E0. rewrite E0, Rabs_R0 in L. assert (0 < N) by (specialize (N2 i j Hi Hj); pose proof (Rabs_pos_lt _ Nz); lra).
           assert (0 < eps * N * INR n) by (apply Rmult_lt_0_compat; [apply Rmult_lt_0_compat; auto|auto]). lra.
        -- apply FD. auto.
      * intros E B HB. assert (B0 : 0 <= B) by (specialize (HB 0%nat 0%nat ltac:(lia) ltac:(lia)); pose proof (Rabs_pos (f 0%nat 0%nat)); lra). specialize (N3 B B0 HB).
        assert (Mx : eps <= Rmax eps (eps * B * INR n)) by apply Rmax_l. assert (Mx2 : eps * N * INR n <= Rmax eps (eps * B * INR n)).
        { eapply Rle_trans; [|apply Rmax_r]. apply Rmult_le_compat_r; [lra|]. apply Rmult_le_compat_l; lra. }
        destruct (bool_dec sing true) as [Es|Es].
        -- eapply nearly_mono; [|apply (I5 Es)]. apply Rmult_le_compat_l; [lra|]. nra.
        -- apply not_true_is_false in Es. destruct (Rltb_spec (Rabs (w (n - 1)%nat (n - 1)%nat)) (eps * N * INR n)) as [L|L]; [|congruence].
           eapply nearly_mono; [|apply (nearly_from n n f w cf df (n - 1) (eps * N * INR n)); [lia|lia| | |]].
           ++ apply Rmult_le_compat_l; [lra|]. assert (0 <= eps * N * INR n) by (apply Rmult_le_pos; [apply Rmult_le_pos; lra|lra]). nra.
           ++ rewrite <- EK. exact I1.
           ++ intros j Hj. rewrite <- EK in *. destruct (I4 Es) as (_ & D). destruct (D j Hj) as (_ & D1 & D2). auto.
           ++ intros i Hi. replace i with (n - 1)%nat by lia. rewrite <- EK at 1. rewrite <- I2 by lia. lra.
    + assert (EK : ncols m n = n) by (unfold ncols; destruct (Nat.eqb_spec m n); [contradiction|auto]). apply wp_Ok. exists w, cf, df. constructor; cbn [q_m q_n q_QR q_c q_d q_sing q_refl]; auto.
      * intros E. destruct (I4 E) as (E1 & D). split; [auto|]. split; [intros j Hj; apply (D j Hj)|]. split; [intros _ j Hj; apply D; lia|]. intros j Hj. apply D. lia.
      * intros E B HB. eapply nearly_mono; [|apply (I5 E)]. pose proof (Rmax_l eps (eps * B * INR n)). apply Rmult_le_compat_l; [apply pos_INR|]. nra.
  - exists f, (fun _ => 0), (fun _ => 0). split; [auto|]. split; [apply is_vector_repeat|]. split; [apply is_vector_repeat|]. constructor; auto; try discriminate; [intros j Hj; lia|intros _; split; [auto|intros; lia]].
  - intros k [[[[M c] d] sing] refl] _ Hk (w & cf & df & HM & Hc & Hd & HI). eapply round_wp; eauto. lia.
Qed.

(** ** Applying Q and its transpose *)
Section Use.
Variables (m n : nat) (f : nat -> nat -> R) (Sv : qr R) (w : nat -> nat -> R) (cf df : nat -> R).
Hypothesis HS : QRof m n f Sv w cf df.
Hypothesis Hnm : (n <= m)%nat.
Notation K := (ncols m n).
Notation v := (vcol w).
Lemma reflect_wp : forall x xf k, is_vector x m xf -> (k < n)%nat -> wp (qr_reflect Rarith Sv x k) (fun x' => is_vector x' m (house m (v k) (cf k) xf)).
Proof.
  intros x xf k Hx Hk. destruct HS as [E1 E2 HM Hc Hd _ _ _ _]. unfold qr_reflect. apply wp_bind. eapply vgetf_wp; [exact Hc|auto|]. rewrite E1. change (alit Rarith 0) with 0.
  destruct (Raeqb (cf k) 0) as [Z|Z]; cbn [negb].
  - apply wp_Ok. eapply is_vector_ext; [exact Hx|]. intros i Hi. unfold house. destruct (Req_EM_T (cf k) 0); [reflexivity|contradiction].
  - apply wp_bind. eapply wp_conseq; [|apply (sum_loop k m _ (fun i => w i k * xf i)); [lia|]].
    + intros s Es. cbv zeta. assert (Es' : s = dot m (v k) xf) by (rewrite Es; apply rsum_ext; intros i Hi; unfold vcol; nb; ring).
      eapply wp_conseq; [|apply (for_range_inv _ _ (fun i x' => is_vector x' m (fun a => if (a <? i)%nat then house m (v k) (cf k) xf a else xf a))); [lia| |]].
      * intros x' Hx'. eapply is_vector_ext; [exact Hx'|]. intros i Hi. cbv beta. nb.
      * eapply is_vector_ext; [exact Hx|]. intros i Hi. cbv beta. destruct (Nat.ltb_spec i k); auto. unfold house, vcol. destruct (Req_EM_T (cf k) 0); auto. nb. ring.
      * intros i x' H1 H2 Hx'. cbv beta in *. apply wp_bind. eapply vgetf_wp; [exact Hx'|lia|]. apply wp_bind. eapply mget_wp; [exact HM|lia|lia|]. eapply vsetf_wp; [exact Hx'|lia|]. intros x2 Hx2. eapply is_vector_ext; [exact Hx2|].
        intros a Ha. unfold vfset. cbv beta. rewrite Nat.ltb_irrefl. destruct (Nat.eqb_spec a i) as [->|]; [|nb]. destruct (Nat.ltb_spec i (i + 1)); [|lia]. unfold house, vcol. destruct (Req_EM_T (cf k) 0); [contradiction|].
        destruct (Nat.ltb_spec i k); [lia|]. rewrite Es'. reflexivity.
    + intros s i Hi. apply wp_bind. eapply mget_wp; [exact HM|lia|lia|]. apply wp_bind. eapply vgetf_wp; [exact Hx|lia|]. apply wp_Ok. reflexivity.
Qed.
Lemma resize_is : forall (x : list R) p, exists g, is_vector (qr_resize Rarith x p) p g.
Proof.
  intros x p. exists (fun i => nth i (qr_resize Rarith x p) 0). assert (L : length (qr_resize Rarith x p) = p). { unfold qr_resize. rewrite app_length, firstn_length, repeat_length. lia. }
  rewrite <- L at 2. apply is_vector_self.
Qed.
Lemma copy_wp : forall p q (b x : list R) bf xf, is_vector b q bf -> is_vector x p xf -> (p <= q)%nat -> wp (qr_copy p b x) (fun x' => is_vector x' p bf).
Proof. intros p q b x bf xf Hb Hx Hq. unfold qr_copy. eapply (vfill_wp (fun i => vget b i)); [exact Hx| |intros v' Hv'; exact Hv']. intros i Hi. eapply vgetf_wp; [exact Hb|lia|reflexivity]. Qed.
Lemma Qt_wp : forall b bf q0, is_vector b m bf -> wp (qr_QtMultiply Rarith Sv b q0) (fun x => is_vector x m (Qt m v cf K bf)).
Proof.
  intros b bf q0 Hb. unfold qr_QtMultiply. pose proof HS as [E1 E2 HM Hc Hd _ _ _ _]. rewrite E1, E2. rewrite (proj1 Hb), Nat.eqb_refl. cbn [negb]. apply wp_bind. destruct (resize_is q0 m) as (g & Hg).
  eapply wp_conseq; [|eapply copy_wp; [exact Hb|exact Hg|lia]]. intros x Hx. pose proof (ncols_le m n). apply (for_range_inv _ _ (fun k x => is_vector x m (Qt m v cf k bf))); [lia|auto|].
  intros k x' _ Hk Hx'. eapply wp_conseq; [|eapply reflect_wp; [exact Hx'|lia]]. intros x2 Hx2. rewrite Nat.add_1_r. exact Hx2.
Qed.
Lemma Qm_wp : forall b bf q0, is_vector b m bf -> wp (qr_QMultiply Rarith Sv b q0) (fun x => is_vector x m (Qm m v cf K bf)).
Proof.
  intros b bf q0 Hb. unfold qr_QMultiply. pose proof HS as [E1 E2 HM Hc Hd _ _ _ _]. rewrite E1, E2. rewrite (proj1 Hb), Nat.eqb_refl. cbn [negb]. apply wp_bind. destruct (resize_is q0 m) as (g & Hg).
  eapply wp_conseq; [|eapply copy_wp; [exact Hb|exact Hg|lia]]. intros x Hx. pose proof (ncols_le m n).
  eapply wp_conseq; [|apply (for_down_inv _ _ (fun k x => exists xf, is_vector x m xf /\ forall i, (i < m)%nat -> Qm m v cf k xf i = Qm m v cf K bf i)); [lia|exists bf; auto|]].
  - intros x' (xf & Hx' & E). eapply is_vector_ext; [exact Hx'|]. exact E.
  - intros k x' _ Hk (xf & Hx' & E). eapply wp_conseq; [|eapply reflect_wp; [exact Hx'|lia]]. intros x2 Hx2. exists (house m (v k) (cf k) xf). split; [auto|]. intros i Hi. rewrite <- E by auto. rewrite Nat.add_1_r. reflexivity.
Qed.
Lemma Qm_n : forall x i, Qm m v cf n x i = Qm m v cf K x i.
Proof.
  intros x i. pose proof HS as [_ _ _ _ _ _ C0 _ _]. destruct (Nat.eq_dec K n) as [->|N]; [auto|]. assert (n = S K) by (unfold ncols in *; revert N; nb). pattern n at 1. rewrite H. cbn [Qm]. apply Qm_ext'. intros j. unfold house.
  rewrite C0 by lia. destruct (Req_EM_T 0 0); [auto|lra].
Qed.
Lemma RSolve_wp : forall b x bf, q_sing Sv = false -> (forall j, (j < n)%nat -> df j <> 0) -> is_vector b n bf ->
  wp (qr_RSolve Rarith Sv b x) (fun x' => exists xf, is_vector x' n xf /\ forall i, (i < n)%nat -> rsum n (fun j => Rf w df i j * xf j) = bf i).
Proof.
  intros b x bf Hs HD Hb. pose proof HS as [E1 E2 HM Hc Hd _ _ _ _]. unfold qr_RSolve. rewrite E2, (proj1 Hb), Nat.eqb_refl, Hs. cbn [negb]. apply wp_bind. destruct (resize_is x n) as (g & Hg).
  eapply wp_conseq; [|eapply copy_wp; [exact Hb|exact Hg|lia]]. intros x1 Hx1.
  eapply wp_conseq; [|apply (for_down_inv _ _ (fun k x => exists xf, is_vector x n xf /\ (forall a, (a < k)%nat -> xf a = bf a) /\ forall i, (k <= i < n)%nat -> rsum n (fun j => Rf w df i j * xf j) = bf i)); [lia| |]].
  - intros x' (xf & H1 & _ & H2). exists xf. split; auto. intros i Hi. apply H2. lia.
  - exists bf. split; auto. split; auto. intros; lia.
  - intros i x' _ Hi (xf & Hx' & G1 & G2). apply wp_bind. eapply vgetf_wp; [exact Hx'|auto|]. apply wp_bind.
    eapply wp_conseq; [|apply (for_range_inv _ _ (fun j s => s = xf i - rsum j (fun l => if (i <? l)%nat then w i l * xf l else 0))); [lia| |]].
    + intros s ->. apply wp_bind. eapply vgetf_wp; [exact Hd|auto|]. eapply vsetf_wp; [exact Hx'|auto|]. intros x2 Hx2. eexists. split; [exact Hx2|]. split; [intros a Ha; unfold vfset; nb; apply G1; lia|].
      set (z := (xf i - rsum n (fun l => if (i <? l)%nat then w i l * xf l else 0)) / df i). change (ndiv (aops Rarith)) with Rdiv. fold z. intros a Ha. destruct (Nat.eq_dec a i) as [->|N].
      * transitivity (rsum n (fun j => (if (i <? j)%nat then w i j * xf j else 0) + (if Nat.eqb j i then df i * z else 0))).
        { apply rsum_ext. intros j Hj. unfold Rf, vfset. nb; ring. }
        rewrite rsum_add. rewrite (rsum_one n i (fun j => if Nat.eqb j i then df i * z else 0) Hi) by (intros; nb). rewrite Nat.eqb_refl. rewrite <- (G1 i) by lia. unfold z. field. apply HD. auto.
      * rewrite <- (G2 a) by lia. apply rsum_ext. intros j Hj. unfold Rf, vfset. nb. ring.
    + rewrite rsum_zero by (intros j Hj; nb). ring.
    + intros j s H1 H2 ->. apply wp_bind. eapply mget_wp; [exact HM|lia|lia|]. apply wp_bind. eapply vgetf_wp; [exact Hx'|lia|]. apply wp_Ok. rewrite Nat.add_1_r. cbn [sumn Rnum nadd nmul nsub aops Rarith]. destruct (Nat.ltb_spec i j); [ring|lia].
Qed.
(** Q^T A x = R x *)
Lemma Qt_A : q_sing Sv = false -> forall x i, (i < m)%nat -> Qt m v cf K (fun i => rsum n (fun j => f i j * x j)) i = rsum n (fun j => Rf w df i j * x j).
Proof.
  intros Hs x i Hi. destruct (qo_done _ _ _ _ _ _ _ HS Hs) as (_ & _ & _ & D). transitivity (Qt m v cf K (fun i => rsum n (fun j => x j * f i j)) i); [apply Qt_ext; auto; intros l Hl; apply rsum_ext; intros; ring|].
  rewrite (Qt_sum m v cf K n x (fun j i => f i j) i). apply rsum_ext. intros j Hj. rewrite D by auto. ring.
Qed.
Lemma Rf_low : forall x i, (n <= i)%nat -> rsum n (fun j => Rf w df i j * x j) = 0.
Proof. intros x i Hi. apply rsum_zero. intros j Hj. unfold Rf. nb. ring. Qed.
Lemma upper_kernel : forall p (a : nat -> nat -> R) x, (forall i, (i < p)%nat -> a i i <> 0) -> (forall i j, (j < i)%nat -> (i < p)%nat -> a i j = 0) ->
  (forall i, (i < p)%nat -> rsum p (fun j => a i j * x j) = 0) -> forall i, (i < p)%nat -> x i = 0.
Proof.
  induction p as [|p IH]; intros a x Hd Hu H i Hi; [lia|]. assert (Z : x p = 0).
  { specialize (H p ltac:(lia)). cbn [sumn Rnum nadd nmul] in H. rewrite rsum_zero in H by (intros j Hj; rewrite Hu by lia; ring). rewrite Rplus_0_l in H. apply Rmult_integral in H. destruct H as [H|H]; auto. exfalso. apply (Hd p ltac:(lia) H). }
  destruct (Nat.eq_dec i p) as [->|N]; auto. apply (IH a x); [intros; apply Hd; lia|intros; apply Hu; lia| |lia]. intros l Hl. specialize (H l ltac:(lia)). cbn [sumn Rnum nadd nmul] in H. rewrite Z in H. lra.
Qed.
Lemma R_kernel : (forall j, (j < n)%nat -> df j <> 0) -> forall x, (forall i, (i < n)%nat -> rsum n (fun j => Rf w df i j * x j) = 0) -> forall i, (i < n)%nat -> x i = 0.
Proof. intros HD x H. apply (upper_kernel n (Rf w df) x); auto; intros; unfold Rf; nb. Qed.
Lemma A_kernel : q_sing Sv = false -> nz m n f -> forall x, (forall i, (i < m)%nat -> rsum n (fun j => f i j * x j) = 0) -> forall i, (i < n)%nat -> x i = 0.
Proof.
  intros Hs Hz x H. destruct (qo_done _ _ _ _ _ _ _ HS Hs) as (_ & _ & HD & D). apply R_kernel; auto. intros i Hi. rewrite <- Qt_A by (auto; lia). rewrite (Qt_ext m v cf v cf K _ (fun _ => 0)) by (auto; lia). apply Qt_zero.
Qed.
Lemma solve_into_wp : forall b x bf, m = n -> q_sing Sv = false -> nz m n f -> is_vector b m bf ->
  wp (qr_Solve_into Rarith Sv b x) (fun x' => exists xf, is_vector x' n xf /\ forall i, (i < n)%nat -> rsum n (fun j => f i j * xf j) = bf i).
Proof.
  intros b x bf Hmn Hs Hz Hb. destruct (qo_done _ _ _ _ _ _ _ HS Hs) as (_ & _ & HD & D). specialize (HD Hz). pose proof HS as [E1 E2 HM Hc Hd OK _ _ _]. unfold qr_Solve_into. rewrite E1, E2. rewrite (proj1 Hb). rewrite (proj2 (Nat.eqb_eq m n) Hmn), Nat.eqb_refl, Hs. cbn [negb].
  apply wp_bind. eapply wp_conseq; [|eapply Qt_wp; exact Hb]. intros y Hy. assert (Hy' : is_vector y n (Qt m v cf K bf)) by (rewrite <- Hmn at 1; exact Hy). eapply wp_conseq; [|exact (RSolve_wp y y _ Hs HD Hy')]. intros x' (xf & Hx' & E). exists xf. split; auto. intros i Hi.
  rewrite <- (Qm_Qt m v cf K bf i OK). rewrite <- (Qm_Qt m v cf K (fun i => rsum n (fun j => f i j * xf j)) i OK). apply Qm_ext; auto; [|lia]. intros l Hl. rewrite Qt_A by auto. apply E. lia.
Qed.
(** the residual splits into the part reached by R and the rest *)
Lemma residual : q_sing Sv = false -> forall bf x, dot m (fun i => rsum n (fun j => f i j * x j) - bf i) (fun i => rsum n (fun j => f i j * x j) - bf i) =
  dot m (fun i => rsum n (fun j => Rf w df i j * x j) - Qt m v cf K bf i) (fun i => rsum n (fun j => Rf w df i j * x j) - Qt m v cf K bf i).
Proof.
  intros Hs bf x. set (u := fun i => rsum n (fun j => f i j * x j)). rewrite <- (Qt_dot m v cf K _ _ (qo_ok _ _ _ _ _ _ _ HS)). assert (E : forall i, (i < m)%nat -> Qt m v cf K (fun i => u i - bf i) i = rsum n (fun j => Rf w df i j * x j) - Qt m v cf K bf i).
  { intros i Hi. transitivity (Qt m v cf K (fun i => u i + (-1) * bf i) i); [apply Qt_ext; auto; intros; ring|]. rewrite Qt_lin. unfold u. rewrite Qt_A by auto. ring. }
  apply dot_ext; intros i Hi; apply E; auto.
Qed.
End Use.
