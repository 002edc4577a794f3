(** * Band solver: proofs *)

From Coq Require Import List Arith Bool Lia ZArith Ring Field.
From Verif Require Import Base Num Det Mat_Model Mat_Proofs Lin_Base Gauss_Model Gauss_Proofs LU_Proofs LU_Props Chol_Proofs Band_Model.
Import ListNotations.
Local Open Scope nat_scope.

(** the column of the first stored entry of row r before step k *)
Definition st (m1 k r : nat) : nat := if r <? k then r else Nat.max k (r - m1).

Section Alg.
Context {T : Type} (O : numops T) (HF : field_laws O).
Let HR : ring_laws O := field_ring T O HF.
Add Field Tfield : HF.
Notation sum := (sumn O).
Implicit Types (f g W : nat -> nat -> T).

(** entry (i, j) of the band matrix with compact storage g *)
Definition bel (m1 m2 : nat) g (i j : nat) : T := if (j + m1 <? i) || (i + m2 <? j) then n0 O else g i (j + m1 - i).

(** storage au represents the rows of W, shifted *)
Definition rep (n m1 mm k : nat) (au W : nat -> nat -> T) : Prop :=
  (forall r j, r < n -> j < mm -> st m1 k r + j < n -> au r j = W r (st m1 k r + j)) /\
  (forall r c, r < n -> c < n -> (c < st m1 k r \/ st m1 k r + mm <= c) -> W r c = n0 O).

(** one elimination step on a column vector *)
Definition bstep (k p : nat) (mul : nat -> T) (v : nat -> T) (r : nat) : T :=
  if k <? r then nsub O (v (tr k p r)) (nmul O (mul r) (v (tr k p k))) else v (tr k p r).
Fixpoint fwd (k : nat) (idx : nat -> nat) (mul : nat -> nat -> T) (b : nat -> T) : nat -> T :=
  match k with 0 => b | S k => bstep k (idx k) (mul k) (fwd k idx mul b) end.

Lemma bstep_ext : forall n k p mul v w, k < n -> p < n -> (forall i, i < n -> v i = w i) -> forall i, i < n -> bstep k p mul v i = bstep k p mul w i.
Proof.
  intros n k p mul v w Hk Hp E i Hi. unfold bstep. rewrite (E (tr k p i)), (E (tr k p k)) by (apply tr_lt; auto). auto.
Qed.
Lemma bstep_inj : forall n k p mul v w, k < n -> p < n -> (forall i, i < n -> bstep k p mul v i = bstep k p mul w i) -> forall i, i < n -> v i = w i.
Proof.
  intros n k p mul v w Hk Hp E.
  assert (Ek : v (tr k p k) = w (tr k p k)). { specialize (E k Hk). unfold bstep in E. rewrite Nat.ltb_irrefl in E. auto. }
  assert (Et : forall i, i < n -> v (tr k p i) = w (tr k p i)).
  { intros i Hi. specialize (E i Hi). unfold bstep in E. rewrite Ek in E. destruct (k <? i); auto.
    transitivity (nadd O (nsub O (v (tr k p i)) (nmul O (mul i) (w (tr k p k)))) (nmul O (mul i) (w (tr k p k)))); [ring|]. rewrite E. ring. }
  intros i Hi. rewrite <- (tr_invol k p i). apply Et. apply tr_lt; auto.
Qed.
Lemma fwd_ext : forall k idx mul idx' mul' b, (forall l, l < k -> idx l = idx' l /\ forall r, mul l r = mul' l r) ->
  forall i, fwd k idx mul b i = fwd k idx' mul' b i.
Proof.
  induction k as [|k IH]; intros idx mul idx' mul' b E i; simpl; auto.
  destruct (E k (Nat.lt_succ_diag_r k)) as [E1 E2]. unfold bstep. rewrite <- E1, <- E2.
  rewrite !(IH idx mul idx' mul' b) by (intros l Hl; apply E; lia). auto.
Qed.

Record binv (n m1 mm : nat) (A0 : nat -> nat -> T) (k : nat) (au : nat -> nat -> T) (idx : nat -> nat) (mul : nat -> nat -> T) (d : T) (W : nat -> nat -> T) : Prop := {
  b_rep : rep n m1 mm k au W;
  b_idx : forall l, l < k -> l <= idx l /\ idx l < n;
  b_sys : forall x b, (forall i, i < n -> sum n (fun j => nmul O (A0 i j) (x j)) = b i) <->
                      (forall i, i < n -> sum n (fun j => nmul O (W i j) (x j)) = fwd k idx mul b i);
  b_nz : forall q, q < k -> W q q <> n0 O;
  b_det : nmul O d (det O n W) = det O n A0
}.

Definition Wnext (W : nat -> nat -> T) (k p : nat) (mul : nat -> T) (r c : nat) : T := bstep k p mul (fun i => W i c) r.

Lemma bstep_sum : forall n k p mul W x i, sum n (fun j => nmul O (Wnext W k p mul i j) (x j)) = bstep k p mul (fun r => sum n (fun j => nmul O (W r j) (x j))) i.
Proof.
  intros n k p mul W x i. unfold Wnext, bstep. destruct (k <? i); auto.
  rewrite (sum_mul_l O HR), <- (sum_sub O HR). apply sum_ext. intros; ring.
Qed.

Lemma binv_step : forall n m1 mm A0 k au idx mul d W p mk au', binv n m1 mm A0 k au idx mul d W ->
  k < n -> k <= p -> p < n -> W p k <> n0 O ->
  rep n m1 mm (k + 1) au' (Wnext W k p mk) ->
  binv n m1 mm A0 (k + 1) au' (vfset idx k p) (fun l r => if Nat.eqb l k then mk r else mul l r) (if Nat.eqb k p then d else nopp O d) (Wnext W k p mk).
Proof.
  intros n m1 mm A0 k au idx mul d W p mk au' [H1 H2 H3 H4 H5] Hk Hkp Hp Hnz Hrep. constructor; auto.
  - intros l Hl. unfold vfset. destruct (Nat.eqb_spec l k) as [->|]; [lia|]. apply H2. lia.
  - intros x b.
    assert (E : forall i, fwd (k + 1) (vfset idx k p) (fun l r => if Nat.eqb l k then mk r else mul l r) b i = bstep k p mk (fwd k idx mul b) i).
    { intros i. rewrite Nat.add_1_r. cbn [fwd].
      assert (F : forall j, fwd k (vfset idx k p) (fun l r => if Nat.eqb l k then mk r else mul l r) b j = fwd k idx mul b j).
      { apply fwd_ext. intros l Hl. unfold vfset. rewrite (proj2 (Nat.eqb_neq l k)) by lia. auto. }
      unfold bstep, vfset. rewrite !Nat.eqb_refl. fold (vfset idx k p). rewrite !F. auto. }
    rewrite (H3 x b). split.
    + intros Hx i Hi. rewrite E, bstep_sum. apply (bstep_ext n); auto.
    + intros Hx. apply (bstep_inj n k p mk); auto. intros i Hi. rewrite <- bstep_sum, <- E. apply Hx; auto.
  - intros q Hq. unfold Wnext, bstep. destruct (Nat.ltb_spec k q); [lia|]. destruct (Nat.eq_dec q k) as [->|Hne].
    + unfold tr. rewrite Nat.eqb_refl. auto.
    + rewrite tr_other by lia. apply H4. lia.
  - rewrite <- H5.
    assert (E1 : det O n (Wnext W k p mk) = det O n (fun i j => W (tr k p i) j)).
    { rewrite <- (det_elim_rows O HF n k (fun i j => W (tr k p i) j) mk n) by lia. apply det_ext. intros i j Hi Hj.
      unfold Wnext, bstep. rewrite (proj2 (Nat.ltb_lt i n)), andb_true_r by auto. auto. }
    rewrite E1. destruct (Nat.eqb_spec k p) as [<-|Hne].
    + f_equal. apply det_ext. intros i j _ _. replace (tr k k i) with i; auto. unfold tr. destruct (Nat.eqb_spec i k); auto.
    + rewrite (det_swap O HR n k p W) by auto. ring.
Qed.

(** ** Consequences *)
Lemma bupper : forall n m1 mm A0 au idx mul d W, binv n m1 mm A0 n au idx mul d W -> forall r c, r < n -> c < r -> W r c = n0 O.
Proof.
  intros n m1 mm A0 au idx mul d W [(_ & Hz) _ _ _ _] r c Hr Hc. apply Hz; auto; [lia|]. unfold st. rewrite (proj2 (Nat.ltb_lt r n)) by auto. auto.
Qed.
Lemma fwd_zero : forall k idx mul b n, (forall l, l < k -> l < n /\ idx l < n) -> (forall i, i < n -> b i = n0 O) -> forall i, i < n -> fwd k idx mul b i = n0 O.
Proof.
  induction k as [|k IH]; intros idx mul b n Hl Hb i Hi; simpl; auto. destruct (Hl k) as [Hk Hp]; [lia|].
  unfold bstep. rewrite !(IH idx mul b n) by (auto; try (intros l Hl'; apply Hl; lia); apply tr_lt; auto). destruct (k <? i); auto. ring.
Qed.
Lemma bkernel : forall n m1 mm A0 au idx mul d W, binv n m1 mm A0 n au idx mul d W -> forall x,
  (forall i, i < n -> sum n (fun j => nmul O (A0 i j) (x j)) = n0 O) -> forall i, i < n -> x i = n0 O.
Proof.
  intros n m1 mm A0 au idx mul d W HB x Hx. pose proof (bupper _ _ _ _ _ _ _ _ _ HB) as Hu. destruct HB as [_ HI HS HN _].
  apply (lower_kernel_t O HF n (fun r c => W c r)).
  - auto.
  - intros r c Hr Hc Hrc. apply Hu; auto.
  - intros i Hi. rewrite (proj1 (HS x (fun _ => n0 O)) Hx i Hi). apply (fwd_zero n idx mul (fun _ => n0 O) n); auto. intros l Hl. destruct (HI l Hl). lia.
Qed.
Lemma bdet : forall n m1 mm A0 au idx mul d W, binv n m1 mm A0 n au idx mul d W -> 0 < mm ->
  nmul O d (prodn O n (fun i => au i 0)) = det O n A0.
Proof.
  intros n m1 mm A0 au idx mul d W HB Hmm. pose proof (bupper _ _ _ _ _ _ _ _ _ HB) as Hu. destruct HB as [(HV & _) _ _ _ HD].
  rewrite <- HD. f_equal. rewrite (det_upper O HR) by auto. apply prod_ext. intros i Hi.
  assert (Es : st m1 n i = i) by (unfold st; rewrite (proj2 (Nat.ltb_lt i n)) by auto; auto).
  rewrite HV by (auto; rewrite Es; lia). rewrite Es, Nat.add_0_r. auto.
Qed.

(** vectors whose first k entries vanish are reached from a rearrangement of themselves *)
Lemma fwd_reach : forall n k idx mul w, (forall l, l < k -> l <= idx l /\ idx l < n) -> k <= n -> (forall i, i < k -> w i = n0 O) ->
  exists b, (forall i, i < n -> fwd k idx mul b i = w i) /\ forall i, i < n -> exists q, q < n /\ b i = w q.
Proof.
  intros n. induction k as [|k IH]; intros idx mul w Hl Hk Hw.
  - exists w. split; auto. intros i Hi. exists i. auto.
  - destruct (Hl k) as [Hp1 Hp2]; [lia|]. destruct (IH idx mul (fun i => w (tr k (idx k) i))) as (b & B1 & B2).
    + intros l Hl'. apply Hl. lia.
    + lia.
    + intros i Hi. rewrite tr_other by lia. apply Hw. lia.
    + exists b. split.
      * intros i Hi. simpl. rewrite (bstep_ext n k (idx k) (mul k) _ (fun i => w (tr k (idx k) i))) by (auto; lia).
        unfold bstep. rewrite !tr_invol. rewrite (Hw k) by lia. destruct (k <? i); auto. ring.
      * intros i Hi. destruct (B2 i Hi) as (q & Hq & ->). exists (tr k (idx k) q). split; auto. apply tr_lt; auto; lia.
Qed.

(** when elimination stops at column k: a vector with coordinate 1 whose image consists of zeros and entries of column k *)
Lemma bresidual : forall n m1 mm A0 k au idx mul d W, binv n m1 mm A0 k au idx mul d W -> k < n ->
  exists x, x k = n1 O /\ forall i, i < n -> exists y, sum n (fun j => nmul O (A0 i j) (x j)) = y /\ (y = n0 O \/ exists r, k <= r /\ r < n /\ y = W r k).
Proof.
  intros n m1 mm A0 k au idx mul d W [(HV & HZ) HI HS HN _] Hk.
  destruct (upper_vector O HF n k W Hk HN) as (x & X1 & X2 & X3). exists x. split; auto.
  assert (Low : forall r c, r < n -> c < n -> c < Nat.min r k -> W r c = n0 O).
  { intros r c Hr Hc Hrc. apply HZ; auto. left. unfold st. destruct (Nat.ltb_spec r k); lia. }
  set (w := fun i => sum n (fun j => nmul O (W i j) (x j))).
  assert (W0 : forall i, i < k -> w i = n0 O).
  { intros i Hi. unfold w. rewrite <- (X3 i Hi). apply sum_ext. intros j Hj. unfold U. destruct (Nat.ltb_spec j (Nat.min i k)); auto.
    rewrite Low by (auto; lia). auto. }
  assert (W1 : forall i, k <= i -> i < n -> w i = W i k).
  { intros i Hi1 Hi2. unfold w. rewrite (sum_one O HR n k); auto.
    - rewrite X1. ring.
    - intros j Hj Hne. destruct (lt_dec k j); [rewrite X2 by auto; ring|]. rewrite (Low i j) by lia. ring. }
  destruct (fwd_reach n k idx mul w HI) as (b & B1 & B2); [lia|auto|].
  assert (E : forall i, i < n -> sum n (fun j => nmul O (A0 i j) (x j)) = b i).
  { apply HS. intros i Hi. rewrite B1 by auto. auto. }
  intros i Hi. exists (b i). split; auto. destruct (B2 i Hi) as (q & Hq & ->). destruct (lt_dec q k); [left; auto|]. right. exists q. split; [lia|]. split; auto. apply W1; auto. lia.
Qed.

(** ** The loops *)
Lemma band_get_wp : forall (B : band T) n m1 m2 g i j (Q : T -> Prop), bd_dim B = n -> bd_m1 B = m1 -> bd_m2 B = m2 -> is_matrix (bd_data B) n (m1 + m2 + 1) g ->
  i < n -> Q (bel m1 m2 g i j) -> wp (band_get O B i j) Q.
Proof.
  intros B n m1 m2 g i j Q Hn H1 H2 HD Hi HQ. unfold band_get. rewrite H1, H2. unfold bel in HQ.
  destruct (Nat.ltb_spec (j + m1) i); destruct (Nat.ltb_spec (i + m2) j); simpl in *; try (apply wp_Ok; exact HQ).
  eapply mget_wp; eauto. lia.
Qed.

Lemma bs_justify_wp : forall (AU : matrix T) n m1 m2 a (Q : matrix T -> Prop), is_matrix AU n (m1 + m2 + 1) a -> m1 <= n ->
  (forall AU', is_matrix AU' n (m1 + m2 + 1) (fun r j => if r <? m1 then (if j <? r + m2 + 1 then a r (j + (m1 - r)) else n0 O) else a r j) -> Q AU') ->
  wp (bs_justify O m1 (m1 + m2 + 1) AU) Q.
Proof.
  intros AU n m1 m2 a Q HA Hm HQ. unfold bs_justify. set (mm := m1 + m2 + 1) in *. apply wp_bind.
  eapply wp_conseq; [|apply (for_range_inv _ _ (fun i '(AU, l) => l = m1 - i /\ is_matrix AU n mm
     (fun r j => if r <? i then (if j <? r + m2 + 1 then a r (j + (m1 - r)) else n0 O) else a r j)))].
  - intros [AU' l] [_ H1]. apply wp_Ok. apply HQ. auto.
  - lia.
  - split; [lia|]. eapply is_matrix_ext; [exact HA|]. intros; cbv beta; auto.
  - intros i [AU1 l] _ Hi [-> H1]. cbv beta iota in *. apply wp_bind.
    eapply wp_conseq; [|apply (for_range_inv _ _ (fun j0 AU => is_matrix AU n mm
      (fun r j => if Nat.eqb r i && (j + (m1 - i) <? j0) then a r (j + (m1 - i)) else
         if r <? i then (if j <? r + m2 + 1 then a r (j + (m1 - r)) else n0 O) else a r j)))].
    + intros AU2 H2. cbv beta in *. apply wp_bind.
      eapply wp_conseq; [|apply (for_range_inv _ _ (fun j0 AU => is_matrix AU n mm
        (fun r j => if Nat.eqb r i && (j <? j0) then (if j <? r + m2 + 1 then a r (j + (m1 - r)) else n0 O) else
           if Nat.eqb r i && (j + (m1 - i) <? mm) then a r (j + (m1 - i)) else
           if r <? i then (if j <? r + m2 + 1 then a r (j + (m1 - r)) else n0 O) else a r j)))].
      * intros AU3 H3. cbv beta in *. apply wp_Ok. split; [lia|]. eapply is_matrix_ext; [exact H3|]. intros r j Hr Hj. cbv beta.
        rewrite (proj2 (Nat.ltb_lt j mm)), andb_true_r by auto. destruct (Nat.eqb_spec r i) as [->|Hne].
        -- rewrite (proj2 (Nat.ltb_lt i (i + 1))) by lia. auto.
        -- simpl. destruct (Nat.ltb_spec r i); destruct (Nat.ltb_spec r (i + 1)); auto; lia.
      * unfold mm. lia.
      * eapply is_matrix_ext; [exact H2|]. intros r j Hr Hj. cbv beta. destruct (Nat.eqb_spec r i) as [->|Hne]; simpl; auto.
        unfold mm in *. ltb. all: f_equal; lia.
      * intros j0 AU3 Hj1 Hj2 H3. cbv beta in *. eapply mset_wp; [exact H3|lia|lia|]. intros AU4 H4. eapply is_matrix_ext; [exact H4|].
        intros r j Hr Hj. unfold fset. cbv beta. destruct (Nat.eqb_spec r i) as [->|Hne]; simpl; auto. unfold mm in *. ltb.
    + unfold mm. lia.
    + eapply is_matrix_ext; [exact H1|]. intros r j Hr Hj. cbv beta. replace (j + (m1 - i) <? m1 - i) with false; [rewrite andb_false_r; auto|].
      symmetry. apply Nat.ltb_ge. lia.
    + intros j0 AU2 Hj1 Hj2 H2. cbv beta in *. apply wp_bind. eapply mget_wp; [exact H2|lia|lia|]. cbv beta. rewrite Nat.eqb_refl.
      replace (j0 + (m1 - i) <? j0) with false by (symmetry; apply Nat.ltb_ge; lia). simpl. rewrite Nat.ltb_irrefl.
      eapply mset_wp; [exact H2|lia|lia|]. intros AU3 H3. eapply is_matrix_ext; [exact H3|].
      intros r j Hr Hj. unfold fset. cbv beta. destruct (Nat.eqb_spec r i) as [->|Hne]; simpl; auto.
      destruct (Nat.eqb_spec j (j0 - (m1 - i))) as [->|Hj'].
      * replace (j0 - (m1 - i) + (m1 - i)) with j0 by lia. rewrite (proj2 (Nat.ltb_lt j0 (j0 + 1))) by lia. auto.
      * destruct (Nat.ltb_spec (j + (m1 - i)) j0); destruct (Nat.ltb_spec (j + (m1 - i)) (j0 + 1)); auto; lia.
Qed.

Lemma brep_init : forall n m1 m2 g au, m1 <= n ->
  (forall r j, r < n -> j < m1 + m2 + 1 -> au r j = if r <? m1 then (if j <? r + m2 + 1 then (if j + (m1 - r) + r - m1 <? n then g r (j + (m1 - r)) else n0 O) else n0 O)
                            else (if j + r - m1 <? n then g r j else n0 O)) ->
  rep n m1 (m1 + m2 + 1) 0 au (bel m1 m2 g).
Proof.
  intros n m1 m2 g au Hm Hau. unfold rep, st. simpl. split.
  - intros r j Hr Hj Hc. rewrite Hau by auto. unfold bel.
    destruct (Nat.ltb_spec r m1).
    + replace (r - m1 + j) with j by lia. destruct (Nat.ltb_spec j (r + m2 + 1)).
      * replace (j + (m1 - r) + r - m1) with j by lia. rewrite (proj2 (Nat.ltb_lt j n)) by lia. destruct (Nat.ltb_spec (j + m1) r); [lia|].
        destruct (Nat.ltb_spec (r + m2) j); [lia|]. simpl. f_equal. lia.
      * destruct (Nat.ltb_spec (r + m2) j); [|lia]. rewrite orb_true_r. auto.
    + replace (j + r - m1) with (r - m1 + j) by lia. rewrite (proj2 (Nat.ltb_lt _ n)) by lia. destruct (Nat.ltb_spec (r - m1 + j + m1) r); [lia|].
      destruct (Nat.ltb_spec (r + m2) (r - m1 + j)); [lia|]. simpl. f_equal. lia.
  - intros r c Hr Hc Hrc. unfold bel. destruct (Nat.ltb_spec (c + m1) r); auto. destruct (Nat.ltb_spec (r + m2) c); auto. lia.
Qed.

(** the elimination loop *)
Definition lk (n m1 k : nat) : nat := Nat.min n (k + m1 + 1).
Definition mulk (n m1 k : nat) (W : nat -> nat -> T) (r : nat) : T := if r <? lk n m1 k then ndiv O (W r k) (W k k) else n0 O.

Lemma bs_elim_wp : forall n m1 m2 k W (AU AL : matrix T) a al (Q : matrix T * matrix T -> Prop), k < n ->
  is_matrix AU n (m1 + m2 + 1) a -> rep n m1 (m1 + m2 + 1) k a W -> W k k <> n0 O ->
  (m1 = 0 \/ is_matrix AL n m1 al) ->
  (forall AU' AL' a' al', is_matrix AU' n (m1 + m2 + 1) a' -> rep n m1 (m1 + m2 + 1) (k + 1) a' (Wnext W k k (mulk n m1 k W)) ->
     (m1 = 0 \/ is_matrix AL' n m1 al') ->
     (forall l q, l < k -> al' l q = al l q) -> (forall r, k < r -> r < lk n m1 k -> al' k (r - k - 1) = mulk n m1 k W r) -> Q (AU', AL')) ->
  wp (bs_elim O (m1 + m2 + 1) k (lk n m1 k) AU AL) Q.
Proof.
  intros n m1 m2 k W AU AL a al Q Hk HA HRep Hnz HAL HQ. unfold bs_elim. set (mm := m1 + m2 + 1) in *.
  set (mu := mulk n m1 k W) in *.
  assert (Hst : forall r, k <= r -> r < lk n m1 k -> st m1 k r = k).
  { intros r Hr1 Hr2. unfold st, lk in *. destruct (Nat.ltb_spec r k); lia. }
  assert (Hlk : lk n m1 k <= n) by (unfold lk; lia).
  assert (Hkl : k + 1 <= lk n m1 k) by (unfold lk; lia).
  destruct HRep as [HV HZ].
  assert (Ha0 : forall r, k <= r -> r < lk n m1 k -> a r 0 = W r k).
  { intros r Hr1 Hr2. rewrite HV; [rewrite Hst by auto; rewrite Nat.add_0_r; auto|lia|unfold mm; lia|rewrite Hst by auto; lia]. }
  (* the rows after processing *)
  set (na := fun r j => if Nat.eqb j (mm - 1) then n0 O else nsub O (a r (j + 1)) (nmul O (mu r) (a k (j + 1)))).
  eapply wp_conseq; [|apply (for_range_inv _ _ (fun i '(AU, AL) => exists al',
     is_matrix AU n mm (fun r j => if (k <? r) && (r <? i) then na r j else a r j) /\
     (m1 = 0 \/ is_matrix AL n m1 al') /\ (forall l q, l < k -> al' l q = al l q) /\ (forall r, k < r -> r < i -> al' k (r - k - 1) = mu r)))].
  - intros [AU' AL'] (al' & H1 & H2 & H3 & H4). eapply HQ; eauto. split.
    + intros r j Hr Hj Hc. unfold Wnext, bstep. rewrite !(fun i => proj2 (Nat.eqb_eq (tr k k i) i) (ltac:(unfold tr; destruct (Nat.eqb_spec i k); auto))) || idtac.
      assert (Htr : forall i, tr k k i = i) by (intros i; unfold tr; destruct (Nat.eqb_spec i k); auto). rewrite !Htr.
      destruct (Nat.ltb_spec k r) as [Hkr|Hkr]; simpl.
      * destruct (Nat.ltb_spec r (lk n m1 k)) as [Hrl|Hrl].
        -- assert (Hs : st m1 (k + 1) r = k + 1). { unfold st, lk in *. destruct (Nat.ltb_spec r (k + 1)); lia. }
           rewrite Hs in *. unfold na. destruct (Nat.eqb_spec j (mm - 1)) as [->|Hj'].
           ++ rewrite (HZ r), (HZ k); [ring|lia|lia| |lia|lia|].
              ** right. rewrite Hst by lia. lia.
              ** right. rewrite Hst by lia. lia.
           ++ rewrite (HV r (j + 1)), (HV k (j + 1)); [|lia|lia|rewrite Hst by lia; lia|lia|lia|rewrite Hst by lia; lia].
              rewrite !Hst by lia. replace (k + (j + 1)) with (k + 1 + j) by lia. auto.
        -- assert (Hs : st m1 (k + 1) r = st m1 k r). { unfold st, lk in *. destruct (Nat.ltb_spec r (k + 1)); destruct (Nat.ltb_spec r k); lia. }
           rewrite Hs in *. unfold mu, mulk. rewrite (proj2 (Nat.ltb_ge r (lk n m1 k))) by auto. rewrite (HV r j) by auto. ring.
      * assert (Hs : st m1 (k + 1) r = st m1 k r). { unfold st. destruct (Nat.ltb_spec r (k + 1)); destruct (Nat.ltb_spec r k); lia. }
        rewrite Hs in *. apply HV; auto.
    + intros r c Hr Hc Hrc. unfold Wnext, bstep.
      assert (Htr : forall i, tr k k i = i) by (intros i; unfold tr; destruct (Nat.eqb_spec i k); auto). rewrite !Htr.
      destruct (Nat.ltb_spec k r) as [Hkr|Hkr].
      * destruct (Nat.ltb_spec r (lk n m1 k)) as [Hrl|Hrl].
        -- assert (Hs : st m1 (k + 1) r = k + 1). { unfold st, lk in *. destruct (Nat.ltb_spec r (k + 1)); lia. }
           rewrite Hs in *. destruct (Nat.eq_dec c k) as [->|Hck].
           ++ unfold mu, mulk. rewrite (proj2 (Nat.ltb_lt r (lk n m1 k))) by auto. field. auto.
           ++ rewrite (HZ r), (HZ k); [ring|lia|lia| |lia|lia|]; rewrite Hst by lia; lia.
        -- assert (Hs : st m1 (k + 1) r = st m1 k r). { unfold st, lk in *. destruct (Nat.ltb_spec r (k + 1)); destruct (Nat.ltb_spec r k); lia. }
           rewrite Hs in *. unfold mu, mulk. rewrite (proj2 (Nat.ltb_ge r (lk n m1 k))) by auto. rewrite (HZ r c) by auto. ring.
      * assert (Hs : st m1 (k + 1) r = st m1 k r). { unfold st. destruct (Nat.ltb_spec r (k + 1)); destruct (Nat.ltb_spec r k); lia. }
        rewrite Hs in *. apply HZ; auto.
  - auto.
  - exists al. split; [|split; [auto|split; [auto|intros; lia]]]. eapply is_matrix_ext; [exact HA|]. intros r j Hr Hj. cbv beta.
    destruct (Nat.ltb_spec k r); destruct (Nat.ltb_spec r (k + 1)); simpl; auto; lia.
  - intros i [AU1 AL1] Hi1 Hi2 (al' & H1 & H2 & H3 & H4). cbv beta iota.
    apply wp_bind. eapply mget_wp; [exact H1|lia|unfold mm; lia|]. cbv beta. rewrite Nat.ltb_irrefl, andb_false_r.
    apply wp_bind. eapply mget_wp; [exact H1|lia|unfold mm; lia|]. cbv beta. rewrite Nat.ltb_irrefl. simpl.
    rewrite !Ha0 by lia. assert (Emu : ndiv O (W i k) (W k k) = mu i). { unfold mu, mulk. rewrite (proj2 (Nat.ltb_lt i (lk n m1 k))) by auto. auto. }
    rewrite Emu. apply wp_bind.
    assert (Hm1 : m1 <> 0) by (unfold lk in *; lia). destruct H2 as [|H2]; [lia|].
    eapply mset_wp; [exact H2|lia|unfold lk in *; lia|]. intros AL2 HAL2. apply wp_bind.
    eapply wp_conseq; [|apply (for_range_inv _ _ (fun j0 AU => is_matrix AU n mm (fun r j =>
       if Nat.eqb r i && (j + 1 <? j0) then nsub O (a r (j + 1)) (nmul O (mu r) (a k (j + 1))) else if (k <? r) && (r <? i) then na r j else a r j)))].
    + intros AU2 H5. cbv beta in *. apply wp_bind. eapply mset_wp; [exact H5|lia|unfold mm; lia|]. intros AU3 H6. apply wp_Ok.
      eexists. split; [|split; [right; exact HAL2|split]].
      * eapply is_matrix_ext; [exact H6|]. intros r j Hr Hj. unfold fset. cbv beta. destruct (Nat.eqb_spec r i) as [->|Hne]; simpl.
        -- rewrite (proj2 (Nat.ltb_lt k i)), (proj2 (Nat.ltb_lt i (i + 1))) by lia. simpl. unfold na.
           destruct (Nat.eqb_spec j (mm - 1)); auto. rewrite (proj2 (Nat.ltb_lt (j + 1) mm)) by lia. auto.
        -- destruct (Nat.ltb_spec k r); destruct (Nat.ltb_spec r i); destruct (Nat.ltb_spec r (i + 1)); simpl; auto; lia.
      * intros l q Hl. unfold fset. rewrite (proj2 (Nat.eqb_neq l k)) by lia. simpl. auto.
      * intros r Hr1 Hr2. unfold fset. rewrite Nat.eqb_refl. simpl. destruct (Nat.eqb_spec (r - k - 1) (i - k - 1)).
        -- f_equal. lia.
        -- apply H4; lia.
    + unfold mm. lia.
    + eapply is_matrix_ext; [exact H1|]. intros r j Hr Hj. cbv beta. replace (j + 1 <? 1) with false; [rewrite andb_false_r; auto|]. symmetry. apply Nat.ltb_ge. lia.
    + intros j0 AU2 Hj1 Hj2 H5. cbv beta in *. apply wp_bind. eapply mget_wp; [exact H5|lia|lia|]. cbv beta. rewrite Nat.eqb_refl.
      replace (j0 + 1 <? j0) with false by (symmetry; apply Nat.ltb_ge; lia). rewrite Nat.ltb_irrefl, andb_false_r. simpl.
      apply wp_bind. eapply mget_wp; [exact H5|lia|lia|]. cbv beta. rewrite (proj2 (Nat.eqb_neq k i)) by lia. rewrite Nat.ltb_irrefl. simpl.
      eapply mset_wp; [exact H5|lia|lia|]. intros AU3 H6. eapply is_matrix_ext; [exact H6|]. intros r j Hr Hj. unfold fset. cbv beta.
      destruct (Nat.eqb_spec r i) as [->|Hne]; simpl; auto. destruct (Nat.eqb_spec j (j0 - 1)) as [->|Hj'].
      * replace (j0 - 1 + 1) with j0 by lia. rewrite (proj2 (Nat.ltb_lt j0 (j0 + 1))) by lia. try rewrite andb_false_r. auto.
      * destruct (Nat.ltb_spec (j + 1) j0); destruct (Nat.ltb_spec (j + 1) (j0 + 1)); auto; lia.
Qed.

(** ** Substitution *)
Lemma bs_forward_wp : forall n m1 (S : bsolver T) idx mul al b x (Q : list T -> Prop), bs_n S = n -> bs_m1 S = m1 -> m1 <= n ->
  is_vector (bs_indx S) n (fun k => idx k + 1) -> (forall l, l < n -> l <= idx l /\ idx l < n) ->
  (m1 = 0 \/ is_matrix (bs_al S) n m1 al) ->
  (forall k r, k < n -> k < r -> r < lk n m1 k -> al k (r - k - 1) = mul k r) -> (forall k r, k < n -> lk n m1 k <= r -> mul k r = n0 O) ->
  is_vector x n b -> (forall x', is_vector x' n (fwd n idx mul b) -> Q x') -> wp (bs_forward O S x) Q.
Proof.
  intros n m1 S idx mul al b x Q Hn H1 Hm HI Hidx HAL Hal Hmz Hx HQ. unfold bs_forward. rewrite Hn, H1. apply wp_bind.
  eapply wp_conseq; [|apply (for_range_inv _ _ (fun k '(x, l) => l = Nat.min n (k + m1) /\ is_vector x n (fwd k idx mul b)))].
  - intros [x' l] [_ H]. apply wp_Ok. auto.
  - lia.
  - split; [lia|auto].
  - intros k [x1 l] _ Hk [-> Hx1]. cbv beta iota. apply wp_bind. eapply vgetf_wp; eauto. cbv beta. rewrite Nat.add_sub.
    destruct (Hidx k Hk) as [Hp1 Hp2]. set (p := idx k) in *.
    assert (SW : wp (if negb (Nat.eqb p k) then xk <- vget x1 k ;; xj <- vget x1 p ;; x <- vset x1 k xj ;; vset x p xk else Ok x1)
       (fun x => is_vector x n (fun r => fwd k idx mul b (tr k p r)))).
    { destruct (Nat.eqb_spec p k) as [E|Hne]; simpl negb; cbv iota.
      - apply wp_Ok. eapply is_vector_ext; [exact Hx1|]. intros r Hr. rewrite E. f_equal. unfold tr. destruct (Nat.eqb_spec r k); auto.
      - apply wp_bind. eapply vgetf_wp; eauto. apply wp_bind. eapply vgetf_wp; eauto. apply wp_bind. eapply vsetf_wp; eauto. intros x2 Hx2.
        eapply vsetf_wp; eauto. intros x3 Hx3. eapply is_vector_ext; [exact Hx3|]. intros r Hr. unfold vfset, tr.
        destruct (Nat.eqb_spec r p) as [->|]; [rewrite (proj2 (Nat.eqb_neq p k)) by auto; auto|]. destruct (Nat.eqb_spec r k); auto. }
    apply wp_bind. eapply wp_conseq; [|exact SW]. intros x2 Hx2. cbv beta in Hx2.
    assert (El : (if Nat.min n (k + m1) <? n then Nat.min n (k + m1) + 1 else Nat.min n (k + m1)) = lk n m1 k).
    { unfold lk. destruct (Nat.ltb_spec (Nat.min n (k + m1)) n); lia. }
    rewrite El. apply wp_bind.
    eapply wp_conseq; [|apply (for_range_inv _ _ (fun i x => is_vector x n (fun r => if (k <? r) && (r <? i) then bstep k p (mul k) (fwd k idx mul b) r else fwd k idx mul b (tr k p r))))].
    + intros x3 Hx3. cbv beta in *. apply wp_Ok. split; [unfold lk; lia|]. eapply is_vector_ext; [exact Hx3|]. intros r Hr. cbv beta.
      rewrite Nat.add_1_r. cbn [fwd]. fold p. unfold bstep. destruct (Nat.ltb_spec k r); simpl; auto.
      destruct (Nat.ltb_spec r (lk n m1 k)); simpl; auto. rewrite Hmz by auto. ring.
    + unfold lk. lia.
    + eapply is_vector_ext; [exact Hx2|]. intros r Hr. cbv beta. destruct (Nat.ltb_spec k r); destruct (Nat.ltb_spec r (k + 1)); simpl; auto; lia.
    + intros i x3 Hi1 Hi2 Hx3. cbv beta in *. assert (Hin : i < n) by (unfold lk in Hi2; lia). apply wp_bind. eapply vgetf_wp; eauto. cbv beta.
      rewrite Nat.ltb_irrefl, andb_false_r. assert (m1 <> 0) by (unfold lk in Hi2; lia). destruct HAL as [|HAL]; [lia|].
      apply wp_bind. eapply mget_wp; [exact HAL|lia|unfold lk in Hi2; lia|]. apply wp_bind. eapply vgetf_wp; eauto. cbv beta. rewrite Nat.ltb_irrefl. simpl.
      eapply vsetf_wp; eauto. intros x4 Hx4. eapply is_vector_ext; [exact Hx4|]. intros r Hr. unfold vfset. cbv beta.
      destruct (Nat.eqb_spec r i) as [->|Hne].
      * rewrite (proj2 (Nat.ltb_lt k i)), (proj2 (Nat.ltb_lt i (i + 1))) by lia. simpl. unfold bstep.
        rewrite (proj2 (Nat.ltb_lt k i)) by lia. rewrite Hal by (auto; lia). auto.
      * destruct (Nat.ltb_spec k r); destruct (Nat.ltb_spec r i); destruct (Nat.ltb_spec r (i + 1)); simpl; auto; lia.
Qed.

Lemma sum_window : forall n i l (g : nat -> T), i + l <= n -> (forall c, c < n -> c < i \/ i + l <= c -> g c = n0 O) -> sum n g = sum l (fun k => g (i + k)).
Proof.
  intros n i l g Hl Hz. replace n with (i + (l + (n - (i + l)))) by lia. rewrite (sum_app O HR), (sum_app O HR).
  rewrite (sum_zero O HR i) by (intros; apply Hz; lia). rewrite (sum_zero O HR (n - (i + l))) by (intros; apply Hz; lia). ring.
Qed.

Lemma bs_backward_wp : forall n m1 m2 (S : bsolver T) a W y x (Q : list T -> Prop), bs_n S = n -> bs_m1 S = m1 -> bs_m2 S = m2 ->
  is_matrix (bs_au S) n (m1 + m2 + 1) a -> rep n m1 (m1 + m2 + 1) n a W -> (forall q, q < n -> W q q <> n0 O) -> is_vector x n y ->
  (forall x' xf, is_vector x' n xf -> (forall i, i < n -> sum n (fun j => nmul O (W i j) (xf j)) = y i) -> Q x') -> wp (bs_backward O S x) Q.
Proof.
  intros n m1 m2 S a W y x Q Hn H1 H2 HA [HV HZ] Hnz Hx HQ. unfold bs_backward. rewrite Hn, H1, H2. set (mm := m1 + m2 + 1) in *.
  assert (Hst : forall r, r < n -> st m1 n r = r) by (intros r Hr; unfold st; rewrite (proj2 (Nat.ltb_lt r n)) by auto; auto).
  assert (Hsum : forall i xf, i < n -> sum n (fun j => nmul O (W i j) (xf j)) = sum (Nat.min mm (n - i)) (fun k => nmul O (a i k) (xf (i + k)))).
  { intros i xf Hi. rewrite (sum_window n i (Nat.min mm (n - i))).
    - apply sum_ext. intros k Hk. rewrite (HV i k) by (auto; try rewrite Hst by auto; lia). rewrite Hst by auto. auto.
    - lia.
    - intros c Hc Hout. rewrite HZ; [ring|auto|auto|]. rewrite Hst by auto. lia. }
  apply wp_bind.
  eapply wp_conseq; [|apply (for_down_inv _ _ (fun m '(x, l) => l = Nat.min mm (n - m + 1) /\ exists xf, is_vector x n (fun j => if j <? m then y j else xf j) /\
     forall r, m <= r -> r < n -> sum n (fun j => nmul O (W r j) (xf j)) = y r))].
  - intros [x' l] (_ & xf & G1 & G2). apply wp_Ok. apply (HQ x' xf); [|intros i Hi; apply G2; auto; lia].
    eapply is_vector_ext; [exact G1|]. intros; cbv beta; auto.
  - lia.
  - split; [unfold mm; lia|]. exists (fun _ => n0 O). split; [|intros; lia]. eapply is_vector_ext; [exact Hx|]. intros j Hj. cbv beta. ltb.
  - intros i [x1 l] _ Hi (-> & xf & G1 & G2). cbv beta iota. replace (n - (i + 1) + 1) with (n - i) by lia.
    apply wp_bind. eapply vgetf_wp; eauto. cbv beta. rewrite (proj2 (Nat.ltb_lt i (i + 1))) by lia. apply wp_bind.
    set (l := Nat.min mm (n - i)). assert (Hl1 : 1 <= l) by (unfold l, mm; lia).
    apply (acc_sub_wp O HF 1 l (fun k => nmul O (a i k) (xf (k + i)))); [auto| |].
    { intros s k Hk1 Hk2. apply wp_bind. eapply mget_wp; [exact HA|auto|unfold l in *; lia|]. apply wp_bind. eapply vgetf_wp; [exact G1|unfold l in *; lia|]. cbv beta.
      rewrite (proj2 (Nat.ltb_ge (k + i) (i + 1))) by lia. apply wp_Ok. auto. }
    apply wp_bind. eapply mget_wp; [exact HA|auto|unfold mm; lia|]. apply wp_bind. eapply vsetf_wp; eauto. intros x2 Hx2. apply wp_Ok.
    split. { fold l. unfold l. destruct (Nat.ltb_spec (Nat.min mm (n - i)) mm); lia. }
    match type of Hx2 with is_vector _ _ (vfset _ _ ?e) => set (v := e) in * end.
    exists (vfset xf i v). split.
    + eapply is_vector_ext; [exact Hx2|]. intros j Hj. unfold vfset. cbv beta. ltb.
    + intros r Hr1 Hr2. destruct (Nat.eq_dec r i) as [->|Hne].
      * rewrite Hsum by auto. fold l.
        assert (Hz : a i 0 <> n0 O). { rewrite (HV i 0) by (auto; try rewrite Hst by auto; unfold mm; lia). rewrite Hst, Nat.add_0_r by auto. auto. }
        replace l with (Datatypes.S (l - 1)) by lia. rewrite (sum_S_l O HR). rewrite Nat.add_0_r. unfold vfset at 1. rewrite Nat.eqb_refl.
        rewrite (sum_ext O (l - 1) _ (fun k => nmul O (a i (Datatypes.S k)) (xf (Datatypes.S k + i)))).
        -- assert (Ev : sum l (fun k => nmul O (a i k) (xf (k + i))) = nadd O (nmul O (a i 0) (xf i)) (sum (l - 1) (fun k => nmul O (a i (Datatypes.S k)) (xf (Datatypes.S k + i))))).
           { replace l with (Datatypes.S (l - 1)) at 1 by lia. rewrite (sum_S_l O HR). auto. }
           unfold v. rewrite Ev. simpl sumn at 2. field. auto.
        -- intros k Hk. unfold vfset. rewrite (proj2 (Nat.eqb_neq (i + Datatypes.S k) i)) by lia. rewrite (Nat.add_comm i). auto.
      * rewrite <- (G2 r) by lia. apply sum_ext. intros j Hj. unfold vfset. destruct (Nat.eqb_spec j i) as [->|]; auto.
        rewrite (HZ r i); [ring|auto|auto|]. rewrite Hst by auto. lia.
Qed.
End Alg.
