(** * C35: LUSolver and LUSolverInPlace

    Exact arithmetic over any field with an ordered magnitude ([mag_laws]).  Specification of the
    determinant: Laplace expansion ([Det.det]). *)

From Coq Require Import List Arith Bool Lia ZArith QArith Qcanon Ring Field.
From Verif Require Import Base Num Det Mat_Model Mat_Proofs Mat_Props Lin_Base Gauss_Model Gauss_Proofs Gauss_Props LU_Model LU_Proofs.
Import ListNotations.
Local Open Scope nat_scope.

Section Spec.
Context {T M : Type} (O : numops T) (G : magops T M).
(** m is the largest magnitude in row i (0 if the row is zero) *)
Definition is_row_max (n : nat) (f : nat -> nat -> T) (i : nat) (m : M) : Prop :=
  (m = mzero G \/ exists j, j < n /\ m = mabs G (f i j)) /\ forall j, j < n -> mlt G m (mabs G (f i j)) = false.
(** f sends a vector with a coordinate 1 to a vector which, after dividing each row by its scale,
    is largest in a row p where its magnitude is below t *)
Definition scaled_nearly_singular (n : nat) (f : nat -> nat -> T) (s : nat -> T) (t : M) : Prop :=
  exists x p, (exists i, i < n /\ x i = n1 O) /\ p < n /\
    mlt G (mabs G (sumn O n (fun k => nmul O (f p k) (x k)))) t = true /\
    forall i, i < n -> mlt G (mabs G (nmul O (s p) (sumn O n (fun k => nmul O (f p k) (x k)))))
                             (mabs G (nmul O (s i) (sumn O n (fun k => nmul O (f i k) (x k))))) = false.
End Spec.

Section Common.
Context {T : Type} (O : numops T) (HF : field_laws O).
Let HR : ring_laws O := field_ring T O HF.
Add Field Tf0 : HF.
Implicit Types (f : nat -> nat -> T).

Lemma right_inverse_two_sided : forall n f xf,
  (forall x, (forall i, i < n -> sumn O n (fun j => nmul O (f i j) (x j)) = n0 O) -> forall i, i < n -> x i = n0 O) ->
  (forall i j, i < n -> j < n -> sumn O n (fun k => nmul O (f i k) (xf k j)) = if Nat.eqb i j then n1 O else n0 O) ->
  inverse_of O n f xf.
Proof.
  intros n f xf.
  (* f (g f - 1) = 0, and f has trivial kernel *)
  intros K0 E1. split; auto. intros i j Hi Hj.
  assert (K := K0
    (fun r => nsub O (sumn O n (fun k => nmul O (xf r k) (f k j))) (if Nat.eqb r j then n1 O else n0 O))).
  assert (K' : nsub O (sumn O n (fun k => nmul O (xf i k) (f k j))) (if Nat.eqb i j then n1 O else n0 O) = n0 O).
  { apply K; auto. intros u Hu.
    transitivity (nsub O (sumn O n (fun k => nmul O (sumn O n (fun q => nmul O (f u q) (xf q k))) (f k j)))
                         (sumn O n (fun q => nmul O (f u q) (if Nat.eqb q j then n1 O else n0 O)))).
    - rewrite (sum_ext O n _ (fun q => nsub O (nmul O (f u q) (sumn O n (fun k => nmul O (xf q k) (f k j))))
                                              (nmul O (f u q) (if Nat.eqb q j then n1 O else n0 O)))) by (intros; ring).
      rewrite (sum_sub O HR). f_equal.
      rewrite (sum_ext O n _ (fun q => sumn O n (fun k => nmul O (nmul O (f u q) (xf q k)) (f k j)))).
      + rewrite (sum_swap O HR). apply sum_ext. intros k Hk. rewrite <- (sum_mul_r O HR). auto.
      + intros q Hq. rewrite (sum_mul_l O HR). apply sum_ext. intros k Hk. ring.
    - rewrite (sum_ext O n _ (fun k => nmul O (if Nat.eqb u k then n1 O else n0 O) (f k j))) by (intros k Hk; rewrite E1 by auto; auto).
      rewrite (sum_one O HR n u), (sum_one O HR n j (fun q => nmul O (f u q) (if Nat.eqb q j then n1 O else n0 O))); auto.
      + rewrite !Nat.eqb_refl. ring.
      + intros q Hq Hne. rewrite (proj2 (Nat.eqb_neq q j)) by auto. ring.
      + intros q Hq Hne. rewrite (proj2 (Nat.eqb_neq u q)) by auto. ring. }
  transitivity (nadd O (nsub O (sumn O n (fun k => nmul O (xf i k) (f k j))) (if Nat.eqb i j then n1 O else n0 O)) (if Nat.eqb i j then n1 O else n0 O)); [ring|].
  rewrite K'. ring.
Qed.

Lemma resize_square_wp : forall n (ainv : matrix T) r c g, 0 < n -> is_matrix ainv r c g -> dims_fit n n ->
  wp (mat_resize O ainv (Z.of_nat n) (Z.of_nat n) false) (fun R => exists g', is_matrix R n n g').
Proof.
  intros n ainv r c g Hn0 HV Hd.
  unfold mat_resize. destruct HV as (V1 & V2 & V3 & V4). rewrite V1, V2.
      destruct (Z.eqb_spec (Z.of_nat n) (Z.of_nat r)) as [E1|E1]; destruct (Z.eqb_spec (Z.of_nat n) (Z.of_nat c)) as [E2|E2]; simpl.
      1:{ apply Nat2Z.inj in E1, E2. rewrite <- E1 in V1, V3, V4. rewrite <- E2 in V2, V3, V4. apply wp_Ok. exists g. exact (conj V1 (conj V2 (conj V3 V4))). }
      all: destruct (Z.leb_spec (Z.of_nat n) 0); [lia|]; simpl; rewrite !Nat2Z.id; destruct Hd as (F1 & F2 & F3);
        unfold validate_dims; destruct (Z.ltb_spec 100000 (Z.of_nat n)); try lia; simpl;
        destruct (Z.ltb_spec 100000000 (Z.of_nat n * Z.of_nat n)); try lia; simpl;
        (apply wp_Ok; exists (fun _ _ => n0 O); split; [auto|split; [auto|split; [apply repeat_length|]]];
         intros i j Hi Hj; apply nth_error_repeat; nia). 
Qed.
End Common.

Section LU.
Context {T M : Type} (O : numops T) (HF : field_laws O) (G : magops T M) (HG : mag_laws O G).
Let HR : ring_laws O := field_ring T O HF.
Add Field Tf : HF.
Implicit Types (f a : nat -> nat -> T).

Lemma row_max_wp : forall (A : matrix T) n f i (Q : M -> Prop), is_matrix A n n f -> i < n ->
  (forall m, is_row_max G n f i m -> Q m) -> wp (row_max G A n i) Q.
Proof.
  intros A n f i Q HA Hi HQ. unfold row_max.
  eapply wp_conseq; [|apply (for_range_inv _ _ (fun j0 m => (m = mzero G \/ exists j, j < n /\ m = mabs G (f i j)) /\
     forall j, j < j0 -> mlt G m (mabs G (f i j)) = false))].
  - intros m H. apply HQ. exact H.
  - lia.
  - split; auto. intros; lia.
  - intros j0 m _ Hj [H1 H2]. cbv beta in *. apply wp_bind. eapply mget_wp; eauto. apply wp_Ok.
    destruct (mlt G m (mabs G (f i j0))) eqn:E.
    + split; [right; eauto|]. intros j Hj'. destruct (Nat.eq_dec j j0) as [->|]; [apply (ml_irrefl O G HG)|].
      eapply (ml_trans _ _ HG); [apply (ml_asym _ _ HG); exact E|apply H2; lia].
    + split; auto. intros j Hj'. destruct (Nat.eq_dec j j0) as [->|]; auto. apply H2. lia.
Qed.

Definition scale_ok (n : nat) f (s : nat -> T) : Prop :=
  forall i, i < n -> exists m, is_row_max G n f i m /\ s i = mrec G m.

Lemma lu_scale_wpt : forall (A : matrix T) n f (E : exn -> Prop) (Q : list T * M -> Prop), is_matrix A n n f ->
  (forall i, i < n -> (forall j, j < n -> f i j = n0 O) -> E SingularError) ->
  (forall vv s norm, is_vector vv n s -> scale_ok n f s -> is_max G n f norm ->
     (forall i, i < n -> exists j, j < n /\ f i j <> n0 O) -> Q (vv, norm)) ->
  wpt (lu_scale O G A n) E Q.
Proof.
  intros A n f E Q HA HE HQ. unfold lu_scale.
  eapply wpt_conseq; [|apply (wpt_for_range _ _ _ (fun i0 '(vv, norm) => exists s, is_vector vv n s /\
     (forall i, i < i0 -> (exists m, is_row_max G n f i m /\ s i = mrec G m) /\ exists j, j < n /\ f i j <> n0 O) /\
     (norm = mzero G \/ exists i j, i < n /\ j < n /\ norm = mabs G (f i j)) /\
     forall i j, i < i0 -> j < n -> mlt G norm (mabs G (f i j)) = false))].
  - intros [vv norm] (s & H1 & H2 & H3 & H4). apply (HQ vv s); auto.
    + intros i Hi. apply H2; auto.
    + split; auto.
    + intros i Hi. apply H2; auto.
  - lia.
  - exists (fun _ => n0 O). split; [apply is_vector_repeat|]. split; [intros; lia|]. split; auto. intros; lia.
  - intros i [vv norm] _ Hi (s & H1 & H2 & H3 & H4). cbv beta iota. apply wpt_bind_wp. eapply row_max_wp; eauto.
    intros m Hm. destruct (mlt G (mzero G) m) eqn:Ez; simpl negb; cbv iota.
    + apply wpt_wp. apply wp_bind. eapply vsetf_wp; eauto. intros vv' Hvv'. apply wp_Ok. exists (vfset s i (mrec G m)).
      split; auto. destruct Hm as [Hm1 Hm2]. split; [|split].
      * intros i' Hi'. unfold vfset. destruct (Nat.eqb_spec i' i) as [Heq|]; [|apply H2; lia]. rewrite Heq. split.
        -- exists m. split; auto. split; auto.
        -- destruct Hm1 as [->|(j & Hj & ->)]; [rewrite (ml_irrefl O G HG) in Ez; discriminate|].
           exists j. split; auto. intros F. rewrite F, (ml_zero _ _ HG) in Ez. discriminate.
      * destruct (mlt G norm m); auto. destruct Hm1 as [->|(j & Hj & ->)]; auto. right. eauto.
      * intros i' j Hi' Hj. destruct (mlt G norm m) eqn:En.
        -- destruct (Nat.eq_dec i' i) as [->|]; auto. eapply (ml_trans _ _ HG); [apply (ml_asym _ _ HG); exact En|apply H4; auto; lia].
        -- destruct (Nat.eq_dec i' i) as [->|]; [|apply H4; auto; lia]. eapply (ml_trans _ _ HG); [exact En|auto].
    + apply (HE i Hi). intros j Hj. apply (ml_eq0 _ _ HG). destruct Hm as [Hm1 Hm2].
      eapply (ml_trans _ _ HG); [exact Ez|auto].
Qed.

Lemma lu_pivot_wp : forall (A : matrix T) vv n k a v (Q : M * nat -> Prop), is_matrix A n n a -> is_vector vv n v -> k < n ->
  (forall big p, k <= p -> p < n ->
     (forall i, k <= i -> i < n -> mlt G (mabs G (nmul O (v p) (a p k))) (mabs G (nmul O (v i) (a i k))) = false) -> Q (big, p)) ->
  wp (lu_pivot O G A vv n k) Q.
Proof.
  intros A vv n k a v Q HA HV Hk HQ. unfold lu_pivot.
  eapply wp_conseq; [|apply (for_range_inv _ _ (fun i0 '(big, p) => k <= p /\ p < n /\
     mlt G (mabs G (nmul O (v p) (a p k))) big = false /\
     forall i, k <= i -> i < i0 -> mlt G big (mabs G (nmul O (v i) (a i k))) = false))].
  - intros [big p] (H1 & H2 & H3 & H4). apply HQ; auto. intros i Hi Hi'. eapply (ml_trans _ _ HG); [exact H3|auto].
  - lia.
  - split; [lia|]. split; [lia|]. split; [apply (ml_nonneg _ _ HG)|intros; lia].
  - intros i0 [big p] Hki Hi (H1 & H2 & H3 & H4). cbv beta iota. apply wp_bind. eapply vgetf_wp; eauto. apply wp_bind. eapply mget_wp; eauto.
    apply wp_Ok. destruct (mlt G big (mabs G (nmul O (v i0) (a i0 k)))) eqn:E.
    + split; [lia|]. split; [lia|]. split; [apply (ml_irrefl O G HG)|]. intros i Hi1 Hi2.
      destruct (Nat.eq_dec i i0) as [->|]; [apply (ml_irrefl O G HG)|].
      eapply (ml_trans _ _ HG); [apply (ml_asym _ _ HG); exact E|apply H4; lia].
    + split; [lia|]. split; [lia|]. split; auto. intros i Hi1 Hi2. destruct (Nat.eq_dec i i0) as [->|]; auto. apply H4; lia.
Qed.

Lemma lu_elim_wp : forall (A : matrix T) n k b (Q : matrix T -> Prop), is_matrix A n n b -> k < n ->
  (forall A', is_matrix A' n n (eliml O b k) -> Q A') -> wp (lu_elim O A n k) Q.
Proof.
  intros A n k b Q HA Hk HQ. unfold lu_elim.
  eapply wp_conseq; [|apply (for_range_inv _ _ (fun i0 A => is_matrix A n n (fun i j => if i <? i0 then eliml O b k i j else b i j)))].
  - intros A' H. apply HQ. eapply is_matrix_ext; [exact H|]. intros i j Hi Hj. cbv beta. ltb.
  - lia.
  - eapply is_matrix_ext; [exact HA|]. intros i j Hi Hj. cbv beta. unfold eliml. ltb.
  - intros i0 A1 Hi0 Hi H1. cbv beta in *.
    apply wp_bind. eapply mget_wp; eauto. apply wp_bind. eapply mget_wp; eauto. cbv beta zeta.
    rewrite Nat.ltb_irrefl. rewrite (proj2 (Nat.ltb_lt k i0)) by lia.
    replace (eliml O b k k k) with (b k k) by (unfold eliml; rewrite Nat.ltb_irrefl; auto).
    set (t := ndiv O (b i0 k) (b k k)).
    apply wp_bind. eapply mset_wp; eauto. intros A2 H2.
    eapply wp_conseq; [|apply (for_range_inv _ _ (fun j0 A => is_matrix A n n (fun i j =>
       if i <? i0 then eliml O b k i j else if Nat.eqb i i0 then
         (if Nat.eqb j k then t else if (k <? j) && (j <? j0) then nsub O (b i j) (nmul O t (b k j)) else b i j) else b i j)))].
    + intros A3 H3. eapply is_matrix_ext; [exact H3|]. intros i j Hi' Hj. cbv beta. destruct (Nat.ltb_spec i i0) as [L|L].
      * destruct (Nat.ltb_spec i (i0 + 1)); [auto|lia].
      * destruct (Nat.eqb_spec i i0) as [->|Hne].
        -- destruct (Nat.ltb_spec i0 (i0 + 1)); [|lia]. rewrite (proj2 (Nat.ltb_lt j n)), andb_true_r by auto.
           unfold eliml. destruct (Nat.ltb_spec k i0); [|lia]. auto.
        -- destruct (Nat.ltb_spec i (i0 + 1)); [lia|auto].
    + lia.
    + eapply is_matrix_ext; [exact H2|]. intros i j Hi' Hj. unfold fset. cbv beta. destruct (Nat.eqb_spec i i0) as [->|Hne]; simpl; auto.
      rewrite Nat.ltb_irrefl. destruct (Nat.eqb_spec j k); auto. destruct (Nat.ltb_spec k j); simpl; auto. destruct (Nat.ltb_spec j (k + 1)); auto; lia.
    + intros j0 A3 Hj0 Hj H3. cbv beta in *. apply wp_bind. eapply mget_wp; eauto. apply wp_bind. eapply mget_wp; [exact H3|lia|lia|]. eapply mset_wp; eauto.
      intros A4 H4. eapply is_matrix_ext; [exact H4|]. intros i j Hi' Hj'. unfold fset. cbv beta.
      rewrite Nat.ltb_irrefl, Nat.eqb_refl, (proj2 (Nat.ltb_lt k i0)) by lia.
      replace (eliml O b k k j0) with (b k j0) by (unfold eliml; rewrite Nat.ltb_irrefl; auto).
      rewrite (proj2 (Nat.eqb_neq j0 k)) by lia. rewrite Nat.ltb_irrefl, andb_false_r.
      destruct (Nat.eqb_spec i i0) as [->|Hne]; simpl; auto. rewrite Nat.ltb_irrefl.
      destruct (Nat.eqb_spec j j0) as [->|Hnj].
      * destruct (Nat.eqb_spec j0 k); [lia|]. destruct (Nat.ltb_spec k j0); [|lia]. destruct (Nat.ltb_spec j0 (j0 + 1)); [auto|lia].
      * destruct (Nat.eqb_spec j k); auto. destruct (Nat.ltb_spec k j); simpl; auto.
        destruct (Nat.ltb_spec j j0); destruct (Nat.ltb_spec j (j0 + 1)); auto; lia.
Qed.

(** what a constructed solver contains: a decomposition of f *)
Definition decomposes (n : nat) f (S : lu_solver T) : Prop :=
  lu_n S = n /\ exists a idx, is_matrix (lu_m S) n n a /\ is_vector (lu_indx S) n idx /\ lu_inv O n f n a idx (lu_d S).

Definition ctor_throws (n : nat) f (e : exn) : Prop :=
  e = SingularError /\
  ((exists i, i < n /\ forall j, j < n -> f i j = n0 O) \/
   exists s t, scale_ok n f s /\ is_max G n f t /\ scaled_nearly_singular O G n f s (mthr G t n)).

Lemma lu_ctor_wpt : forall (A : matrix T) n f, is_matrix A n n f -> 0 < n ->
  wpt (lu_ctor O G A) (ctor_throws n f) (decomposes n f).
Proof.
  intros A n f HA Hn. unfold lu_ctor. pose proof HA as (Hr & Hc & _).
  rewrite Hr, Hc, Nat.eqb_refl, (proj2 (Nat.eqb_neq n 0)) by lia. simpl negb. cbv iota.
  apply wpt_bind. eapply lu_scale_wpt; eauto.
  { intros i Hi Hz. split; auto. left. exists i. auto. }
  intros vv s norm Hvv Hs Hnorm Hrows. cbv beta iota.
  assert (Hthr : mlt G (mzero G) (mthr G norm n) = true).
  { apply (ml_thr _ _ HG); auto. destruct (Hrows 0 Hn) as (j & Hj & Hne). apply (is_max_pos O G HG n f norm 0 j); auto. }
  apply wpt_bind.
  eapply wpt_conseq; [|apply (wpt_for_range _ _ _ (fun k '(A, vv, indx, d) => exists a v idx,
     is_matrix A n n a /\ is_vector vv n v /\ is_vector indx n idx /\ lu_inv O n f k a idx d /\
     forall i, k <= i -> i < n -> v i = s (perm k idn idx i)))].
  - intros [[[A' vv'] indx] d] (a & v & idx & H1 & H2 & H3 & H4 & H5). apply wpt_wp. apply wp_Ok. split; auto. exists a, idx. auto.
  - lia.
  - exists f, s, (fun _ => 0). split; auto. split; auto. split; [apply is_vector_repeat|]. split; [apply (lu_init O HF)|auto].
  - intros k [[[A1 vv1] indx] d] _ Hk (a & v & idx & H1 & H2 & H3 & H4 & H5). cbv beta iota.
    apply wpt_bind_wp. eapply lu_pivot_wp; eauto. intros big p Hkp Hp Hmax. cbv beta iota.
    apply wpt_bind_wp.
    assert (SW : wp (if Nat.eqb k p then Ok (A1, vv1, d)
                      else A <- swap_rows A1 n p k ;;
                           v <- vget vv1 k ;; vv <- vset vv1 p v ;; Ok (A, vv, nopp O d))
      (fun '(A2, vv2, d2) => is_matrix A2 n n (swapped a k p) /\ d2 = (if Nat.eqb k p then d else nopp O d) /\
         exists v2, is_vector vv2 n v2 /\ forall i, k < i -> i < n -> v2 i = v (tr k p i))).
    { destruct (Nat.eqb_spec k p) as [<-|Hne].
      - apply wp_Ok. split; [|split; auto].
        + eapply is_matrix_ext; [exact H1|]. intros i j Hi Hj. unfold swapped. replace (tr k k i) with i; auto.
          unfold tr. destruct (Nat.eqb_spec i k); auto.
        + exists v. split; auto. intros i Hi _. rewrite tr_other by lia. auto.
      - apply wp_bind. eapply swap_rows_wp; eauto. intros A2 HA2. apply wp_bind. eapply vgetf_wp; eauto.
        apply wp_bind. eapply vsetf_wp; eauto. intros vv2 Hvv2. apply wp_Ok. split; [|split; auto].
        + eapply is_matrix_ext; [exact HA2|]. intros i j Hi Hj. unfold swapped. rewrite tr_sym. auto.
        + eexists. split; [exact Hvv2|]. intros i Hi Hi'. unfold vfset, tr. rewrite (proj2 (Nat.eqb_neq i k)) by lia.
          destruct (Nat.eqb_spec i p); auto. }
    eapply wp_conseq; [|exact SW]. intros [[A2 vv2] d2] (HA2 & -> & v2 & Hv2 & Ev2). cbv beta iota.
    apply wpt_bind_wp. eapply vsetf_wp; eauto. intros indx' Hix. apply wpt_bind_wp. eapply mget_wp; eauto.
    assert (Epk : swapped a k p k k = a p k) by (unfold swapped, tr; rewrite Nat.eqb_refl; auto). rewrite Epk.
    destruct (mlt G (mabs G (a p k)) (mthr G norm n)) eqn:E.
    + split; auto. right. exists s, norm. split; auto. split; auto.
      destruct (lu_residual O HF n f k a idx d H4 Hk) as (x & X1 & X2).
      assert (Hb : forall l, l < k -> idn l < n /\ idx l < n) by (intros l Hl; pose proof (l_idx _ _ _ _ _ _ _ H4 l Hl); unfold idn; lia).
      exists x, (perm k idn idx p). split; [exists k; split; auto|]. split; [apply perm_lt; auto|].
      rewrite X2 by auto. destruct (Nat.ltb_spec p k); [lia|]. split; auto.
      intros i Hi. rewrite <- H5 by lia. assert (Hpi : perm_inv k idn idx i < n) by (apply perm_inv_lt; auto).
      rewrite <- (perm_perm_inv k idn idx i). rewrite X2 by auto. destruct (Nat.ltb_spec (perm_inv k idn idx i) k) as [L|L].
      * replace (nmul O (s (perm k idn idx (perm_inv k idn idx i))) (n0 O)) with (n0 O) by ring.
        eapply (ml_trans _ _ HG); [apply (ml_nonneg _ _ HG)|apply (ml_zero _ _ HG)].
      * rewrite <- H5 by auto. apply Hmax; auto.
    + assert (Hne : a p k <> n0 O) by (eapply (ml_not_zero O G HG); eauto).
      apply wpt_bind_wp. eapply lu_elim_wp; eauto. intros A3 HA3. apply wpt_wp. apply wp_Ok.
      exists (eliml O (swapped a k p) k), v2, (vfset idx k p). split; [auto|]. split; [auto|]. split; [auto|]. split.
      * apply (lu_step O HF); auto.
      * intros i Hi Hi'. rewrite Ev2 by lia. rewrite H5.
        -- replace (k + 1) with (Datatypes.S k) by lia. cbn [perm]. unfold idn at 2. unfold vfset at 2. rewrite Nat.eqb_refl.
           f_equal. apply perm_ext. intros l Hl. unfold vfset. rewrite (proj2 (Nat.eqb_neq l k)) by lia. auto.
        -- unfold tr. rewrite (proj2 (Nat.eqb_neq i k)) by lia. destruct (Nat.eqb_spec i p); lia.
        -- apply tr_lt; lia.
Qed.

(** ** Substitution *)
Lemma acc_sub_wp : forall (lo hi : nat) (g : nat -> T) (step : T -> nat -> res T) s0 (Q : T -> Prop), lo <= hi ->
  (forall s j, lo <= j -> j < hi -> wp (step s j) (fun s' => s' = nsub O s (g j))) ->
  Q (nsub O s0 (nsub O (sumn O hi g) (sumn O lo g))) -> wp (for_range lo hi step s0) Q.
Proof.
  intros lo hi g step s0 Q Hle Hstep HQ.
  eapply wp_conseq; [|apply (for_range_inv _ _ (fun j s => s = nsub O s0 (nsub O (sumn O j g) (sumn O lo g))))].
  - intros s ->. auto.
  - auto.
  - ring.
  - intros j s H1 H2 ->. cbv beta. eapply wp_conseq; [|apply Hstep; auto]. intros s' ->. replace (j + 1) with (Datatypes.S j) by lia. simpl. ring.
Qed.

Lemma forward_wp : forall n f S x b (Q : list T -> Prop), decomposes n f S -> is_vector x n b ->
  (forall x' y a idx, is_matrix (lu_m S) n n a -> lu_inv O n f n a idx (lu_d S) -> is_vector x' n y ->
     (forall i, i < n -> nadd O (sumn O i (fun q => nmul O (a i q) (y q))) (y i) = b (perm n idn idx i)) -> Q x') ->
  wp (lu_forward O G S x) Q.
Proof.
  intros n f S x b Q (Hn & a & idx & HA & HI & HL) Hx HQ. unfold lu_forward. rewrite Hn.
  pose proof (l_idx _ _ _ _ _ _ _ HL) as Hb.
  apply wp_bind.
  eapply wp_conseq; [|apply (for_range_inv _ _ (fun i '(x, ii) => exists y,
     is_vector x n (fun j => if j <? i then y j else b (perm i idn idx j)) /\
     (forall q, q < i -> nadd O (sumn O q (fun r => nmul O (a q r) (y r))) (y q) = b (perm (q + 1) idn idx q)) /\
     ii <= i /\ forall q, q < i -> (ii = 0 \/ q < ii - 1) -> y q = n0 O))].
  - intros [x' ii] (y & H1 & H2 & _). apply wp_Ok. apply (HQ x' y a idx); auto.
    + eapply is_vector_ext; [exact H1|]. intros j Hj. cbv beta. ltb.
    + intros i Hi. rewrite H2 by auto. f_equal. symmetry. apply (perm_stable idx n n i); auto. intros l Hl. apply Hb. auto.
  - lia.
  - exists (fun _ => n0 O). split; [eapply is_vector_ext; [exact Hx|]; intros; cbv beta; auto|]. split; [intros; lia|]. split; [lia|intros; lia].
  - intros i [x1 ii] _ Hi (y & H1 & H2 & H3 & H4). cbv beta iota. destruct (Hb i Hi) as [B1 B2].
    apply wp_bind. eapply vgetf_wp; eauto. apply wp_bind. eapply vgetf_wp; eauto. cbv beta.
    destruct (Nat.ltb_spec (idx i) i); [lia|]. apply wp_bind. eapply vgetf_wp; eauto. cbv beta. rewrite Nat.ltb_irrefl.
    apply wp_bind. eapply vsetf_wp; eauto. intros x2 Hx2.
    set (s0 := b (perm i idn idx (idx i))).
    assert (SS : wp (if negb (Nat.eqb ii 0) then
                     s <- for_range (ii - 1) i (fun s j =>
                            l <- mget (lu_m S) i j ;; y <- vget x2 j ;; Ok (nsub O s (nmul O l y))) s0 ;;
                     Ok (s, ii)
                   else Ok (s0, if mlt G (mzero G) (mabs G s0) then i + 1 else ii))
       (fun '(s, ii') => s = nsub O s0 (sumn O i (fun q => nmul O (a i q) (y q))) /\ ii' <= i + 1 /\
          forall q, q < i + 1 -> (ii' = 0 \/ q < ii' - 1) -> vfset y i s q = n0 O)).
    { destruct (Nat.eqb_spec ii 0) as [->|Hii]; simpl negb; cbv iota.
      - assert (Z : sumn O i (fun q => nmul O (a i q) (y q)) = n0 O).
        { apply (sum_zero O HR). intros q Hq. rewrite H4 by auto. ring. }
        apply wp_Ok. rewrite Z. split; [ring|]. destruct (mlt G (mzero G) (mabs G s0)) eqn:E.
        + split; [lia|]. intros q Hq [F|F]; [lia|]. unfold vfset. rewrite (proj2 (Nat.eqb_neq q i)) by lia. apply H4; auto. lia.
        + split; [lia|]. intros q Hq _. unfold vfset. destruct (Nat.eqb_spec q i); [apply (ml_eq0 _ _ HG); auto|]. apply H4; auto. lia.
      - apply wp_bind. apply (acc_sub_wp (ii - 1) i (fun j => nmul O (a i j) (y j))); [lia| |].
        + intros s j Hj1 Hj2. apply wp_bind. eapply mget_wp; eauto; [lia|]. apply wp_bind. eapply vgetf_wp; eauto; [lia|]. cbv beta.
          unfold vfset. rewrite (proj2 (Nat.eqb_neq j (idx i))) by lia. destruct (Nat.ltb_spec j i); [|lia]. apply wp_Ok. auto.
        + apply wp_Ok. rewrite (sum_zero O HR (ii - 1)).
          * split; [ring|]. split; [lia|]. intros q Hq [F|F]; [lia|]. unfold vfset. rewrite (proj2 (Nat.eqb_neq q i)) by lia. apply H4; auto. lia.
          * intros q Hq. rewrite H4 by lia. ring. }
    apply wp_bind. eapply wp_conseq; [|exact SS]. intros [s ii'] (Es & Hii' & Hz). cbv beta iota.
    apply wp_bind. eapply vsetf_wp; eauto. intros x3 Hx3. apply wp_Ok. exists (vfset y i s).
    split; [|split; [|split; [auto|exact Hz]]].
    + eapply is_vector_ext; [exact Hx3|]. intros j Hj. unfold vfset. cbv beta. destruct (Nat.eqb_spec j i) as [->|Hne].
      * destruct (Nat.ltb_spec i (i + 1)); [auto|lia].
      * rewrite perm_next. unfold tr. rewrite (proj2 (Nat.eqb_neq j i)) by auto.
        destruct (Nat.eqb_spec j (idx i)) as [->|Hj'].
        -- destruct (Nat.ltb_spec (idx i) (i + 1)); [lia|auto].
        -- destruct (Nat.ltb_spec j i); destruct (Nat.ltb_spec j (i + 1)); auto; lia.
    + intros q Hq. rewrite (sum_ext O q _ (fun r => nmul O (a q r) (y r))).
      * unfold vfset. destruct (Nat.eqb_spec q i) as [->|Hne].
        -- rewrite Es, perm_next. unfold tr. rewrite Nat.eqb_refl. unfold s0. ring.
        -- apply H2. lia.
      * intros r Hr. unfold vfset. rewrite (proj2 (Nat.eqb_neq r i)) by lia. auto.
Qed.

Lemma backward_wp : forall n S x y a (Q : list T -> Prop), lu_n S = n -> is_matrix (lu_m S) n n a ->
  (forall q, q < n -> a q q <> n0 O) -> is_vector x n y ->
  (forall x' xf, is_vector x' n xf -> (forall i, i < n -> sumn O n (fun j => nmul O (U O n a i j) (xf j)) = y i) -> Q x') ->
  wp (lu_backward O S x) Q.
Proof.
  intros n S x y a Q Hn HA Hnz Hx HQ. unfold lu_backward. rewrite Hn.
  eapply wp_conseq; [|apply (for_down_inv _ _ (fun i x => exists xf,
     is_vector x n (fun j => if j <? i then y j else xf j) /\
     forall r, i <= r -> r < n -> sumn O n (fun j => nmul O (U O n a r j) (xf j)) = y r))].
  - intros x' (xf & H1 & H2). apply (HQ x' xf); [|intros i Hi; apply H2; lia].
    eapply is_vector_ext; [exact H1|]. intros j Hj. cbv beta. auto.
  - lia.
  - exists (fun _ => n0 O). split; [|intros; lia]. eapply is_vector_ext; [exact Hx|]. intros j Hj. cbv beta. ltb.
  - intros i x1 _ Hi (xf & H1 & H2). cbv beta. apply wp_bind. eapply vgetf_wp; eauto. cbv beta.
    destruct (Nat.ltb_spec i (i + 1)); [|lia]. apply wp_bind.
    apply (acc_sub_wp (i + 1) n (fun j => nmul O (a i j) (xf j))); [lia| |].
    { intros s j Hj1 Hj2. apply wp_bind. eapply mget_wp; eauto. apply wp_bind. eapply vgetf_wp; eauto. cbv beta.
      destruct (Nat.ltb_spec j (i + 1)); [lia|]. apply wp_Ok. auto. }
    apply wp_bind. eapply mget_wp; eauto. eapply vsetf_wp; eauto. intros x2 Hx2.
    set (s := nsub O (y i) (nsub O (sumn O n (fun j => nmul O (a i j) (xf j))) (sumn O (i + 1) (fun j => nmul O (a i j) (xf j))))) in *.
    exists (vfset xf i (ndiv O s (a i i))). split.
    + eapply is_vector_ext; [exact Hx2|]. intros j Hj. unfold vfset. cbv beta. destruct (Nat.eqb_spec j i) as [->|Hne].
      * rewrite Nat.ltb_irrefl. auto.
      * destruct (Nat.ltb_spec j (i + 1)); destruct (Nat.ltb_spec j i); auto; lia.
    + intros r Hr1 Hr2. destruct (Nat.eq_dec r i) as [->|Hne].
      * rewrite (sum_split O HR n i) by auto. unfold vfset at 1. rewrite Nat.eqb_refl.
        rewrite (sum_ext O n _ (fun j => if j <? i + 1 then n0 O else nmul O (a i j) (xf j))).
        -- rewrite (sum_upper O HF n (i + 1)) by lia. unfold U at 1. rewrite Nat.min_l by lia. rewrite Nat.ltb_irrefl.
           unfold s. field. apply Hnz; auto.
        -- intros j Hj. unfold vfset. destruct (Nat.eqb_spec j i) as [->|Hj'].
           ++ destruct (Nat.ltb_spec i (i + 1)); [auto|lia].
           ++ unfold U. rewrite Nat.min_l by lia. destruct (Nat.ltb_spec j i); destruct (Nat.ltb_spec j (i + 1)); try lia; auto. ring.
      * rewrite <- (H2 r) by lia. apply sum_ext. intros j Hj. unfold vfset. destruct (Nat.eqb_spec j i) as [->|]; auto.
        unfold U. rewrite Nat.min_l by lia. destruct (Nat.ltb_spec i r); [ring|lia].
Qed.

(** x solves f x = b, and nothing else does *)
Definition solution (n : nat) f (b x : nat -> T) : Prop :=
  (forall i, i < n -> sumn O n (fun k => nmul O (f i k) (x k)) = b i) /\
  (forall y, (forall i, i < n -> sumn O n (fun k => nmul O (f i k) (y k)) = b i) -> forall i, i < n -> y i = x i).

Lemma solve_into_wp : forall n f S b x bf xf (Q : bool * list T -> Prop), decomposes n f S -> is_vector b n bf -> is_vector x n xf ->
  (forall x' x'f, is_vector x' n x'f -> solution n f bf x'f -> Q (true, x')) ->
  wp (lu_solve_into O G S b x) Q.
Proof.
  intros n f S b x bf xf Q HD Hb Hx HQ. unfold lu_solve_into. pose proof HD as (Hn & _). pose proof Hb as [Lb _]. pose proof Hx as [Lx _].
  rewrite Hn, Lb, Lx, Nat.eqb_refl. simpl orb. cbv iota.
  apply wp_bind. eapply wp_conseq; [|apply (for_range_inv _ _ (fun i x => is_vector x n (fun j => if j <? i then bf j else xf j)))].
  - intros x1 H1. cbv beta. apply wp_bind. eapply (forward_wp n f S x1 bf); eauto.
    { eapply is_vector_ext; [exact H1|]. intros j Hj. cbv beta. ltb. }
    intros x2 y a idx HA HL H2 Hy. apply wp_bind. eapply (backward_wp n S x2 y a); eauto; [apply (l_nz _ _ _ _ _ _ _ HL)|].
    intros x3 x3f H3 H4. apply wp_Ok. apply (HQ x3 x3f H3).
    assert (Hsol := lu_solution O HF n f a idx (lu_d S) HL bf y x3f Hy H4). split; auto.
    intros z Hz i Hi. assert (E := lu_kernel O HF n f a idx (lu_d S) HL (fun k => nsub O (z k) (x3f k))).
    assert (E' : nsub O (z i) (x3f i) = n0 O).
    { apply E; auto. intros r Hr. transitivity (nsub O (bf r) (bf r)); [|ring]. rewrite <- (Hz r Hr) at 1. rewrite <- (Hsol r Hr).
      rewrite <- (sum_sub O HR). apply sum_ext. intros k Hk. ring. }
    transitivity (nadd O (nsub O (z i) (x3f i)) (x3f i)); [ring|]. rewrite E'. ring.
  - lia.
  - eapply is_vector_ext; [exact Hx|]. intros; cbv beta; auto.
  - intros i x1 _ Hi H1. cbv beta in *. apply wp_bind. eapply vgetf_wp; eauto. eapply vsetf_wp; eauto. intros x2 H2.
    eapply is_vector_ext; [exact H2|]. intros j Hj. unfold vfset. cbv beta. ltb.
Qed.

(** ** The theorems *)
Theorem C35_constructor : forall (A : matrix T) n f, is_matrix A n n f -> 0 < n ->
  (exists S, lu_ctor O G A = Ok S) \/ (lu_ctor O G A = Throw SingularError /\ ctor_throws n f SingularError).
Proof.
  intros A n f HA Hn. pose proof (lu_ctor_wpt A n f HA Hn) as W. destruct (lu_ctor O G A) as [S|e| |]; simpl in W; try contradiction; eauto.
  pose proof W as [-> _]. auto.
Qed.

Theorem C35_solve : forall (A : matrix T) n f S (b : list T) bf,
  is_matrix A n n f -> lu_ctor O G A = Ok S -> is_vector b n bf ->
  exists x xf, lu_solve O G S b = Ok x /\ is_vector x n xf /\ solution n f bf xf.
Proof.
  intros A n f S b bf HA HS Hb.
  assert (HD : decomposes n f S).
  { destruct n as [|n]; [|pose proof (lu_ctor_wpt A _ f HA (Nat.lt_0_succ n)) as W; rewrite HS in W; exact W].
    exfalso. revert HS. unfold lu_ctor. destruct HA as (-> & -> & _). simpl. discriminate. }
  pose proof Hb as [Lb _].
  assert (W : wp (lu_solve O G S b) (fun x => exists xf, is_vector x n xf /\ solution n f bf xf)).
  { unfold lu_solve. rewrite Lb. apply wp_bind. eapply solve_into_wp; eauto; [apply is_vector_repeat|].
    intros x xf Hx Hs. apply wp_Ok. exists xf. auto. }
  destruct (lu_solve O G S b) as [x|e| |]; simpl in W; try contradiction. destruct W as (xf & W1 & W2). exists x, xf. auto.
Qed.

Lemma ctor_decomposes : forall (A : matrix T) n f S, is_matrix A n n f -> lu_ctor O G A = Ok S -> decomposes n f S.
Proof.
  intros A n f S HA HS. destruct n as [|n]; [|pose proof (lu_ctor_wpt A _ f HA (Nat.lt_0_succ n)) as W; rewrite HS in W; exact W].
  exfalso. revert HS. unfold lu_ctor. destruct HA as (-> & -> & _). simpl. discriminate.
Qed.

(** every singular matrix is rejected *)
Theorem C35_singular_throws : forall (A : matrix T) n f, is_matrix A n n f -> 0 < n -> singular O n f ->
  lu_ctor O G A = Throw SingularError.
Proof.
  intros A n f HA Hn (x & (i & Hi & Hx) & Hz). destruct (C35_constructor A n f HA Hn) as [(S & HS)|[E _]]; auto.
  exfalso. apply Hx. destruct (ctor_decomposes A n f S HA HS) as (_ & a & idx & _ & _ & HL).
  apply (lu_kernel O HF n f a idx (lu_d S) HL x Hz i Hi).
Qed.

Theorem C35_bad_shape : forall (A : matrix T) r c f, is_matrix A r c f -> r <> c \/ r = 0 -> lu_ctor O G A = Throw DimensionError.
Proof.
  intros A r c f (Hr & Hc & _) H. unfold lu_ctor. rewrite Hr, Hc. destruct (Nat.eqb_spec r c); simpl; auto.
  destruct (Nat.eqb_spec r 0); auto. lia.
Qed.

Theorem C35_determinant : forall (A : matrix T) n f S,
  is_matrix A n n f -> lu_ctor O G A = Ok S -> lu_det O S = Ok (det O n f).
Proof.
  intros A n f S HA HS. destruct (ctor_decomposes A n f S HA HS) as (Hn & a & idx & Ha & _ & HL).
  assert (W : wp (lu_det O S) (fun d => d = det O n f)).
  { unfold lu_det. rewrite Hn.
    eapply wp_conseq; [|apply (for_range_inv _ _ (fun i d => d = nmul O (lu_d S) (prodn O i (fun i => a i i))))].
    - intros d ->. apply (lu_det_end O HF n f a idx); auto.
    - lia.
    - simpl. ring.
    - intros i d _ Hi ->. cbv beta. apply wp_bind. eapply mget_wp; eauto. apply wp_Ok. replace (i + 1) with (Datatypes.S i) by lia. simpl. ring. }
  destruct (lu_det O S) as [d|e| |]; simpl in W; try contradiction. subst. auto.
Qed.

(** ** Several right-hand sides *)
Lemma column_wp : forall n m f S (R : matrix T) rf j xx v (Q : list T -> Prop),
  decomposes n f S -> is_matrix R n m rf -> j < m -> is_vector xx n v ->
  (forall x xf, is_vector x n xf -> solution n f (fun i => rf i j) xf -> Q x) -> wp (lu_column O G S R n j xx) Q.
Proof.
  intros n m f S R rf j xx v Q HD HR' Hj Hxx HQ. unfold lu_column. apply wp_bind.
  eapply wp_conseq; [|apply (for_range_inv _ _ (fun i x => is_vector x n (fun r => if r <? i then rf r j else v r)))].
  - intros x1 H1. cbv beta.
    assert (H1' : is_vector x1 n (fun i => rf i j)).
    { eapply is_vector_ext; [exact H1|]. intros r Hr. cbv beta. ltb. }
    apply wp_bind. apply (solve_into_wp n f S x1 x1 _ _ _ HD H1' H1'). intros x xf Hx Hs. cbv beta iota. apply wp_Ok. eauto.
  - lia.
  - eapply is_vector_ext; [exact Hxx|]. intros; cbv beta; auto.
  - intros i x1 _ Hi H1. cbv beta in *. apply wp_bind. eapply mget_wp; eauto. eapply vsetf_wp; eauto. intros x2 H2.
    eapply is_vector_ext; [exact H2|]. intros r Hr. unfold vfset. cbv beta. ltb.
Qed.

Lemma put_column_wp : forall n m (Out : matrix T) g j xx v (Q : matrix T -> Prop),
  is_matrix Out n m g -> j < m -> is_vector xx n v ->
  (forall Out', is_matrix Out' n m (fun i l => if Nat.eqb l j then v i else g i l) -> Q Out') -> wp (put_column Out n j xx) Q.
Proof.
  intros n m Out g j xx v Q HO Hj Hxx HQ. unfold put_column.
  eapply wp_conseq; [|apply (for_range_inv _ _ (fun i0 R => is_matrix R n m (fun i l => if Nat.eqb l j && (i <? i0) then v i else g i l)))].
  - intros R H. apply HQ. eapply is_matrix_ext; [exact H|]. intros i l Hi Hl. cbv beta. ltb.
  - lia.
  - eapply is_matrix_ext; [exact HO|]. intros; cbv beta. rewrite andb_false_r. auto.
  - intros i0 R _ Hi H. cbv beta in *. apply wp_bind. eapply vgetf_wp; eauto. eapply mset_wp; eauto. intros R' HR'.
    eapply is_matrix_ext; [exact HR'|]. intros i l Hi' Hl. unfold fset. cbv beta. ltb.
Qed.

(** the columns of x are the unique solutions for the columns of b *)
Definition mat_solution (n m : nat) f (b x : nat -> nat -> T) : Prop :=
  forall l, l < m -> solution n f (fun i => b i l) (fun i => x i l).

Theorem C35_solve_matrix : forall (A : matrix T) n f S (R Out : matrix T) m rf g,
  is_matrix A n n f -> lu_ctor O G A = Ok S -> is_matrix R n m rf -> is_matrix Out n m g ->
  exists X xf, lu_solve_mat O G S R Out = Ok X /\ is_matrix X n m xf /\ mat_solution n m f rf xf.
Proof.
  intros A n f S R Out m rf g HA HS HRm HO. pose proof (ctor_decomposes A n f S HA HS) as HD.
  assert (W : wp (lu_solve_mat O G S R Out) (fun X => exists xf, is_matrix X n m xf /\ mat_solution n m f rf xf)).
  { unfold lu_solve_mat. pose proof HD as (Hn & _). pose proof HRm as (R1 & R2 & _). pose proof HO as (O1 & O2 & _).
    rewrite Hn, R1, R2, O1, O2, !Nat.eqb_refl. simpl negb. simpl orb. cbv iota. apply wp_bind.
    eapply wp_conseq; [|apply (for_range_inv _ _ (fun j0 '(Out, xx) => exists xf v, is_matrix Out n m xf /\ is_vector xx n v /\
       forall l, l < j0 -> solution n f (fun i => rf i l) (fun i => xf i l)))].
    - intros [X xx] (xf & v & H1 & _ & H2). apply wp_Ok. exists xf. auto.
    - lia.
    - exists g, (fun _ => n0 O). split; [auto|split; [apply is_vector_repeat|intros; lia]].
    - intros j [X xx] _ Hj (xf & v & H1 & H2 & H3). cbv beta iota. apply wp_bind. eapply column_wp; eauto. intros x xf' Hx Hs.
      apply wp_bind. eapply put_column_wp; eauto. intros X' HX'. apply wp_Ok. eexists. exists xf'. split; [exact HX'|split; [auto|]].
      intros l Hl. cbv beta. destruct (Nat.eqb_spec l j) as [->|]; auto. apply H3. lia. }
  destruct (lu_solve_mat O G S R Out) as [X|e| |]; simpl in W; try contradiction. destruct W as (xf & W1 & W2). exists X, xf. auto.
Qed.

(** LUSolverInPlace::Solve(matRHS) allocates the result itself *)
Theorem C35_solve_matrix_new : forall (A : matrix T) n f S (R : matrix T) m rf,
  is_matrix A n n f -> lu_ctor O G A = Ok S -> is_matrix R n m rf -> dims_fit n m -> 0 < m ->
  exists X xf, lu_solve_new O G S R = Ok X /\ is_matrix X n m xf /\ mat_solution n m f rf xf.
Proof.
  intros A n f S R m rf HA HS HRm Hd Hm. pose proof (ctor_decomposes A n f S HA HS) as HD.
  assert (Hn0 : 0 < n).
  { destruct n; [|lia]. exfalso. revert HS. unfold lu_ctor. destruct HA as (-> & -> & _). simpl. discriminate. }
  unfold lu_solve_new. pose proof HD as (Hn & _). pose proof HRm as (R1 & R2 & _). rewrite Hn, R1, R2, Nat.eqb_refl. simpl negb. cbv iota.
  assert (W : wp (mat_new O (Z.of_nat n) (Z.of_nat m)) (fun Out => is_matrix Out n m (fun _ _ => n0 O))).
  { unfold mat_new. destruct (Z.ltb_spec (Z.of_nat n) 0); [lia|]. destruct (Z.ltb_spec (Z.of_nat m) 0); [lia|]. simpl. rewrite !Nat2Z.id.
    apply alloc_ok_wp; auto. split; auto. lia. }
  destruct (mat_new O (Z.of_nat n) (Z.of_nat m)) as [Out|e| |]; simpl in W; try contradiction. cbn [bind].
  eapply C35_solve_matrix; eauto.
Qed.

Theorem C35_inverse : forall (A : matrix T) n f S (ainv : matrix T) r c g,
  is_matrix A n n f -> lu_ctor O G A = Ok S -> is_matrix ainv r c g -> dims_fit n n ->
  exists X xf, lu_inverse O G S ainv = Ok X /\ is_matrix X n n xf /\ inverse_of O n f xf.
Proof.
  intros A n f S ainv r c g HA HS HV Hd. pose proof (ctor_decomposes A n f S HA HS) as HD.
  assert (Hn0 : 0 < n).
  { destruct n; [|lia]. exfalso. revert HS. unfold lu_ctor. destruct HA as (-> & -> & _). simpl. discriminate. }
  assert (W : wp (lu_inverse O G S ainv) (fun X => exists xf, is_matrix X n n xf /\
     mat_solution n n f (fun i j => if Nat.eqb i j then n1 O else n0 O) xf)).
  { unfold lu_inverse. pose proof HD as (Hn & _). rewrite Hn. apply wp_bind.
    eapply wp_conseq; [|eapply (resize_square_wp O n ainv r c g); eauto]. intros R (g' & HRm). apply wp_bind.
    eapply wp_conseq; [|apply (for_range_inv _ _ (fun i0 R => is_matrix R n n (fun i j => if i <? i0 then (if Nat.eqb i j then n1 O else n0 O) else g' i j)))].
    - intros R2 H2. cbv beta.
      assert (H2' : is_matrix R2 n n (fun i j => if Nat.eqb i j then n1 O else n0 O)).
      { eapply is_matrix_ext; [exact H2|]. intros i j Hi Hj. cbv beta. rewrite (proj2 (Nat.ltb_lt i n)) by auto. auto. }
      unfold lu_solve_mat_alias. pose proof H2' as (R1 & R3 & _). rewrite Hn, R1, R3, Nat.eqb_refl. simpl negb. cbv iota. apply wp_bind.
      eapply wp_conseq; [|apply (for_range_inv _ _ (fun j0 '(X, xx) => exists xf v, is_matrix X n n xf /\ is_vector xx n v /\
         (forall l, l < j0 -> solution n f (fun i => if Nat.eqb i l then n1 O else n0 O) (fun i => xf i l)) /\
         (forall i l, j0 <= l -> xf i l = if Nat.eqb i l then n1 O else n0 O)))].
      + intros [X xx] (xf & v & G1 & _ & G2 & _). apply wp_Ok. exists xf. auto.
      + lia.
      + eexists. exists (fun _ => n0 O). split; [exact H2'|split; [apply is_vector_repeat|split; [intros; lia|auto]]].
      + intros j [X xx] _ Hj (xf & v & G1 & G2 & G3 & G4). cbv beta iota. apply wp_bind. eapply column_wp; eauto. intros x xf' Hx Hs.
        apply wp_bind. eapply put_column_wp; eauto. intros X' HX'. apply wp_Ok. eexists. exists xf'. split; [exact HX'|split; [auto|split]].
        * intros l Hl. cbv beta. destruct (Nat.eqb_spec l j) as [->|]; [|apply G3; lia].
          destruct Hs as [Hs1 Hs2]. split.
          -- intros i Hi. rewrite Hs1 by auto. rewrite G4 by lia. auto.
          -- intros y Hy i Hi. apply Hs2; auto. intros i' Hi'. rewrite Hy by auto. rewrite G4 by lia. auto.
        * intros i l Hl. cbv beta. destruct (Nat.eqb_spec l j); [lia|]. apply G4. lia.
    - lia.
    - eapply is_matrix_ext; [exact HRm|]. intros; cbv beta; auto.
    - intros i0 R2 _ Hi0 H2. cbv beta in *. apply wp_bind.
      eapply wp_conseq; [|apply (for_range_inv _ _ (fun j0 R => is_matrix R n n (fun i j =>
         if i <? i0 then (if Nat.eqb i j then n1 O else n0 O) else if Nat.eqb i i0 && (j <? j0) then n0 O else g' i j)))].
      + intros R3 H3. cbv beta. eapply mset_wp; [exact H3|lia|lia|]. intros R4 H4. eapply is_matrix_ext; [exact H4|]. intros i j Hi Hj. unfold fset. cbv beta.
        rewrite (proj2 (Nat.ltb_lt j n)), andb_true_r by auto.
        destruct (Nat.eqb_spec i i0) as [->|Hne]; simpl.
        * rewrite Nat.ltb_irrefl. destruct (Nat.ltb_spec i0 (i0 + 1)); [|lia]. destruct (Nat.eqb_spec j i0) as [->|]; [rewrite Nat.eqb_refl; auto|].
          rewrite (proj2 (Nat.eqb_neq i0 j)) by auto. auto.
        * destruct (Nat.ltb_spec i i0); destruct (Nat.ltb_spec i (i0 + 1)); auto; lia.
      + lia.
      + eapply is_matrix_ext; [exact H2|]. intros; cbv beta. rewrite andb_false_r. auto.
      + intros j0 R3 _ Hj0 H3. cbv beta in *. eapply mset_wp; [exact H3|lia|lia|]. intros R4 H4. eapply is_matrix_ext; [exact H4|].
        intros i j Hi Hj. unfold fset. cbv beta. destruct (Nat.eqb_spec i i0) as [->|Hne]; simpl; auto. rewrite Nat.ltb_irrefl.
        destruct (Nat.eqb_spec j j0) as [->|].
        * destruct (Nat.ltb_spec j0 (j0 + 1)); [auto|lia].
        * destruct (Nat.ltb_spec j j0); destruct (Nat.ltb_spec j (j0 + 1)); auto; lia. }
  destruct (lu_inverse O G S ainv) as [X|e| |]; simpl in W; try contradiction. destruct W as (xf & W1 & W2). exists X, xf.
  split; auto. split; auto.
  assert (E1 : forall i j, i < n -> j < n -> sumn O n (fun k => nmul O (f i k) (xf k j)) = if Nat.eqb i j then n1 O else n0 O).
  { intros i j Hi Hj. apply (proj1 (W2 j Hj)); auto. }
  destruct HD as (_ & a & idx & _ & _ & HL). apply (right_inverse_two_sided O HF); auto. exact (lu_kernel O HF n f a idx (lu_d S) HL).
Qed.

(** mismatched right-hand sides *)
Theorem C35_bad_rhs : forall (A : matrix T) n f S (b : list T), is_matrix A n n f -> lu_ctor O G A = Ok S -> length b <> n ->
  lu_solve O G S b = Throw DimensionError.
Proof.
  intros A n f S b HA HS Hb. destruct (ctor_decomposes A n f S HA HS) as (Hn & _). unfold lu_solve, lu_solve_into.
  rewrite Hn, (proj2 (Nat.eqb_neq (length b) n)) by auto. reflexivity.
Qed.
End LU.

Example C35_solve_example : exists S x, lu_ctor Qnum Qmag ex_mat = Ok S /\ lu_solve Qnum Qmag S (map qz [1; 2; 3]%Z) = Ok x /\
  show (X <- column_matrix Qnum x ;; mat_mul Qnum ex_mat X) = show (Ok ex_rhs).
Proof. do 2 eexists. split; [vm_compute; reflexivity|]. split; [vm_compute; reflexivity|]. vm_compute; reflexivity. Qed.
Example C35_det_example : exists S d, lu_ctor Qnum Qmag ex_mat = Ok S /\ lu_det Qnum S = Ok d /\ this d = (-5 # 1)%Q.
Proof. do 2 eexists. split; [vm_compute; reflexivity|]. split; [vm_compute; reflexivity|]. vm_compute; reflexivity. Qed.
Example C35_inverse_example : exists S B, lu_ctor Qnum Qmag ex_mat = Ok S /\ lu_inverse Qnum Qmag S mat_empty = Ok B /\
  show (mat_mul Qnum ex_mat B) = show (mat_identity Qnum 3).
Proof. do 2 eexists. split; [vm_compute; reflexivity|]. split; [vm_compute; reflexivity|]. vm_compute; reflexivity. Qed.
Example C35_singular_example : lu_ctor Qnum Qmag (mkMat 2 2 (map qz [1; 2; 2; 4])%Z) = Throw SingularError.
Proof. vm_compute. reflexivity. Qed.

Print Assumptions C35_constructor.
Print Assumptions C35_solve.
Print Assumptions C35_singular_throws.
Print Assumptions C35_bad_shape.
Print Assumptions C35_determinant.
Print Assumptions C35_solve_matrix.
Print Assumptions C35_solve_matrix_new.
Print Assumptions C35_inverse.
Print Assumptions C35_bad_rhs.
