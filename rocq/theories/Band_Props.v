(** * BandDiagonalSolver (C36) and BandDiagonalMatrix (C45) *)

From Coq Require Import List Arith Bool Lia ZArith Ring Field QArith Qcanon Reals Lra.
From Verif Require Import Base Num Det Mat_Model Mat_Proofs Lin_Base Gauss_Model Gauss_Proofs Gauss_Props LU_Model LU_Proofs LU_Props Mat_Props Chol_Proofs Band_Model Band_Proofs.
Import ListNotations.
Local Open Scope nat_scope.

(** ** Specification *)
Section Spec.
Context {T M : Type} (O : numops T) (G : magops T M) (madd : M -> M -> M).

(** B stores an n x n band matrix with m1 subdiagonals and m2 superdiagonals whose entry (i, j) is f i j
    inside the band; f is zero outside *)
Definition is_band (B : band T) (n m1 m2 : nat) (f : nat -> nat -> T) : Prop :=
  bd_dim B = n /\ bd_m1 B = m1 /\ bd_m2 B = m2 /\
  (exists g, is_matrix (bd_data B) n (m1 + m2 + 1) g /\
     forall i j, i < n -> j < n -> i <= j + m1 -> j <= i + m2 -> g i (j + m1 - i) = f i j) /\
  (forall i j, i < n -> j < n -> j + m1 < i \/ i + m2 < j -> f i j = n0 O).

(** sum of the magnitudes of row i *)
Definition row_sum (c : nat) (f : nat -> nat -> T) (i : nat) : M := fold_left (fun s j => madd s (mabs G (f i j))) (seq 0 c) (mzero G).
(** m is the largest row sum *)
Definition row_norm (n : nat) (f : nat -> nat -> T) (m : M) : Prop :=
  (exists i, i < n /\ m = row_sum n f i) /\ forall i, i < n -> mlt G m (row_sum n f i) = false.

(** addition of magnitudes *)
Record madd_laws : Prop := {
  ma_zero : forall a, madd a (mabs G (n0 O)) = a;
  ma_l : forall a b, mlt G b (mzero G) = false -> mlt G (madd a b) a = false;
  ma_r : forall a b, mlt G a (mzero G) = false -> mlt G (madd a b) b = false
}.
End Spec.

Section Solver.
Context {T M : Type} (O : numops T) (HF : field_laws O) (G : magops T M) (HG : mag_laws O G).
Context (madd : M -> M -> M) (HM : madd_laws O G madd).
Let HR : ring_laws O := field_ring T O HF.
Add Field Tfield : HF.
Notation sum := (sumn O).
Implicit Types (f g W : nat -> nat -> T).

Lemma row_sum_S : forall c f i, row_sum G madd (c + 1) f i = madd (row_sum G madd c f i) (mabs G (f i c)).
Proof. intros c f i. unfold row_sum. rewrite seq_app, fold_left_app. simpl. auto. Qed.
Lemma row_sum_tail : forall c c' f i, c <= c' -> (forall j, c <= j -> j < c' -> f i j = n0 O) -> row_sum G madd c' f i = row_sum G madd c f i.
Proof.
  intros c c' f i Hc Hz. induction Hc as [|c' Hc IH]; auto. rewrite <- Nat.add_1_r, row_sum_S, Hz by lia.
  rewrite (ma_zero _ _ _ HM). apply IH. intros; apply Hz; lia.
Qed.
Lemma row_sum_nonneg : forall c f i, mlt G (row_sum G madd c f i) (mzero G) = false.
Proof.
  induction c as [|c IH]; intros f i; [apply (ml_irrefl O G HG)|]. rewrite <- Nat.add_1_r, row_sum_S.
  eapply (ml_trans _ _ HG); [apply (ma_r _ _ _ HM); auto|apply (ml_nonneg _ _ HG)].
Qed.
Lemma row_sum_ge : forall c f i j, j < c -> mlt G (row_sum G madd c f i) (mabs G (f i j)) = false.
Proof.
  induction c as [|c IH]; intros f i j Hj; [lia|]. rewrite <- Nat.add_1_r, row_sum_S. destruct (Nat.eq_dec j c) as [->|].
  - apply (ma_r _ _ _ HM). apply row_sum_nonneg.
  - eapply (ml_trans _ _ HG); [|apply IH; lia]. apply (ma_l _ _ _ HM). apply (ml_nonneg _ _ HG).
Qed.
Lemma row_sum_ext : forall c f g i, (forall j, j < c -> f i j = g i j) -> row_sum G madd c f i = row_sum G madd c g i.
Proof. induction c as [|c IH]; intros f g i E; auto. rewrite <- Nat.add_1_r, !row_sum_S, (IH f g), E by (auto; intros; apply E; lia). auto. Qed.

Definition norm_upto (n k : nat) f (m : M) : Prop :=
  (m = mzero G \/ exists i, i < k /\ m = row_sum G madd n f i) /\ (forall i, i < k -> mlt G m (row_sum G madd n f i) = false).

Lemma bs_copy_wp : forall (B : band T) n m1 m2 g (AU : matrix T) g0 (Q : matrix T * M -> Prop), bd_dim B = n -> bd_m1 B = m1 -> bd_m2 B = m2 -> is_matrix (bd_data B) n (m1 + m2 + 1) g ->
  is_matrix AU n (m1 + m2 + 1) g0 ->
  (forall AU' m, is_matrix AU' n (m1 + m2 + 1) (fun i j => if (m1 <=? j + i) && (j + i - m1 <? n) then g i j else n0 O) ->
     norm_upto n n (bel O m1 m2 g) m -> Q (AU', m)) -> wp (bs_copy O G madd B AU) Q.
Proof.
  intros B n m1 m2 g AU g0 Q Hn H1 H2 HD HA HQ. unfold bs_copy. rewrite Hn, H1, H2. set (mm := m1 + m2 + 1) in *. set (e := bel O m1 m2 g) in *.
  set (cp := fun i j => if (m1 <=? j + i) && (j + i - m1 <? n) then g i j else n0 O).
  eapply wp_conseq; [|apply (for_range_inv _ _ (fun i '(AU, m) => is_matrix AU n mm (fun r j => if r <? i then cp r j else g0 r j) /\ norm_upto n i e m))].
  - intros [AU' m] [G1 G2]. apply HQ; auto. eapply is_matrix_ext; [exact G1|]. intros r j Hr Hj. cbv beta. rewrite (proj2 (Nat.ltb_lt r n)) by auto. auto.
  - lia.
  - split; [eapply is_matrix_ext; [exact HA|]; auto|]. split; auto. intros; lia.
  - intros i [AU1 m] _ Hi [G1 G2]. cbv beta iota. apply wp_bind.
    eapply wp_conseq; [|apply (for_range_inv _ _ (fun j0 '(AU, rs) => is_matrix AU n mm (fun r j => if (r <? i) || (Nat.eqb r i && (j <? j0)) then cp r j else g0 r j) /\
       rs = row_sum G madd (Nat.min n (j0 + i - m1)) e i))].
    + intros [AU2 rs] [G3 ->]. cbv beta iota. apply wp_Ok. split.
      * eapply is_matrix_ext; [exact G3|]. intros r j Hr Hj. cbv beta. ltb; simpl; auto.
      * assert (E : row_sum G madd (Nat.min n (mm + i - m1)) e i = row_sum G madd n e i).
        { symmetry. apply row_sum_tail; [lia|]. intros j Hj1 Hj2. unfold e, bel, mm in *. destruct (Nat.ltb_spec (i + m2) j); [rewrite orb_true_r; auto|lia]. }
        rewrite E. destruct G2 as [G2 G4]. destruct (mlt G m (row_sum G madd n e i)) eqn:El.
        -- split; [right; exists i; split; [lia|auto]|]. intros r Hr. destruct (Nat.eq_dec r i) as [->|]; [apply (ml_irrefl O G HG)|].
           eapply (ml_trans _ _ HG); [apply (ml_asym _ _ HG); exact El|]. apply G4. lia.
        -- split; [destruct G2 as [->|(r & Hr & ->)]; auto; right; exists r; split; [lia|auto]|]. intros r Hr. destruct (Nat.eq_dec r i) as [->|]; auto. apply G4. lia.
    + lia.
    + split.
      * eapply is_matrix_ext; [exact G1|]. intros r j Hr Hj. cbv beta. rewrite andb_false_r, orb_false_r. auto.
      * symmetry. apply (row_sum_tail 0 _ e i); [lia|]. intros j _ Hj. unfold e, bel. destruct (Nat.ltb_spec (j + m1) i); auto. lia.
    + intros j [AU2 rs] _ Hj [G3 ->]. cbv beta iota.
      assert (X : forall v, v = cp i j -> forall AU3, is_matrix AU3 n mm (fset (fun r j0 => if (r <? i) || (Nat.eqb r i && (j0 <? j)) then cp r j0 else g0 r j0) i j v) ->
          is_matrix AU3 n mm (fun r j0 => if (r <? i) || (Nat.eqb r i && (j0 <? j + 1)) then cp r j0 else g0 r j0)).
      { intros v -> AU3 G4. eapply is_matrix_ext; [exact G4|]. intros r c Hr Hc. unfold fset. cbv beta.
        destruct (Nat.eqb_spec r i) as [->|Hne]; simpl; auto. rewrite Nat.ltb_irrefl. simpl. ltb. }
      unfold cp at 1 in X.
      destruct (Nat.leb_spec m1 (j + i)) as [L1|L1]; simpl andb in *; cbv iota in *.
      * destruct (Nat.ltb_spec (j + i - m1) n) as [L2|L2].
        -- apply wp_bind. eapply (band_get_wp O B n m1 m2 g); eauto. apply wp_bind. eapply mset_wp; [exact G3|lia|lia|]. intros AU3 G4. apply wp_Ok. split.
           ++ apply (X (bel O m1 m2 g i (j + i - m1))); auto. unfold bel, cp. destruct (Nat.leb_spec m1 (j + i)); [|lia]. destruct (Nat.ltb_spec (j + i - m1) n); [|lia]. simpl.
              destruct (Nat.ltb_spec (j + i - m1 + m1) i); [lia|]. destruct (Nat.ltb_spec (i + m2) (j + i - m1)); [unfold mm in *; lia|]. simpl. f_equal. lia.
           ++ replace (Nat.min n (j + 1 + i - m1)) with (Nat.min n (j + i - m1) + 1) by lia. rewrite row_sum_S. rewrite (Nat.min_r n (j + i - m1)) by lia. auto.
        -- apply wp_bind. eapply mset_wp; [exact G3|lia|lia|]. intros AU3 G4. apply wp_Ok. split.
           ++ apply (X (n0 O)); auto.
           ++ f_equal. lia.
      * apply wp_bind. eapply mset_wp; [exact G3|lia|lia|]. intros AU3 G4. apply wp_Ok. split.
        -- apply (X (n0 O)); auto.
        -- f_equal. lia.
Qed.

Lemma bs_pivot_wp : forall n mm k l (AU : matrix T) a (Q : T * nat -> Prop), is_matrix AU n mm a -> k < l -> l <= n -> 0 < mm ->
  (forall i, k <= i -> i < l -> (forall r, k <= r -> r < l -> mlt G (mabs G (a i 0)) (mabs G (a r 0)) = false) -> Q (a i 0, i)) ->
  wp (bs_pivot G AU k l) Q.
Proof.
  intros n mm k l AU a Q HA Hk Hl Hm HQ. unfold bs_pivot. apply wp_bind. eapply mget_wp; [exact HA|lia|lia|].
  eapply wp_conseq; [|apply (for_range_inv _ _ (fun j '(dum, i) => dum = a i 0 /\ k <= i < l /\ forall r, k <= r -> r < j -> mlt G (mabs G (a i 0)) (mabs G (a r 0)) = false))].
  - intros [dum i] (-> & Hi & G1). apply HQ; auto; lia.
  - lia.
  - split; auto. split; [lia|]. intros r Hr1 Hr2. replace r with k by lia. apply (ml_irrefl O G HG).
  - intros j [dum i] Hj1 Hj2 (-> & Hi & G1). apply wp_bind. eapply mget_wp; [exact HA|lia|lia|].
    destruct (mlt G (mabs G (a i 0)) (mabs G (a j 0))) eqn:E; apply wp_Ok; (split; [auto|split; [lia|]]); intros r Hr1 Hr2.
    + destruct (Nat.eq_dec r j) as [->|]; [apply (ml_irrefl O G HG)|]. eapply (ml_trans _ _ HG); [apply (ml_asym _ _ HG); exact E|]. apply G1; lia.
    + destruct (Nat.eq_dec r j) as [->|]; auto. apply G1; lia.
Qed.

Lemma rep_ext : forall n m1 mm k a W W', rep O n m1 mm k a W -> (forall r c, r < n -> c < n -> W r c = W' r c) -> rep O n m1 mm k a W'.
Proof.
  intros n m1 mm k a W W' [H1 H2] E. split.
  - intros r j Hr Hj Hc. rewrite <- E by auto. auto.
  - intros r c Hr Hc Ho. rewrite <- E by auto. auto.
Qed.
Lemma rep_swap : forall n m1 mm k p a W, rep O n m1 mm k a W -> k < n -> k <= p -> p < lk n m1 k ->
  rep O n m1 mm k (fun r j => a (tr k p r) j) (fun r c => W (tr k p r) c).
Proof.
  intros n m1 mm k p a W [H1 H2] Hk Hp1 Hp2.
  assert (Hs : forall r, st m1 k (tr k p r) = st m1 k r).
  { intros r. unfold tr. unfold st, lk in *. destruct (Nat.eqb_spec r k) as [->|]; [|destruct (Nat.eqb_spec r p) as [->|]; auto];
    repeat match goal with |- context [?a <? ?b] => destruct (Nat.ltb_spec a b) end; lia. }
  assert (Hpn : p < n) by (unfold lk in Hp2; lia).
  split.
  - intros r j Hr Hj Hc. rewrite <- (Hs r) in *. apply H1; auto. apply tr_lt; auto.
  - intros r c Hr Hc Ho. rewrite <- (Hs r) in Ho. apply H2; auto. apply tr_lt; auto.
Qed.

(** what a constructed solver represents *)
Definition bsolves (n m1 m2 : nat) f (S : bsolver T) : Prop :=
  bs_n S = n /\ bs_m1 S = m1 /\ bs_m2 S = m2 /\ exists a al idx mul W,
    is_matrix (bs_au S) n (m1 + m2 + 1) a /\ (m1 = 0 \/ is_matrix (bs_al S) n m1 al) /\ is_vector (bs_indx S) n (fun k => idx k + 1) /\
    (forall k r, k < n -> k < r -> r < lk n m1 k -> al k (r - k - 1) = mul k r) /\ (forall k r, k < n -> lk n m1 k <= r -> mul k r = n0 O) /\
    binv O n m1 (m1 + m2 + 1) f n a idx mul (bs_d S) W.

Lemma bs_ctor_wpt : forall (B : band T) n m1 m2 f, is_band O B n m1 m2 f -> 0 < n -> m1 <= n -> dims_fit n (m1 + m2 + 1) ->
  (exists i j, i < n /\ j < n /\ f i j <> n0 O) ->
  wpt (bs_ctor O G madd B) (fun e => e = SingularError /\ exists m, row_norm G madd n f m /\ nearly_singular O G n f (mthr G m n)) (bsolves n m1 m2 f).
Proof.
  intros B n m1 m2 f (Hn & H1 & H2 & (g & HD & Hg) & Hz) Hn0 Hm Hd (i0 & j0 & Hi0 & Hj0 & Hnz). unfold bs_ctor. rewrite Hn, H1, H2.
  set (mm := m1 + m2 + 1) in *.
  assert (Ef : forall i j, i < n -> j < n -> bel O m1 m2 g i j = f i j).
  { intros i j Hi Hj. unfold bel. destruct (Nat.ltb_spec (j + m1) i); simpl; [symmetry; apply Hz; auto|].
    destruct (Nat.ltb_spec (i + m2) j); [symmetry; apply Hz; auto|]. apply Hg; auto. }
  apply wpt_bind_wp. unfold mat_new. destruct (Z.ltb_spec (Z.of_nat n) 0); [lia|]. destruct (Z.ltb_spec (Z.of_nat mm) 0); [lia|].
  destruct (Z.ltb_spec (Z.of_nat m1) 0); [lia|]. simpl orb. cbv iota. rewrite !Nat2Z.id. apply alloc_ok_wp; [split; auto; unfold mm; lia|]. intros AU0 HAU0.
  apply wpt_bind_wp. apply alloc_wp; [destruct Hd as (D1 & D2 & D3); unfold dims_fit, mm in *; repeat split; nia|]. intros AL0 HAL0.
  apply wpt_bind_wp. eapply (bs_copy_wp B n m1 m2 g); eauto. intros AU1 m HAU1 HNm. cbv beta iota.
  assert (HN : row_norm G madd n f m /\ mlt G (mzero G) m = true).
  { destruct HNm as [N1 N2].
    assert (E : forall i, i < n -> row_sum G madd n (bel O m1 m2 g) i = row_sum G madd n f i) by (intros i Hi; apply row_sum_ext; intros j Hj; auto).
    assert (P : mlt G (mzero G) m = true).
    { eapply (ml_lt_lt O G HG); [|apply (N2 i0 Hi0)]. eapply (ml_lt_lt O G HG); [apply (ml_pos O G HG); exact Hnz|]. rewrite E by auto. apply row_sum_ge; auto. }
    split; auto. split.
    - destruct N1 as [->|(i & Hi & ->)]; [rewrite (ml_irrefl O G HG) in P; discriminate|]. exists i. split; auto.
    - intros i Hi. rewrite <- E by auto. auto. }
  destruct HN as [HN Hmp]. pose proof (ml_thr _ _ HG m n Hmp Hn0) as Hthr. set (thr := mthr G m n) in *.
  apply wpt_bind_wp. eapply (bs_justify_wp O AU1 n m1 m2); eauto. intros AU2 HAU2.
  apply wpt_bind.
  eapply wpt_conseq; [|apply (wpt_for_range _ _ _ (fun k '(AU, AL, indx, d, l) => l = Nat.min n (k + m1) /\ exists a al iv idx mul W,
    is_matrix AU n mm a /\ (m1 = 0 \/ is_matrix AL n m1 al) /\ is_vector indx n iv /\ (forall q, q < k -> iv q = idx q + 1) /\
    (forall q r, q < k -> q < r -> r < lk n m1 q -> al q (r - q - 1) = mul q r) /\ (forall q r, q < k -> lk n m1 q <= r -> mul q r = n0 O) /\
    binv O n m1 mm f k a idx mul d W))].
  - intros [[[[AU AL] indx] d] l] (_ & a & al & iv & idx & mul & W & I1 & I2 & I3 & I4 & I5 & I6 & I7). apply wpt_wp, wp_Ok. unfold bsolves. simpl.
    split; auto. split; auto. split; auto. exists a, al, idx, mul, W. split; auto. split; auto. split; [eapply is_vector_ext; [exact I3|]; auto|]. auto.
  - lia.
  - split; [lia|]. exists (fun r j => if r <? m1 then (if j <? r + m2 + 1 then (if (m1 <=? j + (m1 - r) + r) && (j + (m1 - r) + r - m1 <? n) then g r (j + (m1 - r)) else n0 O) else n0 O)
                                    else (if (m1 <=? j + r) && (j + r - m1 <? n) then g r j else n0 O)), (fun _ _ => n0 O), (fun _ => 0), (fun _ => 0), (fun _ _ => n0 O), f.
    split; [eapply is_matrix_ext; [exact HAU2|]; auto|]. split.
    { rewrite (proj2 (Nat.eqb_neq n 0)) in HAL0 by lia. destruct (Nat.eqb_spec m1 0); auto. }
    split; [apply is_vector_repeat|]. split; [intros; lia|]. split; [intros; lia|]. split; [intros; lia|].
    constructor.
    + apply (rep_ext _ _ _ _ _ (bel O m1 m2 g)); auto. apply brep_init; auto. intros r j Hr Hj. destruct (Nat.ltb_spec r m1).
      * replace (m1 <=? j + (m1 - r) + r) with true; auto. symmetry. apply Nat.leb_le. lia.
      * replace (m1 <=? j + r) with true; auto. symmetry. apply Nat.leb_le. lia.
    + intros; lia.
    + intros x b. simpl. split; auto.
    + intros; lia.
    + ring.
  - intros k [[[[AU AL] indx] d] l] _ Hk (-> & a & al & iv & idx & mul & W & I1 & I2 & I3 & I4 & I5 & I6 & I7). cbv beta iota.
    assert (El : (if Nat.min n (k + m1) <? n then Nat.min n (k + m1) + 1 else Nat.min n (k + m1)) = lk n m1 k).
    { unfold lk. destruct (Nat.ltb_spec (Nat.min n (k + m1)) n); lia. }
    rewrite El. assert (Hlk : lk n m1 k <= n) by (unfold lk; lia).
    assert (Hst : forall r, k <= r -> r < lk n m1 k -> st m1 k r = k).
    { intros r Hr1 Hr2. unfold st, lk in *. destruct (Nat.ltb_spec r k); lia. }
    pose proof (b_rep _ _ _ _ _ _ _ _ _ _ _ I7) as HRp.
    assert (Ha0 : forall r, k <= r -> r < lk n m1 k -> a r 0 = W r k).
    { intros r Hr1 Hr2. destruct HRp as [HV _]. rewrite HV; [rewrite Hst by auto; rewrite Nat.add_0_r; auto|lia|unfold mm; lia|rewrite Hst by auto; lia]. }
    apply wpt_bind_wp. eapply bs_pivot_wp; [exact I1|unfold lk; lia|auto|unfold mm; lia|]. intros p Hp1 Hp2 Hmax. cbv beta iota.
    apply wpt_bind_wp. eapply vsetf_wp; [exact I3|auto|]. intros indx' HI'.
    rewrite Ha0 by auto. destruct (mlt G (mabs G (W p k)) thr) eqn:Ethr.
    { split; auto. exists m. split; auto. fold thr. destruct (bresidual O HF n m1 mm f k a idx mul d W I7 Hk) as (x & X1 & X2).
      exists x. split; [exists k; auto|]. intros i Hi. destruct (X2 i Hi) as (y & -> & Hy). eapply (ml_lt_le O G HG); [|exact Ethr].
      assert (P0 : mlt G (mabs G (W p k)) (mabs G (n0 O)) = false) by (eapply (ml_trans _ _ HG); [apply (ml_nonneg _ _ HG)|apply (ml_zero _ _ HG)]).
      destruct Hy as [->|(r & Hr1 & Hr2 & ->)]; auto. destruct (lt_dec r (lk n m1 k)) as [Hrl|Hrl].
      - rewrite <- !Ha0 by auto. apply Hmax; auto.
      - replace (W r k) with (n0 O); auto. symmetry. destruct HRp as [_ HZ]. apply HZ; auto. left. unfold st, lk in *. destruct (Nat.ltb_spec r k); lia. }
    assert (Hpz : W p k <> n0 O) by (apply (ml_not_zero O G HG _ thr); auto).
    assert (Hpn : p < n) by lia.
    apply wpt_bind_wp.
    assert (SW : wp (if negb (Nat.eqb p k) then AU0 <- bs_swap AU mm k p ;; Ok (AU0, nopp O d) else Ok (AU, d))
       (fun '(AU, d') => is_matrix AU n mm (fun r j => a (tr k p r) j) /\ d' = if Nat.eqb k p then d else nopp O d)).
    { destruct (Nat.eqb_spec p k) as [->|Hne]; simpl negb; cbv iota.
      - apply wp_Ok. rewrite Nat.eqb_refl. split; auto. eapply is_matrix_ext; [exact I1|]. intros r j _ _. f_equal. unfold tr. destruct (Nat.eqb_spec r k); auto.
      - apply wp_bind. change (bs_swap AU mm k p) with (swap_rows AU mm k p). eapply swap_rows_wp; eauto. intros AU3 HAU3. apply wp_Ok. split; auto.
        rewrite (proj2 (Nat.eqb_neq k p)) by auto. auto. }
    eapply wp_conseq; [|exact SW]. intros [AU3 d'] [HA3 Hd']. cbv beta iota. apply wpt_bind_wp.
    assert (E00 : tr k p k = p) by (unfold tr; rewrite Nat.eqb_refl; auto).
    eapply (bs_elim_wp O HF n m1 m2 k (fun r c => W (tr k p r) c)); [auto|exact HA3|apply rep_swap; auto|rewrite E00; auto|exact I2|].
    intros AU4 AL4 a' al' HA4 HR4 HAL4 Hal1 Hal2. apply wpt_wp, wp_Ok. split; [unfold lk; lia|].
    set (mk := mulk O n m1 k (fun r c => W (tr k p r) c)) in *.
    exists a', al', (vfset iv k (p + 1)), (vfset idx k p), (fun l r => if Nat.eqb l k then mk r else mul l r), (Wnext O W k p mk).
    split; [auto|]. split; [auto|]. split; [auto|]. split; [|split; [|split]].
    + intros q Hq. unfold vfset. destruct (Nat.eqb_spec q k); auto. apply I4. lia.
    + intros q r Hq Hr1 Hr2. destruct (Nat.eqb_spec q k) as [->|]; [apply Hal2; auto|]. rewrite Hal1 by lia. apply I5; auto; lia.
    + intros q r Hq Hr. destruct (Nat.eqb_spec q k) as [->|]; [|apply I6; auto; lia]. unfold mk, mulk. rewrite (proj2 (Nat.ltb_ge _ _)) by auto. auto.
    + rewrite Hd'. apply (binv_step O HF n m1 mm f k a idx mul d W p mk a'); auto. eapply rep_ext; [exact HR4|]. intros r c Hr Hc. unfold Wnext, bstep.
      assert (Htr : forall i, tr k k i = i) by (intros i; unfold tr; destruct (Nat.eqb_spec i k); auto). rewrite !Htr. auto.
Qed.

(** the condition under which the constructor works at all: the rows left-justified at the start exist *)
Definition band_ok (n m1 m2 : nat) : Prop := 0 < n /\ m1 <= n /\ dims_fit n (m1 + m2 + 1).

(** C36: the constructor succeeds, or throws SingularMatrixError for a matrix that sends a vector with a
    coordinate 1 below eps * (largest row sum) * n *)
Theorem C36_constructor : forall (B : band T) n m1 m2 f, is_band O B n m1 m2 f -> band_ok n m1 m2 -> (exists i j, i < n /\ j < n /\ f i j <> n0 O) ->
  (exists S, bs_ctor O G madd B = Ok S) \/
  (bs_ctor O G madd B = Throw SingularError /\ exists m, row_norm G madd n f m /\ nearly_singular O G n f (mthr G m n)).
Proof.
  intros B n m1 m2 f HB (Hn & Hm & Hd) Hz. pose proof (bs_ctor_wpt B n m1 m2 f HB Hn Hm Hd Hz) as W.
  destruct (bs_ctor O G madd B) as [S|e| |]; simpl in W; try contradiction; eauto. destruct W as [-> W]. auto.
Qed.

Lemma ctor_bsolves : forall (B : band T) n m1 m2 f S, is_band O B n m1 m2 f -> band_ok n m1 m2 -> (exists i j, i < n /\ j < n /\ f i j <> n0 O) ->
  bs_ctor O G madd B = Ok S -> bsolves n m1 m2 f S.
Proof.
  intros B n m1 m2 f S HB (Hn & Hm & Hd) Hz HS. pose proof (bs_ctor_wpt B n m1 m2 f HB Hn Hm Hd Hz) as W. rewrite HS in W. auto.
Qed.

Lemma bs_solve_into_wp : forall n m1 m2 f S (b x : list T) bf v (Q : bool * list T -> Prop), bsolves n m1 m2 f S -> m1 <= n -> is_vector b n bf -> is_vector x n v ->
  (forall x' xf, is_vector x' n xf -> solution O n f bf xf -> Q (true, x')) -> wp (bs_solve_into O S b x) Q.
Proof.
  intros n m1 m2 f S b x bf v Q (Hn & H1 & H2 & a & al & idx & mul & W & I1 & I2 & I3 & I4 & I5 & I6) Hm Hb Hx HQ. unfold bs_solve_into. rewrite Hn.
  rewrite (proj1 Hb), (proj1 Hx), Nat.eqb_refl. simpl negb. simpl orb. cbv iota. apply wp_bind.
  eapply (vfill_wp (fun i => vget b i)); [exact Hx| |].
  { intros i Hi. eapply vgetf_wp; eauto. }
  intros x1 Hx1. apply wp_bind. eapply (bs_forward_wp O HF n m1 S idx mul al bf); eauto.
  { intros l Hl. apply (b_idx _ _ _ _ _ _ _ _ _ _ _ I6); auto. }
  intros x2 Hx2. apply wp_bind. eapply (bs_backward_wp O HF n m1 m2 S a W); eauto.
  { apply (b_rep _ _ _ _ _ _ _ _ _ _ _ I6). }
  { apply (b_nz _ _ _ _ _ _ _ _ _ _ _ I6). }
  intros x3 xf Hx3 Hs. apply wp_Ok. apply (HQ x3 xf); auto. pose proof (b_sys _ _ _ _ _ _ _ _ _ _ _ I6) as HS. split; [apply HS; auto|].
  intros y Hy i Hi.
  assert (K : nsub O (y i) (xf i) = n0 O).
  { apply (bkernel O HF n m1 (m1 + m2 + 1) f a idx mul (bs_d S) W I6 (fun i => nsub O (y i) (xf i))); auto. intros r Hr.
    rewrite (sum_ext O n _ (fun j => nsub O (nmul O (f r j) (y j)) (nmul O (f r j) (xf j)))) by (intros; ring). rewrite (sum_sub O HR).
    rewrite Hy by auto. rewrite (proj2 (HS xf bf) Hs) by auto. ring. }
  transitivity (nadd O (nsub O (y i) (xf i)) (xf i)); [ring|]. rewrite K. ring.
Qed.

(** C36: Solve returns the unique solution *)
Theorem C36_solve : forall (B : band T) n m1 m2 f S (b : list T) bf, is_band O B n m1 m2 f -> band_ok n m1 m2 -> (exists i j, i < n /\ j < n /\ f i j <> n0 O) ->
  bs_ctor O G madd B = Ok S -> is_vector b n bf ->
  exists x xf, bs_solve O S b = Ok x /\ is_vector x n xf /\ solution O n f bf xf.
Proof.
  intros B n m1 m2 f S b bf HB Hok Hz HS Hb. pose proof (ctor_bsolves _ _ _ _ _ _ HB Hok Hz HS) as HD. pose proof HD as (Hn & _). destruct Hok as (_ & Hm & _).
  assert (W : wp (bs_solve O S b) (fun x => exists xf, is_vector x n xf /\ solution O n f bf xf)).
  { unfold bs_solve. rewrite Hn. apply wp_bind. eapply bs_solve_into_wp; [exact HD|auto|exact Hb|apply is_vector_repeat|]. intros x xf Hx Hs. cbv beta iota. apply wp_Ok. eauto. }
  destruct (bs_solve O S b) as [x|e| |]; simpl in W; try contradiction. destruct W as (xf & W1 & W2). exists x, xf. auto.
Qed.

(** C36: a right-hand side of the wrong length is refused *)
Theorem C36_bad_rhs : forall (B : band T) n m1 m2 f S (b : list T), is_band O B n m1 m2 f -> band_ok n m1 m2 -> (exists i j, i < n /\ j < n /\ f i j <> n0 O) ->
  bs_ctor O G madd B = Ok S -> length b <> n -> bs_solve O S b = Throw DimensionError /\ forall x, bs_solve_into O S b x = Ok (false, x).
Proof.
  intros B n m1 m2 f S b HB Hok Hz HS Hb. destruct (ctor_bsolves _ _ _ _ _ _ HB Hok Hz HS) as (Hn & _). unfold bs_solve, bs_solve_into. rewrite Hn.
  rewrite (proj2 (Nat.eqb_neq _ n)) by auto. simpl. auto.
Qed.

(** C36: every singular matrix that is not zero is refused *)
Theorem C36_singular_throws : forall (B : band T) n m1 m2 f, is_band O B n m1 m2 f -> band_ok n m1 m2 -> (exists i j, i < n /\ j < n /\ f i j <> n0 O) ->
  singular O n f -> bs_ctor O G madd B = Throw SingularError.
Proof.
  intros B n m1 m2 f HB Hok Hz (x & (i & Hi & Hx) & Hs). destruct (C36_constructor B n m1 m2 f HB Hok Hz) as [(S & HS)|[E _]]; auto.
  exfalso. apply Hx. destruct (ctor_bsolves _ _ _ _ _ _ HB Hok Hz HS) as (_ & _ & _ & a & al & idx & mul & W & _ & _ & _ & _ & _ & HL).
  apply (bkernel O HF _ _ _ _ _ _ _ _ _ HL x Hs i Hi).
Qed.

(** C36: Det returns the determinant *)
Theorem C36_determinant : forall (B : band T) n m1 m2 f S, is_band O B n m1 m2 f -> band_ok n m1 m2 -> (exists i j, i < n /\ j < n /\ f i j <> n0 O) ->
  bs_ctor O G madd B = Ok S -> bs_det O S = Ok (det O n f).
Proof.
  intros B n m1 m2 f S HB Hok Hz HS. destruct (ctor_bsolves _ _ _ _ _ _ HB Hok Hz HS) as (Hn & H1 & H2 & a & al & idx & mul & W & I1 & _ & _ & _ & _ & HL).
  assert (X : wp (bs_det O S) (fun d => d = det O n f)).
  { unfold bs_det. rewrite Hn. rewrite <- (bdet O HF n m1 (m1 + m2 + 1) f a idx mul (bs_d S) W HL) by lia.
    eapply wp_conseq; [|apply (for_range_inv _ _ (fun i d => d = nmul O (bs_d S) (prodn O i (fun i => a i 0))))].
    - auto.
    - lia.
    - simpl. ring.
    - intros i d _ Hi ->. apply wp_bind. eapply mget_wp; [exact I1|auto|lia|]. apply wp_Ok. rewrite Nat.add_1_r. simpl. ring. }
  destruct (bs_det O S) as [d|e| |]; simpl in X; try contradiction. rewrite X. auto.
Qed.

(** C36: Solve with a matrix of right-hand sides *)
Theorem C36_solve_matrix : forall (B : band T) n m1 m2 f S (R : matrix T) m rf, is_band O B n m1 m2 f -> band_ok n m1 m2 -> (exists i j, i < n /\ j < n /\ f i j <> n0 O) ->
  bs_ctor O G madd B = Ok S -> is_matrix R n m rf -> dims_fit n m -> 0 < m ->
  exists X xf, bs_solve_mat O S R = Ok X /\ is_matrix X n m xf /\ mat_solution O n m f rf xf.
Proof.
  intros B n m1 m2 f S R m rf HB Hok Hz HS HRm Hd Hm. pose proof (ctor_bsolves _ _ _ _ _ _ HB Hok Hz HS) as HD. pose proof HD as (Hn & _). destruct Hok as (Hn0 & Hm1 & _).
  assert (W : wp (bs_solve_mat O S R) (fun X => exists xf, is_matrix X n m xf /\ mat_solution O n m f rf xf)).
  { unfold bs_solve_mat. rewrite Hn. pose proof HRm as (R1 & R2 & _). rewrite R1, R2, Nat.eqb_refl. simpl negb. cbv iota. apply wp_bind.
    unfold mat_new. destruct (Z.ltb_spec (Z.of_nat n) 0); [lia|]. destruct (Z.ltb_spec (Z.of_nat m) 0); [lia|]. simpl orb. cbv iota. rewrite !Nat2Z.id.
    apply alloc_ok_wp; [split; auto; lia|]. intros X0 HX0. apply wp_bind.
    eapply wp_conseq; [|apply (for_range_inv _ _ (fun j0 '(X, b, x) => exists xf u v, is_matrix X n m xf /\ is_vector b n u /\ is_vector x n v /\
       forall l, l < j0 -> solution O n f (fun i => rf i l) (fun i => xf i l)))].
    - intros [[X b] x] (xf & u & v & H1 & _ & _ & H2). apply wp_Ok. exists xf. split; auto.
    - lia.
    - exists (fun _ _ => n0 O), (fun _ => n0 O), (fun _ => n0 O). split; [auto|split; [apply is_vector_repeat|split; [apply is_vector_repeat|intros; lia]]].
    - intros j [[X b] x] _ Hj (xf & u & v & H1 & H2 & H3 & H4). cbv beta iota. apply wp_bind.
      eapply (vfill_wp (fun i => mget R i j) b n u (fun i => rf i j)); auto.
      { intros i Hi. eapply mget_wp; eauto. }
      intros b' Hb'. apply wp_bind. eapply bs_solve_into_wp; eauto. intros x' xf' Hx' Hs. cbv beta iota. apply wp_bind.
      change (for_range 0 n (fun X0 i => y <- vget x' i ;; mset X0 i j y) X) with (put_column X n j x').
      eapply put_column_wp; eauto. intros X' HX'. apply wp_Ok. eexists. exists (fun i => rf i j), xf'. split; [exact HX'|split; [auto|split; [auto|]]].
      intros l Hl. cbv beta. destruct (Nat.eqb_spec l j) as [->|]; auto. apply H4. lia. }
  destruct (bs_solve_mat O S R) as [X|e| |]; simpl in W; try contradiction. destruct W as (xf & W1 & W2). exists X, xf. auto.
Qed.
Theorem C36_bad_matrix_rhs : forall (B : band T) n m1 m2 f S (R : matrix T), is_band O B n m1 m2 f -> band_ok n m1 m2 -> (exists i j, i < n /\ j < n /\ f i j <> n0 O) ->
  bs_ctor O G madd B = Ok S -> m_rows R <> n -> bs_solve_mat O S R = Throw DimensionError.
Proof.
  intros B n m1 m2 f S R HB Hok Hz HS Hb. destruct (ctor_bsolves _ _ _ _ _ _ HB Hok Hz HS) as (Hn & _). unfold bs_solve_mat. rewrite Hn.
  rewrite (proj2 (Nat.eqb_neq _ n)) by auto. auto.
Qed.
End Solver.

(** ** BandDiagonalMatrix *)
Section Ops.
Context {T : Type} (O : numops T) (HR : ring_laws O).
Add Ring Tring : HR.
Notation sum := (sumn O).
Implicit Types (f g h : nat -> nat -> T).

Lemma is_band_get : forall (B : band T) n m1 m2 f i j (Q : T -> Prop), is_band O B n m1 m2 f -> i < n -> j < n -> Q (f i j) -> wp (band_get O B i j) Q.
Proof.
  intros B n m1 m2 f i j Q (Hn & H1 & H2 & (g & HD & Hg) & Hz) Hi Hj HQ. eapply band_get_wp; eauto. unfold bel.
  destruct (Nat.ltb_spec (j + m1) i); simpl; [rewrite <- (Hz i j); auto|]. destruct (Nat.ltb_spec (i + m2) j); [rewrite <- (Hz i j); auto|]. rewrite Hg; auto.
Qed.

(** C45: reading and writing entries *)
Theorem C45_element : forall (B : band T) n m1 m2 f i j, is_band O B n m1 m2 f -> i < n -> j < n ->
  band_get O B i j = Ok (f i j) /\
  (in_band B i j = true <-> i <= j + m1 /\ j <= i + m2) /\
  (forall x, i <= j + m1 -> j <= i + m2 -> exists B', band_set B i j x = Ok B' /\ is_band O B' n m1 m2 (fset f i j x)) /\
  (forall x, j + m1 < i \/ i + m2 < j -> band_set B i j x = Throw IndexError).
Proof.
  intros B n m1 m2 f i j HB Hi Hj. split; [|split; [|split]].
  - assert (W : wp (band_get O B i j) (fun x => x = f i j)) by (eapply is_band_get; eauto).
    destruct (band_get O B i j); simpl in W; try contradiction. rewrite W. auto.
  - destruct HB as (_ & H1 & H2 & _). unfold in_band. rewrite H1, H2. destruct (Nat.ltb_spec (j + m1) i); destruct (Nat.ltb_spec (i + m2) j); simpl; split; intros; try discriminate; try lia; auto.
  - intros x L1 L2. destruct HB as (Hn & H1 & H2 & (g & HD & Hg) & Hz). unfold band_set. rewrite H1, H2.
    destruct (Nat.ltb_spec (j + m1) i); [lia|]. destruct (Nat.ltb_spec (i + m2) j); [lia|]. simpl orb. cbv iota.
    assert (W : wp (mset (bd_data B) i (j + m1 - i) x) (fun D => is_matrix D n (m1 + m2 + 1) (fset g i (j + m1 - i) x))) by (eapply mset_wp; eauto; lia).
    destruct (mset (bd_data B) i (j + m1 - i) x) as [D|e| |]; simpl in W; try contradiction. eexists. split; [reflexivity|]. unfold is_band. simpl. rewrite Hn.
    split; auto. split; auto. split; auto. split.
    + eexists. split; [exact W|]. intros r c Hr Hc L3 L4. unfold fset. destruct (Nat.eqb_spec r i) as [->|]; simpl; [|auto].
      destruct (Nat.eqb_spec c j) as [->|]; [rewrite Nat.eqb_refl; auto|]. rewrite (proj2 (Nat.eqb_neq _ _)) by lia. auto.
    + intros r c Hr Hc L3. unfold fset. destruct (Nat.eqb_spec r i) as [->|]; simpl; auto. destruct (Nat.eqb_spec c j) as [->|]; auto. lia.
  - intros x L. destruct HB as (_ & H1 & H2 & _). unfold band_set. rewrite H1, H2. destruct (Nat.ltb_spec (j + m1) i); destruct (Nat.ltb_spec (i + m2) j); simpl; auto. lia.
Qed.

(** C45: matrix-vector product *)
Theorem C45_mul_vec : forall (B : band T) n m1 m2 f (x : list T) xf, is_band O B n m1 m2 f -> is_vector x n xf ->
  exists y, band_mul_vec O B x = Ok y /\ is_vector y n (fun i => sum n (fun j => nmul O (f i j) (xf j))).
Proof.
  intros B n m1 m2 f x xf HB Hx. pose proof HB as (Hn & H1 & H2 & _ & Hz).
  assert (W : wp (band_mul_vec O B x) (fun y => is_vector y n (fun i => sum n (fun j => nmul O (f i j) (xf j))))).
  { unfold band_mul_vec. rewrite Hn, (proj1 Hx), Nat.eqb_refl. simpl negb. cbv iota.
    eapply (vfill_wp (fun i => for_range (j_start B i) (j_stop B i) (fun s j => a <- band_get O B i j ;; y <- vget x j ;; Ok (nadd O s (nmul O a y))) (n0 O)) _ n _ (fun i => sum n (fun j => nmul O (f i j) (xf j)))); [apply is_vector_repeat| |auto].
    intros i Hi. unfold j_start, j_stop. rewrite Hn, H1, H2.
    assert (E : forall c, (c <= i - m1 -> sum c (fun j => nmul O (f i j) (xf j)) = n0 O)).
    { intros c Hc. apply (sum_zero O HR). intros j Hj. destruct (lt_dec j n).
      - rewrite Hz; [ring|auto|auto|lia].
      - lia. }
    eapply wp_conseq; [|apply (for_range_inv _ _ (fun c s => s = sum c (fun j => nmul O (f i j) (xf j))))].
    - intros s ->. set (c := Nat.min n (i + m2 + 1)). transitivity (sum (c + (n - c)) (fun j => nmul O (f i j) (xf j))); [|replace (c + (n - c)) with n by (unfold c; lia); auto]. rewrite (sum_app O HR).
      rewrite (sum_zero O HR (n - c)); [ring|]. intros j Hj. rewrite Hz; [ring|auto|unfold c in *; lia|unfold c in *; lia].
    - lia.
    - rewrite E by lia. auto.
    - intros j s Hj1 Hj2 ->. apply wp_bind. eapply is_band_get; eauto; [lia|]. apply wp_bind. eapply vgetf_wp; eauto; [lia|]. apply wp_Ok. rewrite Nat.add_1_r. auto. }
  destruct (band_mul_vec O B x) as [y|e| |]; simpl in W; try contradiction. exists y. auto.
Qed.
Theorem C45_mul_vec_bad : forall (B : band T) n m1 m2 f (x : list T), is_band O B n m1 m2 f -> length x <> n -> band_mul_vec O B x = Throw InvalidArgument.
Proof. intros B n m1 m2 f x (Hn & _) Hx. unfold band_mul_vec. rewrite Hn, (proj2 (Nat.eqb_neq _ n)) by auto. auto. Qed.

(** C45: conversion to a full matrix, trace, diagonal *)
Theorem C45_full : forall (B : band T) n m1 m2 f, is_band O B n m1 m2 f -> dims_ok n n ->
  exists A, band_full O B = Ok A /\ is_matrix A n n f.
Proof.
  intros B n m1 m2 f HB Hd. pose proof HB as (Hn & _).
  assert (W : wp (band_full O B) (fun A => is_matrix A n n f)).
  { unfold band_full. rewrite Hn. apply wp_bind. unfold mat_new. destruct (Z.ltb_spec (Z.of_nat n) 0); [lia|]. simpl orb. cbv iota. rewrite !Nat2Z.id.
    apply alloc_ok_wp; auto. intros A HA. eapply (fill_wp (fun i j => band_get O B i j)); eauto. intros i j Hi Hj. eapply is_band_get; eauto. }
  destruct (band_full O B) as [A|e| |]; simpl in W; try contradiction. eauto.
Qed.
Theorem C45_trace : forall (B : band T) n m1 m2 f, is_band O B n m1 m2 f ->
  band_trace O B = Ok (sum n (fun i => f i i)) /\ exists v, band_diag O B = Ok v /\ is_vector v n (fun i => f i i).
Proof.
  intros B n m1 m2 f HB. pose proof HB as (Hn & _). split.
  - assert (W : wp (band_trace O B) (fun s => s = sum n (fun i => f i i))).
    { unfold band_trace. rewrite Hn. eapply wp_conseq; [|apply (for_range_inv _ _ (fun i s => s = sum i (fun i => f i i)))]; auto; [lia|].
      intros i s _ Hi ->. apply wp_bind. eapply is_band_get; eauto. apply wp_Ok. rewrite Nat.add_1_r. auto. }
    destruct (band_trace O B) as [s|e| |]; simpl in W; try contradiction. rewrite W. auto.
  - assert (W : wp (band_diag O B) (fun v => is_vector v n (fun i => f i i))).
    { unfold band_diag. rewrite Hn. eapply (vfill_wp (fun i => band_get O B i i) _ n _ (fun i => f i i)); [apply is_vector_repeat| |auto]. intros i Hi. eapply is_band_get; eauto. }
    destruct (band_diag O B) as [s|e| |]; simpl in W; try contradiction. eauto.
Qed.

(** C45: scalar multiplication, negation, addition, subtraction *)
Lemma is_band_new : forall n m1 m2 (D : matrix T) g f, is_matrix D n (m1 + m2 + 1) g ->
  (forall i j, i < n -> j < n -> i <= j + m1 -> j <= i + m2 -> g i (j + m1 - i) = f i j) ->
  (forall i j, i < n -> j < n -> j + m1 < i \/ i + m2 < j -> f i j = n0 O) ->
  exists B, band_new n m1 m2 D = Ok B /\ is_band O B n m1 m2 f.
Proof.
  intros n m1 m2 D g f HD H1 H2. unfold band_new. pose proof HD as (-> & -> & _). rewrite !Nat.eqb_refl. simpl. eexists. split; [reflexivity|].
  unfold is_band. simpl. split; auto. split; auto. split; auto. split; auto. exists g. auto.
Qed.
Theorem C45_linear : forall (A B : band T) n m1 m2 f g s, is_band O A n m1 m2 f -> is_band O B n m1 m2 g -> dims_ok n (m1 + m2 + 1) ->
  (exists C, band_scale O A s = Ok C /\ is_band O C n m1 m2 (fun i j => nmul O (f i j) s)) /\
  (exists C, band_neg O A = Ok C /\ is_band O C n m1 m2 (fun i j => nopp O (f i j))) /\
  (exists C, band_add O A B = Ok C /\ is_band O C n m1 m2 (fun i j => nadd O (f i j) (g i j))) /\
  (exists C, band_sub O A B = Ok C /\ is_band O C n m1 m2 (fun i j => nsub O (f i j) (g i j))).
Proof.
  intros A B n m1 m2 f g s (An & A1 & A2 & (a & AD & Ag) & Az) (Bn & B1 & B2 & (b & BD & Bg) & Bz) Hd.
  unfold band_scale, band_neg, band_add, band_sub, same_shape. rewrite An, A1, A2, Bn, B1, B2, !Nat.eqb_refl. simpl negb. cbv iota.
  destruct (scale_ok O _ s _ _ _ AD Hd) as (C1 & -> & H1). destruct (neg_ok O _ _ _ _ AD Hd) as (C2 & -> & H2).
  destruct (add_ok O _ _ _ _ _ _ AD BD Hd) as (C3 & -> & H3). destruct (sub_ok O _ _ _ _ _ _ AD BD Hd) as (C4 & -> & H4). cbn [bind].
  split; [|split; [|split]]; (eapply is_band_new; [eassumption| |]; intros i j Hi Hj; intros; cbv beta; [rewrite ?Ag, ?Bg by auto; auto|rewrite ?Az, ?Bz by auto; ring]).
Qed.
Theorem C45_shape_mismatch : forall (A B : band T) n m1 m2 f n' m1' m2' g, is_band O A n m1 m2 f -> is_band O B n' m1' m2' g -> (n, m1, m2) <> (n', m1', m2') ->
  band_add O A B = Throw DimensionError /\ band_sub O A B = Throw DimensionError.
Proof.
  intros A B n m1 m2 f n' m1' m2' g (An & A1 & A2 & _) (Bn & B1 & B2 & _) Hne. unfold band_add, band_sub, same_shape. rewrite An, A1, A2, Bn, B1, B2.
  destruct (Nat.eqb_spec n n'); destruct (Nat.eqb_spec m1 m1'); destruct (Nat.eqb_spec m2 m2'); simpl; auto. subst. congruence.
Qed.

(** C45: transposition exchanges the widths *)
Theorem C45_transpose : forall (B : band T) n m1 m2 f, is_band O B n m1 m2 f -> dims_ok n (m1 + m2 + 1) ->
  exists C, band_transpose O B = Ok C /\ is_band O C n m2 m1 (fun i j => f j i).
Proof.
  intros B n m1 m2 f HB Hd. pose proof HB as (Hn & H1 & H2 & (g & HD & Hg) & Hz). unfold band_transpose. rewrite Hn, H1, H2.
  assert (Emm : m2 + m1 + 1 = m1 + m2 + 1) by lia.
  assert (W : wp (mat_new O (Z.of_nat n) (Z.of_nat (m1 + m2 + 1))) (fun D => is_matrix D n (m1 + m2 + 1) (fun _ _ => n0 O))).
  { unfold mat_new. destruct (Z.ltb_spec (Z.of_nat n) 0); [lia|]. destruct (Z.ltb_spec (Z.of_nat (m1 + m2 + 1)) 0); [lia|]. simpl orb. cbv iota. rewrite !Nat2Z.id. apply alloc_ok_wp; auto. }
  destruct (mat_new O (Z.of_nat n) (Z.of_nat (m1 + m2 + 1))) as [D|e| |]; simpl in W; try contradiction. cbn [bind].
  match goal with |- context [bind ?l _] => assert (W2 : wp l (fun D' => exists h, is_matrix D' n (m1 + m2 + 1) h /\
     forall i j, i < n -> j < n -> i <= j + m1 -> j <= i + m2 -> h j (i + m2 - j) = f i j)); [|destruct l as [D'|e| |]; simpl in W2; try contradiction] end.
  - eapply wp_conseq; [|apply (for_range_inv _ _ (fun i0 D' => exists h, is_matrix D' n (m1 + m2 + 1) h /\
     forall i j, i < i0 -> j < n -> i <= j + m1 -> j <= i + m2 -> h j (i + m2 - j) = f i j))].
    + auto.
    + lia.
    + exists (fun _ _ => n0 O). split; auto. intros; lia.
    + intros i0 D' _ Hi (h & I1 & I2). unfold j_start, j_stop. rewrite Hn, H1, H2.
      eapply wp_conseq; [|apply (for_range_inv _ _ (fun j0 D' => exists h, is_matrix D' n (m1 + m2 + 1) h /\
         forall i j, i < i0 \/ (i = i0 /\ j < j0) -> j < n -> i <= j + m1 -> j <= i + m2 -> h j (i + m2 - j) = f i j))].
      * intros D2 (h2 & J1 & J2). exists h2. split; auto. intros i j Li Lj L1 L2. apply J2; auto. lia.
      * lia.
      * exists h. split; auto. intros i j Li Lj L1 L2. apply I2; auto. lia.
      * intros j0 D2 Hj1 Hj2 (h2 & J1 & J2). apply wp_bind. eapply mget_wp; [exact HD|lia|lia|]. eapply mset_wp; [exact J1|lia|lia|]. intros D3 J3.
        eexists. split; [exact J3|]. intros i j Li Lj L1 L2. unfold fset.
        destruct (Nat.eqb_spec j j0) as [->|Hne]; simpl; [|apply J2; auto; lia].
        destruct (Nat.eqb_spec (i + m2 - j0) (i0 + m2 - j0)).
        -- replace i with i0 by lia. apply Hg; lia.
        -- apply J2; auto. lia.
  - destruct W2 as (h & I1 & I2). cbn [bind]. rewrite <- Emm in I1. eapply is_band_new; [exact I1| |].
    + intros i j Hi Hj L1 L2. apply I2; auto.
    + intros i j Hi Hj L. apply Hz; auto. lia.
Qed.

(** C45: if IsEqualTo holds, all entries of the two matrices are within the tolerance *)
Theorem C45_equal_sound : forall near (A B : band T) n m1 m2 f n' m1' m2' g, is_band O A n m1 m2 f -> is_band O B n' m1' m2' g ->
  near (n0 O) (n0 O) = true -> band_equal near A B = true ->
  n = n' /\ forall i j, i < n -> j < n -> near (f i j) (g i j) = true.
Proof.
  intros near A B n m1 m2 f n' m1' m2' g (An & A1 & A2 & (a & AD & Ag) & Az) (Bn & B1 & B2 & (b & BD & Bg) & Bz) H0 HE.
  unfold band_equal, same_shape in HE. rewrite An, A1, A2, Bn, B1, B2 in HE. apply andb_true_iff in HE. destruct HE as [HE HM].
  apply andb_true_iff in HE. destruct HE as [HE E3]. apply andb_true_iff in HE. destruct HE as [E1 E2].
  apply Nat.eqb_eq in E1, E2, E3. clear An A1 A2 Bn B1 B2. subst n' m1' m2'. split; auto. intros i j Hi Hj.
  unfold mat_eqb in HM. apply andb_true_iff in HM. destruct HM as [_ HM]. rewrite forallb_forall in HM.
  destruct (le_dec i (j + m1)); [destruct (le_dec j (i + m2))|].
  - rewrite <- (Ag i j), <- (Bg i j) by lia. destruct AD as (_ & R2 & L1 & D1). destruct BD as (_ & R2' & L2 & D2). assert (Hjj : j + m1 - i < m1 + m2 + 1) by lia. specialize (D1 i (j + m1 - i) Hi Hjj). specialize (D2 i (j + m1 - i) Hi Hjj).
    specialize (HM (a i (j + m1 - i), b i (j + m1 - i))). simpl in HM. apply HM.
    clear - D1 D2. revert D1 D2. generalize (i * (m1 + m2 + 1) + (j + m1 - i)) (m_data (bd_data A)) (m_data (bd_data B)). intros k la. revert k. induction la as [|x la IH]; intros [|k] [|y lb] E1 E2; simpl in *; try discriminate.
    + left. congruence.
    + right. eapply IH; eauto.
  - rewrite Az, Bz by (auto; lia). auto.
  - rewrite Az, Bz by (auto; lia). auto.
Qed.
End Ops.

(** ** Instances *)
Lemma Qmadd_laws : madd_laws Qnum Qmag Qcplus.
Proof.
  constructor; simpl.
  - intros a. unfold Qcabs'. replace (Qclt_b 0 0) with false by (vm_compute; auto). apply Qcplus_0_r.
  - intros a b H. apply Qclt_b_false in H. apply Qclt_b_false. rewrite <- (Qcplus_0_r a) at 1. apply Qcplus_le_compat; auto. apply Qcle_refl.
  - intros a b H. apply Qclt_b_false in H. apply Qclt_b_false. rewrite <- (Qcplus_0_l b) at 1. apply Qcplus_le_compat; auto. apply Qcle_refl.
Qed.

Definition ex_band : band Qc := mkBand 4 1 2 (mkMat 4 4 (map qz [9; 2; 1; 3;  1; 1; 4; 1;  5; 2; 1; 9;  3; 7; 9; 9])%Z).
(** rows: (2 1 3 0), (1 1 4 1), (0 5 2 1), (0 0 3 7) *)
Definition ex_bf (i j : nat) : Qc := nth j (nth i (map (map qz) [[2; 1; 3; 0]; [1; 1; 4; 1]; [0; 5; 2; 1]; [0; 0; 3; 7]]%Z) []) 0%Qc.

Example C36_hypotheses : is_band Qnum ex_band 4 1 2 ex_bf /\ band_ok 4 1 2 /\ exists i j, i < 4 /\ j < 4 /\ ex_bf i j <> 0%Qc.
Proof.
  split; [|split].
  - unfold is_band. simpl. split; auto. split; auto. split; auto. split.
    + exists (fun i j => nth (i * 4 + j) (m_data (bd_data ex_band)) 0%Qc). split.
      * apply is_matrix_lit; reflexivity.
      * intros i j Hi Hj. do 4 (destruct i as [|i]; [do 4 (destruct j as [|j]; [intros; first [reflexivity|lia]|]); lia|]). lia.
    + intros i j Hi Hj. do 4 (destruct i as [|i]; [do 4 (destruct j as [|j]; [intros; first [reflexivity|lia]|]); lia|]). lia.
  - unfold band_ok, dims_fit. repeat split; lia.
  - exists 0, 0. split; [lia|]. split; [lia|]. intros H. apply (f_equal this) in H. vm_compute in H. discriminate.
Qed.
Example C36_solve_example : exists S x, bs_ctor Qnum Qmag Qcplus ex_band = Ok S /\ bs_solve Qnum S (map qz [6; 7; 8; 10]%Z) = Ok x /\
  map this x = map this (map qz [1; 1; 1; 1]%Z).
Proof. do 2 eexists. split; [vm_compute; reflexivity|]. split; vm_compute; reflexivity. Qed.
Example C36_det_example : exists S d, bs_ctor Qnum Qmag Qcplus ex_band = Ok S /\ bs_det Qnum S = Ok d /\ this d = this (det Qnum 4 ex_bf) /\ this d = (-134 # 1)%Q.
Proof. do 2 eexists. split; [vm_compute; reflexivity|]. split; [vm_compute; reflexivity|]. split; vm_compute; reflexivity. Qed.
Example C36_singular_example : bs_ctor Qnum Qmag Qcplus (mkBand 2 1 1 (mkMat 2 3 (map qz [0; 1; 2; 2; 4; 0])%Z)) = Throw SingularError.
Proof. vm_compute. reflexivity. Qed.
(** pivoting really happens *)
Example C36_pivot_example : exists S x, bs_ctor Qnum Qmag Qcplus (mkBand 2 1 1 (mkMat 2 3 (map qz [0; 0; 2; 3; 4; 0])%Z)) = Ok S /\
  bs_solve Qnum S (map qz [2; 7]%Z) = Ok x /\ map this x = map this (map qz [1; 1]%Z).
Proof. do 2 eexists. split; [vm_compute; reflexivity|]. split; vm_compute; reflexivity. Qed.

(** The property "a singular matrix is refused" fails for the zero matrix: the threshold is 0 and 0 < 0 is
    false, so the constructor returns a solver (whose Solve then divides by zero). *)
Theorem C36_zero_matrix_refuted : exists (B : band Qc) S, is_band Qnum B 1 0 0 (fun _ _ => 0%Qc) /\ band_ok 1 0 0 /\ singular Qnum 1 (fun _ _ => 0%Qc) /\
  bs_ctor Qnum Qmag Qcplus B = Ok S.
Proof.
  exists (mkBand 1 0 0 (mkMat 1 1 [0%Qc])). eexists. split; [|split; [|split]].
  - unfold is_band. simpl. split; auto. split; auto. split; auto. split; auto. exists (fun _ _ => 0%Qc). split; auto. split; auto. split; auto. split; auto.
    intros i j Hi Hj. replace i with 0 by lia. replace j with 0 by lia. reflexivity.
  - unfold band_ok, dims_fit. repeat split; lia.
  - exists (fun _ => 1%Qc). split; [exists 0; split; [lia|intros H; apply (f_equal this) in H; vm_compute in H; discriminate]|]. intros i Hi. apply Qc_is_canon. reflexivity.
  - vm_compute. reflexivity.
Qed.

(** A lower width larger than the dimension makes the constructor touch rows that do not exist. *)
Theorem C36_wide_band_refuted : exists (B : band Qc), is_band Qnum B 1 2 0 (fun _ _ => 1%Qc) /\ bs_ctor Qnum Qmag Qcplus B = UB.
Proof.
  exists (mkBand 1 2 0 (mkMat 1 3 [1; 1; 1]%Qc)). split; [|vm_compute; reflexivity].
  unfold is_band. simpl. split; auto. split; auto. split; auto. split; [|intros; lia]. exists (fun _ _ => 1%Qc). split; auto. split; auto. split; auto. split; auto.
  intros i j Hi Hj. replace i with 0 by lia. destruct j as [|[|[|]]]; [reflexivity| | |lia]; reflexivity.
Qed.

(** IsEqualTo compares the storage, including the cells outside the matrix: two band matrices with the same
    entries can be unequal. *)
Theorem C45_equal_complete_refuted : exists (A B : band Qc) (f : nat -> nat -> Qc), is_band Qnum A 1 1 0 f /\ is_band Qnum B 1 1 0 f /\
  band_equal Qc_eq_bool A B = false.
Proof.
  exists (mkBand 1 1 0 (mkMat 1 2 (map qz [0; 1]%Z))), (mkBand 1 1 0 (mkMat 1 2 (map qz [5; 1]%Z))), (fun _ _ => qz 1).
  split; [|split; [|vm_compute; reflexivity]].
  all: unfold is_band; simpl; split; auto; split; auto; split; auto; split; [|intros; lia].
  - exists (fun i j => nth (i * 2 + j) (map qz [0; 1]%Z) 0%Qc). split; [apply is_matrix_lit; reflexivity|]. intros i j Hi Hj _ _. replace i with 0 by lia. replace j with 0 by lia. reflexivity.
  - exists (fun i j => nth (i * 2 + j) (map qz [5; 1]%Z) 0%Qc). split; [apply is_matrix_lit; reflexivity|]. intros i j Hi Hj _ _. replace i with 0 by lia. replace j with 0 by lia. reflexivity.
Qed.

Example C45_example : exists C, band_transpose Qnum ex_band = Ok C /\ bd_m1 C = 2 /\ bd_m2 C = 1 /\
  show (band_full Qnum C) = show (Ok (mkMat 4 4 (map qz [2; 1; 0; 0;  1; 1; 5; 0;  3; 4; 2; 3;  0; 1; 1; 7])%Z)).
Proof. eexists. split; [vm_compute; reflexivity|]. repeat split; vm_compute; reflexivity. Qed.

Print Assumptions C36_constructor.
Print Assumptions C36_solve.
Print Assumptions C36_bad_rhs.
Print Assumptions C36_singular_throws.
Print Assumptions C36_determinant.
Print Assumptions C36_solve_matrix.
Print Assumptions C36_bad_matrix_rhs.
Print Assumptions C36_zero_matrix_refuted.
Print Assumptions C36_wide_band_refuted.
Print Assumptions C45_element.
Print Assumptions C45_mul_vec.
Print Assumptions C45_mul_vec_bad.
Print Assumptions C45_full.
Print Assumptions C45_trace.
Print Assumptions C45_linear.
Print Assumptions C45_shape_mismatch.
Print Assumptions C45_transpose.
Print Assumptions C45_equal_sound.
Print Assumptions C45_equal_complete_refuted.
