(** * C33, C34: Matrix::Invert and GaussJordanSolver

    Exact arithmetic over any field, with any magnitude function that orders the elements
    ([mag_laws]); [mthr G m n] is the code's singularity threshold eps * m * n. *)

From Coq Require Import List Arith Bool Lia ZArith QArith Qcanon Ring Field Reals.
From Verif Require Import Base Num Mat_Model Mat_Proofs Mat_Props Lin_Base Gauss_Model Gauss_Proofs.
Import ListNotations.
Local Open Scope nat_scope.

Section Spec.
Context {T M : Type} (O : numops T) (G : magops T M).

(** g is a two-sided inverse of f *)
Definition inverse_of (n : nat) (f g : nat -> nat -> T) : Prop :=
  (forall i j, i < n -> j < n -> sumn O n (fun k => nmul O (f i k) (g k j)) = if Nat.eqb i j then n1 O else n0 O) /\
  (forall i j, i < n -> j < n -> sumn O n (fun k => nmul O (g i k) (f k j)) = if Nat.eqb i j then n1 O else n0 O).

(** f sends a vector with a coordinate 1 to a vector whose entries are all below t *)
Definition nearly_singular (n : nat) (f : nat -> nat -> T) (t : M) : Prop :=
  exists x, (exists i, i < n /\ x i = n1 O) /\
    forall i, i < n -> mlt G (mabs G (sumn O n (fun k => nmul O (f i k) (x k)))) t = true.

(** f has a non-zero vector in its kernel *)
Definition singular (n : nat) (f : nat -> nat -> T) : Prop :=
  exists x, (exists i, i < n /\ x i <> n0 O) /\
    forall i, i < n -> sumn O n (fun k => nmul O (f i k) (x k)) = n0 O.
End Spec.

Section Gauss.
Context {T M : Type} (O : numops T) (HF : field_laws O) (G : magops T M) (HG : mag_laws O G).
Let HR : ring_laws O := field_ring T O HF.
Add Field Tf : HF.
Implicit Types (f : nat -> nat -> T).

(** the variables of the main loop before step [i] *)
Record loop_inv (n : nat) (A0 : nat -> nat -> T) (i : nat) (A : matrix T) (ipiv indxr indxc : list nat)
  (f : nat -> nat -> T) (S : nat -> bool) (W V : nat -> nat -> T) (rr cc : nat -> nat) : Prop := {
  li_A : is_matrix A n n f;
  li_piv : is_vector ipiv n (fun j => if S j then 1 else 0);
  li_r : is_vector indxr n rr;
  li_c : is_vector indxc n cc;
  li_lt : forall l, l < i -> rr l < n /\ cc l < n;
  li_count : count S n = i;
  li_gj : gj O n A0 f S W V (perm i rr cc)
}.

Lemma loop_init : forall n A0 A, is_matrix A n n A0 ->
  loop_inv n A0 0 A (repeat 0 n) (repeat 0 n) (repeat 0 n) A0 (fun _ => false) A0 (delta O) (fun _ => 0) (fun _ => 0).
Proof.
  intros n A0 A HA. constructor; auto; try apply is_vector_repeat; try apply count_none.
  - intros; lia.
  - apply (gj_init O HF).
Qed.

Lemma gj_sigma_ext : forall n A0 f S W V s s', gj O n A0 f S W V s -> (forall j, s j = s' j) -> gj O n A0 f S W V s'.
Proof. intros n A0 f S W V s s' [H1 H2 H3] E. constructor; auto; intros i j; rewrite <- E; auto. Qed.

Lemma loop_next : forall n A0 i A ipiv indxr indxc f S W V rr cc r c A' ipiv' indxr' indxc',
  loop_inv n A0 i A ipiv indxr indxc f S W V rr cc -> i < n -> r < n -> c < n -> S r = false -> S c = false -> f r c <> n0 O ->
  is_matrix A' n n (elim O f r c) ->
  is_vector ipiv' n (vfset (fun j => if S j then 1 else 0) c ((if S c then 1 else 0) + 1)) ->
  is_vector indxr' n (vfset rr i r) -> is_vector indxc' n (vfset cc i c) ->
  loop_inv n A0 (i + 1) A' ipiv' indxr' indxc' (elim O f r c) (mark S c) (stepf O f r c W) (stepf O f r c V) (vfset rr i r) (vfset cc i c).
Proof.
  intros n A0 i A ipiv indxr indxc f S W V rr cc r c A' ipiv' indxr' indxc' [H1 H2 H3 H4 H5 H6 H7] Hi Hr Hc Sr Sc Hp HA' Hp' Hr' Hc'.
  constructor; auto.
  - eapply is_vector_ext; [exact Hp'|]. intros j Hj. unfold vfset, mark. rewrite Sc. destruct (Nat.eqb_spec j c); auto.
  - intros l Hl. unfold vfset. destruct (Nat.eqb_spec l i); auto. apply H5. lia.
  - rewrite count_mark by auto. lia.
  - eapply gj_sigma_ext; [apply (gj_step O HF n A0 f S W V (perm i rr cc) r c); auto|].
    intros j. cbv beta. replace (i + 1) with (Datatypes.S i) by lia. simpl. unfold vfset at 3 4. rewrite Nat.eqb_refl.
    apply perm_ext. intros l Hl. unfold vfset. destruct (Nat.eqb_spec l i); [lia|auto].
Qed.

Lemma loop_end : forall n A0 A ipiv indxr indxc f S W V rr cc (Q : matrix T -> Prop),
  loop_inv n A0 n A ipiv indxr indxc f S W V rr cc ->
  (forall A', is_matrix A' n n V ->
     (forall x b, (forall i, i < n -> sumn O n (fun k => nmul O (A0 i k) (x k)) = b i) <->
                  (forall i, i < n -> x i = sumn O n (fun q => nmul O (V i q) (b q)))) -> Q A') ->
  wp (unscramble A n indxr indxc) Q.
Proof.
  intros n A0 A ipiv indxr indxc f S W V rr cc Q [H1 H2 H3 H4 H5 H6 H7] HQ.
  assert (HS : forall j, j < n -> S j = true) by (intros; eapply count_all; eauto).
  eapply unscramble_wp; eauto.
  - intros i j Hi Hj. apply (g_red _ _ _ _ _ _ _ _ H7); auto.
  - intros A' HA'. apply HQ; auto. eapply (gj_end O HF); eauto.
Qed.

Lemma small_certificate : forall n A0 i A ipiv indxr indxc f S W V rr cc r c t,
  loop_inv n A0 i A ipiv indxr indxc f S W V rr cc -> i < n ->
  (forall i j, i < n -> j < n -> S i = false -> S j = false -> mlt G (mabs G (f r c)) (mabs G (f i j)) = false) ->
  mlt G (mabs G (f r c)) t = true -> nearly_singular O G n A0 t.
Proof.
  intros n A0 i A ipiv indxr indxc f S W V rr cc r c t [H1 H2 H3 H4 H5 H6 H7] Hi Hmax Hlt. unfold nearly_singular.
  apply (gj_small O HF n A0 f S W V i rr cc (fun y => mlt G (mabs G y) t = true)); auto.
  - eapply (ml_lt_le O G HG); [|exact Hlt]. eapply (ml_trans _ _ HG); [apply (ml_nonneg _ _ HG)|apply (ml_zero _ _ HG)].
  - intros a b Ha Hb Sa Sb. eapply (ml_lt_le O G HG); [|exact Hlt]. auto.
  - apply count_lt. lia.
Qed.

Lemma inverse_intro : forall n f g,
  (forall x b, (forall i, i < n -> sumn O n (fun k => nmul O (f i k) (x k)) = b i) <->
               (forall i, i < n -> x i = sumn O n (fun q => nmul O (g i q) (b q)))) -> inverse_of O n f g.
Proof. intros n f g H. apply (solves_inverse O HF n f g H). Qed.

(** an invertible matrix has a trivial kernel *)
Lemma inverse_not_singular : forall n f g, inverse_of O n f g -> ~ singular O n f.
Proof.
  intros n f g [_ H] (x & (i & Hi & Hx) & Hz). apply Hx.
  transitivity (sumn O n (fun q => nmul O (g i q) (sumn O n (fun k => nmul O (f q k) (x k))))).
  - rewrite (sum_ext O n _ (fun q => sumn O n (fun k => nmul O (nmul O (g i q) (f q k)) (x k)))).
    2:{ intros q Hq. rewrite (sum_mul_l O HR). apply sum_ext. intros k Hk. ring. }
    rewrite (sum_swap O HR). rewrite (sum_ext O n _ (fun k => nmul O (if Nat.eqb i k then n1 O else n0 O) (x k))).
    + rewrite (sum_one O HR n i); auto.
      * rewrite Nat.eqb_refl. ring.
      * intros k Hk Hki. rewrite (proj2 (Nat.eqb_neq i k)) by auto. ring.
    + intros k Hk. rewrite <- (sum_mul_r O HR). rewrite H by auto. auto.
  - apply (sum_zero O HR). intros q Hq. rewrite Hz by auto. ring.
Qed.

(** ** C33 *)
Theorem C33_invert : forall (A : matrix T) n f,
  is_matrix A n n f -> (n = 0 \/ exists i j, i < n /\ j < n /\ f i j <> n0 O) ->
  (exists B g, mat_invert O G A = Ok B /\ is_matrix B n n g /\ inverse_of O n f g) \/
  (mat_invert O G A = Throw SingularError /\ exists m, is_max G n f m /\ nearly_singular O G n f (mthr G m n)).
Proof.
  intros A n f HA Hnz.
  assert (W : wpt (mat_invert O G A)
    (fun e => e = SingularError /\ exists m, is_max G n f m /\ nearly_singular O G n f (mthr G m n))
    (fun B => exists g, is_matrix B n n g /\ inverse_of O n f g)).
  2:{ destruct (mat_invert O G A) as [B|e| |]; simpl in W; try contradiction.
      - destruct W as (g & W). left. exists B, g. split; auto.
      - destruct W as (He & W). right. rewrite He. split; auto. }
  unfold mat_invert. pose proof HA as (Hr & Hc & _). rewrite Hr, Hc, Nat.eqb_refl. simpl negb. cbv iota.
  apply wpt_bind_wp. eapply (max_abs_wp O G HG); eauto. intros m Hm.
  assert (Hthr : 0 < n -> mlt G (mzero G) (mthr G m n) = true).
  { intros Hn. destruct Hnz as [->|(i & j & Hi & Hj & Hne)]; [lia|]. apply (ml_thr _ _ HG); auto.
    apply (is_max_pos O G HG n f m i j); auto. }
  apply wpt_bind.
  eapply wpt_conseq; [|apply (wpt_for_range _ _ _ (fun i '(A, ipiv, indxr, indxc) =>
     exists fi S W V rr cc, loop_inv n f i A ipiv indxr indxc fi S W V rr cc))].
  - intros [[[A' ipiv] indxr] indxc] (fi & S & W & V & rr & cc & HI). cbv beta iota.
    apply wpt_wp. eapply loop_end; eauto. intros B HB Hsol. exists V. split; auto. apply inverse_intro; auto.
  - lia.
  - do 6 eexists. apply loop_init; auto.
  - intros i [[[A1 ipiv] indxr] indxc] _ Hi (fi & S & W & V & rr & cc & HI). cbv beta iota.
    pose proof HI as [H1 H2 H3 H4 H5 H6 H7].
    apply wpt_bind_wp. eapply (find_pivot_wp O G HG); eauto; [apply count_lt; lia|].
    intros big r c Hr' Hc' Sr Sc Hmax. cbv beta iota.
    apply wpt_bind_wp. eapply vgetf_wp; eauto. apply wpt_bind_wp. eapply vsetf_wp; eauto. intros ipiv' Hp'.
    apply wpt_bind_wp. eapply swap_if_wp; eauto. intros A2 HA2.
    apply wpt_bind_wp. eapply vsetf_wp; eauto. intros indxr' Hir. apply wpt_bind_wp. eapply vsetf_wp; eauto. intros indxc' Hic.
    apply wpt_bind_wp. eapply mget_wp; eauto. cbv beta. rewrite (tr_r r c).
    destruct (mlt G (mabs G (fi r c)) (mthr G m n)) eqn:E.
    + simpl. split; auto. exists m. split; auto. eapply small_certificate; eauto.
    + assert (Hne : fi r c <> n0 O) by (eapply (ml_not_zero O G HG); [apply Hthr; lia|exact E]).
      apply wpt_wp.
      assert (HS := scaled_wp O A2 n fi r c (fun A3 => wp
         (A <- for_range 0 n (fun A ll =>
               if Nat.eqb ll c then Ok A
               else dum <- mget A ll c ;; A <- mset A ll c (n0 O) ;; sub_row O A n ll c dum) A3 ;;
          Ok (A, ipiv', indxr', indxc')) (fun '(A, ipiv, indxr, indxc) =>
     exists fi S W V rr cc, loop_inv n f (i + 1) A ipiv indxr indxc fi S W V rr cc)) HA2 Hr' Hc').
      apply wp_bind. assert (HS' := fun H => wp_bind_inv _ _ _ _ _ (HS H)). clear HS. eapply wp_conseq; [|apply HS'].
      * cbv beta. intros A3 H. apply wp_bind. exact H.
      * intros A3 H3'. apply wp_bind. eapply elim_loop_wp; eauto. intros A4 H4'. apply wp_Ok.
        do 6 eexists. eapply (loop_next n f i A1 ipiv indxr indxc fi S W V rr cc r c); eauto.
Qed.

(** the throw is forced for every singular matrix except the zero matrix *)
Theorem C33_singular_throws : forall (A : matrix T) n f,
  is_matrix A n n f -> singular O n f -> (exists i j, i < n /\ j < n /\ f i j <> n0 O) ->
  mat_invert O G A = Throw SingularError.
Proof.
  intros A n f HA Hs Hnz. destruct (C33_invert A n f HA) as [(B & g & E & HB & Hinv)|[E _]]; auto.
  exfalso. eapply inverse_not_singular; eauto.
Qed.

Theorem C33_not_square : forall (A : matrix T) r c f, is_matrix A r c f -> r <> c -> mat_invert O G A = Throw DimensionError.
Proof.
  intros A r c f (Hr & Hc & _) Hne. unfold mat_invert. rewrite Hr, Hc, (proj2 (Nat.eqb_neq r c)) by auto. auto.
Qed.

(** ** C34 *)
(** what a successful call leaves in the two matrices *)
Definition gj_solved (n m : nat) (f b : nat -> nat -> T) (g x : nat -> nat -> T) : Prop :=
  inverse_of O n f g /\
  (forall i l, i < n -> l < m -> sumn O n (fun k => nmul O (f i k) (x k l)) = b i l) /\
  (forall y, (forall i l, i < n -> l < m -> sumn O n (fun k => nmul O (f i k) (y k l)) = b i l) ->
     forall i l, i < n -> l < m -> y i l = x i l).

Lemma stepf_sum : forall n f r c V (B : nat -> nat -> T) g,  r < n -> c < n ->
  (forall i l, i < n -> g i l = sumn O n (fun q => nmul O (V i q) (B q l))) ->
  forall i l, i < n -> stepf O f r c g i l = sumn O n (fun q => nmul O (stepf O f r c V i q) (B q l)).
Proof.
  intros n f r c V B g Hr Hc H i l Hi. unfold stepf.
  rewrite <- (rop_sum O HF (ndiv O (n1 O) (f r c)) (fun i => f (tr r c i) c) c n (fun i q => V (tr r c i) q) (fun q => B q l) i).
  unfold rop. rewrite !H by (try apply tr_lt; auto). auto.
Qed.

Theorem C34_gauss_jordan : forall (A B : matrix T) n m f b,
  is_matrix A n n f -> is_matrix B n m b -> 0 < n -> 0 < m ->
  (exists A' X g x, gj_solve O G A B = Ok (A', X) /\ is_matrix A' n n g /\ is_matrix X n m x /\ gj_solved n m f b g x) \/
  (gj_solve O G A B = Throw SingularError /\ exists t, is_max G n f t /\ nearly_singular O G n f (mthr G t n)) \/
  (gj_solve O G A B = Throw NumericalError /\ exists x, (exists i, i < n /\ x i = n1 O) /\
      forall i, i < n -> sumn O n (fun k => nmul O (f i k) (x k)) = n0 O).
Proof.
  intros A B n m f b HA HB Hn Hm.
  assert (W : wpt (gj_solve O G A B)
    (fun e => (e = SingularError /\ exists t, is_max G n f t /\ nearly_singular O G n f (mthr G t n)) \/
              (e = NumericalError /\ exists x, (exists i, i < n /\ x i = n1 O) /\
      forall i, i < n -> sumn O n (fun k => nmul O (f i k) (x k)) = n0 O))
    (fun '(A', X) => exists g x, is_matrix A' n n g /\ is_matrix X n m x /\ gj_solved n m f b g x)).
  2:{ destruct (gj_solve O G A B) as [[A' X]|e| |]; simpl in W; try contradiction.
      - destruct W as (g & x & W). left. exists A', X, g, x. split; auto.
      - destruct W as [(-> & W)|(-> & W)]; [right; left|right; right]; split; auto. }
  unfold gj_solve. pose proof HA as (Hr & Hc & _). pose proof HB as (Hr2 & Hc2 & _).
  rewrite Hr, Hc, Hr2, Hc2, Nat.eqb_refl, (proj2 (Nat.eqb_neq n 0)), (proj2 (Nat.eqb_neq m 0)) by lia. simpl negb. simpl orb. cbv iota.
  apply wpt_bind_wp. eapply (max_abs_wp O G HG); eauto. intros t Ht.
  apply wpt_bind.
  eapply wpt_conseq; [|apply (wpt_for_range _ _ _ (fun i '(A, B, ipiv, indxr, indxc) =>
     exists fi S W V rr cc g, loop_inv n f i A ipiv indxr indxc fi S W V rr cc /\ is_matrix B n m g /\
       forall i l, i < n -> g i l = sumn O n (fun q => nmul O (V i q) (b q l))))].
  - intros [[[[A' B'] ipiv] indxr] indxc] (fi & S & W & V & rr & cc & g & HI & HB' & Hg). cbv beta iota.
    apply wpt_wp. apply wp_bind. eapply loop_end; eauto. intros A2 HA2 Hsol. apply wp_Ok. exists V, g.
    split; [auto|split; [auto|]]. split; [apply inverse_intro; auto|]. split.
    + intros i l Hi Hl. apply (proj2 (Hsol (fun k => g k l) (fun q => b q l))); auto.
    + intros y Hy i l Hi Hl. rewrite Hg by auto. apply (proj1 (Hsol (fun k => y k l) (fun q => b q l))); auto.
  - lia.
  - do 6 eexists. exists b. split; [apply loop_init; auto|]. split; auto. intros i l Hi. rewrite (sum_delta_l O HF) by auto. auto.
  - intros i [[[[A1 B1] ipiv] indxr] indxc] _ Hi (fi & S & W & V & rr & cc & g & HI & HB1 & Hg). cbv beta iota.
    pose proof HI as [H1 H2 H3 H4 H5 H6 H7].
    apply wpt_bind_wp. eapply (find_pivot_wp O G HG); eauto; [apply count_lt; lia|].
    intros big r c Hr' Hc' Sr Sc Hmax. cbv beta iota.
    apply wpt_bind_wp. eapply vgetf_wp; eauto. apply wpt_bind_wp. eapply vsetf_wp; eauto. intros ipiv' Hp'.
    apply wpt_bind_wp. eapply swap_if_wp; eauto. intros A2 HA2.
    apply wpt_bind_wp. eapply (swap_if_wp B1); eauto. intros B2 HB2.
    apply wpt_bind_wp. eapply vsetf_wp; eauto. intros indxr' Hir. apply wpt_bind_wp. eapply vsetf_wp; eauto. intros indxc' Hic.
    apply wpt_bind_wp. eapply mget_wp; eauto. cbv beta. rewrite (tr_r r c).
    destruct (mlt G (mabs G (fi r c)) (mthr G t n)) eqn:E; [|destruct (mlt G (mzero G) (mabs G (fi r c))) eqn:E0].
    + simpl. left. split; auto. exists t. split; auto. eapply small_certificate; eauto.
    + simpl negb. cbv iota.
      assert (Hne : fi r c <> n0 O).
      { intros Ez. rewrite Ez, (ml_zero _ _ HG) in E0. discriminate. }
      apply wpt_bind_wp. eapply mset_wp; eauto. intros A3 HA3. apply wpt_bind_wp. eapply scale_row_wp; eauto. intros A4 HA4.
      apply wpt_bind_wp. apply (scaled_b_wp O B2 n m fi g r c _ HB2 Hr' Hc'). intros B4 HB4.
      assert (HA4' : is_matrix A4 n n (part O fi r c 0)).
      { eapply is_matrix_ext; [exact HA4|]. intros a d Ha Hd. unfold part, fset, elim. cbv beta. rewrite Nat.eqb_refl. rewrite (tr_r r c).
        simpl. destruct (Nat.eqb_spec a c) as [->|Hic']; simpl; auto. }
      apply wpt_bind_wp. eapply elim2_loop_wp; eauto. intros A5 B5 HA5 HB5. cbv beta iota. apply wpt_wp. apply wp_Ok.
      do 6 eexists. exists (stepf O fi r c g). split; [|split; [auto|]].
      * eapply (loop_next n f i A1 ipiv indxr indxc fi S W V rr cc r c); eauto.
      * intros a l Ha. apply (stepf_sum n fi r c V b g); auto.
    + simpl. right. split; auto.
      apply (gj_small O HF n f fi S W V i rr cc (fun y => y = n0 O)); auto.
      * intros a d Ha Hd Sa Sd. apply (ml_eq0 _ _ HG). exact (ml_trans _ _ HG _ _ _ E0 (Hmax a d Ha Hd Sa Sd)).
      * apply count_lt. lia.
Qed.

(** every singular matrix makes the call throw, including the zero matrix *)
Theorem C34_singular_throws : forall (A B : matrix T) n m f b,
  is_matrix A n n f -> is_matrix B n m b -> 0 < n -> 0 < m -> singular O n f ->
  gj_solve O G A B = Throw SingularError \/ gj_solve O G A B = Throw NumericalError.
Proof.
  intros A B n m f b HA HB Hn Hm Hs.
  destruct (C34_gauss_jordan A B n m f b HA HB Hn Hm) as [(A' & X & g & x & _ & _ & _ & Hi & _)|[[E _]|[E _]]]; auto.
  exfalso. eapply inverse_not_singular; eauto.
Qed.

Theorem C34_nonconforming : forall (A B : matrix T) r c r2 m f b,
  is_matrix A r c f -> is_matrix B r2 m b -> r <> c \/ r = 0 \/ m = 0 \/ r2 <> r ->
  gj_solve O G A B = Throw DimensionError.
Proof.
  intros A B r c r2 m f b (Hr & Hc & _) (Hr2 & Hc2 & _) H. unfold gj_solve. rewrite Hr, Hc, Hr2, Hc2.
  destruct (Nat.eqb_spec r c); simpl; auto. destruct (Nat.eqb_spec r 0); simpl; auto. destruct (Nat.eqb_spec c 0); simpl; auto.
  destruct (Nat.eqb_spec r2 0); simpl; auto. destruct (Nat.eqb_spec m 0); simpl; auto.
  destruct (Nat.eqb_spec r r2); simpl; auto. lia.
Qed.

(** the vector form *)
Theorem C34_vector : forall (A : matrix T) (b : list T) n f bf,
  is_matrix A n n f -> is_vector b n bf -> 0 < n -> dims_fit n 1 ->
  (exists A' x g xf, gj_solve_vec O G A b = Ok (A', x) /\ is_matrix A' n n g /\ is_vector x n xf /\ inverse_of O n f g /\
     (forall i, i < n -> sumn O n (fun k => nmul O (f i k) (xf k)) = bf i) /\
     (forall y, (forall i, i < n -> sumn O n (fun k => nmul O (f i k) (y k)) = bf i) -> forall i, i < n -> y i = xf i)) \/
  (gj_solve_vec O G A b = Throw SingularError /\ exists t, is_max G n f t /\ nearly_singular O G n f (mthr G t n)) \/
  (gj_solve_vec O G A b = Throw NumericalError /\ singular O n f).
Proof.
  intros A b n f bf HA Hb Hn Hd.
  assert (WB : wp (column_matrix O b) (fun B => is_matrix B n 1 (fun i _ => bf i))).
  { unfold column_matrix. pose proof Hb as [Hl _]. rewrite Hl. apply wp_bind. apply alloc_ok_wp; [split; [auto|lia]|]. intros B0 HB0.
    eapply wp_conseq; [|apply (for_range_inv _ _ (fun l B => is_matrix B n 1 (fun i _ => if i <? l then bf i else n0 O)))].
    - intros B H. eapply is_matrix_ext; [exact H|]. intros i j Hi Hj. cbv beta. ltb.
    - lia.
    - eapply is_matrix_ext; [exact HB0|]. intros; cbv beta; auto.
    - intros l B _ Hl' H. cbv beta in *. apply wp_bind. eapply vgetf_wp; eauto. eapply mset_wp; eauto. intros B' HB'.
      eapply is_matrix_ext; [exact HB'|]. intros i j Hi Hj. unfold fset. replace j with 0 by lia. rewrite Nat.eqb_refl. ltb. }
  unfold gj_solve_vec. pose proof HA as (Hr & Hc & _). pose proof Hb as (Hl & _). rewrite Hr, Hc, Hl, Nat.eqb_refl.
  rewrite (proj2 (Nat.eqb_neq n 0)) by lia. simpl negb. cbv iota.
  destruct (column_matrix O b) as [B|e| |]; simpl in WB; try contradiction. cbv beta iota delta [bind].
  destruct (C34_gauss_jordan A B n 1 f _ HA WB Hn (le_n 1)) as [(A' & X & g & x & E & HA' & HX & Hi & Hs & Hu)|[[E Ht]|[E (x & (i & Hi & Hx) & Hz)]]].
  - left. rewrite E.
    assert (WC : wp (mat_col O X 0) (fun v => is_vector v n (fun i => x i 0))).
    { unfold mat_col. pose proof HX as (Hr3 & Hc3 & _). rewrite Hr3, Hc3. simpl (_ || _)%bool. cbv iota.
      eapply wp_conseq; [|apply (for_range_inv _ _ (fun l v => is_vector v n (fun i => if i <? l then x i 0 else n0 O)))].
      - intros v H. eapply is_vector_ext; [exact H|]. intros i Hi'. cbv beta. ltb.
      - lia.
      - eapply is_vector_ext; [apply is_vector_repeat|]. intros; cbv beta; auto.
      - intros l v _ Hl' H. cbv beta in *. apply wp_bind. change (Z.to_nat 0) with 0. eapply mget_wp; [exact HX|lia|lia|].
        eapply vsetf_wp; eauto. intros v' Hv'. eapply is_vector_ext; [exact Hv'|]. intros i Hi'. unfold vfset. ltb. }
    destruct (mat_col O X 0) as [v|e| |]; simpl in WC; try contradiction.
    exists A', v, g, (fun i => x i 0). split; [auto|]. split; [auto|]. split; [auto|]. split; [auto|]. split.
    + intros i Hi'. apply (Hs i 0); auto.
    + intros y Hy i Hi'. apply (Hu (fun k _ => y k)); auto.
  - right. left. rewrite E. auto.
  - right. right. rewrite E. split; auto. exists x. split; auto. exists i. split; auto. rewrite Hx. apply (F_1_neq_0 HF).
Qed.
End Gauss.

(** ** Examples, and the statement that is false *)
Definition qz (z : Z) : Qc := Q2Qc (inject_Z z).
Definition ex_mat : matrix Qc := mkMat 3 3 (map qz [0; 2; 1;  1; 1; 0;  3; 0; 1])%Z.
Definition ex_rhs : matrix Qc := mkMat 3 1 (map qz [1; 2; 3])%Z.

Definition show (r : res (matrix Qc)) : option (nat * nat * list Q) :=
  match r with Ok A => Some (m_rows A, m_cols A, map this (m_data A)) | _ => None end.

Lemma is_matrix_lit : forall T (l : list T) r c d, length l = r * c -> is_matrix (mkMat r c l) r c (fun i j => nth (i * c + j) l d).
Proof. intros T l r c d H. split; [|split; [|split]]; auto. intros i j Hi Hj. apply nth_error_nth'. simpl. rewrite H. nia. Qed.
Example C33_hypotheses : is_matrix ex_mat 3 3 (fun i j => nth (i * 3 + j) (m_data ex_mat) (qz 0)) /\
  exists i j, i < 3 /\ j < 3 /\ nth (i * 3 + j) (m_data ex_mat) (qz 0) <> n0 Qnum.
Proof. split; [apply is_matrix_lit; reflexivity|]. exists 1, 1. split; [lia|split; [lia|discriminate]]. Qed.

Example C33_example : exists B, mat_invert Qnum Qmag ex_mat = Ok B /\
  show (mat_mul Qnum ex_mat B) = show (mat_identity Qnum 3).
Proof. eexists. split; vm_compute; reflexivity. Qed.
Example C33_singular_example : mat_invert Qnum Qmag (mkMat 2 2 (map qz [1; 2; 2; 4])%Z) = Throw SingularError.
Proof. vm_compute. reflexivity. Qed.
Example C34_example : exists A' X, gj_solve Qnum Qmag ex_mat ex_rhs = Ok (A', X) /\ show (mat_mul Qnum ex_mat X) = show (Ok ex_rhs).
Proof. do 2 eexists. split; vm_compute; reflexivity. Qed.

(** the zero matrix is singular, yet Invert returns normally: the threshold eps * 0 * n is 0 and
    |pivot| < 0 is false (in C++ the result is then full of NaN) *)
Theorem C33_zero_matrix_refuted : ~ (forall (A : matrix Qc) n f, is_matrix A n n f -> singular Qnum n f ->
  exists e, mat_invert Qnum Qmag A = Throw e).
Proof.
  intros H. destruct (H (mkMat 1 1 [qz 0]) 1 (fun _ _ => qz 0)) as [e He].
  - split; [|split; [|split]]; auto. intros i j Hi Hj. replace i with 0 by lia. replace j with 0 by lia. reflexivity.
  - exists (fun _ => qz 1). split; [exists 0; split; [lia|discriminate]|]. intros i Hi. vm_compute. apply Qc_is_canon. reflexivity.
  - vm_compute in He. discriminate.
Qed.

Print Assumptions C33_invert.
Print Assumptions C33_singular_throws.
Print Assumptions C33_not_square.
Print Assumptions C33_zero_matrix_refuted.
Print Assumptions C34_gauss_jordan.
Print Assumptions C34_singular_throws.
Print Assumptions C34_nonconforming.
Print Assumptions C34_vector.
