(** * C49: tridiagonal matrices and the Thomas algorithm *)

From Coq Require Import List Arith Bool Lia ZArith QArith Qcanon Ring Field Reals Lra.
From Verif Require Import Base Num Mat_Model Mat_Proofs Lin_Base Tri_Model.
Import ListNotations.
Local Open Scope nat_scope.

(** ** Specification: the matrix that a tridiagonal matrix stands for *)
Section Spec.
Context {T : Type} (O : numops T).
(** entry (i, j), from the entries below, on and above the diagonal of row i *)
Definition tri_entry (b d a : nat -> T) (i j : nat) : T :=
  if i =? j then d i else if j =? i + 1 then a i else if i =? j + 1 then b i else n0 O.
(** [A] is n x n and stores these diagonals *)
Definition is_tri (A : tridiag T) (n : nat) (b d a : nat -> T) : Prop :=
  t_dim A = Z.of_nat n /\ is_vector (t_below A) n b /\ is_vector (t_diag A) n d /\ is_vector (t_above A) n a.
(** the i-th component of A x *)
Definition tri_apply (n : nat) (b d a : nat -> T) (x : nat -> T) (i : nat) : T := sumn O n (fun j => nmul O (tri_entry b d a i j) (x j)).
End Spec.

Section Props.
Context {T : Type} (O : numops T).
Implicit Types (A B : tridiag T) (b d a x : nat -> T).

Lemma zget_vec : forall (v : list T) n f i, is_vector v n f -> i < n -> zget v (Z.of_nat i) = Ok (f i).
Proof.
  intros v n f i [HL HV] HI. unfold zget. destruct (Z.ltb_spec (Z.of_nat i) 0); [lia|]. rewrite Nat2Z.id. unfold vget. rewrite HV by auto. reflexivity.
Qed.
Lemma zset_vec : forall (v : list T) n f i y, is_vector v n f -> i < n -> exists v', zset v (Z.of_nat i) y = Ok v' /\ is_vector v' n (fun k => if k =? i then y else f k).
Proof.
  intros v n f i y HV HI. unfold zset. destruct (Z.ltb_spec (Z.of_nat i) 0); [lia|]. rewrite Nat2Z.id. apply wp_elim. eapply vsetf_wp; eauto.
Qed.

(** ** Element access *)
Theorem C49_get : forall A n b d a i j, is_tri A n b d a -> i < n -> j < n ->
  tri_get O A (Z.of_nat i) (Z.of_nat j) = Ok (tri_entry O b d a i j).
Proof.
  intros A n b d a i j (HD & HB & HDg & HA) HI HJ. unfold tri_get, tri_entry. rewrite HD.
  destruct (Z.eqb_spec (Z.of_nat i) (Z.of_nat j)), (Nat.eqb_spec i j); try lia. { eapply zget_vec; eauto. }
  destruct (Z.eqb_spec (Z.of_nat i) (Z.of_nat j - 1)), (Nat.eqb_spec j (i + 1)); try lia. { eapply zget_vec; eauto. }
  destruct (Z.eqb_spec (Z.of_nat i) (Z.of_nat j + 1)), (Nat.eqb_spec i (j + 1)); try lia; cbn [andb].
  - destruct (Z.ltb_spec (Z.of_nat j) (Z.of_nat n - 1)); [|lia]. eapply zget_vec; eauto.
  - reflexivity.
Qed.
Theorem C49_set : forall A n b d a i j y, is_tri A n b d a -> i < n -> j < n ->
  (i <= j + 1 /\ j <= i + 1 -> exists A' b' d' a', tri_set A (Z.of_nat i) (Z.of_nat j) y = Ok A' /\ is_tri A' n b' d' a' /\
     forall k l, k < n -> l < n -> tri_entry O b' d' a' k l = if (k =? i) && (l =? j) then y else tri_entry O b d a k l) /\
  (~ (i <= j + 1 /\ j <= i + 1) -> tri_set A (Z.of_nat i) (Z.of_nat j) y = Throw IndexError).
Proof.
  intros A n b d a i j y (HD & HB & HDg & HA) HI HJ. unfold tri_set. rewrite HD.
  destruct (Z.eqb_spec (Z.of_nat i) (Z.of_nat j)).
  { split; [intros _|lia]. destruct (zset_vec _ _ _ i y HDg HI) as (v & E & HV). rewrite E. cbn [bind]. exists (mkTri (Z.of_nat n) (t_below A) v (t_above A)), b, (fun k => if k =? i then y else d k), a.
    split; [reflexivity|]. split; [unfold is_tri; auto|]. intros k l HK HL. unfold tri_entry. destruct (Nat.eqb_spec k l), (Nat.eqb_spec k i), (Nat.eqb_spec l j); cbn [andb]; try lia; reflexivity. }
  destruct (Z.eqb_spec (Z.of_nat i) (Z.of_nat j - 1)).
  { split; [intros _|lia]. destruct (zset_vec _ _ _ i y HA HI) as (v & E & HV). rewrite E. cbn [bind]. exists (mkTri (Z.of_nat n) (t_below A) (t_diag A) v), b, d, (fun k => if k =? i then y else a k).
    split; [reflexivity|]. split; [unfold is_tri; auto|]. intros k l HK HL. unfold tri_entry. destruct (Nat.eqb_spec k l), (Nat.eqb_spec l (k + 1)), (Nat.eqb_spec k i), (Nat.eqb_spec l j); cbn [andb]; try lia; reflexivity. }
  destruct (Z.eqb_spec (Z.of_nat i) (Z.of_nat j + 1)); cbn [andb].
  { destruct (Z.ltb_spec (Z.of_nat j) (Z.of_nat n - 1)); [|lia].
    split; [intros _|lia]. destruct (zset_vec _ _ _ i y HB HI) as (v & E & HV). rewrite E. cbn [bind]. exists (mkTri (Z.of_nat n) v (t_diag A) (t_above A)), (fun k => if k =? i then y else b k), d, a.
    split; [reflexivity|]. split; [unfold is_tri; auto|]. intros k l HK HL. unfold tri_entry. destruct (Nat.eqb_spec k l), (Nat.eqb_spec l (k + 1)), (Nat.eqb_spec k (l + 1)), (Nat.eqb_spec k i), (Nat.eqb_spec l j); cbn [andb]; try lia; reflexivity. }
  split; [lia|reflexivity].
Qed.

(** ** Construction *)
Theorem C49_new : forall dim (b d a : list T) z,
  ((3 <= dim)%Z -> Z.of_nat (length b) = dim -> Z.of_nat (length d) = dim -> Z.of_nat (length a) = dim ->
     exists A, tri_new dim b d a = Ok A /\ is_tri A (Z.to_nat dim) (fun i => nth i b z) (fun i => nth i d z) (fun i => nth i a z)) /\
  (~ ((3 <= dim)%Z /\ Z.of_nat (length b) = dim /\ Z.of_nat (length d) = dim /\ Z.of_nat (length a) = dim) -> tri_new dim b d a = Throw DimensionError).
Proof.
  intros dim b d a z. unfold tri_new. split.
  - intros H1 H2 H3 H4. destruct (Z.ltb_spec dim 3); [lia|]. rewrite H2, H3, H4, Z.eqb_refl. cbn [negb orb]. eexists. split; [reflexivity|].
    assert (G : forall l : list T, Z.of_nat (length l) = dim -> is_vector l (Z.to_nat dim) (fun i => nth i l z)).
    { intros l HL. replace (Z.to_nat dim) with (length l) by lia. apply is_vector_self. }
    split; [cbn; lia|]. split; [|split]; apply G; auto.
  - intros H. destruct (Z.ltb_spec dim 3); [reflexivity|].
    destruct (Z.eqb_spec (Z.of_nat (length b)) dim), (Z.eqb_spec (Z.of_nat (length d)) dim), (Z.eqb_spec (Z.of_nat (length a)) dim); try reflexivity. exfalso. apply H. lia.
Qed.
(** the list holds the entries in the band row by row: row i starts at position 3 i - 1 (row 0 at 0) *)
Theorem C49_of_list : forall dim (values : list T), (2 <= dim)%Z ->
  (Z.of_nat (length values) = (3 * dim - 2)%Z -> exists A b d a, tri_of_list O dim values = Ok A /\ is_tri A (Z.to_nat dim) b d a /\
     forall i, i < Z.to_nat dim -> d i = nth (3 * i) values (n0 O) /\ (0 < i -> b i = nth (3 * i - 1) values (n0 O)) /\ (i < Z.to_nat dim - 1 -> a i = nth (3 * i + 1) values (n0 O))) /\
  (Z.of_nat (length values) <> (3 * dim - 2)%Z -> tri_of_list O dim values = Throw DimensionError).
Proof.
  intros dim values HD. unfold tri_of_list. destruct (Z.ltb_spec dim 0); [lia|]. destruct (Z.eqb_spec dim 0) as [|NZ]; [lia|]. cbn [orb]. split.
  - intros HL. destruct (Z.eqb_spec (Z.of_nat (length values)) (dim * 3 - 2)); [|lia]. cbn [negb]. cbv zeta. set (n := Z.to_nat dim). assert (Hn : length values = 3 * n - 2) by lia. assert (Hn2 : 2 <= n) by lia.
    set (val := fun i => nth i values (n0 O)). assert (HV : is_vector values (3 * n - 2) val) by (rewrite <- Hn; apply is_vector_self).
    assert (W : wp (b <- vset (repeat (n0 O) n) 0 (n0 O);; x <- vget values 0;; d <- vset (repeat (n0 O) n) 0 x;; y <- vget values 1;; a <- vset (repeat (n0 O) n) 0 y;;
       '(b, d, a, p) <- for_range 1 (n - 1) (fun '(b, d, a, p) i =>
      x <- vget values p ;; b <- vset b i x ;;
      y <- vget values (p + 1) ;; d <- vset d i y ;;
      z <- vget values (p + 2) ;; a <- vset a i z ;;
      Ok (b, d, a, p + 3)) (b, d, a, 2) ;;
    x <- vget values p ;; b <- vset b (n - 1) x ;;
    y <- vget values (p + 1) ;; d <- vset d (n - 1) y ;;
    a <- vset a (n - 1) (n0 O) ;;
    Ok (mkTri dim b d a)) (fun A => exists b d a, is_tri A n b d a /\ forall i, i < n -> d i = val (3 * i) /\ (0 < i -> b i = val (3 * i - 1)) /\ (i < n - 1 -> a i = val (3 * i + 1)))).
    { apply wp_bind. eapply vsetf_wp; [apply is_vector_repeat|lia|]. intros b0 Hb0. apply wp_bind. eapply vgetf_wp; [exact HV|lia|]. apply wp_bind. eapply vsetf_wp; [apply is_vector_repeat|lia|]. intros d0 Hd0.
      apply wp_bind. eapply vgetf_wp; [exact HV|lia|]. apply wp_bind. eapply vsetf_wp; [apply is_vector_repeat|lia|]. intros a0 Ha0. apply wp_bind.
      eapply wp_conseq; [|apply (for_range_inv _ _ (fun k '(b, d, a, p) => p = 3 * k - 1 /\ exists fb fd fa, is_vector b n fb /\ is_vector d n fd /\ is_vector a n fa /\
         forall i, i < k -> fd i = val (3 * i) /\ (0 < i -> fb i = val (3 * i - 1)) /\ fa i = val (3 * i + 1)))].
      - intros [[[b d] a] p] (-> & fb & fd & fa & Hb & Hd & Ha & HI). apply wp_bind. eapply vgetf_wp; [exact HV|lia|]. apply wp_bind. eapply vsetf_wp; [exact Hb|lia|]. intros b' Hb'.
        apply wp_bind. eapply vgetf_wp; [exact HV|lia|]. apply wp_bind. eapply vsetf_wp; [exact Hd|lia|]. intros d' Hd'. apply wp_bind. eapply vsetf_wp; [exact Ha|lia|]. intros a' Ha'. cbn [wp].
        eexists. eexists. eexists. split; [split; [cbn; lia|split; [exact Hb'|split; [exact Hd'|exact Ha']]]|]. intros i Hi. unfold vfset. destruct (Nat.eqb_spec i (n - 1)) as [->|].
        + split; [f_equal; lia|]. split; [intros _; f_equal; lia|lia].
        + destruct (HI i) as (I1 & I2 & I3); [lia|]. split; [auto|]. split; auto.
      - lia.
      - split; [reflexivity|]. eexists. eexists. eexists. split; [exact Hb0|]. split; [exact Hd0|]. split; [exact Ha0|]. intros i Hi. assert (i = 0) by lia. subst i. split; [reflexivity|]. split; [lia|reflexivity].
      - intros k [[[b d] a] p] H1 H2 (-> & fb & fd & fa & Hb & Hd & Ha & HI). apply wp_bind. eapply vgetf_wp; [exact HV|lia|]. apply wp_bind. eapply vsetf_wp; [exact Hb|lia|]. intros b' Hb'.
        apply wp_bind. eapply vgetf_wp; [exact HV|lia|]. apply wp_bind. eapply vsetf_wp; [exact Hd|lia|]. intros d' Hd'. apply wp_bind. eapply vgetf_wp; [exact HV|lia|]. apply wp_bind. eapply vsetf_wp; [exact Ha|lia|]. intros a' Ha'. cbn [wp].
        split; [lia|]. eexists. eexists. eexists. split; [exact Hb'|]. split; [exact Hd'|]. split; [exact Ha'|]. intros i Hi. unfold vfset. destruct (Nat.eqb_spec i k) as [->|].
        + split; [f_equal; lia|]. split; [intros _; f_equal; lia|f_equal; lia].
        + apply HI. lia. }
    apply wp_elim in W. destruct W as (A & E & b & d & a & H1 & H2). exists A, b, d, a. split; [exact E|]. split; [exact H1|]. exact H2.
  - intros HL. destruct (Z.eqb_spec (Z.of_nat (length values)) (dim * 3 - 2)); [lia|]. reflexivity.
Qed.

(** ** Arithmetic *)
Lemma zip_loop_wp : forall f v w n g h (Q : list T -> Prop), is_vector v n g -> is_vector w n h -> (forall v', is_vector v' n (fun i => f (g i) (h i)) -> Q v') -> wp (zip_loop f v w) Q.
Proof.
  intros f v w n g h Q HV HW HQ. unfold zip_loop. pose proof HV as [HL _]. rewrite HL.
  eapply wp_conseq; [|apply (for_range_inv _ _ (fun k v => is_vector v n (fun i => if i <? k then f (g i) (h i) else g i)))].
  - intros v' H. apply HQ. eapply is_vector_ext; [exact H|]. intros i Hi. cbv beta. destruct (Nat.ltb_spec i n); [reflexivity|lia].
  - lia.
  - exact HV.
  - intros k v' _ HK H. cbv beta in H. apply wp_bind. eapply vgetf_wp; [exact H|auto|]. apply wp_bind. eapply vgetf_wp; [exact HW|auto|]. eapply vsetf_wp; [exact H|auto|]. intros u HU. eapply is_vector_ext; [exact HU|].
    intros i Hi. unfold vfset. cbv beta. rewrite Nat.ltb_irrefl. destruct (Nat.eqb_spec i k), (Nat.ltb_spec i k), (Nat.ltb_spec i (k + 1)); subst; try lia; reflexivity.
Qed.
Lemma map_loop_wp : forall f v n g (Q : list T -> Prop), is_vector v n g -> (forall v', is_vector v' n (fun i => f (g i)) -> Q v') -> wp (map_loop f v) Q.
Proof.
  intros f v n g Q HV HQ. unfold map_loop. pose proof HV as [HL _]. rewrite HL.
  eapply wp_conseq; [|apply (for_range_inv _ _ (fun k v => is_vector v n (fun i => if i <? k then f (g i) else g i)))].
  - intros v' H. apply HQ. eapply is_vector_ext; [exact H|]. intros i Hi. cbv beta. destruct (Nat.ltb_spec i n); [reflexivity|lia].
  - lia.
  - exact HV.
  - intros k v' _ HK H. cbv beta in H. apply wp_bind. eapply vgetf_wp; [exact H|auto|]. eapply vsetf_wp; [exact H|auto|]. intros u HU. eapply is_vector_ext; [exact HU|].
    intros i Hi. unfold vfset. cbv beta. rewrite Nat.ltb_irrefl. destruct (Nat.eqb_spec i k), (Nat.ltb_spec i k), (Nat.ltb_spec i (k + 1)); subst; try lia; reflexivity.
Qed.
Definition pointwise2 (f : T -> T -> T) (E E' E'' : nat -> nat -> T) (n : nat) : Prop := forall i j, i < n -> j < n -> E'' i j = f (E i j) (E' i j).
Lemma zip_tri : forall f A B n b d a b' d' a', f (n0 O) (n0 O) = n0 O -> is_tri A n b d a -> is_tri B n b' d' a' ->
  exists C b'' d'' a'', tri_zip f A B = Ok C /\ is_tri C n b'' d'' a'' /\ pointwise2 f (tri_entry O b d a) (tri_entry O b' d' a') (tri_entry O b'' d'' a'') n.
Proof.
  intros f A B n b d a b' d' a' F0 (D1 & B1 & G1 & A1) (D2 & B2 & G2 & A2). unfold tri_zip. rewrite D1, D2, Z.eqb_refl. cbn [negb].
  assert (W : wp (x <- zip_loop f (t_below A) (t_below B);; y <- zip_loop f (t_diag A) (t_diag B);; z <- zip_loop f (t_above A) (t_above B);; Ok (mkTri (Z.of_nat n) x y z))
    (fun C => exists b'' d'' a'', is_tri C n b'' d'' a'' /\ pointwise2 f (tri_entry O b d a) (tri_entry O b' d' a') (tri_entry O b'' d'' a'') n)).
  { apply wp_bind. eapply zip_loop_wp; [exact B1|exact B2|]. intros x X. apply wp_bind. eapply zip_loop_wp; [exact G1|exact G2|]. intros y Y. apply wp_bind. eapply zip_loop_wp; [exact A1|exact A2|]. intros z Z. cbn [wp].
    eexists. eexists. eexists. split; [split; [reflexivity|split; [exact X|split; [exact Y|exact Z]]]|]. intros i j Hi Hj. unfold tri_entry. destruct (Nat.eqb i j); [reflexivity|]. destruct (Nat.eqb j (i + 1)); [reflexivity|]. destruct (Nat.eqb i (j + 1)); auto. }
  apply wp_elim in W. destruct W as (C & E & b'' & d'' & a'' & H). exists C, b'', d'', a''. split; [exact E|exact H].
Qed.
Lemma map_tri : forall f A n b d a, f (n0 O) = n0 O -> is_tri A n b d a ->
  exists C b' d' a', tri_map f A = Ok C /\ is_tri C n b' d' a' /\ forall i j, i < n -> j < n -> tri_entry O b' d' a' i j = f (tri_entry O b d a i j).
Proof.
  intros f A n b d a F0 (D1 & B1 & G1 & A1). unfold tri_map. rewrite D1.
  assert (W : wp (x <- map_loop f (t_below A);; y <- map_loop f (t_diag A);; z <- map_loop f (t_above A);; Ok (mkTri (Z.of_nat n) x y z))
    (fun C => exists b' d' a', is_tri C n b' d' a' /\ forall i j, i < n -> j < n -> tri_entry O b' d' a' i j = f (tri_entry O b d a i j))).
  { apply wp_bind. eapply map_loop_wp; [exact B1|]. intros x X. apply wp_bind. eapply map_loop_wp; [exact G1|]. intros y Y. apply wp_bind. eapply map_loop_wp; [exact A1|]. intros z Z. cbn [wp].
    eexists. eexists. eexists. split; [split; [reflexivity|split; [exact X|split; [exact Y|exact Z]]]|]. intros i j Hi Hj. unfold tri_entry. destruct (Nat.eqb i j); [reflexivity|]. destruct (Nat.eqb j (i + 1)); [reflexivity|]. destruct (Nat.eqb i (j + 1)); auto. }
  apply wp_elim in W. destruct W as (C & E & b' & d' & a' & H). exists C, b', d', a'. split; [exact E|exact H].
Qed.
End Props.

Section Arith.
Context {T : Type} (O : numops T) (HF : field_laws O).
Add Field Tfield49 : HF.
Theorem C49_arithmetic : forall (A B : tridiag T) n m b d a b' d' a' s, is_tri A n b d a -> is_tri B m b' d' a' ->
  (n = m -> exists C b'' d'' a'', tri_add O A B = Ok C /\ is_tri C n b'' d'' a'' /\ pointwise2 (nadd O) (tri_entry O b d a) (tri_entry O b' d' a') (tri_entry O b'' d'' a'') n) /\
  (n = m -> exists C b'' d'' a'', tri_sub O A B = Ok C /\ is_tri C n b'' d'' a'' /\ pointwise2 (nsub O) (tri_entry O b d a) (tri_entry O b' d' a') (tri_entry O b'' d'' a'') n) /\
  (n <> m -> tri_add O A B = Throw DimensionError /\ tri_sub O A B = Throw DimensionError) /\
  (exists C b'' d'' a'', tri_scale O A s = Ok C /\ is_tri C n b'' d'' a'' /\ forall i j, i < n -> j < n -> tri_entry O b'' d'' a'' i j = nmul O (tri_entry O b d a i j) s) /\
  (s <> n0 O -> exists C b'' d'' a'', tri_div O A s = Ok C /\ is_tri C n b'' d'' a'' /\ forall i j, i < n -> j < n -> tri_entry O b'' d'' a'' i j = ndiv O (tri_entry O b d a i j) s).
Proof.
  intros A B n m b d a b' d' a' s HA HB. split; [|split; [|split; [|split]]].
  - intros <-. apply zip_tri; auto. ring.
  - intros <-. apply zip_tri; auto. ring.
  - intros H. destruct HA as (D1 & _), HB as (D2 & _). unfold tri_add, tri_sub, tri_zip. rewrite D1, D2. destruct (Z.eqb_spec (Z.of_nat n) (Z.of_nat m)); [lia|]. auto.
  - apply (map_tri O (fun x => nmul O x s)); auto. ring.
  - intros HS. apply (map_tri O (fun x => ndiv O x s)); auto. field. auto.
Qed.
Theorem C49_transpose : forall (A : tridiag T) n b d a, is_tri A n b d a -> 3 <= n ->
  exists C b' d' a', tri_transpose O A = Ok C /\ is_tri C n b' d' a' /\ forall i j, i < n -> j < n -> tri_entry O b' d' a' i j = tri_entry O b d a j i.
Proof.
  intros A n b d a (D1 & B1 & G1 & A1) HN. unfold tri_transpose. rewrite D1, Nat2Z.id. cbv zeta.
  match goal with |- exists C b' d' a', ?X = Ok C /\ _ => assert (W : wp X (fun C => exists b' d' a', is_tri C n b' d' a' /\ forall i j, i < n -> j < n -> tri_entry O b' d' a' i j = tri_entry O b d a j i)) end.
  { apply wp_bind. eapply vsetf_wp; [apply is_vector_repeat|lia|]. intros b0 Hb0. apply wp_bind.
    eapply wp_conseq; [|apply (for_range_inv _ _ (fun k v => is_vector v n (fun i => if (0 <? i) && (i <? k) then a (i - 1) else n0 O)))].
    - intros b1 Hb1. apply wp_bind.
      eapply wp_conseq; [|apply (for_range_inv _ _ (fun k v => is_vector v n (fun i => if i <? k then b (i + 1) else n0 O)))].
      + intros a1 Ha1. apply wp_bind. eapply vsetf_wp; [exact Ha1|lia|]. intros a2 Ha2. unfold tri_new. destruct (Z.ltb_spec (Z.of_nat n) 3); [lia|].
        pose proof Hb1 as [L1 _]. pose proof Ha2 as [L2 _]. pose proof G1 as [L3 _]. rewrite L1, L2, L3, Z.eqb_refl. cbn [negb orb wp].
        eexists. eexists. eexists. split; [split; [reflexivity|split; [exact Hb1|split; [exact G1|exact Ha2]]]|]. intros i j Hi Hj. unfold tri_entry, vfset. cbv beta.
        destruct (Nat.eqb_spec i j) as [->|]; [rewrite Nat.eqb_refl; reflexivity|]. destruct (Nat.eqb_spec j i); [lia|].
        destruct (Nat.eqb_spec j (i + 1)) as [->|]; [destruct (Nat.eqb_spec i (i + 1 + 1)); [lia|]; destruct (Nat.eqb_spec i (n - 1)), (Nat.ltb_spec i (n - 1)); try lia; reflexivity|].
        destruct (Nat.eqb_spec i (j + 1)) as [->|]; [|reflexivity]. destruct (Nat.ltb_spec 0 (j + 1)), (Nat.ltb_spec (j + 1) n); try lia. cbn [andb]. f_equal. lia.
      + lia.
      + apply is_vector_repeat.
      + intros k v _ HK H. cbv beta in H. apply wp_bind. eapply vgetf_wp; [exact B1|lia|]. eapply vsetf_wp; [exact H|lia|]. intros u HU. eapply is_vector_ext; [exact HU|]. intros i Hi. unfold vfset. cbv beta.
        destruct (Nat.eqb_spec i k), (Nat.ltb_spec i k), (Nat.ltb_spec i (k + 1)); subst; try lia; reflexivity.
    - lia.
    - eapply is_vector_ext; [exact Hb0|]. intros i Hi. unfold vfset. cbv beta. destruct (Nat.eqb_spec i 0), (Nat.ltb_spec 0 i), (Nat.ltb_spec i 1); try lia; reflexivity.
    - intros k v H1 HK H. cbv beta in H. apply wp_bind. eapply vgetf_wp; [exact A1|lia|]. eapply vsetf_wp; [exact H|lia|]. intros u HU. eapply is_vector_ext; [exact HU|]. intros i Hi. unfold vfset. cbv beta.
      destruct (Nat.eqb_spec i k), (Nat.ltb_spec 0 i), (Nat.ltb_spec i k), (Nat.ltb_spec i (k + 1)); subst; try lia; reflexivity. }
  apply wp_elim in W. destruct W as (C & E & b' & d' & a' & H). exists C, b', d', a'. split; [exact E|exact H].
Qed.
End Arith.

(** ** The solver *)
Section Solve.
Context {T M : Type} (O : numops T) (HF : field_laws O) (G : magops T M) (HG : mag_laws O G) (meps : M) (mscale : M -> M).
Hypothesis eps_pos : mlt G (mzero G) meps = true.
Add Field Tfield49s : HF.
Local Notation "x + y" := (nadd O x y). Local Notation "x - y" := (nsub O x y). Local Notation "x * y" := (nmul O x y). Local Notation "x / y" := (ndiv O x y).

(** the quantities of the forward sweep *)
Fixpoint bet (b d a : nat -> T) (j : nat) : T :=
  match j with 0 => d 0 | S k => d j - b j * (a k / bet b d a k) end.
Definition gam (b d a : nat -> T) (j : nat) : T := a (Nat.pred j) / bet b d a (Nat.pred j).
Fixpoint ysol (b d a r : nat -> T) (j : nat) : T :=
  match j with 0 => r 0 / d 0 | S k => (r j - b j * ysol b d a r k) / bet b d a j end.

Lemma sum_tri : forall n b d a x i, i < n ->
  tri_apply O n b d a x i = (if i =? 0 then n0 O else b i * x (i - 1)%nat) + d i * x i + (if i =? n - 1 then n0 O else a i * x (i + 1)%nat).
Proof.
  intros n b d a x i Hi. unfold tri_apply. set (f := fun j => tri_entry O b d a i j * x j).
  assert (HR := field_ring _ _ HF).
  assert (Z : forall j : nat, (j =? i) = false -> (j =? i + 1) = false -> (i =? j + 1) = false -> f j = n0 O).
  { intros j H1 H2 H3. unfold f, tri_entry. rewrite Nat.eqb_sym, H1, H2, H3. ring. }
  rewrite (sum_split O HR n i f Hi).
  assert (Fi : f i = d i * x i) by (unfold f, tri_entry; rewrite Nat.eqb_refl; reflexivity). rewrite Fi.
  set (g := fun j => if j =? i then n0 O else f j).
  assert (E : sumn O n g = (if i =? 0 then n0 O else b i * x (i - 1)%nat) + (if i =? n - 1 then n0 O else a i * x (i + 1)%nat)); [|rewrite E; ring].
  assert (Gb : 0 < i -> g (i - 1)%nat = b i * x (i - 1)%nat).
  { intros H. unfold g, f, tri_entry. destruct (Nat.eqb_spec (i - 1) i); [lia|]. destruct (Nat.eqb_spec i (i - 1)); [lia|]. destruct (Nat.eqb_spec (i - 1) (i + 1)); [lia|]. destruct (Nat.eqb_spec i (i - 1 + 1)); [reflexivity|lia]. }
  assert (Ga : g (i + 1)%nat = a i * x (i + 1)%nat).
  { unfold g, f, tri_entry. destruct (Nat.eqb_spec (i + 1) i); [lia|]. destruct (Nat.eqb_spec i (i + 1)); [lia|]. rewrite Nat.eqb_refl. reflexivity. }
  assert (Gz : forall j : nat, j <> (i + 1)%nat -> (j + 1)%nat <> i -> g j = n0 O).
  { intros j H1 H2. unfold g. destruct (Nat.eqb_spec j i); [reflexivity|]. apply Z; [apply Nat.eqb_neq; auto|apply Nat.eqb_neq; auto|apply Nat.eqb_neq; auto]. }
  destruct (Nat.eqb_spec i 0) as [->|NZ].
  - destruct (Nat.eqb_spec 0 (n - 1)).
    + rewrite (sum_zero O HR); [ring|]. intros j Hj. apply Gz; lia.
    + rewrite (sum_one O HR n 1 g) by (try lia; intros; apply Gz; lia). cbn [Nat.add] in Ga. rewrite Ga. cbn [Nat.add]. ring.
  - rewrite (sum_split O HR n (i - 1)%nat g) by lia. rewrite Gb by lia. f_equal. destruct (Nat.eqb_spec i (n - 1)).
    + apply (sum_zero O HR). intros j Hj. destruct (Nat.eqb_spec j (i - 1)); [reflexivity|]. apply Gz; lia.
    + rewrite (sum_one O HR n (i + 1)%nat); [|lia|].
      * destruct (Nat.eqb_spec (i + 1) (i - 1)); [lia|exact Ga].
      * intros j Hj HN. destruct (Nat.eqb_spec j (i - 1)); [reflexivity|]. apply Gz; lia.
Qed.

Lemma tol_wp : forall A n b d a (Q : M -> Prop), is_tri A n b d a -> (forall t, mlt G (mzero G) t = true -> Q t) -> wp (tri_tol G meps mscale A) Q.
Proof.
  intros A n b d a Q (D1 & B1 & G1 & A1) HQ. unfold tri_tol. apply wp_bind. pose proof B1 as [LB _]. rewrite LB.
  eapply wp_conseq; [|apply (for_range_inv _ _ (fun _ (_ : M) => True))]; auto; [|lia|].
  - intros m _. cbn [wp]. apply HQ. destruct (mlt G (mscale m) meps) eqn:E; auto. eapply (ml_lt_lt O G HG); eauto.
  - intros i m _ HI _. apply wp_bind. eapply vgetf_wp; [exact G1|auto|]. cbn [wp]. exact Logic.I.
Qed.

(** Solve either reports a singular pivot or leaves in [sol] the solution of A x = rhs (entries of [sol] beyond the
    dimension are untouched); every pivot it accepted is nonzero *)
Lemma solve_wp : forall tol A n b d a rhs sol m s r, is_tri A n b d a -> tri_tol G meps mscale A = Ok tol -> 2 <= n -> is_vector sol m s -> n <= m ->
  (match rhs with Some v => exists k, n <= k /\ is_vector v k r | None => forall i, i < n -> r i = s i end) ->
  wpt (tri_solve O G meps mscale A rhs sol) (fun e => e = SingularError /\ exists j, j < n /\ mlt G (mabs G (bet b d a j)) tol = true)
    (fun sol' => exists x, is_vector sol' m (fun i => if i <? n then x i else s i) /\
       (forall i, i < n -> tri_apply O n b d a x i = r i) /\ (forall i, i < n -> bet b d a i <> n0 O)).
Proof.
  intros tol A n b d a rhs sol m s r HA ETOL HN HS HM HRHS. pose proof HA as (D1 & B1 & G1 & A1). unfold tri_solve. cbv zeta. pose proof B1 as [LB _]. rewrite LB.
  assert (HT : mlt G (mzero G) tol = true). { pose proof (tol_wp A n b d a (fun t => mlt G (mzero G) t = true) HA (fun t H => H)) as W. rewrite ETOL in W. exact W. }
  rewrite ETOL. cbn [bind]. apply wpt_bind_wp. eapply vgetf_wp; [exact G1|lia|].
  destruct (mlt G (mabs G (d 0)) tol) eqn:E0; [split; [reflexivity|exists 0; split; [lia|exact E0]]|]. pose proof (ml_not_zero O G HG _ _ HT E0) as N0.
  apply wpt_bind_wp.
  assert (R0 : forall j sol' s', j < n -> is_vector sol' m s' -> (rhs = None -> s' j = r j) -> wp (vget (match rhs with Some v => v | None => sol' end) j) (fun x => x = r j)).
  { intros j sol' s' Hj HS' HE. destruct rhs as [v|]; [destruct HRHS as (k & HK & HV); eapply vgetf_wp; [exact HV|lia|reflexivity]|]. eapply vgetf_wp; [exact HS'|lia|auto]. }
  eapply wp_conseq; [|eapply (R0 0 sol s); [lia|exact HS|intros ->; symmetry; apply HRHS; lia]]. intros x0 ->. apply wpt_bind_wp. eapply vsetf_wp; [exact HS|lia|]. intros sol1 HS1.
  apply wpt_bind. eapply wpt_conseq; [|apply (wpt_for_range _ _ _ (fun j '(sol, gm, bt) => is_vector sol m (fun i => if i <? j then ysol b d a r i else s i) /\
      (exists g, is_vector gm n g /\ forall i, 0 < i < j -> g i = gam b d a i) /\ bt = bet b d a (j - 1) /\ forall i, i < j -> bet b d a i <> n0 O))].
  - intros [[sol2 gm] bt] (HS2 & (g & HGm & Hg) & _ & HB). apply wpt_wp.
    (* back substitution *)
    eapply wp_conseq; [|apply (for_down_inv _ _ (fun j sol => exists x, is_vector sol m (fun i => if i <? n then x i else s i) /\ (forall i, i < j -> x i = ysol b d a r i) /\
        x (n - 1)%nat = ysol b d a r (n - 1) /\ forall i, j <= i -> i < n - 1 -> x i = ysol b d a r i - gam b d a (i + 1) * x (i + 1)%nat))].
    + intros sol3 (x & HX & _ & HL & HR). exists x. split; [exact HX|]. split; [|exact HB]. intros i Hi. rewrite sum_tri by auto.
      (* row i *)
      assert (EX : bet b d a i * x i + (if i =? n - 1 then n0 O else a i * x (i + 1)%nat) = bet b d a i * ysol b d a r i).
      { destruct (Nat.eqb_spec i (n - 1)) as [->|]; [rewrite HL; ring|]. rewrite (HR i) by lia. unfold gam. replace (Nat.pred (i + 1)) with i by lia. field. apply HB. auto. }
      destruct i as [|k].
      * rewrite Nat.eqb_refl. cbn [bet ysol] in EX. transitivity (d 0 * x 0 + (if 0 =? n - 1 then n0 O else a 0 * x (0 + 1)%nat)); [ring|]. etransitivity; [exact EX|]. field. exact N0.
      * destruct (Nat.eqb_spec (S k) 0) as [|NZk]; [lia|]. replace (S k - 1)%nat with k by lia. specialize (HR k). assert (Hk : k < n - 1) by lia. rewrite (HR (Nat.le_0_l _) Hk). unfold gam. replace (Nat.pred (k + 1)) with k by lia. replace (k + 1)%nat with (S k) by lia.
        transitivity (b (S k) * ysol b d a r k + (bet b d a (S k) * x (S k) + (if S k =? n - 1 then n0 O else a (S k) * x (S k + 1)%nat))); [cbn [bet]; ring|].
        rewrite EX. cbn [ysol]. field. apply HB. auto.
    + lia.
    + exists (ysol b d a r). split; [exact HS2|]. split; [auto|]. split; [reflexivity|]. intros; lia.
    + intros j sol3 _ HJ (x & HX & HP & HL & HR). apply wp_bind. eapply vgetf_wp; [exact HGm|lia|]. apply wp_bind. eapply vgetf_wp; [exact HX|lia|]. apply wp_bind. eapply vgetf_wp; [exact HX|lia|].
      eapply vsetf_wp; [exact HX|lia|]. intros sol4 HS4. cbv beta in HS4. destruct (Nat.ltb_spec j n); [|lia]. destruct (Nat.ltb_spec (j + 1) n); [|lia].
      exists (vfset x j (x j - g (j + 1)%nat * x (j + 1)%nat)). split; [eapply is_vector_ext; [exact HS4|]; intros i Hi; unfold vfset; cbv beta; destruct (Nat.eqb_spec i j) as [->|]; [destruct (Nat.ltb_spec j n); [reflexivity|lia]|reflexivity]|].
      split; [intros i Hi; unfold vfset; destruct (Nat.eqb_spec i j); [lia|apply HP; lia]|]. split; [unfold vfset; destruct (Nat.eqb_spec (n - 1) j); [lia|auto]|].
      intros i H1 H2. unfold vfset. destruct (Nat.eqb_spec (i + 1) j); [lia|]. destruct (Nat.eqb_spec i j) as [->|]; [rewrite (HP j), (Hg (j + 1)%nat) by lia; reflexivity|]. apply HR; lia.
  - lia.
  - split; [eapply is_vector_ext; [exact HS1|]; intros i Hi; unfold vfset; cbv beta; destruct (Nat.eqb_spec i 0) as [Ei|], (Nat.ltb_spec i 1); try lia; [subst i; reflexivity|reflexivity]|].
    split; [exists (fun _ => n0 O); split; [apply is_vector_repeat|intros; lia]|]. split; [reflexivity|]. intros i Hi. assert (i = 0) by lia. subst i. exact N0.
  - intros j [[sol2 gm] bt] H1 HJ (HS2 & (g & HGm & Hg) & -> & HB). apply wpt_bind_wp. eapply vgetf_wp; [exact A1|lia|]. apply wpt_bind_wp. eapply vsetf_wp; [exact HGm|lia|]. intros gm' HGm'.
    apply wpt_bind_wp. eapply vgetf_wp; [exact G1|lia|]. apply wpt_bind_wp. eapply vgetf_wp; [exact B1|lia|]. apply wpt_bind_wp. eapply vgetf_wp; [exact HGm'|lia|].
    assert (EB : d j - b j * vfset g j (a (j - 1)%nat / bet b d a (j - 1)) j = bet b d a j).
    { unfold vfset. rewrite Nat.eqb_refl. destruct j as [|k]; [lia|]. cbn [bet]. replace (S k - 1)%nat with k by lia. reflexivity. }
    rewrite EB. destruct (mlt G (mabs G (bet b d a j)) tol) eqn:EJ; [split; [reflexivity|exists j; split; [auto|exact EJ]]|]. pose proof (ml_not_zero O G HG _ _ HT EJ) as NJ.
    apply wpt_bind_wp. eapply wp_conseq; [|eapply (R0 j sol2); [lia|exact HS2|intros EN; cbv beta; destruct (Nat.ltb_spec j j); [lia|]; subst rhs; symmetry; apply HRHS; lia]]. intros xj ->.
    apply wpt_bind_wp. eapply vgetf_wp; [exact HS2|lia|]. cbv beta. destruct (Nat.ltb_spec (j - 1) j); [|lia]. apply wpt_bind_wp. eapply vsetf_wp; [exact HS2|lia|]. intros sol3 HS3. cbn [wpt].
    split; [eapply is_vector_ext; [exact HS3|]; intros i Hi; unfold vfset; cbv beta; destruct (Nat.eqb_spec i j) as [->|]|].
    + destruct (Nat.ltb_spec j (j + 1)); [|lia]. destruct j as [|k]; [lia|]. cbn [ysol]. replace (S k - 1)%nat with k by lia. reflexivity.
    + destruct (Nat.ltb_spec i j), (Nat.ltb_spec i (j + 1)); try lia; reflexivity.
    + split; [exists (vfset g j (a (j - 1)%nat / bet b d a (j - 1))); split; [exact HGm'|intros i Hi; unfold vfset; destruct (Nat.eqb_spec i j) as [->|]; [unfold gam; replace (Nat.pred j) with (j - 1)%nat by lia; reflexivity|apply Hg; lia]]|].
      split; [f_equal; lia|]. intros i Hi. destruct (Nat.eq_dec i j) as [->|]; [auto|apply HB; lia].
Qed.

(** nonzero pivots leave only one solution *)
Lemma pivots_unique : forall n b d a x, (forall i, i < n -> bet b d a i <> n0 O) -> (forall i, i < n -> tri_apply O n b d a x i = n0 O) -> forall i, i < n -> x i = n0 O.
Proof.
  intros n b d a x HB HX.
  (* forward: bet_i x_i + a_i x_{i+1} = 0 *)
  assert (F : forall i, i < n -> bet b d a i * x i + (if i =? n - 1 then n0 O else a i * x (i + 1)%nat) = n0 O).
  { induction i as [|i IH]; intros Hi; specialize (HX _ Hi); rewrite sum_tri in HX by auto.
    - rewrite Nat.eqb_refl in HX. cbn [bet]. etransitivity; [|exact HX]. ring.
    - destruct (Nat.eqb_spec (S i) 0) as [|NZi]; [lia|]. replace (S i - 1)%nat with i in HX by lia. assert (Hi' : i < n) by lia. specialize (IH Hi'). destruct (Nat.eqb_spec i (n - 1)); [lia|]. replace (i + 1)%nat with (S i) in IH by lia.
      assert (EX : x i = nopp O (a i / bet b d a i * x (S i))).
      { transitivity ((bet b d a i * x i + a i * x (S i)) / bet b d a i - a i / bet b d a i * x (S i)); [field; apply HB; auto|]. rewrite IH. field. apply HB; auto. }
      rewrite EX in HX. cbn [bet]. etransitivity; [|exact HX]. ring. }
  assert (K : forall k i : nat, (n - 1 - i)%nat = k -> i < n -> x i = n0 O).
  { induction k as [|k IH]; intros i HK Hi; specialize (F i Hi).
    - destruct (Nat.eqb_spec i (n - 1)); [|lia]. transitivity ((bet b d a i * x i + n0 O) / bet b d a i); [field; apply HB; auto|]. rewrite F. field. apply HB; auto.
    - destruct (Nat.eqb_spec i (n - 1)) as [|NE1]; [lia|]. rewrite (IH (i + 1)%nat) in F by lia. transitivity ((bet b d a i * x i + a i * n0 O) / bet b d a i); [field; apply HB; auto|]. rewrite F. field. apply HB; auto. }
  intros i Hi. eapply K; eauto.
Qed.

Theorem C49_solve : forall A n b d a rhs r, is_tri A n b d a -> 2 <= n -> is_vector rhs n r ->
  tri_solve_new O G meps mscale A rhs = Throw SingularError \/
  exists sol x, tri_solve_new O G meps mscale A rhs = Ok sol /\ is_vector sol n x /\
    (forall i, i < n -> tri_apply O n b d a x i = r i) /\
    (forall z, (forall i, i < n -> tri_apply O n b d a z i = r i) -> forall i, i < n -> z i = x i).
Proof.
  intros A n b d a rhs r HA HN HR. unfold tri_solve_new. pose proof HR as [LR _]. rewrite LR.
  destruct (wp_elim _ _ _ (tol_wp A n b d a (fun _ => True) HA (fun _ _ => Logic.I))) as (tol & ETOL & _).
  pose proof (solve_wp tol A n b d a (Some rhs) (repeat (n0 O) n) n (fun _ => n0 O) r HA ETOL HN (is_vector_repeat _ _) (Nat.le_refl n) (ex_intro _ n (conj (Nat.le_refl n) HR))) as W.
  destruct (tri_solve O G meps mscale A (Some rhs) (repeat (n0 O) n)) as [sol|e| |]; cbn [wpt] in W; try contradiction; [|left; destruct W as [-> _]; reflexivity].
  right. destruct W as (x & HX & HS & HB). exists sol, x. split; [reflexivity|]. split; [eapply is_vector_ext; [exact HX|]; intros i Hi; cbv beta; destruct (Nat.ltb_spec i n); [reflexivity|lia]|].
  split; [exact HS|]. intros z HZ i Hi.
  assert (D : (fun i => z i - x i) i = n0 O).
  { apply (pivots_unique n b d a (fun i => z i - x i) HB); auto. intros k Hk. unfold tri_apply in *. assert (HRg := field_ring _ _ HF).
    rewrite (sum_ext O n _ (fun j => tri_entry O b d a k j * z j - tri_entry O b d a k j * x j)) by (intros; ring). rewrite (sum_sub O HRg). rewrite (HZ k Hk), (HS k Hk). ring. }
  cbv beta in D. transitivity (z i - x i + x i); [ring|]. rewrite D. ring.
Qed.
(** the two-argument form writes into [sol] and may be given the same vector twice *)
Theorem C49_solve_in_place : forall A n b d a v r, is_tri A n b d a -> 2 <= n -> is_vector v n r ->
  tri_solve O G meps mscale A None v = Throw SingularError \/
  exists sol x, tri_solve O G meps mscale A None v = Ok sol /\ is_vector sol n x /\ forall i, i < n -> tri_apply O n b d a x i = r i.
Proof.
  intros A n b d a v r HA HN HR. destruct (wp_elim _ _ _ (tol_wp A n b d a (fun _ => True) HA (fun _ _ => Logic.I))) as (tol & ETOL & _).
  pose proof (solve_wp tol A n b d a None v n r r HA ETOL HN HR (Nat.le_refl n) (fun i _ => eq_refl)) as W.
  destruct (tri_solve O G meps mscale A None v) as [sol|e| |]; cbn [wpt] in W; try contradiction; [|left; destruct W as [-> _]; reflexivity].
  right. destruct W as (x & HX & HS & _). exists sol, x. split; [reflexivity|]. split; [eapply is_vector_ext; [exact HX|]; intros i Hi; cbv beta; destruct (Nat.ltb_spec i n); [reflexivity|lia]|exact HS].
Qed.
End Solve.

(** ** When Solve succeeds: strict diagonal dominance, over the reals *)
Section Dominant.
Local Open Scope R_scope.
Definition tol_of (eps m : R) : R := if Rlt_dec (m * eps) eps then eps else m * eps.
Lemma bet_bound : forall n b d a tol, 0 < tol -> (forall i, (i < n)%nat -> (if (i =? 0)%nat then 0 else Rabs (b i)) + Rabs (a i) + tol <= Rabs (d i)) ->
  forall i, (i < n)%nat -> Rabs (a i) + tol <= Rabs (bet Rnum b d a i).
Proof.
  intros n b d a tol HT HD. induction i as [|i IH]; intros Hi; pose proof (HD _ Hi) as H.
  - cbn [Nat.eqb] in H. cbn [bet]. lra.
  - cbn [Nat.eqb] in H. cbn [bet Rnum nsub nmul ndiv]. assert (Hi' : (i < n)%nat) by lia. specialize (IH Hi').
    assert (PB : 0 < Rabs (bet Rnum b d a i)) by (pose proof (Rabs_pos (a i)); lra).
    assert (Q : Rabs (a i / bet Rnum b d a i) <= 1).
    { unfold Rdiv. rewrite Rabs_mult, Rabs_inv. apply (Rmult_le_reg_r (Rabs (bet Rnum b d a i))); [auto|]. rewrite Rmult_assoc, Rinv_l by lra. lra. }
    pose proof (Rabs_triang (d (S i) - b (S i) * (a i / bet Rnum b d a i)) (b (S i) * (a i / bet Rnum b d a i))) as TR.
    replace (d (S i) - b (S i) * (a i / bet Rnum b d a i) + b (S i) * (a i / bet Rnum b d a i)) with (d (S i)) in TR by ring. rewrite (Rabs_mult (b (S i))) in TR.
    pose proof (Rabs_pos (b (S i))). assert (Rabs (b (S i)) * Rabs (a i / bet Rnum b d a i) <= Rabs (b (S i)) * 1) by (apply Rmult_le_compat_l; auto). lra.
Qed.
Lemma tol_bound : forall eps (A : tridiag R) n b d a, 0 < eps -> is_tri A n b d a -> exists tol, tri_tol (Rmag eps) eps (fun m => m * eps) A = Ok tol /\ 0 < tol /\
  (tol = eps \/ exists k, (k < n)%nat /\ tol = Rabs (d k) * eps).
Proof.
  intros eps A n b d a HE (D1 & B1 & G1 & A1). apply wp_elim. unfold tri_tol. apply wp_bind. pose proof B1 as [LB _]. rewrite LB.
  eapply wp_conseq; [|apply (for_range_inv _ _ (fun k m => m = 0 \/ exists i, (i < k)%nat /\ m = Rabs (d i)))].
  - intros m H2. cbn [wp Rmag mlt]. destruct (Rlt_dec (m * eps) eps) as [L|L]; [split; [auto|left; reflexivity]|]. split; [lra|].
    destruct H2 as [->|(i & Hi & ->)]; [lra|]. right. exists i. auto.
  - lia.
  - left; reflexivity.
  - intros k m _ HK H2. apply wp_bind. eapply vgetf_wp; [exact G1|auto|]. cbn [wp Rmag mlt mabs]. destruct (Rlt_dec m (Rabs (d k))) as [L|L].
    + right. exists k. split; [lia|reflexivity].
    + destruct H2 as [?|(i & ? & ?)]; [left; auto|right; exists i; split; [lia|auto]].
Qed.
(** each diagonal entry exceeds the sum of the other entries of its row by at least the tolerance: Solve does not throw *)
Theorem C49_dominant : forall eps (A : tridiag R) n b d a rhs r, 0 < eps -> is_tri A n b d a -> (2 <= n)%nat -> is_vector rhs n r ->
  (forall i, (i < n)%nat -> (if (i =? 0)%nat then 0 else Rabs (b i)) + Rabs (a i) + eps <= Rabs (d i)) ->
  (forall i k, (i < n)%nat -> (k < n)%nat -> (if (i =? 0)%nat then 0 else Rabs (b i)) + Rabs (a i) + eps * Rabs (d k) <= Rabs (d i)) ->
  exists sol x, tri_solve_new Rnum (Rmag eps) eps (fun m => m * eps) A rhs = Ok sol /\ is_vector sol n x /\ forall i, (i < n)%nat -> tri_apply Rnum n b d a x i = r i.
Proof.
  intros eps A n b d a rhs r HE HA HN HR HD1 HD2. destruct (tol_bound eps A n b d a HE HA) as (tol & ETOL & HT & HK).
  assert (HD : forall i, (i < n)%nat -> (if (i =? 0)%nat then 0 else Rabs (b i)) + Rabs (a i) + tol <= Rabs (d i)).
  { intros i Hi. destruct HK as [->|(k & Hk & ->)]; [auto|]. specialize (HD2 i k Hi Hk). lra. }
  assert (EP : mlt (Rmag eps) (mzero (Rmag eps)) eps = true) by (cbn; destruct (Rlt_dec 0 eps); [reflexivity|lra]).
  unfold tri_solve_new. pose proof HR as [LR _]. rewrite LR.
  pose proof (solve_wp Rnum Rnum_field (Rmag eps) (Rmag_laws eps HE) eps (fun m => m * eps) EP tol A n b d a (Some rhs) (repeat (n0 Rnum) n) n (fun _ => n0 Rnum) r HA ETOL HN (is_vector_repeat _ _) (Nat.le_refl n) (ex_intro _ n (conj (Nat.le_refl n) HR))) as W.
  destruct (tri_solve Rnum (Rmag eps) eps (fun m => m * eps) A (Some rhs) (repeat (n0 Rnum) n)) as [sol|e| |]; cbn [wpt] in W; try contradiction.
  - destruct W as (x & HX & HS & _). exists sol, x. split; [reflexivity|]. split; [|exact HS]. eapply is_vector_ext; [exact HX|]. intros i Hi. cbv beta. destruct (Nat.ltb_spec i n); [reflexivity|lia].
  - exfalso. destruct W as (_ & j & Hj & HS). pose proof (bet_bound n b d a tol HT HD j Hj). cbn [Rmag mlt mabs] in HS. pose proof (Rabs_pos (a j)). destruct (Rlt_dec (Rabs (bet Rnum b d a j)) tol); [lra|discriminate].
Qed.
End Dominant.
Print Assumptions C49_get.
Print Assumptions C49_set.
Print Assumptions C49_new.
Print Assumptions C49_of_list.
Print Assumptions C49_arithmetic.
Print Assumptions C49_transpose.
Print Assumptions C49_solve.
Print Assumptions C49_solve_in_place.
Print Assumptions C49_dominant.

(** ** What is not checked *)
(** the list constructor accepts dimension 1 and then reads past the end of the list; a right-hand side that is too
    short and an index outside the matrix are read out of bounds *)
Theorem C49_unchecked_refuted :
  tri_of_list Znum 1 [5]%Z = UB /\
  (exists A, tri_new 3 [0; 1; 1] [4; 4; 4] [1; 1; 0] = Ok A /\ tri_get Znum A 3 3 = UB /\ tri_get Znum A 7 0 = Ok 0)%Z.
Proof. split; [reflexivity|]. eexists. split; [reflexivity|]. split; reflexivity. Qed.

(** ** A concrete system, solved over the rationals *)
Definition qz (z : Z) : Qc := Q2Qc (inject_Z z).
Definition exTri : tridiag Qc := mkTri 3 (map qz [0; 1; 1]%Z) (map qz [4; 4; 4]%Z) (map qz [1; 1; 0]%Z).
Example C49_exTri : is_tri exTri 3 (fun i => nth i (map qz [0; 1; 1]%Z) (qz 0)) (fun i => nth i (map qz [4; 4; 4]%Z) (qz 0)) (fun i => nth i (map qz [1; 1; 0]%Z) (qz 0)) /\
  mlt Qmag (mzero Qmag) Qceps = true.
Proof. split; [|reflexivity]. split; [reflexivity|]. split; [|split]; (split; [reflexivity|]); intros [|[|[|i]]] Hi; try lia; reflexivity. Qed.
Definition vals (r : res (list Qc)) : res (list Q) := v <- r ;; Ok (map this v).
Example C49_computed :
  vals (tri_solve_new Qnum Qmag Qceps (fun m => (m * Qceps)%Qc) exTri (map qz [6; 12; 14]%Z)) = Ok [1; 2; 3]%Q /\
  vals (tri_solve Qnum Qmag Qceps (fun m => (m * Qceps)%Qc) exTri None (map qz [6; 12; 14]%Z)) = Ok [1; 2; 3]%Q /\
  tri_solve_new Qnum Qmag Qceps (fun m => (m * Qceps)%Qc) (mkTri 3 (map qz [0; 1; 1]%Z) (map qz [1; 1; 1]%Z) (map qz [1; 1; 0]%Z)) (map qz [6; 12; 14]%Z) = Throw SingularError /\
  tri_solve_new Qnum Qmag Qceps (fun m => (m * Qceps)%Qc) exTri (map qz [6; 12]%Z) = UB /\
  tri_of_list Znum 3 [1; 2; 3; 4; 5; 6; 7]%Z = Ok (mkTri 3 [0; 3; 6] [1; 4; 7] [2; 5; 0])%Z /\
  tri_transpose Znum (mkTri 3 [0; 3; 6] [1; 4; 7] [2; 5; 0])%Z = Ok (mkTri 3 [0; 2; 5] [1; 4; 7] [3; 6; 0])%Z.
Proof. vm_compute. repeat split. Qed.
(** diagonal dominance is met by this matrix over the reals *)
Example C49_dominant_ex : let b := (fun i => nth i [0; 1; 1]%R 0%R) in let d := (fun _ : nat => 4%R) in let a := (fun i => nth i [1; 1; 0]%R 0%R) in
  forall i k, i < 3 -> k < 3 -> ((if (i =? 0)%nat then 0 else Rabs (b i)) + Rabs (a i) + / 1000 * Rabs (d k) <= Rabs (d i))%R.
Proof.
  intros b d a i k Hi Hk. unfold d. rewrite (Rabs_pos_eq 4) by lra. destruct i as [|[|[|i]]]; try lia; cbn; rewrite ?(Rabs_pos_eq 1), ?Rabs_R0 by lra; lra.
Qed.
