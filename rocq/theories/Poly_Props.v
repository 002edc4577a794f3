(** * C28-C31: polynomial arithmetic, division, calculus and interpolation

    Exact arithmetic.  [coef p i] is the coefficient of x^i (zero past the end), [peval p x] the sum of
    coefficient times power and [conv p q k] the k-th coefficient of the product (Poly_Proofs.v, Spec). *)

From Coq Require Import List Arith Bool Lia ZArith QArith Qcanon Ring Field Reals.
From Verif Require Import Base Num Mat_Model Mat_Proofs Lin_Base Gauss_Proofs Gauss_Props Poly_Model Poly_Proofs Poly_Proofs2.
Import ListNotations.
Local Open Scope nat_scope.

Section Ring.
Context {T : Type} (O : numops T) (HR : ring_laws O).
Add Ring Tr : HR.
Notation co := (coef O).
Implicit Types (p q : list T).

Local Ltac vec := intros; eapply coef_vec; eauto.
Lemma vec_coefs : forall p n f, is_vector p n f -> (forall i, n <= i -> f i = n0 O) -> forall i, co p i = f i.
Proof. intros p n f H Hz i. destruct (lt_dec i n); [eapply coef_vec; eauto|]. rewrite coef_out by (rewrite (proj1 H); lia). symmetry. apply Hz. lia. Qed.

(** operator() is the sum of coefficient times power *)
Theorem C28_eval : forall p x, p_eval O p x = Ok (peval O p x).
Proof.
  intros p x. pose proof (p_eval_wp O HR p x (fun r => r = peval O p x) eq_refl) as W. apply wp_elim in W as (r & E & ->). auto.
Qed.

(** every operation is the coefficientwise (for *, the convolution) one; no operation throws, except the
    product of two polynomials without any coefficient *)
Theorem C28_coefficients : forall p q s,
  (exists r, p_add O p q = Ok r /\ length r = Nat.max (length p) (length q) /\ forall i, co r i = nadd O (co p i) (co q i)) /\
  (exists r, p_sub O p q = Ok r /\ length r = Nat.max (length p) (length q) /\ forall i, co r i = nsub O (co p i) (co q i)) /\
  (exists r, p_neg O p = Ok r /\ length r = length p /\ forall i, co r i = nopp O (co p i)) /\
  (0 < length p + length q -> exists r, p_mul O p q = Ok r /\ length r = length p + length q - 1 /\ forall k, co r k = conv O p q k) /\
  (length (p_scale O p s) = length p /\ forall i, co (p_scale O p s) i = nmul O (co p i) s) /\
  (exists r, p_add_scalar O p s = Ok r /\ forall i, co r i = if Nat.eqb i 0 then nadd O (co p 0) s else co p i) /\
  (exists r, p_sub_scalar O p s = Ok r /\ forall i, co r i = if Nat.eqb i 0 then nsub O (co p 0) s else co p i) /\
  (exists r, p_scalar_sub O s p = Ok r /\ forall i, co r i = if Nat.eqb i 0 then nsub O s (co p 0) else nopp O (co p i)).
Proof.
  intros p q s.
  assert (Hne : forall r i, co (p_nonempty O r) i = co r i) by (intros [|c r] [|[|i]]; reflexivity).
  assert (Hset : forall r f (Q : list T -> Prop), (forall r', (forall i, co r' i = if Nat.eqb i 0 then f (co r 0) else co r i) -> Q r') ->
            wp (x <- vget (p_nonempty O r) 0 ;; vset (p_nonempty O r) 0 (f x)) Q).
  { intros r f Q HQ. assert (L : 0 < length (p_nonempty O r)) by (destruct r; simpl; lia).
    apply wp_bind. eapply vgetf_wp; [apply (vec_coef O)|auto|]. eapply vsetf_wp; [apply (vec_coef O)|auto|]. intros r' Hr'. apply HQ. intros i.
    rewrite (vec_coefs _ _ _ Hr').
    - unfold vfset. destruct (Nat.eqb_spec i 0) as [->|]; rewrite Hne; auto.
    - intros j Hj. unfold vfset. rewrite (proj2 (Nat.eqb_neq j 0)) by lia. apply coef_out; auto. }
  assert (Hneg : forall (Q : list T -> Prop), (forall r, length r = length p /\ (forall i, co r i = nopp O (co p i)) -> Q r) -> wp (p_neg O p) Q).
  { intros Q HQ. apply p_neg_wp. intros r Hr. apply HQ. split; [apply (proj1 Hr)|]. apply (vec_coefs _ _ _ Hr). intros i Hi. rewrite coef_out by auto. ring. }
  split; [|split; [|split; [|split; [|split; [|split; [|split]]]]]].
  - apply wp_elim. apply p_addsub_wp; auto; [intros; ring|]. intros r Hr. split; [apply (proj1 Hr)|]. apply (vec_coefs _ _ _ Hr). intros i Hi. rewrite !coef_out by lia. ring.
  - apply wp_elim. apply p_addsub_wp; auto; [intros; ring|]. intros r Hr. split; [apply (proj1 Hr)|]. apply (vec_coefs _ _ _ Hr). intros i Hi. rewrite !coef_out by lia. ring.
  - apply wp_elim. apply Hneg. auto.
  - intros Hn. apply wp_elim. apply p_mul_wp; auto. intros r Hr. split; [apply (proj1 Hr)|]. apply (vec_coefs _ _ _ Hr).
    intros k Hk. unfold conv. apply (sum_zero O HR). intros i Hi. destruct (lt_dec i (length p)); [rewrite (coef_out O q) by lia|rewrite (coef_out O p) by lia]; ring.
  - unfold p_scale. split; [apply map_length|]. intros i. unfold coef. destruct (lt_dec i (length p)).
    + erewrite nth_indep by (rewrite map_length; auto). rewrite (map_nth (fun c => nmul O c s)). reflexivity.
    + rewrite !nth_overflow by (rewrite ?map_length; lia). ring.
  - apply wp_elim. unfold p_add_scalar. apply (Hset p (fun x => nadd O x s)). auto.
  - apply wp_elim. unfold p_sub_scalar. apply (Hset p (fun x => nsub O x s)). auto.
  - apply wp_elim. unfold p_scalar_sub. apply wp_bind. apply Hneg. intros r [_ Hr]. apply (Hset r (fun x => nadd O x s)). intros r' Hr' i. rewrite Hr', !Hr. destruct (Nat.eqb i 0); auto. ring.
Qed.

(** evaluation is compatible with every operation *)
Theorem C28_values : forall p q s x v,
  (forall r, p_add O p q = Ok r -> p_eval O r x = Ok v -> v = nadd O (peval O p x) (peval O q x)) /\
  (forall r, p_sub O p q = Ok r -> p_eval O r x = Ok v -> v = nsub O (peval O p x) (peval O q x)) /\
  (forall r, p_neg O p = Ok r -> p_eval O r x = Ok v -> v = nopp O (peval O p x)) /\
  (forall r, p_mul O p q = Ok r -> p_eval O r x = Ok v -> v = nmul O (peval O p x) (peval O q x)) /\
  (p_eval O (p_scale O p s) x = Ok v -> v = nmul O (peval O p x) s) /\
  (forall r, p_add_scalar O p s = Ok r -> p_eval O r x = Ok v -> v = nadd O (peval O p x) s) /\
  (forall r, p_sub_scalar O p s = Ok r -> p_eval O r x = Ok v -> v = nsub O (peval O p x) s) /\
  (forall r, p_scalar_sub O s p = Ok r -> p_eval O r x = Ok v -> v = nsub O s (peval O p x)).
Proof.
  intros p q s x v. destruct (C28_coefficients p q s) as (H1 & H2 & H3 & H4 & H5 & H6 & H7 & H8).
  assert (G : forall r w, peval O r x = w -> p_eval O r x = Ok v -> v = w). { intros r w <- E. rewrite C28_eval in E. injection E as ->. auto. }
  set (M := S (Nat.max (length p) (length q))).
  assert (S0 : forall r f, (forall i, co r i = if Nat.eqb i 0 then nadd O (co p 0) f else co p i) -> peval O r x = nadd O (peval O p x) f).
  { intros r f Hr. rewrite (peval_more O HR r x (S (Nat.max (length r) M))), (peval_more O HR p x (S (Nat.max (length r) M))) by (unfold M; lia).
    rewrite !(sum_S_l O HR). rewrite Hr. simpl Nat.eqb. simpl npow.
    rewrite (sum_ext O _ (fun i => nmul O (co r (S i)) (nmul O (npow O x i) x)) (fun i => nmul O (co p (S i)) (nmul O (npow O x i) x))) by (intros; rewrite Hr; auto). ring. }
  assert (Hop : forall r f, (forall i, co r i = nopp O (co f i)) -> length r <= M -> length f <= M -> peval O r x = nopp O (peval O f x)).
  { intros r f Hr L1 L2. rewrite (peval_more O HR r x M), (peval_more O HR f x M) by auto. rewrite <- (sum_opp O HR). apply sum_ext. intros i _. rewrite Hr. ring. }
  split; [|split; [|split; [|split; [|split; [|split; [|split]]]]]].
  - intros r E. destruct H1 as (r' & E' & L & C). rewrite E in E'. injection E' as <-. apply G.
    rewrite !(peval_more O HR _ x M) by (unfold M; lia). rewrite <- (sum_add O HR). apply sum_ext. intros i _. rewrite C. ring.
  - intros r E. destruct H2 as (r' & E' & L & C). rewrite E in E'. injection E' as <-. apply G.
    rewrite !(peval_more O HR _ x M) by (unfold M; lia). rewrite <- (sum_sub O HR). apply sum_ext. intros i _. rewrite C. ring.
  - intros r E. destruct H3 as (r' & E' & L & C). rewrite E in E'. injection E' as <-. apply G. apply Hop; auto; unfold M; lia.
  - intros r E. destruct (Nat.eq_dec (length p + length q) 0) as [Z|Z]; [unfold p_mul in E; rewrite Z in E; discriminate|].
    destruct H4 as (r' & E' & L & C); [lia|]. rewrite E in E'. injection E' as <-. apply G. rewrite <- (conv_values O HR). unfold peval. rewrite L. apply sum_ext. intros i _. rewrite C. auto.
  - apply G. destruct H5 as [L C]. unfold peval. rewrite L, (sum_mul_r O HR). apply sum_ext. intros i _. rewrite C. ring.
  - intros r E. destruct H6 as (r' & E' & C). rewrite E in E'. injection E' as <-. apply G. apply S0; auto.
  - intros r E. destruct H7 as (r' & E' & C). rewrite E in E'. injection E' as <-. apply G.
    transitivity (nadd O (peval O p x) (nopp O s)); [apply S0|ring]. intros i. rewrite C. destruct (Nat.eqb i 0); auto. ring.
  - intros r E. destruct H8 as (r' & E' & C). rewrite E in E'. injection E' as <-. apply G.
    destruct H3 as (m & Em & Lm & Cm). transitivity (nadd O (peval O m x) s).
    + rewrite (peval_more O HR r x (S (Nat.max (length r) M))), (peval_more O HR m x (S (Nat.max (length r) M))) by (unfold M; lia).
      rewrite !(sum_S_l O HR). rewrite C, Cm. simpl Nat.eqb. simpl npow.
      rewrite (sum_ext O _ (fun i => nmul O (co r (S i)) (nmul O (npow O x i) x)) (fun i => nmul O (co m (S i)) (nmul O (npow O x i) x))) by (intros; rewrite C, Cm; auto). ring.
    + rewrite (Hop m p Cm) by (unfold M; lia). ring.
Qed.

(** Reduce() drops trailing zero coefficients only: coefficients and values stay, the last coefficient is not zero *)
Theorem C28_reduce : forall test p x, (forall c, test c = true <-> c = n0 O) ->
  (forall i, co (p_reduce test p) i = co p i) /\ peval O (p_reduce test p) x = peval O p x /\
  (p_reduce test p = [] \/ p_leading O (p_reduce test p) <> n0 O).
Proof.
  intros test p x Ht.
  assert (G : forall r, exists zs, r = zs ++ drop_zeros test r /\ (forall c, In c zs -> c = n0 O) /\ (drop_zeros test r = [] \/ hd (n0 O) (drop_zeros test r) <> n0 O)).
  { induction r as [|c r (zs & E & Hz & Hl)]; [exists []; simpl; split; [auto|split; [intros c []|auto]]|]. simpl. destruct (test c) eqn:Ec.
    - exists (c :: zs). split; [simpl; f_equal; auto|]. split; auto. intros c' [<-|H]; auto. apply Ht; auto.
    - exists []. split; auto. split; [intros c' []|]. right. simpl. intros Hc. apply Ht in Hc. congruence. }
  destruct (G (rev p)) as (zs & E & Hz & Hl). unfold p_reduce. set (d := drop_zeros test (rev p)) in *.
  assert (Ep : p = rev d ++ rev zs). { rewrite <- (rev_involutive p), E, rev_app_distr. auto. }
  assert (C : forall i, co (rev d) i = co p i).
  { intros i. rewrite Ep. unfold coef. destruct (lt_dec i (length (rev d))); [rewrite app_nth1 by auto; auto|]. rewrite app_nth2 by lia. rewrite nth_overflow by lia.
    destruct (nth_in_or_default (i - length (rev d)) (rev zs) (n0 O)) as [H|H]; [symmetry; apply Hz, in_rev; auto|auto]. }
  split; auto. split; [apply peval_coef; auto|]. destruct Hl as [Hl|Hl]; [left; rewrite Hl; auto|]. right. unfold p_leading.
  destruct d as [|c d]; [simpl in *; auto|]. simpl rev. rewrite last_last. auto.
Qed.

(** IsEqual holds exactly when all coefficients agree (missing ones count as zero); then all values agree *)
Theorem C28_is_equal : forall far p q x, (forall a b, far a b = false <-> a = b) ->
  (p_is_equal O far p q = true <-> forall i, co p i = co q i) /\ (p_is_equal O far p q = true -> peval O p x = peval O q x).
Proof.
  intros far p q x Hf.
  assert (E : p_is_equal O far p q = true <-> forall i, co p i = co q i).
  { unfold p_is_equal. rewrite forallb_forall. split.
    - intros H i. destruct (lt_dec i (Nat.max (length p) (length q))) as [Hi|Hi].
      + apply Hf. apply negb_true_iff. apply (H i). apply in_seq. lia.
      + rewrite !coef_out by lia. auto.
    - intros H i _. apply negb_true_iff. apply Hf. apply H. }
  split; auto. intros H. apply peval_coef; auto. apply E. auto.
Qed.

(** constructors and accessors *)
Theorem C28_constructors : forall (a b c : T) (d : nat) i,
  (exists r, p_monomial O (Z.of_nat d) = Ok r /\ length r = d + 1 /\ co r i = if Nat.eqb i d then n1 O else n0 O) /\
  co (p_constant c) i = (if Nat.eqb i 0 then c else n0 O) /\
  co (p_linear a b) i = (if Nat.eqb i 0 then b else if Nat.eqb i 1 then a else n0 O) /\
  co (p_zero O) i = n0 O.
Proof.
  intros a b c d i. split; [|split; [|split]].
  - apply wp_elim. unfold p_monomial, p_of_degree. rewrite (proj2 (Z.ltb_ge _ _)) by lia. cbn [bind]. rewrite (proj2 (Z.leb_le _ _)) by lia. rewrite Nat2Z.id.
    replace (Z.to_nat (Z.of_nat d + 1)) with (d + 1) by lia. eapply vsetf_wp; [apply is_vector_repeat|lia|]. intros r Hr. split; [apply (proj1 Hr)|].
    rewrite (vec_coefs _ _ _ Hr); [reflexivity|]. intros j Hj. unfold vfset. rewrite (proj2 (Nat.eqb_neq j d)) by lia. auto.
  - destruct i as [|[|i]]; reflexivity.
  - destruct i as [|[|[|i]]]; reflexivity.
  - destruct i as [|[|i]]; reflexivity.
Qed.
Theorem C28_accessors : forall p d, length p = S d ->
  p_degree p = Z.of_nat d /\ p_leading O p = co p d /\ p_const_term O p = co p 0 /\
  (forall i, p_coeff O p (Z.of_nat i) = co p i) /\ (forall i, (i < 0)%Z -> p_coeff O p i = n0 O).
Proof.
  intros p d L. unfold p_degree, p_leading, p_const_term, p_coeff. rewrite L. split; [lia|]. split.
  - destruct (exists_last (l := p)) as (l & a & E); [intros ->; discriminate|]. subst p. rewrite last_last. rewrite app_length in L. simpl in L. unfold coef. rewrite app_nth2 by lia.
    replace (d - length l) with 0 by lia. auto.
  - split; [destruct p; auto|]. split.
    + intros i. rewrite (proj2 (Z.leb_le _ _)) by lia. rewrite Nat2Z.id. auto.
    + intros i Hi. rewrite (proj2 (Z.leb_gt _ _)) by lia. auto.
Qed.
(** SetDegree keeps the coefficients up to the new degree and sets the others to zero *)
Theorem C28_set_degree : forall p d, exists r, p_set_degree O p (Z.of_nat d) = Ok r /\ length r = d + 1 /\ forall i, co r i = if i <=? d then co p i else n0 O.
Proof.
  intros p d. unfold p_set_degree. rewrite (proj2 (Z.ltb_ge _ _)) by lia. replace (Z.to_nat (Z.of_nat d + 1)) with (d + 1) by lia. eexists. split; [reflexivity|]. split.
  - rewrite app_length, repeat_length, firstn_length. lia.
  - intros i. unfold coef. destruct (Nat.leb_spec i d).
    + destruct (lt_dec i (length p)).
      * rewrite app_nth1 by (rewrite firstn_length; lia). rewrite <- (firstn_skipn (d + 1) p) at 2. rewrite app_nth1 by (rewrite firstn_length; lia). auto.
      * rewrite app_nth2 by (rewrite firstn_length; lia). rewrite nth_repeat. rewrite nth_overflow by lia. auto.
    + apply nth_overflow. rewrite app_length, repeat_length, firstn_length. lia.
Qed.

(** the product of two polynomials that hold no coefficient at all throws std::length_error, although both
    are documented to be the zero polynomial: "product is compatible with evaluation" fails there *)
Theorem C28_empty_product_refuted : exists p q, p_eval O p (n0 O) = Ok (n0 O) /\ p_eval O q (n0 O) = Ok (n0 O) /\ p_mul O p q = Throw LengthError.
Proof. exists [], []. auto. Qed.

(** ** C30 *)
(** derivative(): coefficient i is (i+1) times coefficient i+1 *)
Theorem C30_derivative : forall p, exists d, p_derivative O p = Ok d /\ length d = length p - 1 /\ forall i, co d i = nmul O (co p (i + 1)) (nnat O (i + 1)).
Proof.
  intros p. apply wp_elim. apply (p_derivative_wp O HR). split; [apply (pder_length O)|apply (pder_coef O HR)].
Qed.
(** derivative is linear and satisfies the product rule *)
Theorem C30_rules : forall p q s sp sq pq dp dq dsum dprod, 0 < length p + length q ->
  p_add O (p_scale O p s) q = Ok sq -> p_mul O p q = Ok pq ->
  p_derivative O p = Ok dp -> p_derivative O q = Ok dq -> p_derivative O sq = Ok dsum -> p_derivative O pq = Ok dprod -> sp = p_scale O dp s ->
  (forall i, co dsum i = nadd O (co sp i) (co dq i)) /\
  (forall i, co dprod i = nadd O (conv O dp q i) (conv O p dq i)).
Proof.
  intros p q s sp sq pq dp dq dsum dprod Hne E1 E2 E3 E4 E5 E6 ->.
  assert (D : forall a d, p_derivative O a = Ok d -> d = pder O a).
  { intros a d E. pose proof (p_derivative_wp O HR a (fun r => r = pder O a) eq_refl) as W. rewrite E in W. exact W. }
  apply D in E3, E4, E5, E6. subst.
  destruct (C28_coefficients (p_scale O p s) q s) as ((r1 & F1 & _ & C1) & _). rewrite E1 in F1. injection F1 as <-.
  destruct (C28_coefficients p q s) as (_ & _ & _ & H4 & (_ & C5) & _). destruct H4 as (r2 & F2 & _ & C2); auto. rewrite E2 in F2. injection F2 as <-.
  destruct (C28_coefficients (pder O p) q s) as (_ & _ & _ & _ & (_ & C6) & _).
  split; intros i.
  - rewrite C6, !(pder_coef O HR), C1, C5. ring.
  - rewrite (pder_coef O HR), C2. apply (product_rule O HR).
Qed.
(** Derive(x, pd): pd[j] is the value at x of the j-th derivative, for any number of requested derivatives *)
Theorem C30_derive : forall p x pd, 0 < length p -> 0 < length pd ->
  exists pd' ds, p_derive O p x pd = Ok pd' /\ length pd' = length pd /\ ds 0 = p /\ (forall j, p_derivative O (ds j) = Ok (ds (S j))) /\
    forall j, j < length pd -> nth_error pd' j = Some (peval O (ds j) x).
Proof.
  intros p x pd Hp Hd. pose proof (p_derive_wp O HR p x pd (fun pd' => is_vector pd' (length pd) (fun j => peval O (Nat.iter j (pder O) p) x)) Hp Hd) as W.
  apply wp_elim in W as (pd' & E & Hv); auto. exists pd', (fun j => Nat.iter j (pder O) p). split; auto. split; [apply (proj1 Hv)|]. split; auto. split.
  - intros j. pose proof (p_derivative_wp O HR (Nat.iter j (pder O) p) (fun r => r = pder O (Nat.iter j (pder O) p)) eq_refl) as W. apply wp_elim in W as (r & Er & ->). auto.
  - intros j Hj. apply (proj2 Hv). auto.
Qed.
(** Derive on a polynomial without coefficients, or into an empty vector, is undefined behaviour *)
Theorem C30_derive_empty_refuted : forall x c, p_derive O [] x [c] = UB /\ p_derive O [c] x [] = UB.
Proof. intros x c. split; reflexivity. Qed.
End Ring.

Section Field.
Context {T : Type} (O : numops T) (HF : field_laws O) (eqb : T -> T -> bool) (Heqb : forall a b, eqb a b = true <-> a = b).
Let HR : ring_laws O := field_ring T O HF.
Add Field Tf : HF.
Notation co := (coef O).
Implicit Types (p q u v : list T).

(** ** C29 *)
(** v has degree d (its leading non-zero coefficient is that of x^d); the dividend has at least d coefficients.
    Then poldiv returns q and r with u = q v + r, as polynomials and as functions, r has d coefficients, q has no
    trailing zero, and q and r are the only such polynomials. *)
Theorem C29_division : forall u v d, coef O v d <> n0 O -> (forall j, d < j -> coef O v j = n0 O) -> d <= length u ->
  exists q r, poldiv O eqb u v = Ok (q, r) /\ length r = d /\ (q = [] \/ co q (length q - 1) <> n0 O) /\
    (forall i, co u i = nadd O (conv O q v i) (co r i)) /\
    (forall x, peval O u x = nadd O (nmul O (peval O q x) (peval O v x)) (peval O r x)) /\
    (forall q' r', (forall i, d <= i -> co r' i = n0 O) -> (forall i, co u i = nadd O (conv O q' v i) (co r' i)) ->
       (forall i, co q' i = co q i) /\ (forall i, co r' i = co r i)).
Proof.
  intros u v d H1 H2 H3.
  assert (W : exists w, poldiv O eqb u v = Ok w /\ (length (snd w) = d /\ (fst w = [] \/ co (fst w) (length (fst w) - 1) <> n0 O) /\ forall i, co u i = nadd O (conv O (fst w) v i) (co (snd w) i))).
  { apply wp_elim. apply (poldiv_wp O HF eqb Heqb u v d); [split; auto|auto|]. intros q r Hr Hq He. cbn [fst snd]. auto. }
  destruct W as ([q r] & E & Hr & Hq & He). cbn [fst snd] in *. exists q, r. split; auto. split; auto. split; auto. split; auto. split.
  - intros x. rewrite <- (conv_values O HR). set (N := Nat.max (length q + length v - 1) (Nat.max (length u) (length r))).
    assert (Ec : sumn O (length q + length v - 1) (fun k => nmul O (conv O q v k) (npow O x k)) = sumn O N (fun k => nmul O (conv O q v k) (npow O x k))).
    { symmetry. apply (sum_more O HR); [unfold N; lia|]. intros k Hk _. unfold conv. rewrite (sum_zero O HR); [ring|].
      intros i Hi. destruct (lt_dec i (length q)); [rewrite (coef_out O v) by lia|rewrite (coef_out O q) by lia]; ring. }
    rewrite Ec, (peval_more O HR u x N), (peval_more O HR r x N) by (unfold N; lia). rewrite <- (sum_add O HR). apply sum_ext. intros i _. rewrite He. ring.
  - intros q' r' Hr' He'. apply (div_unique O HF v d q' q r' r); auto.
    + split; auto.
    + intros i Hi. apply coef_out. lia.
    + intros i. rewrite <- He, <- He'. auto.
Qed.
(** dividing by a polynomial all of whose coefficients are zero throws *)
Theorem C29_zero_divisor : forall u v, (forall i, co v i = n0 O) -> poldiv O eqb u v = Throw DivideByZero.
Proof. intros. apply (poldiv_zero_wp O); auto. Qed.
(** a dividend with fewer than d coefficients (degree below deg v - 1) makes poldiv read the remainder array out
    of bounds: "no undefined behaviour for any u and v" is false *)
Theorem C29_short_dividend_refuted : forall u v d, coef O v d <> n0 O -> (forall j, d < j -> coef O v j = n0 O) -> length u < d -> poldiv O eqb u v = UB.
Proof. intros u v d H1 H2 H3. apply (poldiv_short_wp O eqb Heqb u v d); auto. split; auto. Qed.

(** ** C30 integral: coefficient 0 is zero, coefficient i+1 is p_i / (i+1); derivative() undoes integral() *)
Theorem C30_integral : forall p, (forall k, nnat O (S k) <> n0 O) ->
  exists r, p_integral O p = Ok r /\ length r = length p + 1 /\ co r 0 = n0 O /\ (forall i, co r (i + 1) = ndiv O (co p i) (nnat O (i + 1))) /\
    p_derivative O r = Ok p.
Proof.
  intros p Hc.
  assert (Hc' : forall i, nnat O (i + 1) <> n0 O) by (intros i; rewrite Nat.add_1_r; apply Hc).
  assert (W : wp (p_integral O p) (fun r => is_vector r (length p + 1) (fun i => if Nat.eqb i 0 then n0 O else ndiv O (co p (i - 1)) (nnat O i)))).
  { unfold p_integral. eapply wp_conseq; [|apply (for_range_inv _ _ (fun m r => is_vector r (length p + 1) (fun i => if Nat.eqb i 0 then n0 O else if i <=? m then ndiv O (co p (i - 1)) (nnat O i) else n0 O)))].
    - intros r Hr. eapply is_vector_ext; [exact Hr|]. intros i Hi. cbv beta. destruct (Nat.eqb i 0); auto. rewrite (proj2 (Nat.leb_le _ _)) by lia. auto.
    - lia.
    - eapply is_vector_ext; [apply is_vector_repeat|]. intros i Hi. cbv beta. destruct i; auto.
    - intros m r _ Hm Hr. cbv beta in *. apply wp_bind. eapply vgetf_wp; [apply (vec_coef O)|auto|]. eapply vsetf_wp; [exact Hr|lia|]. intros r' Hr'.
      eapply is_vector_ext; [exact Hr'|]. intros i Hi. unfold vfset. cbv beta. destruct (Nat.eqb_spec i (m + 1)) as [->|].
      + rewrite (proj2 (Nat.eqb_neq (m + 1) 0)) by lia. rewrite (proj2 (Nat.leb_le (m + 1) (m + 1))) by lia. replace (m + 1 - 1) with m by lia. auto.
      + destruct (Nat.eqb i 0); auto. destruct (Nat.leb_spec i m); destruct (Nat.leb_spec i (m + 1)); auto; lia. }
  apply wp_elim in W as (r & E & Hr). exists r. split; auto. split; [apply (proj1 Hr)|].
  assert (C : forall i, co r i = if Nat.eqb i 0 then n0 O else ndiv O (co p (i - 1)) (nnat O i)).
  { apply (vec_coefs O _ _ _ Hr). intros i Hi. rewrite (proj2 (Nat.eqb_neq i 0)) by lia. rewrite coef_out by lia. destruct i as [|i]; [lia|]. field. apply Hc. }
  split; [rewrite C; auto|]. split.
  - intros i. rewrite C. rewrite (proj2 (Nat.eqb_neq (i + 1) 0)) by lia. replace (i + 1 - 1) with i by lia. auto.
  - pose proof (p_derivative_wp O HR r (fun d => d = pder O r) eq_refl) as W. apply wp_elim in W as (d & Ed & ->). rewrite Ed. f_equal.
    eapply is_vector_eq; [apply (is_vector_coef O (pder O r) (length p) (co p))|apply (vec_coef O)|auto].
    + rewrite pder_length, (proj1 Hr). lia.
    + intros i Hi. rewrite (pder_coef O HR), C. rewrite (proj2 (Nat.eqb_neq (i + 1) 0)) by lia. replace (i + 1 - 1) with i by lia. field. auto.
Qed.

(** ** C31 *)
(** with n >= 1 pairwise distinct nodes FromValues returns n coefficients, the values at the nodes are the given
    ones, and any other polynomial with at most n coefficients and these values has the same coefficients *)
Theorem C31_interpolates : forall x y, length x = length y -> 0 < length x -> NoDup x ->
  exists p, p_from_values O eqb x y = Ok p /\ length p = length x /\
    (forall i a b, nth_error x i = Some a -> nth_error y i = Some b -> p_eval O p a = Ok b) /\
    (forall q, length q <= length x -> (forall i a b, nth_error x i = Some a -> nth_error y i = Some b -> p_eval O q a = Ok b) -> forall i, co q i = co p i).
Proof.
  intros x y Hl Hn Hnd.
  assert (Hinj : forall i j, i < length x -> j < length x -> co x i = co x j -> i = j) by (apply NoDup_nth; auto).
  pose proof (from_values_wpt O HF eqb Heqb x y Hl Hn) as W.
  destruct (p_from_values O eqb x y) as [p|e| |]; simpl in W; try contradiction.
  - destruct W as (Lp & _ & Hp).
    assert (V : forall i a b, nth_error x i = Some a -> nth_error y i = Some b -> i < length x /\ a = co x i /\ b = co y i).
    { intros i a b Ha Hb. split; [apply nth_error_Some; congruence|]. split; symmetry; apply nth_error_nth; auto. }
    exists p. split; auto. split; auto. split.
    + intros i a b Ha Hb. rewrite (C28_eval O HR). destruct (V i a b Ha Hb) as (Hi & -> & ->). rewrite Hp; auto.
    + intros q Lq Hq i. destruct (lt_dec i (length x)); [|rewrite !coef_out by lia; auto].
      apply (sub_zero O HF). apply (root_bound O HF (length x) (fun i => nsub O (co q i) (co p i)) (co x) Hinj); auto. intros m Hm.
      rewrite (sum_ext O _ _ (fun i => nsub O (nmul O (co q i) (npow O (co x m) i)) (nmul O (co p i) (npow O (co x m) i)))) by (intros; ring).
      rewrite (sum_sub O HR). rewrite <- (peval_more O HR q), <- (peval_more O HR p) by lia. rewrite Hp by auto.
      assert (E : p_eval O q (co x m) = Ok (co y m)). { apply (Hq m); apply nth_error_nth'; lia. }
      rewrite (C28_eval O HR) in E. injection E as ->. ring.
  - destruct W as (_ & i & j & H1 & H2 & E). apply Hinj in E; lia.
Qed.
(** length mismatch, no nodes, or a repeated node: ArgumentError *)
Theorem C31_bad_input : forall x y, length x <> length y \/ x = [] \/ ~ NoDup x -> p_from_values O eqb x y = Throw InvalidArgument.
Proof.
  intros x y H. unfold p_from_values. destruct (Nat.eqb_spec (length x) (length y)) as [El|El]; [|reflexivity]. cbn [negb].
  destruct (Nat.eqb_spec (length x) 0) as [E0|E0]; [reflexivity|].
  pose proof (from_values_wpt O HF eqb Heqb x y El ltac:(lia)) as W. unfold p_from_values in W.
  rewrite (proj2 (Nat.eqb_eq _ _) El), (proj2 (Nat.eqb_neq _ _) E0) in W. cbn [negb] in W.
  match goal with |- ?m = _ => destruct m as [p|e| |]; simpl in W; try contradiction end.
  - exfalso. destruct W as (_ & Hinj & _). destruct H as [H|[->|H]]; [auto|simpl in E0; lia|]. apply H. apply (NoDup_nth x (n0 O)). auto.
  - destruct W as (-> & _). auto.
Qed.
End Field.

(** ** C30: over the reals derivative() is the analytic derivative of evaluation *)
Local Open Scope R_scope.
Lemma npow_R : forall x k, npow Rnum x k = x ^ k.
Proof. intros x k. induction k as [|k IH]; simpl; [reflexivity|]. rewrite IH. change (nmul Rnum) with Rmult. ring. Qed.
Lemma nnat_R : forall k, nnat Rnum k = INR k.
Proof. induction k as [|k IH]; [reflexivity|]. rewrite S_INR, <- IH. reflexivity. Qed.
Theorem C30_analytic : forall p d x, p_derivative Rnum p = Ok d -> derivable_pt_lim (fun x => peval Rnum p x) x (peval Rnum d x).
Proof.
  intros p d x E. assert (d = pder Rnum p) as ->.
  { pose proof (p_derivative_wp Rnum (field_ring _ _ Rnum_field) p (fun r => r = pder Rnum p) eq_refl) as W. rewrite E in W. exact W. }
  pose proof (field_ring _ _ Rnum_field) as HR.
  assert (G : forall n, derivable_pt_lim (fun x => sumn Rnum n (fun i => coef Rnum p i * x ^ i)) x (sumn Rnum n (fun i => coef Rnum p i * (INR i * x ^ pred i)))).
  { induction n as [|n IH]; simpl sumn.
    - apply derivable_pt_lim_const.
    - apply (derivable_pt_lim_plus (fun x => sumn Rnum n (fun i => coef Rnum p i * x ^ i)) (fun x => coef Rnum p n * x ^ n)); [exact IH|].
      apply (derivable_pt_lim_scal (fun x => x ^ n)). apply derivable_pt_lim_pow. }
  specialize (G (length p)).
  assert (E1 : sumn Rnum (length p) (fun i => coef Rnum p i * (INR i * x ^ pred i)) = peval Rnum (pder Rnum p) x).
  { rewrite (peval_more Rnum HR _ x (length p)) by (rewrite pder_length; lia). transitivity (sumn Rnum (S (length p)) (fun i => coef Rnum p i * (INR i * x ^ pred i))).
    - simpl sumn. rewrite (coef_out Rnum p (length p)) by lia. change (n0 Rnum) with 0. change (nadd Rnum) with Rplus. ring.
    - rewrite (sum_S_l Rnum HR). change (INR 0) with 0. change (nadd Rnum) with Rplus.
      transitivity (sumn Rnum (length p) (fun i => coef Rnum p (S i) * (INR (S i) * x ^ pred (S i)))); [ring|]. apply sum_ext. intros i _.
      rewrite (pder_coef Rnum HR), npow_R, nnat_R, Nat.add_1_r. change (nmul Rnum) with Rmult. simpl pred. ring. }
  rewrite E1 in G. eapply derivable_pt_lim_ext; [|exact G]. intros y. unfold peval. apply sum_ext. intros i _. rewrite npow_R. reflexivity.
Qed.
Local Close Scope R_scope.

(** ** Computed instances over the rationals *)
Definition qpoly (l : list Z) : list Qc := map (fun z => Q2Qc (inject_Z z)) l.
Definition qshow (r : res (list Qc)) : res (list Q) := match r with Ok l => Ok (map this l) | Throw e => Throw e | UB => UB | NoFuel => NoFuel end.
Definition qceqb (a b : Qc) : bool := Qeq_bool a b.
Lemma qceqb_spec : forall a b, qceqb a b = true <-> a = b.
Proof.
  intros a b. unfold qceqb. rewrite Qeq_bool_iff. split; [apply Qc_is_canon|intros ->; reflexivity].
Qed.
Example C28_mul_computed : qshow (p_mul Qnum (qpoly [1; 2; 3]) (qpoly [4; -5]))%Z = Ok [4#1; 3#1; 2#1; -15#1]%Q.
Proof. vm_compute. reflexivity. Qed.
Example C28_eval_computed : (match p_eval Qnum (qpoly [1; 2; 3]) (Q2Qc 2) with Ok c => Ok (this c) | Throw e => Throw e | UB => UB | NoFuel => NoFuel end)%Z = Ok (17#1)%Q.
Proof. vm_compute. reflexivity. Qed.
Example C29_division_computed : (match poldiv Qnum qceqb (qpoly [1; -3; 0; 2]) (qpoly [1; 2; 0]) with Ok (q, r) => Some (map this q, map this r) | _ => None end)%Z
  = Some ([-5#4; -1#2; 1#1], [9#4])%Q.
Proof. vm_compute. reflexivity. Qed.
Example C29_hypotheses_met : let v := qpoly [1; 2; 0]%Z in coef Qnum v 1 <> n0 Qnum /\ (forall j, 1 < j -> coef Qnum v j = n0 Qnum) /\ 1 <= length (qpoly [1; -3; 0; 2]%Z).
Proof. split; [discriminate|]. split; [|simpl; lia]. intros [|[|[|[|j]]]] Hj; try lia; reflexivity. Qed.
Example C29_short_computed : poldiv Qnum qceqb (qpoly [1]%Z) (qpoly [1; 0; 0; 1])%Z = UB.
Proof. vm_compute. reflexivity. Qed.
Example C30_derive_computed : qshow (p_derive Qnum (qpoly [5; 1; -2; 4]) (Q2Qc 2) (qpoly [9; 9; 9; 9; 9; 9]))%Z = Ok [31#1; 41#1; 44#1; 24#1; 0; 0]%Q.
Proof. vm_compute. reflexivity. Qed.
Example C30_integral_computed : qshow (p_integral Qnum (qpoly [5; 1; -2]))%Z = Ok [0; 5#1; 1#2; -2#3]%Q.
Proof. vm_compute. reflexivity. Qed.
Example C30_characteristic_zero : forall k, nnat Rnum (S k) <> n0 Rnum.
Proof. intros k. rewrite nnat_R. apply not_0_INR. lia. Qed.
Example C31_computed : qshow (p_from_values Qnum qceqb (qpoly [0; 1; 2; 4]) (qpoly [1; 3; 11; 69]))%Z = Ok [1#1; 1#1; 0; 1#1]%Q.
Proof. vm_compute. reflexivity. Qed.
Example C31_duplicate_computed : p_from_values Qnum qceqb (qpoly [0; 1; 0]%Z) (qpoly [1; 3; 9])%Z = Throw InvalidArgument.
Proof. vm_compute. reflexivity. Qed.

Print Assumptions C28_eval.
Print Assumptions C28_coefficients.
Print Assumptions C28_values.
Print Assumptions C28_reduce.
Print Assumptions C28_is_equal.
Print Assumptions C28_constructors.
Print Assumptions C28_accessors.
Print Assumptions C28_set_degree.
Print Assumptions C28_empty_product_refuted.
Print Assumptions C29_division.
Print Assumptions C29_zero_divisor.
Print Assumptions C29_short_dividend_refuted.
Print Assumptions C30_derivative.
Print Assumptions C30_rules.
Print Assumptions C30_derive.
Print Assumptions C30_derive_empty_refuted.
Print Assumptions C30_integral.
Print Assumptions C30_analytic.
Print Assumptions C31_interpolates.
Print Assumptions C31_bad_input.
