(** * C51: polynomial interpolation by Neville's algorithm *)

From Coq Require Import List Arith Bool Lia ZArith Ring Field Reals Lra QArith Qcanon.
From Verif Require Import Base Num Mat_Proofs Tri_Model RootFind_Model RootFind_Proofs RootFind_Props Interp_Model Interp_Linear.
Import ListNotations.
Local Open Scope nat_scope.

(** ** Polynomials given by their coefficients, lowest first *)
Section Horner.
Context {T : Type} (O : numops T).
Definition horner (a : list T) (x : T) : T := fold_right (fun c v => nadd O c (nmul O x v)) (n0 O) a.
(** [f] is a polynomial with at most [k] coefficients *)
Definition is_poly (k : nat) (f : T -> T) : Prop := exists a, length a <= k /\ forall x, f x = horner a x.

Context (HF : field_laws O).
Local Notation "x + y" := (nadd O x y). Local Notation "x * y" := (nmul O x y). Local Notation "x - y" := (nsub O x y).
Local Notation "x / y" := (ndiv O x y). Local Notation "- x" := (nopp O x).
Add Field fh : HF.

Fixpoint padd (a b : list T) : list T := match a, b with [], _ => b | _, [] => a | x :: a', y :: b' => (x + y) :: padd a' b' end.
Lemma padd_ok : forall a b x, horner (padd a b) x = horner a x + horner b x.
Proof. induction a as [|u a IH]; intros [|v b] x; cbn; try ring. fold (horner (padd a b) x) (horner a x) (horner b x). rewrite IH. ring. Qed.
Lemma padd_length : forall a b, length (padd a b) = Nat.max (length a) (length b).
Proof. induction a as [|u a IH]; intros [|v b]; cbn; auto. Qed.
Lemma pscale_ok : forall c a x, horner (map (nmul O c) a) x = c * horner a x.
Proof. intros c a x. induction a as [|u a IH]; cbn; [ring|]. fold (horner (map (nmul O c) a) x) (horner a x). rewrite IH. ring. Qed.

Lemma is_poly_ext : forall k f g, is_poly k f -> (forall x, f x = g x) -> is_poly k g.
Proof. intros k f g (a & HL & HE) H. exists a. split; auto. intros x. rewrite <- H. auto. Qed.
Lemma is_poly_mono : forall k k' f, is_poly k f -> k <= k' -> is_poly k' f.
Proof. intros k k' f (a & HL & HE) H. exists a. split; auto. lia. Qed.
Lemma is_poly_const : forall c, is_poly 1 (fun _ => c).
Proof. intros c. exists [c]. split; auto. intros x. cbn. ring. Qed.
Lemma is_poly_add : forall k f g, is_poly k f -> is_poly k g -> is_poly k (fun x => f x + g x).
Proof. intros k f g (a & HL & HE) (b & GL & GE). exists (padd a b). rewrite padd_length. split; [lia|]. intros x. rewrite HE, GE, padd_ok. auto. Qed.
Lemma is_poly_scale : forall k c f, is_poly k f -> is_poly k (fun x => c * f x).
Proof. intros k c f (a & HL & HE). exists (map (nmul O c) a). rewrite map_length. split; auto. intros x. rewrite HE, pscale_ok. auto. Qed.
(** times (u + v x) *)
Lemma is_poly_linear : forall k u v f, is_poly k f -> is_poly (S k) (fun x => (u + v * x) * f x).
Proof.
  intros k u v f (a & HL & HE). exists (padd (map (nmul O u) a) (n0 O :: map (nmul O v) a)). rewrite padd_length. cbn [length]. rewrite !map_length. split; [lia|].
  intros x. rewrite HE, padd_ok. change (horner (n0 O :: map (nmul O v) a) x) with (n0 O + x * horner (map (nmul O v) a) x). rewrite !pscale_ok. ring.
Qed.

(** dividing by (x - r) *)
Fixpoint pdiv (r : T) (a : list T) : list T := match a with [] => [] | _ :: a' => match a' with [] => [] | _ => horner a' r :: pdiv r a' end end.
Lemma pdiv_length : forall r a, length (pdiv r a) = pred (length a).
Proof. intros r. induction a as [|u a IH]; auto. destruct a as [|v a]; auto. cbn in *. rewrite IH. auto. Qed.
Lemma pdiv_ok : forall r a x, horner a x = (x - r) * horner (pdiv r a) x + horner a r.
Proof.
  intros r. induction a as [|u a IH]; intros x; [cbn; ring|]. destruct a as [|v a]; [cbn; ring|].
  change (horner (u :: v :: a) x) with (u + x * horner (v :: a) x). change (pdiv r (u :: v :: a)) with (horner (v :: a) r :: pdiv r (v :: a)).
  change (horner (horner (v :: a) r :: pdiv r (v :: a)) x) with (horner (v :: a) r + x * horner (pdiv r (v :: a)) x).
  change (horner (u :: v :: a) r) with (u + r * horner (v :: a) r). rewrite (IH x). ring.
Qed.
Lemma field_integral : forall a b, a * b = n0 O -> a <> n0 O -> b = n0 O.
Proof. intros a b H Ha. transitivity ((a * b) / a); [field; auto|]. rewrite H. field. auto. Qed.
Lemma sub_zero : forall a b, a - b = n0 O -> a = b.
Proof. intros a b H. transitivity ((a - b) + b); [ring|]. rewrite H. ring. Qed.
(** a polynomial with k coefficients and k distinct roots is zero *)
Lemma roots_bound : forall k a (R : nat -> T), length a <= k -> (forall i j, i < j < k -> R i <> R j) -> (forall i, i < k -> horner a (R i) = n0 O) -> forall x, horner a x = n0 O.
Proof.
  induction k as [|k IH]; intros a R HL HD HR x.
  - destruct a; [reflexivity|cbn in HL; lia].
  - rewrite (pdiv_ok (R k) a x). rewrite (HR k) by lia.
    rewrite (IH (pdiv (R k) a) R); [ring| | |].
    + rewrite pdiv_length. lia.
    + intros i j HI. apply HD. lia.
    + intros i HI. apply (field_integral (R i - R k)).
      * pose proof (pdiv_ok (R k) a (R i)) as E. rewrite (HR i), (HR k) in E by lia. transitivity ((R i - R k) * horner (pdiv (R k) a) (R i) + n0 O); [ring|]. auto.
      * intros E. apply (HD i k); [lia|]. apply sub_zero. auto.
Qed.
(** two polynomials with k coefficients that agree at k distinct points are equal *)
Lemma poly_unique : forall k f g (R : nat -> T), is_poly k f -> is_poly k g -> (forall i j, i < j < k -> R i <> R j) -> (forall i, i < k -> f (R i) = g (R i)) -> forall x, f x = g x.
Proof.
  intros k f g R (a & HL & HE) (b & GL & GE) HD HR x.
  assert (E : forall y, horner (padd a (map (nmul O (- n1 O)) b)) y = f y - g y). { intros y. rewrite padd_ok, pscale_ok, HE, GE. ring. }
  apply sub_zero. rewrite <- E. apply (roots_bound k) with (R := R); auto.
  - rewrite padd_length, map_length. lia.
  - intros i HI. rewrite E, HR by auto. ring.
Qed.
End Horner.

(** ** The tableau *)
Section Neville.
Context {T : Type} (A : arith T) (HF : field_laws (aops A)).
Context (HEQ : forall a b, aeqb A a b = true <-> a = b).
Context (H0 : alit A 0 = n0 (aops A)).
Local Notation O := (aops A).
Local Notation "x + y" := (nadd O x y). Local Notation "x * y" := (nmul O x y). Local Notation "x - y" := (nsub O x y). Local Notation "x / y" := (ndiv O x y).
Add Field fn : HF.
Context (X Y : nat -> T).

(** P i k: the polynomial through the points i .. i+k *)
Fixpoint nev (k i : nat) (x : T) : T :=
  match k with
  | 0 => Y i
  | S k' => ((x - X (i + k)%nat) * nev k' i x + (X i - x) * nev k' (i + 1)%nat x) / (X i - X (i + k)%nat)
  end.
Lemma nev_poly : forall k i, (forall a b, i <= a < b -> b <= i + k -> X a <> X b) -> is_poly O (S k) (nev k i).
Proof.
  induction k as [|k IH]; intros i HD; [apply (is_poly_const O HF)|].
  assert (N : X i - X (i + S k)%nat <> n0 O). { intros E. apply (sub_zero O HF) in E. revert E. apply HD; lia. }
  eapply is_poly_ext.
  - apply (is_poly_add O HF).
    + apply (is_poly_scale O HF _ (n1 O / (X i - X (i + S k)%nat))). apply (is_poly_linear O HF (S k) (nopp O (X (i + S k)%nat)) (n1 O)). apply (IH i). intros a b Ha Hb. apply HD; lia.
    + apply (is_poly_scale O HF _ (n1 O / (X i - X (i + S k)%nat))). apply (is_poly_linear O HF (S k) (X i) (nopp O (n1 O))). apply (IH (i + 1)%nat). intros a b Ha Hb. apply HD; lia.
  - intros x. cbn [nev]. field. auto.
Qed.
Lemma nev_interp : forall k i, (forall a b, i <= a < b -> b <= i + k -> X a <> X b) -> forall j, j <= k -> nev k i (X (i + j)%nat) = Y (i + j)%nat.
Proof.
  induction k as [|k IH]; intros i HD j HJ.
  - replace j with 0 by lia. rewrite Nat.add_0_r. reflexivity.
  - assert (N : X i - X (i + S k)%nat <> n0 O). { intros E. apply (sub_zero O HF) in E. revert E. apply HD; lia. }
    cbn [nev]. destruct (Nat.eq_dec j 0) as [->|J0].
    + replace (i + 0)%nat with i by lia. pose proof (IH i ltac:(intros a b Ha Hb; apply HD; lia) 0 ltac:(lia)) as E. replace (i + 0)%nat with i in E by lia. rewrite E. field. auto.
    + pose proof (IH (i + 1)%nat ltac:(intros a b Ha Hb; apply HD; lia) (j - 1)%nat ltac:(lia)) as E. replace (i + 1 + (j - 1))%nat with (i + j)%nat in E by lia. rewrite E.
      destruct (Nat.eq_dec j (S k)) as [->|J1].
      * field. auto.
      * rewrite (IH i ltac:(intros a b Ha Hb; apply HD; lia) j) by lia. field. auto.
Qed.
(** the entries of the two columns *)
Definition nevc (k i : nat) (x : T) : T := match k with 0 => Y i | S k' => nev k i x - nev k' i x end.
Definition nevd (k i : nat) (x : T) : T := match k with 0 => Y i | S k' => nev k i x - nev k' (i + 1)%nat x end.
Lemma nev_w : forall k i x, nevc k (i + 1)%nat x - nevd k i x = nev k (i + 1)%nat x - nev k i x.
Proof. intros [|k] i x; cbn [nevc nevd]; [reflexivity|]. ring. Qed.

Context (xs ys : list T) (n mm : nat) (HX : is_vector xs n X) (HY : is_vector ys n Y) (HM : 2 <= mm) (s : nat) (HS : s + mm <= n).
Context (HD : forall a b, s <= a < b -> b < s + mm -> X a <> X b).
Local Notation ip := (mkInterp xs ys mm).

Lemma column_ok : forall x k c d, (1 <= k < mm)%nat ->
  is_vector c mm (fun a => nevc (Nat.min (k - 1) (mm - 1 - a)) (s + a) x) -> is_vector d mm (fun a => nevd (Nat.min (k - 1) (mm - 1 - a)) (s + a) x) ->
  wp (neville_column A ip s x k c d) (fun r => is_vector (fst r) mm (fun a => nevc (Nat.min k (mm - 1 - a)) (s + a) x) /\ is_vector (snd r) mm (fun a => nevd (Nat.min k (mm - 1 - a)) (s + a) x)).
Proof.
  intros x k c d HK HC HDD. unfold neville_column. cbn [ip_m].
  eapply wp_conseq; [|apply (for_range_inv _ _ (fun i r =>
    is_vector (fst r) mm (fun a => nevc (if a <? i then k else Nat.min (k - 1) (mm - 1 - a)) (s + a) x) /\ is_vector (snd r) mm (fun a => nevd (if a <? i then k else Nat.min (k - 1) (mm - 1 - a)) (s + a) x)))].
  - intros [c' d'] [H1 H2]. cbn [fst snd] in *. split; eapply is_vector_ext; try eassumption; intros a Ha; cbv beta; destruct (Nat.ltb_spec a (mm - k)); f_equal; lia.
  - lia.
  - cbn [fst snd]. split; eapply is_vector_ext; eauto.
  - intros i [c' d'] _ HI [H1 H2]. cbn [fst snd] in *.
    apply wp_bind. eapply vgetf_wp; [exact HX|lia|]. apply wp_bind. eapply vgetf_wp; [exact HX|lia|].
    apply wp_bind. eapply vgetf_wp; [exact H1|lia|]. apply wp_bind. eapply vgetf_wp; [exact H2|lia|].
    cbv beta. destruct (Nat.ltb_spec (i + 1) i); [lia|]. destruct (Nat.ltb_spec i i); [lia|].
    replace (Nat.min (k - 1) (mm - 1 - (i + 1))) with (k - 1)%nat by lia. replace (Nat.min (k - 1) (mm - 1 - i)) with (k - 1)%nat by lia.
    replace (s + (i + 1))%nat with (s + i + 1)%nat by lia. rewrite nev_w.
    assert (N : X (s + i)%nat - X (s + i + k)%nat <> n0 O). { intros E. apply (sub_zero O HF) in E. revert E. apply HD; lia. }
    destruct (aeqb A (X (s + i)%nat - x - (X (s + i + k)%nat - x)) (alit A 0)) eqn:E.
    { exfalso. apply HEQ in E. rewrite H0 in E. apply N. rewrite <- E. ring. }
    destruct k as [|k]; [lia|]. replace (S k - 1)%nat with k by lia. replace (S k - 1)%nat with k in H1, H2 by lia.
    apply wp_bind. eapply vsetf_wp; [exact H2|lia|]. intros d2 HD2. apply wp_bind. eapply vsetf_wp; [exact H1|lia|]. intros c2 HC2. apply wp_Ok. cbn [fst snd].
    split; (eapply is_vector_ext; [eassumption|]); intros a Ha; unfold vfset; cbv beta; destruct (Nat.eqb_spec a i) as [EA|NA].
    + subst a. destruct (Nat.ltb_spec i (i + 1)); [|lia]. cbn [nevc nev]. field. try split; auto; intros Q; apply N; rewrite <- Q; ring.
    + destruct (Nat.ltb_spec a i), (Nat.ltb_spec a (i + 1)); try lia; reflexivity.
    + subst a. destruct (Nat.ltb_spec i (i + 1)); [|lia]. cbn [nevd nev]. field. try split; auto; intros Q; apply N; rewrite <- Q; ring.
    + destruct (Nat.ltb_spec a i), (Nat.ltb_spec a (i + 1)); try lia; reflexivity.
Qed.

Lemma init_ok : forall x, wp (neville_init A ip s x) (fun r => fst r < mm /\ is_vector (snd r) mm (fun a => Y (s + a)%nat)).
Proof.
  intros x. unfold neville_init. cbn [ip_m]. apply wp_bind. eapply vgetf_wp; [exact HX|lia|]. apply wp_bind.
  eapply wp_conseq; [|apply (for_range_inv _ _ (fun i r => fst (fst r) < mm /\ is_vector (snd r) mm (fun a => if a <? i then Y (s + a)%nat else alit A 0)))].
  - intros [[ns dif] c] [H1 H2]. apply wp_Ok. cbn [fst snd] in *. split; auto. eapply is_vector_ext; [exact H2|]. intros a Ha. cbv beta. destruct (Nat.ltb_spec a mm); auto; lia.
  - lia.
  - cbn [fst snd]. split; [lia|]. eapply is_vector_ext; [apply is_vector_repeat|]. intros a Ha. reflexivity.
  - intros i [[ns dif] c] _ HI [H1 H2]. cbn [fst snd] in *. apply wp_bind. eapply vgetf_wp; [exact HX|lia|]. apply wp_bind. eapply vgetf_wp; [exact HY|lia|].
    apply wp_bind. eapply vsetf_wp; [exact H2|lia|]. intros c' HC'.
    assert (G : is_vector c' mm (fun a => if a <? i + 1 then Y (s + a)%nat else alit A 0)).
    { eapply is_vector_ext; [exact HC'|]. intros a Ha. unfold vfset. cbv beta. destruct (Nat.eqb_spec a i), (Nat.ltb_spec a i), (Nat.ltb_spec a (i + 1)); subst; try lia; reflexivity. }
    destruct (altb A (aabs A (x - X (s + i)%nat)) dif); apply wp_Ok; cbn [fst snd]; auto.
Qed.

Lemma neville_ok : forall x, neville_value A ip s x = Ok (nev (mm - 1) s x).
Proof.
  intros x. enough (W : wp (neville_value A ip s x) (fun r => r = nev (mm - 1) s x)). { destruct (wp_elim _ _ _ W) as (r & E & ->). exact E. }
  unfold neville_value. cbn [ip_m]. apply wp_bind. eapply wp_conseq; [|apply init_ok]. intros [ns c] [HN HC]. cbn [fst snd] in *.
  apply wp_bind. eapply vgetf_wp; [exact HY|lia|]. apply wp_bind.
  eapply wp_conseq; [|apply (for_range_inv _ _ (fun k r =>
    is_vector (fst (fst (fst r))) mm (fun a => nevc (Nat.min (k - 1) (mm - 1 - a)) (s + a) x) /\ is_vector (snd (fst (fst r))) mm (fun a => nevd (Nat.min (k - 1) (mm - 1 - a)) (s + a) x) /\
    exists j : nat, snd r = (Z.of_nat j - 1)%Z /\ j + k <= mm /\ snd (fst r) = nev (k - 1) (s + j) x))].
  - intros [[[c' d'] y] z] (_ & _ & j & _ & HJ & E). cbn [fst snd] in *. apply wp_Ok. rewrite E. f_equal. lia.
  - lia.
  - cbn [fst snd]. split; [|split]; try (eapply is_vector_ext; [exact HC|intros; reflexivity]). exists ns. split; [reflexivity|]. split; [lia|reflexivity].
  - intros k [[[c' d'] y] z] HK1 HK2 (G1 & G2 & j & EZ & HJ & E). cbn [fst snd] in *. subst y z.
    apply wp_bind. eapply wp_conseq; [|apply column_ok; [|exact G1|exact G2]]; [|lia]. intros [c2 d2] [C2 D2]. cbn [fst snd] in *.
    assert (ZG : forall (v : list T) m f i, is_vector v m f -> i < m -> zget v (Z.of_nat i) = Ok (f i)).
    { intros v m f i [HL HV] HI. unfold zget. destruct (Z.ltb_spec (Z.of_nat i) 0); [lia|]. rewrite Nat2Z.id. unfold vget. rewrite HV by auto. reflexivity. }
    destruct (Z.ltb_spec (2 * (Z.of_nat j - 1 + 1)) (Z.of_nat mm - Z.of_nat k)).
    + replace (Z.of_nat j - 1 + 1)%Z with (Z.of_nat j) by lia. rewrite (ZG _ _ _ j C2) by lia. cbn [bind]. apply wp_Ok. cbn [fst snd]. replace (k + 1 - 1)%nat with k by lia.
      split; auto. split; auto. exists j. split; [reflexivity|]. split; [lia|]. replace (Nat.min k (mm - 1 - j)) with k by lia.
      destruct k as [|k]; [lia|]. cbn [nevc]. replace (S k - 1)%nat with k by lia. ring.
    + destruct j as [|j]; [lia|]. replace (Z.of_nat (S j) - 1)%Z with (Z.of_nat j) by lia. rewrite (ZG _ _ _ j D2) by lia. cbn [bind]. apply wp_Ok. cbn [fst snd]. replace (k + 1 - 1)%nat with k by lia.
      split; auto. split; auto. exists j. split; [reflexivity|]. split; [lia|]. replace (Nat.min k (mm - 1 - j)) with k by lia.
      destruct k as [|k]; [lia|]. cbn [nevd]. replace (S k - 1)%nat with k by lia. replace (s + S j)%nat with (s + j + 1)%nat by lia. ring.
Qed.
End Neville.

(** ** The property *)
Section Props.
Context {T : Type} (A : arith T) (HF : field_laws (aops A)).
Context (HEQ : forall a b, aeqb A a b = true <-> a = b).
Context (H0 : alit A 0 = n0 (aops A)).
Implicit Types (X Y : nat -> T).
Definition distinct (n : nat) X : Prop := forall i j, i < j < n -> X i <> X j.

(** for a window of m points, the value is that of one polynomial with m coefficients, the same for all x, which takes the
    tabulated values at the points of the window, and it is the only such polynomial *)
Theorem C51_window : forall xs ys n m X Y s, is_vector xs n X -> is_vector ys n Y -> distinct n X -> 2 <= m -> s + m <= n ->
  exists a, length a <= m /\ (forall x, neville_value A (mkInterp xs ys m) s x = Ok (horner (aops A) a x)) /\
    (forall i, i < m -> horner (aops A) a (X (s + i)) = Y (s + i)) /\
    (forall b, length b <= m -> (forall i, i < m -> horner (aops A) b (X (s + i)) = Y (s + i)) -> forall x, horner (aops A) b x = horner (aops A) a x).
Proof.
  intros xs ys n m X Y s HX HY HD HM HS.
  assert (HD' : forall a b, s <= a < b -> b < s + m -> X a <> X b). { intros a b Ha Hb. apply HD. lia. }
  destruct (nev_poly A HF X Y (m - 1) s) as (a & HL & HE). { intros i j Hi Hj. apply HD'; lia. }
  exists a. split; [lia|]. split; [|split].
  - intros x. rewrite (neville_ok A HF HEQ H0 X Y xs ys n m HX HY HM s HS HD' x). f_equal. apply HE.
  - intros i HI. rewrite <- HE. apply (nev_interp A HF); [|lia]. intros u v Hu Hv. apply HD'; lia.
  - intros b HB HI x. apply (poly_unique (aops A) HF m _ _ (fun i => X (s + i)%nat)).
    + exists b. auto.
    + exists a. split; auto. lia.
    + intros i j Hi. apply HD. lia.
    + intros i Hi. rewrite HI by auto. rewrite <- HE. symmetry. apply (nev_interp A HF); [|lia]. intros u v Hu Hv. apply HD'; lia.
Qed.

(** data from a polynomial of degree below m is reproduced everywhere, inside and outside the table *)
Theorem C51_reproduces : forall xs ys n m X a x, is_vector xs n X -> is_vector ys n (fun i => horner (aops A) a (X i)) -> distinct n X -> 2 <= m <= n -> length a <= m ->
  neville_eval A (mkInterp xs ys m) x = Ok (horner (aops A) a x).
Proof.
  intros xs ys n m X a x HX HY HD HM HL. unfold neville_eval. destruct (C50_locate_window (ageb A) xs ys m n X x HX HM) as (k & E & HK & HW1 & HW2). rewrite E. cbn [bind].
  assert (HS : window n m k + m <= n) by (unfold window; lia).
  destruct (C51_window xs ys n m X _ (window n m k) HX HY HD ltac:(lia) HS) as (b & _ & HV & _ & HU). rewrite HV. f_equal. symmetry. apply HU; auto.
Qed.
End Props.
Print Assumptions C51_window.
Print Assumptions C51_reproduces.

(** at a tabulated abscissa the tabulated value is returned, whichever window is used *)
Theorem C51_nodes : forall xs ys n m X Y i, is_vector xs n X -> is_vector ys n Y -> increasing n X -> (2 <= m <= n) -> (i < n) ->
  neville_eval Rarith (mkInterp xs ys m) (X i) = Ok (Y i).
Proof.
  intros xs ys n m X Y i HX HY HI HM Hi. unfold neville_eval. destruct (C50_locate (ageb Rarith) xs ys m n X (X i) HX HM) as [H _].
  destruct (H (increasing_asc _ _ HI)) as (k & HB & E). rewrite E. cbn [bind].
  assert (HS : window n m k + m <= n) by (unfold window; lia).
  assert (HD : distinct n X). { intros a b Hab. pose proof (HI a b Hab). lra. }
  assert (HEQ : forall a b, aeqb Rarith a b = true <-> a = b). { intros a b; destruct (Raeqb a b); split; auto; discriminate. }
  destruct (C51_window Rarith Rnum_field HEQ eq_refl xs ys n m X Y (window n m k) HX HY HD ltac:(lia) HS) as (b & _ & HV & HN & _). rewrite HV. f_equal.
  destruct (bracket_R _ _ _ _ HI HB) as (HK & B1 & B2 & _ & _). specialize (B1 (increasing_le n X 0 i HI ltac:(lia))). specialize (B2 (increasing_le n X i (n - 1) HI ltac:(lia))).
  assert (k <= i). { destruct (le_lt_dec k i); auto. pose proof (HI i k ltac:(lia)). lra. }
  assert (i <= k + 1). { destruct (le_lt_dec i (k + 1)); auto. pose proof (HI (k + 1) i ltac:(lia)). lra. }
  assert (HW : window n m k <= k /\ k + 1 < window n m k + m).
  { unfold window. assert (HQ : (m - 2) / 2 <= m - 2) by (apply Nat.div_le_upper_bound; lia). lia. }
  replace i with (window n m k + (i - window n m k))%nat by lia. apply HN. lia.
Qed.
Print Assumptions C51_nodes.

(** the rationals satisfy the hypotheses, and the algorithm computes: x^2 from three points *)
Example C51_example : exists v, neville_eval Qarith (mkInterp (map (fun z => Q2Qc (inject_Z z)) [0; 1; 3; 7]%Z) (map (fun z => Q2Qc (inject_Z z)) [0; 1; 9; 49]%Z) 3) (Q2Qc (5 # 2)) = Ok v /\ this v = (25 # 4)%Q.
Proof. eexists. split; [vm_compute; reflexivity|vm_compute; reflexivity]. Qed.
