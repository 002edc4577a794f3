(** * C50: locating the interpolation window; piecewise linear interpolation *)

From Coq Require Import List Arith Bool Lia ZArith Reals Lra Psatz.
From Verif Require Import Base Num Mat_Proofs Tri_Model RootFind_Model RootFind_Proofs Interp_Model.
Import ListNotations.
Local Open Scope nat_scope.

(** ** Locating: laws of comparison only *)
Section Locate.
Context {T : Type} (geb : T -> T -> bool).
Implicit Types (x : T) (X : nat -> T).

(** ascending / descending tables *)
Definition ascending (n : nat) X : Prop := forall i j, i < j < n -> geb (X j) (X i) = true.
Definition descending (n : nat) X : Prop := forall i j, i < j < n -> geb (X j) (X i) = false /\ geb (X i) (X j) = true.
(** [k] is the number of the table interval that x belongs to: the first and the last interval extend to infinity *)
Definition bracket_asc (n : nat) X x (k : nat) : Prop :=
  k + 1 < n /\ (k = 0 \/ geb x (X k) = true) /\ (k + 2 = n \/ geb x (X (k + 1)) = false).
Definition bracket_desc (n : nat) X x (k : nat) : Prop :=
  k + 1 < n /\ (k = 0 \/ geb x (X k) = false) /\ (k + 2 = n \/ geb x (X (k + 1)) = true).
(** where a window of m points that holds interval k as centrally as possible starts *)
Definition window (n m k : nat) : nat := Nat.min (n - m) (k - (m - 2) / 2).

Lemma locate_loop_ok : forall fuel xs n X asc x lo hi, is_vector xs n X -> lo < hi -> hi < n -> hi - lo < fuel ->
  (lo = 0 \/ Bool.eqb (geb x (X lo)) asc = true) -> (hi + 1 = n \/ Bool.eqb (geb x (X hi)) asc = false) ->
  exists k, locate_loop geb fuel xs asc x lo hi = Ok k /\ k + 1 < n /\
    (k = 0 \/ Bool.eqb (geb x (X k)) asc = true) /\ (k + 2 = n \/ Bool.eqb (geb x (X (k + 1))) asc = false).
Proof.
  induction fuel as [|fuel IH]; intros xs n X asc x lo hi HX HL HH HF HA HB; [lia|].
  cbn [locate_loop]. destruct (Nat.ltb_spec 1 (hi - lo)).
  - assert (HM : lo < (hi + lo) / 2 < hi).
    { pose proof (Nat.div_mod (hi + lo) 2). pose proof (Nat.mod_upper_bound (hi + lo) 2). lia. }
    set (mid := (hi + lo) / 2) in *. unfold vget. destruct HX as [HL' HX]. rewrite HX by lia. cbn [bind].
    destruct (Bool.eqb (geb x (X mid)) asc) eqn:E; apply IH; auto; try lia; split; auto.
  - exists lo. split; [reflexivity|]. assert (hi = lo + 1) by lia. subst hi. split; [lia|]. split; auto. destruct HB; auto. left; lia.
Qed.

(** the bisection stays inside the table and terminates, whatever the comparison does *)
Theorem C50_locate_window : forall xs ys m n X x, is_vector xs n X -> 2 <= m <= n ->
  exists k, locate geb (mkInterp xs ys m) x = Ok (window n m k) /\ k + 1 < n /\ window n m k <= k /\ k + 1 < window n m k + m.
Proof.
  intros xs ys m n X x HX HM. unfold locate. cbn [ip_x ip_m]. pose proof (proj1 HX) as HL. rewrite HL.
  assert (G0 : forall i, i < n -> vget xs i = Ok (X i)). { intros i HI. unfold vget. rewrite (proj2 HX) by auto. reflexivity. }
  rewrite !G0 by lia. cbn [bind].
  destruct (locate_loop_ok n xs n X (geb (X (n - 1)) (X 0)) x 0 (n - 1) HX) as (k & E & HK & _); try lia. rewrite E. cbn [bind].
  exists k. assert (HQ : Z.quot (Z.of_nat m - 2) 2 = Z.of_nat ((m - 2) / 2)).
  { rewrite Nat2Z.inj_div by lia. rewrite Nat2Z.inj_sub by lia. rewrite Z.quot_div_nonneg by lia. reflexivity. }
  rewrite HQ. assert (HD : (m - 2) / 2 <= m - 2) by (apply Nat.div_le_upper_bound; lia).
  unfold window. split; [f_equal; lia|]. split; [lia|]. lia.
Qed.

(** the window is the one of the interval that x belongs to *)
Theorem C50_locate : forall xs ys m n X x, is_vector xs n X -> 2 <= m <= n ->
  (ascending n X -> exists k, bracket_asc n X x k /\ locate geb (mkInterp xs ys m) x = Ok (window n m k)) /\
  (descending n X -> exists k, bracket_desc n X x k /\ locate geb (mkInterp xs ys m) x = Ok (window n m k)).
Proof.
  intros xs ys m n X x HX HM.
  assert (G : forall asc, geb (X (n - 1)) (X 0) = asc -> exists k, (k + 1 < n /\ (k = 0 \/ Bool.eqb (geb x (X k)) asc = true) /\ (k + 2 = n \/ Bool.eqb (geb x (X (k + 1))) asc = false)) /\
     locate geb (mkInterp xs ys m) x = Ok (window n m k)).
  { intros asc Ha. unfold locate. cbn [ip_x ip_m]. pose proof (proj1 HX) as HL. rewrite HL.
    assert (G0 : forall i, i < n -> vget xs i = Ok (X i)). { intros i HI. unfold vget. rewrite (proj2 HX) by auto. reflexivity. }
    rewrite !G0 by lia. cbn [bind]. rewrite Ha.
    destruct (locate_loop_ok n xs n X asc x 0 (n - 1) HX) as (k & E & HK); try lia. rewrite E. cbn [bind].
    exists k. split; [exact HK|]. assert (HQ : Z.quot (Z.of_nat m - 2) 2 = Z.of_nat ((m - 2) / 2)).
    { rewrite Nat2Z.inj_div by lia. rewrite Nat2Z.inj_sub by lia. rewrite Z.quot_div_nonneg by lia. reflexivity. }
    rewrite HQ. unfold window. f_equal. lia. }
  split; intros HA.
  - destruct (G true) as (k & (H1 & H2 & H3) & E). { apply HA. lia. }
    exists k. split; auto. split; auto. destruct (geb x (X k)), (geb x (X (k + 1))); split; intuition discriminate.
  - destruct (G false) as (k & (H1 & H2 & H3) & E). { apply HA. lia. }
    exists k. split; auto. split; auto. destruct (geb x (X k)), (geb x (X (k + 1))); split; intuition discriminate.
Qed.

(** the bracketing interval is unique when the order is transitive *)
Theorem C50_bracket_unique : (forall a b c, geb a b = true -> geb b c = true -> geb a c = true) ->
  forall n X x k k', ascending n X -> bracket_asc n X x k -> bracket_asc n X x k' -> k = k'.
Proof.
  intros HT n X x k k' HA (H1 & H2 & H3) (G1 & G2 & G3).
  assert (W : forall i j, i < j -> j < n -> (j = 0 \/ geb x (X j) = true) -> (i + 2 = n \/ geb x (X (i + 1)) = false) -> i + 1 = j \/ i + 2 = n \/ False -> i + 2 = n).
  { intros i j HI HJ [E|E] [F|F] [D|[D|[]]]; subst; auto; try lia; congruence. }
  destruct (Nat.lt_trichotomy k k') as [L|[L|L]]; auto; exfalso.
  - destruct G2 as [?|G2]; [lia|]. destruct H3 as [?|H3]; [lia|]. destruct (Nat.eq_dec (k + 1) k') as [<-|N]; [congruence|].
    rewrite (HT _ _ _ G2 (HA (k + 1) k' ltac:(lia))) in H3. discriminate.
  - destruct H2 as [?|H2]; [lia|]. destruct G3 as [?|G3]; [lia|]. destruct (Nat.eq_dec (k' + 1) k) as [<-|N]; [congruence|].
    rewrite (HT _ _ _ H2 (HA (k' + 1) k ltac:(lia))) in G3. discriminate.
Qed.
End Locate.
Print Assumptions C50_locate_window.
Print Assumptions C50_locate.
Print Assumptions C50_bracket_unique.

(** a window of 4 points in a table of 7; the comparison is the one of Z *)
Example C50_locate_example : locate Z.geb (mkInterp [0;10;20;30;40;50;60]%Z [] 4) 34%Z = Ok 2 /\
  locate Z.geb (mkInterp [60;50;40;30;20;10;0]%Z [] 3) 34%Z = Ok 2 /\ locate Z.geb (mkInterp [0;10;20;30;40;50;60]%Z [] 4) 99%Z = Ok 3.
Proof. repeat split. Qed.

(** ** Construction *)
Section New.
Context {T : Type} (A : arith T).
Theorem C50_new : (forall a b, aeqb A a b = true <-> a = b) -> forall xs ys m,
  let ok := (2 <= Z.of_nat (length xs) /\ 2 <= m <= Z.of_nat (length xs))%Z /\ NoDup xs in
  (ok -> interp_new A xs ys m = Ok (mkInterp xs ys (Z.to_nat m))) /\ (~ ok -> interp_new A xs ys m = Throw InvalidArgument).
Proof.
  intros HE xs ys m ok. unfold interp_new.
  assert (HD : has_dup A xs = false <-> NoDup xs).
  { unfold has_dup. rewrite (NoDup_nth_error xs). split.
    - intros H i j HI E. destruct (Nat.lt_trichotomy i j) as [L|[L|L]]; auto; exfalso.
      + assert (HJ : j < length xs). { apply nth_error_Some. rewrite <- E. apply nth_error_Some. auto. }
        rewrite <- Bool.not_true_iff_false in H. apply H. rewrite existsb_exists. exists i. split; [apply in_seq; lia|].
        rewrite existsb_exists. exists j. split; [apply in_seq; lia|]. rewrite <- E. destruct (nth_error_lt _ xs i HI) as [a ->]. apply HE. auto.
      + rewrite <- Bool.not_true_iff_false in H. apply H. rewrite existsb_exists. exists j. split; [apply in_seq; lia|].
        rewrite existsb_exists. exists i. split; [apply in_seq; lia|]. rewrite <- E. destruct (nth_error_lt _ xs i HI) as [a ->]. apply HE. auto.
    - intros H. apply Bool.not_true_iff_false. rewrite existsb_exists. intros (i & HI & G). rewrite existsb_exists in G. destruct G as (j & HJ & G).
      apply in_seq in HI, HJ. assert (i = j); [|lia]. apply H; [lia|]. destruct (nth_error xs i), (nth_error xs j); try discriminate. apply HE in G. congruence. }
  destruct (Z.ltb_spec (Z.of_nat (length xs)) 2), (Z.ltb_spec m 2), (Z.ltb_spec (Z.of_nat (length xs)) m); cbn [orb];
    try (split; [intros [? _]; lia|reflexivity]).
  destruct (has_dup A xs) eqn:E; split; intros HO; auto.
  - destruct HO as [_ HO]. apply HD in HO. congruence.
  - exfalso. apply HO. split; [lia|]. apply HD. auto.
Qed.
End New.
Print Assumptions C50_new.

(** ** Linear interpolation over the reals *)
Local Open Scope R_scope.
Lemma Rageb : forall a b, reflect (a >= b) (ageb Rarith a b).
Proof. intros a b. unfold ageb. rnum. destruct (Rltb_spec a b); constructor; lra. Qed.
Definition increasing (n : nat) (X : nat -> R) : Prop := forall i j, (i < j < n)%nat -> X i < X j.
Lemma increasing_asc : forall n X, increasing n X -> ascending (ageb Rarith) n X.
Proof. intros n X H i j HI. specialize (H i j HI). destruct (Rageb (X j) (X i)); auto. lra. Qed.
Lemma increasing_le : forall n X i j, increasing n X -> (i <= j < n)%nat -> X i <= X j.
Proof. intros n X i j H HI. destruct (Nat.eq_dec i j); [subst; lra|]. left. apply H. lia. Qed.

(** the line through (X k, Y k) and (X (k+1), Y (k+1)) *)
Definition line (X Y : nat -> R) (k : nat) (x : R) : R := Y k + (Y (k + 1)%nat - Y k) / (X (k + 1)%nat - X k) * (x - X k).

Lemma vec_get : forall T (v : list T) n f i, is_vector v n f -> (i < n)%nat -> vget v i = Ok (f i).
Proof. intros T v n f i [HL HV] HI. unfold vget. rewrite HV by auto. reflexivity. Qed.
Lemma locate2 : forall xs ys n X x, is_vector xs n X -> (2 <= n)%nat -> increasing n X ->
  exists k, bracket_asc (ageb Rarith) n X x k /\ locate (ageb Rarith) (mkInterp xs ys 2) x = Ok k.
Proof.
  intros xs ys n X x HX HN HI. destruct (C50_locate (ageb Rarith) xs ys 2 n X x HX ltac:(lia)) as [H _].
  destruct (H (increasing_asc _ _ HI)) as (k & HB & E). exists k. split; auto. rewrite E. f_equal. unfold window. destruct HB as [HB _]. cbn. lia.
Qed.
(** on the table's range the bracket is the interval in the usual sense *)
Lemma bracket_R : forall n X x k, increasing n X -> bracket_asc (ageb Rarith) n X x k ->
  (k + 1 < n)%nat /\ (X 0%nat <= x -> X k <= x) /\ (x <= X (n - 1)%nat -> x <= X (k + 1)%nat) /\ (x < X 0%nat -> k = 0%nat) /\ (X (n - 1)%nat < x -> (k + 2)%nat = n).
Proof.
  intros n X x k HI (H1 & H2 & H3). split; auto.
  assert (C2 : k = 0%nat \/ x >= X k). { destruct H2 as [H2|H2]; auto. right. destruct (Rageb x (X k)); [auto|discriminate]. }
  assert (C3 : (k + 2 = n)%nat \/ x < X (k + 1)%nat). { destruct H3 as [H3|H3]; auto. right. destruct (Rageb x (X (k + 1)%nat)); [discriminate|lra]. }
  clear H2 H3. repeat split; intros HX.
  - destruct C2 as [->|C]; lra.
  - destruct C3 as [E|C]; [|lra]. replace (k + 1)%nat with (n - 1)%nat by lia. lra.
  - destruct C2 as [C|C]; auto. pose proof (increasing_le n X 0 k HI ltac:(lia)). lra.
  - destruct C3 as [C|C]; auto. pose proof (increasing_le n X (k + 1) (n - 1) HI ltac:(lia)). lra.
Qed.

Theorem C50_linear : forall xs ys n X Y ext, is_vector xs n X -> is_vector ys n Y -> (2 <= n)%nat -> increasing n X ->
  let f := linear_eval Rarith (mkInterp xs ys 2) ext in
  (** between two neighbouring points: the connecting line *)
  (forall k x, (k + 1 < n)%nat -> X k <= x <= X (k + 1)%nat -> f x = Ok (line X Y k x)) /\
  (** at the points: the tabulated value *)
  (forall k, (k < n)%nat -> f (X k) = Ok (Y k)) /\
  (** outside: 0, or the first and last line prolonged *)
  (forall x, x < X 0%nat -> f x = Ok (if ext then line X Y 0 x else 0)) /\
  (forall x, X (n - 1)%nat < x -> f x = Ok (if ext then line X Y (n - 2) x else 0)).
Proof.
  intros xs ys n X Y ext HX HY HN HI f.
  assert (F : forall x, exists k, bracket_asc (ageb Rarith) n X x k /\ f x = Ok (if negb ext && (Rltb x (X 0%nat) || Rltb (X (n - 1)%nat) x) then 0 else line X Y k x)).
  { intros x. destruct (locate2 xs ys n X x HX HN HI) as (k & HB & E). exists k. split; auto. unfold f, linear_eval. rewrite E. cbn [bind]. unfold linear_value. cbn [ip_x ip_y].
    rewrite (proj1 HX). pose proof (proj1 HB). rewrite !(vec_get _ xs n X), !(vec_get _ ys n Y) by (auto; lia). cbn [bind]. rnum.
    destruct (negb ext && (Rltb x (X 0%nat) || Rltb (X (n - 1)%nat) x)); [reflexivity|].
    pose proof (HI k (k + 1)%nat ltac:(lia)). destruct (Raeqb (X k) (X (k + 1)%nat)); [lra|]. f_equal. unfold line. field. lra. }
  assert (IN : forall k x, (k + 1 < n)%nat -> X k <= x <= X (k + 1)%nat -> f x = Ok (line X Y k x)).
  { intros k x HK Hx. destruct (F x) as (k' & HB & E). rewrite E.
    pose proof (increasing_le n X 0 k HI ltac:(lia)). pose proof (increasing_le n X (k + 1) (n - 1) HI ltac:(lia)).
    destruct (Rltb_spec x (X 0%nat)); [lra|]. destruct (Rltb_spec (X (n - 1)%nat) x); [lra|]. rewrite andb_false_r. f_equal.
    destruct (bracket_R _ _ _ _ HI HB) as (HK' & B1 & B2 & _). specialize (B1 ltac:(lra)). specialize (B2 ltac:(lra)).
    destruct (Nat.lt_trichotomy k k') as [L|[->|L]]; auto.
    - pose proof (increasing_le n X (k + 1) k' HI ltac:(lia)). assert (E1 : x = X k') by lra. assert (E2 : X (k + 1)%nat = X k') by lra.
      assert (k' = (k + 1)%nat). { destruct (Nat.eq_dec k' (k + 1)); auto. pose proof (HI (k + 1)%nat k' ltac:(lia)). lra. }
      subst k' x. unfold line. pose proof (HI k (k + 1)%nat ltac:(lia)). pose proof (HI (k + 1)%nat (k + 1 + 1)%nat ltac:(lia)). field. lra.
    - pose proof (increasing_le n X (k' + 1) k HI ltac:(lia)). assert (E1 : x = X k) by lra.
      assert (k = (k' + 1)%nat). { destruct (Nat.eq_dec k (k' + 1)); auto. pose proof (HI (k' + 1)%nat k ltac:(lia)). lra. }
      subst k x. unfold line. pose proof (HI k' (k' + 1)%nat ltac:(lia)). pose proof (HI (k' + 1)%nat (k' + 1 + 1)%nat ltac:(lia)). field. lra. }
  split; [exact IN|]. split; [|split].
  - intros k HK. destruct (Nat.eq_dec (k + 1) n) as [E|E].
    + rewrite (IN (k - 1)%nat (X k)).
      * f_equal. unfold line. replace (k - 1 + 1)%nat with k by lia. pose proof (HI (k - 1)%nat k ltac:(lia)). field. lra.
      * lia.
      * replace (k - 1 + 1)%nat with k by lia. pose proof (HI (k - 1)%nat k ltac:(lia)). lra.
    + rewrite (IN k (X k)); [|lia|pose proof (HI k (k + 1)%nat ltac:(lia)); lra]. f_equal. unfold line. pose proof (HI k (k + 1)%nat ltac:(lia)). field. lra.
  - intros x Hx. destruct (F x) as (k & HB & E). rewrite E. destruct (bracket_R _ _ _ _ HI HB) as (_ & _ & _ & B & _). rewrite (B Hx).
    destruct (Rltb_spec x (X 0%nat)); [|lra]. destruct ext; reflexivity.
  - intros x Hx. destruct (F x) as (k & HB & E). rewrite E. destruct (bracket_R _ _ _ _ HI HB) as (_ & _ & _ & _ & B). replace (n - 2)%nat with k by (specialize (B Hx); lia).
    destruct (Rltb_spec (X (n - 1)%nat) x); [|lra]. rewrite orb_true_r. destruct ext; reflexivity.
Qed.
Print Assumptions C50_linear.

(** no overshoot: inside the table the value lies between the two neighbouring ordinates *)
Theorem C50_linear_between : forall xs ys n X Y ext k x, is_vector xs n X -> is_vector ys n Y -> increasing n X ->
  (k + 1 < n)%nat -> X k <= x <= X (k + 1)%nat ->
  exists v, linear_eval Rarith (mkInterp xs ys 2) ext x = Ok v /\ Rmin (Y k) (Y (k + 1)%nat) <= v <= Rmax (Y k) (Y (k + 1)%nat).
Proof.
  intros xs ys n X Y ext k x HX HY HI HK Hx. exists (line X Y k x). split; [apply (C50_linear xs ys n X Y ext); auto; lia|].
  unfold line. pose proof (HI k (k + 1)%nat ltac:(lia)).
  replace ((Y (k + 1)%nat - Y k) / (X (k + 1)%nat - X k) * (x - X k)) with ((x - X k) / (X (k + 1)%nat - X k) * (Y (k + 1)%nat - Y k)) by (field; lra).
  apply between_comb. split.
  - apply Rmult_le_pos; [lra|]. left. apply Rinv_0_lt_compat. lra.
  - apply (Rmult_le_reg_r (X (k + 1)%nat - X k)); [lra|]. unfold Rdiv. rewrite Rmult_assoc, Rinv_l by lra. lra.
Qed.
Print Assumptions C50_linear_between.

(** a table that meets the hypotheses *)
Example C50_linear_example : linear_eval Rarith (mkInterp [0; 1; 3] [5; 7; 1] 2) false 2 = Ok 4.
Proof.
  destruct (C50_linear [0; 1; 3] [5; 7; 1] 3 (fun i => nth i [0; 1; 3] 0) (fun i => nth i [5; 7; 1] 0) false) as [H _].
  - apply is_vector_self.
  - apply is_vector_self.
  - lia.
  - intros i j HI. destruct i as [|[|[|]]], j as [|[|[|]]]; cbn; try lia; lra.
  - rewrite (H 1%nat 2); [|lia|cbn; lra]. f_equal. unfold line. cbn. lra.
Qed.

(** a descending table is accepted, but without extrapolation every value inside its range is 0 *)
Theorem C50_descending_refuted : exists ip, interp_new Rarith [2; 1; 0] [10; 20; 30] 2 = Ok ip /\ linear_eval Rarith ip false 1 = Ok 0.
Proof.
  exists (mkInterp [2; 1; 0] [10; 20; 30] 2%nat). split.
  - apply (C50_new Rarith); [intros a b; destruct (Raeqb a b); split; auto; discriminate|]. split; [cbn; lia|].
    repeat constructor; cbn; intros H; repeat destruct H as [H|H]; auto; lra.
  - unfold linear_eval. destruct (C50_locate_window (ageb Rarith) [2; 1; 0] [10; 20; 30] 2 3 (fun i => nth i [2; 1; 0] 0) 1) as (k & E & _); [apply is_vector_self|lia|].
    rewrite E. cbn [bind]. unfold linear_value. cbn [ip_x vget nth_error bind length Nat.sub]. rnum. destruct (Rltb_spec 1 2); [|lra]. reflexivity.
Qed.
Print Assumptions C50_descending_refuted.
(** the sizes of x and y are not compared: a short y is read beyond its end *)
Theorem C50_short_y_refuted : exists ip, interp_new Rarith [0; 1; 2] [10] 2 = Ok ip /\ linear_eval Rarith ip false (3 / 2) = UB.
Proof.
  exists (mkInterp [0; 1; 2] [10] 2%nat). split.
  - apply (C50_new Rarith); [intros a b; destruct (Raeqb a b); split; auto; discriminate|]. split; [cbn; lia|].
    repeat constructor; cbn; intros H; repeat destruct H as [H|H]; auto; lra.
  - unfold linear_eval. destruct (locate2 [0; 1; 2] [10] 3 (fun i => nth i [0; 1; 2] 0) (3 / 2)) as (k & (H1 & H2 & H3) & E); [apply is_vector_self|lia| |].
    { intros i j HI. destruct i as [|[|[|]]], j as [|[|[|]]]; cbn; try lia; lra. }
    rewrite E. assert (k = 1%nat). { destruct k as [|[|]]; [|auto|lia]. destruct H3 as [H3|H3]; [lia|]. cbn in H3. destruct (Rageb (3 / 2) 1); [discriminate|lra]. }
    subst k. cbn [bind]. unfold linear_value. cbn [ip_x ip_y vget nth_error bind length Nat.sub Nat.add]. rnum. destruct (Rltb_spec (3 / 2) 0), (Rltb_spec 2 (3 / 2)); try lra. cbn [negb andb orb].
    destruct (Raeqb 1 2); [lra|]. reflexivity.
Qed.
Print Assumptions C50_short_y_refuted.
