(** * C74: the container of solution points (mml/base/ODESystemSolution.h) *)
From Coq Require Import List Bool Arith ZArith Lia.
From Verif Require Import Base Num Mat_Model Mat_Proofs Mat_Props Mat_Container RootFind_Model ODE_Model.
Import ListNotations.
Local Open Scope nat_scope.

Section Sol.
Context {T : Type} (A : arith T).
Local Notation zero := (n0 (aops A)).
Local Notation vec := (list T).

(** ** Specification *)
(** the container for systems of dimension [d], with room for [cap] points, shows [count] points: point [k] has time [tf k] and components [xf i k] *)
Definition holds (S : sol) (d cap count : nat) (tf : nat -> T) (xf : nat -> nat -> T) : Prop :=
  s_dim S = Z.of_nat d /\ s_cap S = Z.of_nat cap /\ s_count S = Z.of_nat count /\ is_vector (s_tval S) cap tf /\ is_matrix (s_xval S) d cap xf.
(** what a user can see of it *)
Definition shows (S : sol) (pts : list (T * vec)) : Prop :=
  s_count S = Z.of_nat (length pts) /\
  (forall k, (0 <= k < Z.of_nat (length pts))%Z -> exists t x, nth_error pts (Z.to_nat k) = Some (t, x) /\ getTValue S k = Ok t /\
     forall i, (0 <= i < Z.of_nat (length x))%Z -> exists v, nth_error x (Z.to_nat i) = Some v /\ getXValue S k i = Ok v) /\
  (forall k, ~ (0 <= k < Z.of_nat (length pts))%Z -> getTValue S k = Throw IndexError /\ forall i, getXValue S k i = Throw IndexError) /\
  (forall t x l, pts = l ++ [(t, x)] -> getXValuesAtEnd A S = Ok x) /\
  (pts = [] -> getXValuesAtEnd A S = Throw IndexError).
(** the room after growing once *)
Definition grown (cap : nat) : nat := 3 * cap / 2 + 1.

(** ** Resizing *)
Lemma vec_resize_ok : forall (v : vec) n f m, is_vector v n f -> exists w, vec_resize A v (Z.of_nat m) = Ok w /\ is_vector w m (fun i => if i <? n then f i else zero).
Proof.
  intros v n f m [HL HV]. unfold vec_resize. destruct (Z.ltb_spec (Z.of_nat m) 0); [lia|]. rewrite Nat2Z.id. eexists. split; [reflexivity|].
  split; [rewrite app_length, firstn_length, repeat_length; lia|]. intros i HI. destruct (Nat.ltb_spec i n).
  - rewrite nth_error_app1 by (rewrite firstn_length; lia). rewrite <- HV by lia.
    rewrite <- (firstn_skipn m v) at 2. rewrite nth_error_app1; [reflexivity|rewrite firstn_length; lia].
  - rewrite nth_error_app2 by (rewrite firstn_length; lia). apply nth_error_repeat. rewrite firstn_length. lia.
Qed.
Lemma with_cap_ok : forall S d cap count tf xf m, holds S d cap count tf xf -> 0 < d -> 0 < m -> dims_fit d m ->
  exists S', with_cap A S (Z.of_nat m) = Ok S' /\ holds S' d m count (fun k => if k <? cap then tf k else zero) (fun i k => if k <? cap then xf i k else zero) /\
    s_t1 S' = s_t1 S /\ s_t2 S' = s_t2 S /\ s_ok S' = s_ok S /\ s_bad S' = s_bad S.
Proof.
  intros S d cap count tf xf m (H1 & H2 & H3 & H4 & H5) Hd Hm HF. unfold with_cap. rewrite H1.
  destruct (vec_resize_ok _ _ _ m H4) as (tv & E & HT). rewrite E. cbn [bind].
  assert (EX : exists B, mat_resize (aops A) (s_xval S) (Z.of_nat d) (Z.of_nat m) true = Ok B /\ is_matrix B d m (fun i k => if k <? cap then xf i k else zero)).
  { destruct (C44_resize (aops A) _ _ _ _ (Z.of_nat d) (Z.of_nat m) true H5) as (R1 & R2 & _). destruct (Nat.eq_dec m cap) as [->|HN].
    - exists (s_xval S). split; [apply R1; lia|]. eapply is_matrix_ext; [exact H5|]. intros i j HI HJ. cbv beta. destruct (Nat.ltb_spec j cap); [reflexivity|lia].
    - destruct R2 as (B & EB & HB); [lia|lia|lia|rewrite !Nat2Z.id; exact HF|]. exists B. split; [exact EB|]. rewrite !Nat2Z.id in HB. eapply is_matrix_ext; [exact HB|].
      intros i j HI HJ. cbv beta. cbn [andb]. destruct (Nat.ltb_spec i d); [|lia]. cbn [andb]. reflexivity. }
  destruct EX as (B & EB & HB). rewrite EB. cbn [bind]. eexists. split; [reflexivity|]. cbn [s_t1 s_t2 s_ok s_bad]. split; [|auto]. unfold holds. cbn [s_dim s_cap s_count s_tval s_xval]. auto.
Qed.

(** ** A new container: empty, with one place more than the number of steps given *)
Theorem C74_new : forall t1 t2 d m, 0 < d -> dims_fit d (m + 1) ->
  exists S, sol_new A t1 t2 (Z.of_nat d) (Z.of_nat m) = Ok S /\ holds S d (m + 1) 0 (fun _ => zero) (fun _ _ => zero) /\ isEmpty S = true /\ getNumSteps S = 0%Z /\
    getTotalNumSteps S = 0 /\ s_t1 S = t1 /\ s_t2 S = t2.
Proof.
  intros t1 t2 d m Hd HF. unfold sol_new. replace (Z.of_nat m + 1)%Z with (Z.of_nat (m + 1)) by lia.
  assert (HV : is_vector (@nil T) 0 (fun _ => zero)) by (split; [reflexivity|intros; lia]). destruct (vec_resize_ok _ _ _ (m + 1) HV) as (tv & E & HT). rewrite E. cbn [bind].
  assert (HE : is_matrix (@mat_empty T) 0 0 (fun _ _ => zero)) by (repeat split; intros; lia).
  destruct (C44_resize (aops A) _ _ _ _ (Z.of_nat d) (Z.of_nat (m + 1)) false HE) as (_ & R2 & _). destruct R2 as (B & EB & HB); [lia|lia|lia|rewrite !Nat2Z.id; exact HF|]. rewrite EB. cbn [bind].
  rewrite !Nat2Z.id in HB. eexists. split; [reflexivity|]. split; [|repeat split]. unfold holds. cbn [s_dim s_cap s_count s_tval s_xval]. repeat (split; [reflexivity|]). split; [|exact HB].
  eapply is_vector_ext; [exact HT|]. intros i HI. reflexivity.
Qed.

(** ** Growing keeps every stored value; reserve and setFinalSize *)
Theorem C74_reserve : forall S d cap count tf xf n, holds S d cap count tf xf -> 0 < d -> (n <= Z.of_nat cap)%Z \/ dims_fit d (Z.to_nat n) ->
  exists S', reserve A S n = Ok S' /\ holds S' d (Nat.max cap (Z.to_nat n)) count (fun k => if k <? cap then tf k else zero) (fun i k => if k <? cap then xf i k else zero).
Proof.
  intros S d cap count tf xf n H Hd HF. pose proof H as (H1 & H2 & H3 & H4 & H5). unfold reserve. rewrite H2. destruct (Z.ltb_spec (Z.of_nat cap) n) as [L|L].
  - destruct HF as [HF|HF]; [lia|]. destruct (with_cap_ok S d cap count tf xf (Z.to_nat n) H Hd) as (S' & E & HS & _); [lia|exact HF|]. rewrite Z2Nat.id in E by lia. exists S'. split; [exact E|].
    replace (Nat.max cap (Z.to_nat n)) with (Z.to_nat n) by lia. exact HS.
  - exists S. split; [reflexivity|]. replace (Nat.max cap (Z.to_nat n)) with cap by lia. unfold holds. repeat (split; [assumption|]). split.
    + eapply is_vector_ext; [exact H4|]. intros i HI. cbv beta. destruct (Nat.ltb_spec i cap); [reflexivity|lia].
    + eapply is_matrix_ext; [exact H5|]. intros i j HI HJ. cbv beta. destruct (Nat.ltb_spec j cap); [reflexivity|lia].
Qed.
Theorem C74_final : forall S d cap count tf xf n, holds S d cap count tf xf -> 0 < d -> dims_fit d (n + 1) ->
  exists S', setFinalSize A S (Z.of_nat n) = Ok S' /\ holds S' d (n + 1) (n + 1) (fun k => if k <? cap then tf k else zero) (fun i k => if k <? cap then xf i k else zero).
Proof.
  intros S d cap count tf xf n H Hd HF. destruct (with_cap_ok S d cap count tf xf (n + 1) H Hd) as (S' & E & HS & _); [lia|exact HF|]. unfold setFinalSize.
  replace (Z.of_nat n + 1)%Z with (Z.of_nat (n + 1)) by lia. rewrite E. cbn [bind]. eexists. split; [reflexivity|]. destruct HS as (G1 & G2 & G3 & G4 & G5). unfold holds. cbn [s_dim s_cap s_count s_tval s_xval]. auto.
Qed.

(** ** Storing a point *)
Lemma extend_ok : forall S d cap count tf xf k, holds S d cap count tf xf -> 0 < d -> (cap <= k -> dims_fit d (grown cap)) ->
  exists S', (if (s_cap S <=? Z.of_nat k)%Z then ExtendSavedSteps A S else Ok S) = Ok S' /\
    holds S' d (if k <? cap then cap else grown cap) count (fun j => if j <? cap then tf j else zero) (fun i j => if j <? cap then xf i j else zero) /\
    s_t1 S' = s_t1 S /\ s_t2 S' = s_t2 S /\ s_ok S' = s_ok S /\ s_bad S' = s_bad S.
Proof.
  intros S d cap count tf xf k H Hd HF. pose proof H as (H1 & H2 & H3 & H4 & H5). rewrite H2. destruct (Z.leb_spec (Z.of_nat cap) (Z.of_nat k)), (Nat.ltb_spec k cap); try lia.
  - unfold ExtendSavedSteps. rewrite H2. replace (Z.quot (Z.of_nat cap * 3) 2 + 1)%Z with (Z.of_nat (grown cap)).
    + apply with_cap_ok; auto. unfold grown. lia.
    + unfold grown. rewrite Z.quot_div_nonneg by lia. rewrite Nat2Z.inj_add, Nat2Z.inj_div. f_equal. f_equal. lia.
  - exists S. split; [reflexivity|]. split; [|auto]. unfold holds. repeat (split; [assumption|]). split.
    + eapply is_vector_ext; [exact H4|]. intros i HI. cbv beta. destruct (Nat.ltb_spec i cap); [reflexivity|lia].
    + eapply is_matrix_ext; [exact H5|]. intros i j HI HJ. cbv beta. destruct (Nat.ltb_spec j cap); [reflexivity|lia].
Qed.
Theorem C74_fill : forall S d cap count tf xf k t y yf, holds S d cap count tf xf -> 0 < d -> is_vector y d yf -> (cap <= k -> dims_fit d (grown cap)) ->
  (k < grown cap -> exists S', fillValues A S (Z.of_nat k) t y = Ok S' /\
     holds S' d (if k <? cap then cap else grown cap) (Nat.max count (k + 1)) (fun j => if j =? k then t else if j <? cap then tf j else zero)
       (fun i j => if j =? k then yf i else if j <? cap then xf i j else zero) /\
     s_t1 S' = s_t1 S /\ s_t2 S' = s_t2 S /\ s_ok S' = s_ok S /\ s_bad S' = s_bad S) /\
  (grown cap <= k -> fillValues A S (Z.of_nat k) t y = UB).
Proof.
  intros S d cap count tf xf k t y yf H Hd Hy HF. unfold fillValues. destruct (Z.ltb_spec (Z.of_nat k) 0); [lia|]. pose proof H as (H1 & _). rewrite H1. pose proof (proj1 Hy) as HL. rewrite HL, Z.eqb_refl. cbn [negb].
  destruct (extend_ok S d cap count tf xf k H Hd HF) as (S1 & E & HS & P1 & P2 & P3 & P4). rewrite E. cbn [bind]. destruct HS as (G1 & G2 & G3 & G4 & G5). set (c := if k <? cap then cap else grown cap) in *. split.
  - intros HK. assert (KC : k < c) by (unfold c; destruct (Nat.ltb_spec k cap); lia). apply wp_ex. apply wp_bind. rewrite Nat2Z.id. eapply vsetf_wp; [exact G4|exact KC|]. intros tv HT. apply wp_bind.
    rewrite G1, Nat2Z.id. eapply wp_conseq; [|apply (for_range_inv _ _ (fun m M => is_matrix M d c (fun i j => if (i <? m) && (j =? k) then yf i else if j <? cap then xf i j else zero)))].
    + intros M HM. cbn [wp set_count s_t1 s_t2 s_ok s_bad]. split; [|auto]. unfold holds, set_count. cbn [s_dim s_cap s_count s_tval s_xval]. rewrite G3. repeat (split; [first [assumption|destruct (Z.ltb_spec (Z.of_nat count) (Z.of_nat k + 1)); lia]|]).
      eapply is_matrix_ext; [exact HM|]. intros i j HI HJ. cbv beta. destruct (Nat.ltb_spec i d); [|lia]. reflexivity.
    + lia.
    + eapply is_matrix_ext; [exact G5|]. intros i j HI HJ. reflexivity.
    + intros m M _ HM HI. apply wp_bind. eapply vgetf_wp; [exact Hy|exact HM|]. eapply mset_wp; [exact HI|exact HM|exact KC|]. intros M' HM'. eapply is_matrix_ext; [exact HM'|].
      intros i j HI' HJ. unfold fset. destruct (Nat.eqb_spec i m) as [->|], (Nat.eqb_spec j k) as [->|]; cbn [andb]; destruct (Nat.ltb_spec m m), (Nat.ltb_spec m (m + 1)); try lia; try rewrite !andb_false_r; try reflexivity.
      cbn [andb]. destruct (Nat.ltb_spec i m), (Nat.ltb_spec i (m + 1)); try lia; reflexivity.
  - intros HK. rewrite Nat2Z.id. unfold vset. pose proof (proj1 G4) as HG. rewrite HG. unfold c. destruct (Nat.ltb_spec k cap); [unfold grown in HK; pose proof (Nat.div_mod (3 * cap) 2 ltac:(lia)); pose proof (Nat.mod_upper_bound (3 * cap) 2 ltac:(lia)); lia|].
    destruct (Nat.ltb_spec k (grown cap)); [lia|]. reflexivity.
Qed.
Theorem C74_set : forall S d cap count tf xf k i v, holds S d cap count tf xf -> 0 < d -> (cap <= k -> dims_fit d (grown cap)) -> k < grown cap ->
  (exists S', setTVal A S (Z.of_nat k) v = Ok S' /\
     holds S' d (if k <? cap then cap else grown cap) (Nat.max count (k + 1)) (fun j => if j =? k then v else if j <? cap then tf j else zero) (fun i j => if j <? cap then xf i j else zero)) /\
  (i < d -> exists S', setXVal A S (Z.of_nat k) (Z.of_nat i) v = Ok S' /\
     holds S' d (if k <? cap then cap else grown cap) (Nat.max count (k + 1)) (fun j => if j <? cap then tf j else zero)
       (fun a j => if (a =? i) && (j =? k) then v else if j <? cap then xf a j else zero)).
Proof.
  intros S d cap count tf xf k i v H Hd HF HK. pose proof H as (H1 & _). destruct (extend_ok S d cap count tf xf k H Hd HF) as (S1 & E & HS & _). destruct HS as (G1 & G2 & G3 & G4 & G5). set (c := if k <? cap then cap else grown cap) in *.
  assert (KC : k < c) by (unfold c; destruct (Nat.ltb_spec k cap); lia). split.
  - unfold setTVal. destruct (Z.ltb_spec (Z.of_nat k) 0); [lia|]. rewrite E. cbn [bind]. rewrite Nat2Z.id. apply wp_ex. apply wp_bind. eapply vsetf_wp; [exact G4|exact KC|]. intros tv HT.
    cbn [wp]. unfold holds, set_count. cbn [s_dim s_cap s_count s_tval s_xval]. rewrite G3. repeat (split; [first [assumption|destruct (Z.ltb_spec (Z.of_nat count) (Z.of_nat k + 1)); lia]|]). exact G5.
  - intros HI. unfold setXVal. destruct (Z.ltb_spec (Z.of_nat k) 0); [lia|]. rewrite H1. destruct (Z.ltb_spec (Z.of_nat i) 0), (Z.leb_spec (Z.of_nat d) (Z.of_nat i)); try lia. cbn [orb]. rewrite E. cbn [bind]. rewrite !Nat2Z.id. apply wp_ex. apply wp_bind.
    eapply mset_wp; [exact G5|exact HI|exact KC|]. intros M HM. cbn [wp]. unfold holds, set_count. cbn [s_dim s_cap s_count s_tval s_xval]. rewrite G3. repeat (split; [first [assumption|destruct (Z.ltb_spec (Z.of_nat count) (Z.of_nat k + 1)); lia]|]). exact HM.
Qed.
(** rejected arguments *)
Theorem C74_errors : forall (S : sol (T := T)) k i t y,
  ((k < 0)%Z -> fillValues A S k t y = Throw IndexError /\ setTVal A S k t = Throw IndexError /\ setXVal A S k i t = Throw IndexError) /\
  ((0 <= k)%Z -> Z.of_nat (length y) <> s_dim S -> fillValues A S k t y = Throw InvalidArgument) /\
  ((0 <= k)%Z -> ~ (0 <= i < s_dim S)%Z -> setXVal A S k i t = Throw IndexError) /\
  (~ (0 <= i < s_dim S)%Z -> getXValue S k i = Throw IndexError /\ getXValues A S i = Throw IndexError).
Proof.
  intros S k i t y. unfold fillValues, setTVal, setXVal, getXValue, getXValues. repeat split.
  - destruct (Z.ltb_spec k 0); [reflexivity|lia].
  - destruct (Z.ltb_spec k 0); [reflexivity|lia].
  - destruct (Z.ltb_spec k 0); [reflexivity|lia].
  - intros HK HN. destruct (Z.ltb_spec k 0); [lia|]. destruct (Z.eqb_spec (Z.of_nat (length y)) (s_dim S)); [lia|reflexivity].
  - intros HK HN. destruct (Z.ltb_spec k 0); [lia|]. destruct (Z.ltb_spec i 0), (Z.leb_spec (s_dim S) i); try reflexivity. lia.
  - destruct (Z.ltb_spec i 0), (Z.leb_spec (s_dim S) i); try lia; destruct (Z.ltb_spec k 0), (Z.leb_spec (s_count S) k); reflexivity.
  - destruct (Z.ltb_spec i 0), (Z.leb_spec (s_dim S) i); try lia; reflexivity.
Qed.

(** ** Reading *)
Theorem C74_get : forall S d cap count tf xf, holds S d cap count tf xf -> count <= cap ->
  (forall k, k < count -> getTValue S (Z.of_nat k) = Ok (tf k) /\ forall i, i < d -> getXValue S (Z.of_nat k) (Z.of_nat i) = Ok (xf i k)) /\
  (forall k, ~ (0 <= k < Z.of_nat count)%Z -> getTValue S k = Throw IndexError /\ forall i, getXValue S k i = Throw IndexError) /\
  (0 < count -> exists v, getXValuesAtEnd A S = Ok v /\ is_vector v d (fun i => xf i (count - 1))) /\
  (count = 0 -> getXValuesAtEnd A S = Throw IndexError) /\
  (forall i, i < d -> exists v, getXValues A S (Z.of_nat i) = Ok v /\ is_vector v cap (xf i)) /\
  getNumSteps S = Z.of_nat (count - 1) /\ isEmpty S = (count =? 0).
Proof.
  intros S d cap count tf xf (H1 & H2 & H3 & H4 & H5) HC. unfold getTValue, getXValue, getXValuesAtEnd, getXValues, getNumSteps, isEmpty. rewrite H1, H3. repeat split.
  - destruct (Z.ltb_spec (Z.of_nat k) 0), (Z.leb_spec (Z.of_nat count) (Z.of_nat k)); try lia. cbn [orb]. rewrite Nat2Z.id. unfold vget. rewrite (proj2 H4) by lia. reflexivity.
  - intros i HI. destruct (Z.ltb_spec (Z.of_nat k) 0), (Z.leb_spec (Z.of_nat count) (Z.of_nat k)); try lia. cbn [orb]. destruct (Z.ltb_spec (Z.of_nat i) 0), (Z.leb_spec (Z.of_nat d) (Z.of_nat i)); try lia. cbn [orb].
    rewrite !Nat2Z.id. apply (mget_Ok (s_xval S) d cap xf); auto. lia.
  - destruct (Z.ltb_spec k 0), (Z.leb_spec (Z.of_nat count) k); try reflexivity. lia.
  - intros i. destruct (Z.ltb_spec k 0), (Z.leb_spec (Z.of_nat count) k); try reflexivity. lia.
  - intros HP. destruct (Z.eqb_spec (Z.of_nat count) 0); [lia|]. rewrite Nat2Z.id. replace (Z.to_nat (Z.of_nat count - 1)) with (count - 1) by lia. apply wp_ex. unfold fill, zeros.
    eapply vfill_wp; [apply is_vector_repeat| |]. { intros i HI. eapply mget_wp; [exact H5|exact HI|lia|reflexivity]. } intros v' HV. exact HV.
  - intros ->. reflexivity.
  - intros i HI. destruct (Z.ltb_spec (Z.of_nat i) 0), (Z.leb_spec (Z.of_nat d) (Z.of_nat i)); try lia. cbn [orb]. pose proof H5 as (HR & HCc & _). rewrite HR, HCc. destruct (Z.leb_spec (Z.of_nat d) (Z.of_nat i)); [lia|].
    rewrite Nat2Z.id. apply wp_ex. unfold fill, zeros. eapply vfill_wp; [apply is_vector_repeat| |]. { intros j HJ. eapply mget_wp; [exact H5|exact HI|exact HJ|reflexivity]. } intros v' HV. exact HV.
  - destruct (Z.ltb_spec 0 (Z.of_nat count)); lia.
  - destruct (Z.eqb_spec (Z.of_nat count) 0), (Nat.eqb_spec count 0); try lia; reflexivity.
Qed.

(** ** Storing points one after another and reading them back *)
Fixpoint fill_from (k : nat) (pts : list (T * vec)) (S : sol) : res sol :=
  match pts with [] => Ok S | (t, x) :: pts => S <- fillValues A S (Z.of_nat k) t x ;; fill_from (k + 1) pts S end.
Definition holds_pts (S : sol) (d cap : nat) (pts : list (T * vec)) : Prop :=
  exists tf xf, holds S d cap (length pts) tf xf /\ length pts <= cap /\
    forall k, k < length pts -> exists t x, nth_error pts k = Some (t, x) /\ t = tf k /\ is_vector x d (fun i => xf i k).
Lemma holds_pts_shows : forall S d cap pts, holds_pts S d cap pts -> shows S pts.
Proof.
  intros S d cap pts (tf & xf & H & HC & HP). destruct (C74_get _ _ _ _ _ _ H HC) as (G1 & G2 & G3 & G4 & G5). unfold shows. split; [apply H|]. split; [|split; [exact G2|split]].
  - intros k HK. destruct (HP (Z.to_nat k)) as (t & x & E & -> & HX); [lia|]. destruct (G1 (Z.to_nat k)) as (E1 & E2); [lia|]. rewrite Z2Nat.id in E1, E2 by lia. exists (tf (Z.to_nat k)), x. split; [exact E|]. split; [exact E1|].
    intros i HI. pose proof (proj1 HX) as HL. rewrite HL in HI. exists (xf (Z.to_nat i) (Z.to_nat k)). split; [apply (proj2 HX); lia|]. specialize (E2 (Z.to_nat i)). rewrite Z2Nat.id in E2 by lia. apply E2. lia.
  - intros t x l ->. rewrite app_length in *. cbn [length] in *. destruct G3 as (v & E & HV); [lia|]. rewrite E. f_equal. destruct (HP (length l)) as (t' & x' & E' & _ & HX); [lia|].
    rewrite nth_error_app2, Nat.sub_diag in E' by lia. injection E' as <- <-. eapply is_vector_eq; [exact HV|exact HX|]. intros i HI. cbv beta. f_equal. lia.
  - intros ->. apply G4. reflexivity.
Qed.
Lemma fill_next : forall S d cap pts t x, holds_pts S d cap pts -> 0 < d -> length x = d -> (cap <= length pts -> dims_fit d (grown cap)) ->
  exists S', fillValues A S (Z.of_nat (length pts)) t x = Ok S' /\ holds_pts S' d (if length pts <? cap then cap else grown cap) (pts ++ [(t, x)]) /\
    s_t1 S' = s_t1 S /\ s_t2 S' = s_t2 S /\ s_ok S' = s_ok S /\ s_bad S' = s_bad S.
Proof.
  intros S d cap pts t x (tf & xf & H & HC & HP) Hd HX HF. assert (HV : is_vector x d (fun i => nth i x zero)) by (rewrite <- HX; apply is_vector_self).
  assert (HG : length pts < grown cap).
  { unfold grown. pose proof (Nat.div_mod (3 * cap) 2 ltac:(lia)). pose proof (Nat.mod_upper_bound (3 * cap) 2 ltac:(lia)). lia. }
  destruct (proj1 (C74_fill S d cap (length pts) tf xf (length pts) t x _ H Hd HV HF) HG) as (S' & E & HS & P). exists S'. split; [exact E|]. split; [|exact P].
  eexists. eexists. rewrite app_length. cbn [length]. replace (Nat.max (length pts) (length pts + 1)) with (length pts + 1) in HS by lia. split; [exact HS|]. split.
  - destruct (Nat.ltb_spec (length pts) cap); lia.
  - intros k HK. cbv beta. destruct (Nat.eqb_spec k (length pts)) as [->|HN].
    + exists t, x. rewrite nth_error_app2, Nat.sub_diag by lia. split; [reflexivity|]. split; [reflexivity|]. exact HV.
    + destruct (HP k) as (t' & x' & E' & -> & HX'); [lia|]. exists (tf k), x'. rewrite nth_error_app1 by lia. split; [exact E'|]. destruct (Nat.ltb_spec k cap); [|lia]. split; [reflexivity|exact HX'].
Qed.
Lemma fill_from_ok : forall d L pts, 0 < d -> (forall t x, In (t, x) pts -> length x = d) -> dims_fit d (grown L) -> forall S cap done, holds_pts S d cap done -> length done + length pts <= L + 1 ->
  exists S', fill_from (length done) pts S = Ok S' /\ (exists cap', holds_pts S' d cap' (done ++ pts)) /\ s_t1 S' = s_t1 S /\ s_t2 S' = s_t2 S.
Proof.
  intros d L pts Hd. induction pts as [|[t x] pts IH]; intros HX HF S cap done H HL.
  - exists S. split; [reflexivity|]. rewrite app_nil_r. split; [exists cap; exact H|auto].
  - cbn [length] in *. destruct (fill_next S d cap done t x H Hd) as (S1 & E & HS & P1 & P2 & _).
    + apply (HX t x). left. reflexivity.
    + intros HK. assert (HM : grown cap <= grown L) by (unfold grown; pose proof (Nat.div_le_mono (3 * cap) (3 * L) 2); lia). unfold dims_fit in *. nia.
    + cbn [fill_from]. rewrite E. cbn [bind]. destruct (IH ltac:(intros t' x' HI; apply (HX t' x'); right; exact HI) HF S1 _ (done ++ [(t, x)]) HS) as (S' & E' & HS' & Q1 & Q2).
      * rewrite app_length. cbn [length]. lia.
      * rewrite app_length in E'. cbn [length] in E'. exists S'. split; [exact E'|]. rewrite <- app_assoc in HS'. split; [exact HS'|]. split; congruence.
Qed.
(** any number of points, stored in order in a container of any initial size, can be read back; the limits are those of Matrix *)
Theorem C74_sequence : forall d m t1 t2 pts, 0 < d -> (forall t x, In (t, x) pts -> length x = d) -> dims_fit d (m + 1) -> dims_fit d (grown (length pts)) ->
  exists S0 S, sol_new A t1 t2 (Z.of_nat d) (Z.of_nat m) = Ok S0 /\ fill_from 0 pts S0 = Ok S /\ shows S pts /\ s_t1 S = t1 /\ s_t2 S = t2.
Proof.
  intros d m t1 t2 pts Hd HX HM HF. destruct (C74_new t1 t2 d m Hd HM) as (S0 & E0 & HS & _ & _ & _ & P1 & P2).
  destruct (fill_from_ok d (length pts) pts Hd HX HF S0 (m + 1) []) as (S & E & (cap & HP) & Q1 & Q2).
  - exists (fun _ => zero), (fun _ _ => zero). split; [exact HS|]. split; [apply Nat.le_0_l|]. intros k HK. cbn [length] in HK. lia.
  - cbn [length]. lia.
  - exists S0, S. split; [exact E0|]. split; [exact E|]. split; [apply (holds_pts_shows _ _ _ _ HP)|]. split; congruence.
Qed.
End Sol.
