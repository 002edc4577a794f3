(** * C75: fixed-step integration with any step calculator *)
From Coq Require Import List Bool Arith ZArith Reals Lia Lra.
From Verif Require Import Base Num Mat_Model Mat_Proofs Mat_Props RootFind_Model RootFind_Proofs ODE_Model ODE_Spec ODE_Solution ODE_RK.
Import ListNotations.
Local Open Scope R_scope.

(** [step] computes, for the system [f] of dimension [n] and steps of size [h], results related to the start by [rel] *)
Definition implements (step : calc (T := R)) (n : nat) (f : sys) (h : R) (rel : R -> vec -> vec -> Prop) : Prop :=
  forall t x out err, length x = n -> length out = n -> length err = n ->
    exists y e, step f n t x (f t x) h out err = Ok (y, e) /\ length y = n /\ length e = n /\ rel t x y.
(** successive states: each is related to the one before, at the time before *)
Definition chain (rel : R -> vec -> vec -> Prop) (x0 : vec) (t1 h : R) (N : nat) (xs : nat -> vec) : Prop :=
  xs 0%nat = x0 /\ forall k, (k < N)%nat -> rel (t1 + INR k * h) (xs k) (xs (S k)).
Definition points (t1 h : R) (xs : nat -> vec) (N : nat) : list (R * vec) := map (fun k => (t1 + INR k * h, xs k)) (seq 0 (S N)).

Lemma dims_new : forall t1 t2 d m, (0 < d)%nat -> ~ dims_fit d (m + 1) -> sol_new Rarith t1 t2 (Z.of_nat d) (Z.of_nat m) = Throw DimensionError \/ sol_new Rarith t1 t2 (Z.of_nat d) (Z.of_nat m) = Throw BadAlloc.
Proof.
  intros t1 t2 d m Hd HF. unfold sol_new, vec_resize. destruct (Z.ltb_spec (Z.of_nat m + 1) 0); [lia|]. cbn [bind]. unfold mat_resize. cbn [mat_empty m_rows m_cols].
  destruct (Z.eqb_spec (Z.of_nat d) (Z.of_nat 0)); [lia|]. cbn [andb]. destruct (Z.leb_spec (Z.of_nat d) 0), (Z.leb_spec (Z.of_nat m + 1) 0); try lia. cbn [orb]. cbv zeta.
  unfold validate_dims. rewrite Nat2Z.id. replace (Z.to_nat (Z.of_nat m + 1)) with (m + 1)%nat by lia. unfold dims_fit in HF. cbv beta iota.
  destruct (Z.ltb_spec 100000 (Z.of_nat d)) as [A|A]; [left; reflexivity|]. destruct (Z.ltb_spec 100000 (Z.of_nat (m + 1))) as [B|B]; [left; reflexivity|]. cbn [orb].
  destruct (Z.ltb_spec 100000000 (Z.of_nat d * Z.of_nat (m + 1))) as [C|C]; [right; reflexivity|]. lia.
Qed.

Theorem C75_integrate : forall step n f rel x0 t1 t2 N, (0 < n)%nat -> dims_fit n (N + 1) -> length x0 = n -> implements step n f ((t2 - t1) / INR N) rel ->
  exists S, integrate Rarith step f n x0 t1 t2 (Z.of_nat N) = Ok S /\ exists xs, chain rel x0 t1 ((t2 - t1) / INR N) N xs /\ (forall k, (k <= N)%nat -> length (xs k) = n) /\
    shows Rarith S (points t1 ((t2 - t1) / INR N) xs N) /\ s_t1 S = t1 /\ s_t2 S = t2.
Proof.
  intros step n f rel x0 t1 t2 N Hn HF HX HS. unfold integrate. destruct (C74_new Rarith t1 t2 n N Hn HF) as (S0 & E0 & H0 & _ & _ & _ & P1 & P2). rewrite E0. cbn [bind].
  assert (HP0 : holds_pts S0 n (N + 1) []). { eexists. eexists. split; [exact H0|]. split; [apply Nat.le_0_l|]. intros k HK. cbn [length] in HK. lia. }
  destruct (fill_next Rarith S0 n (N + 1) [] t1 x0 HP0 Hn HX) as (S1 & E1 & H1 & Q1 & Q2 & _); [cbn [length]; lia|]. change (Z.of_nat (length (@nil (R * vec)))) with 0%Z in E1. rewrite E1. cbn [bind].
  assert (EL : (length (@nil (R * vec)) <? N + 1)%nat = true) by (apply Nat.ltb_lt; cbn [length]; lia). rewrite EL in H1. clear EL. cbn [app] in H1.
  change (alit Rarith (Z.of_nat N)) with (IZR (Z.of_nat N)). rewrite <- INR_IZR_INZ. change (ndiv (aops Rarith) (nsub (aops Rarith) t2 t1) (INR N)) with ((t2 - t1) / INR N). set (h := (t2 - t1) / INR N) in *. cbv zeta.
  apply wp_ex. apply wp_bind. replace (Z.to_nat (Z.of_nat N + 1)) with (S N) by lia.
  eapply wp_conseq; [|apply (for_range_inv _ _ (fun k '(Sl, t, x, out, err) => t = t1 + INR (k - 1) * h /\ length out = n /\ length err = n /\ s_t1 Sl = t1 /\ s_t2 Sl = t2 /\
    exists xs, xs (k - 1)%nat = x /\ chain rel x0 t1 h (k - 1) xs /\ (forall j, (j <= k - 1)%nat -> length (xs j) = n) /\ holds_pts Sl n (N + 1) (points t1 h xs (k - 1))))].
  - intros [[[[Sl t] x] out] err] (Ht & _ & _ & R1 & R2 & xs & _ & HC & HL & HH). replace (Datatypes.S N - 1)%nat with N in * by lia. cbn [wp]. exists xs. split; [exact HC|]. split; [exact HL|]. split; [|auto]. eapply holds_pts_shows. exact HH.
  - lia.
  - cbn [Nat.sub]. split; [cbn [INR]; ring|]. split; [apply zeros_length|]. split; [apply zeros_length|]. split; [congruence|]. split; [congruence|]. exists (fun _ => x0). split; [reflexivity|]. split; [split; [reflexivity|intros; lia]|]. split; [auto|].
    unfold points. cbn [seq map INR]. rewrite Rmult_0_l, Rplus_0_r. exact H1.
  - intros k [[[[Sl t] x] out] err] HK1 HK2 (Ht & HO & HE & R1 & R2 & xs & HXk & HC & HL & HH). assert (LX : length x = n) by (rewrite <- HXk; apply HL; lia).
    destruct (HS t x out err LX HO HE) as (y & e & ES & LY & LE & HR). cbv zeta. rewrite ES. cbn [bind].
    destruct (fill_next Rarith Sl n (N + 1) _ (nadd (aops Rarith) t h) y HH Hn LY) as (S' & E' & H' & Q1' & Q2' & _).
    + unfold points. rewrite map_length, seq_length. lia.
    + unfold points in E'. rewrite map_length, seq_length in E'. replace (Datatypes.S (k - 1)) with k in E' by lia. rewrite E'. cbn [bind wp].
      assert (ET : nadd (aops Rarith) t h = t1 + INR k * h). { rnum. rewrite Ht. replace k with (Datatypes.S (k - 1)) at 2 by lia. rewrite S_INR. ring. }
      replace (k + 1 - 1)%nat with k by lia. split; [exact ET|]. split; [exact LY|]. split; [exact LE|]. split; [congruence|]. split; [congruence|].
      exists (fun j => if (j <? k)%nat then xs j else y). split; [rewrite Nat.ltb_irrefl; reflexivity|]. split; [|split].
      * destruct HC as [C1 C2]. split; [destruct (Nat.ltb_spec 0 k); [exact C1|lia]|]. intros j HJ. destruct (Nat.ltb_spec j k); [|lia]. destruct (Nat.ltb_spec (Datatypes.S j) k).
        -- apply C2. lia.
        -- replace j with (k - 1)%nat by lia. rewrite HXk, <- Ht. exact HR.
      * intros j HJ. destruct (Nat.ltb_spec j k); [apply HL; lia|exact LY].
      * destruct (Nat.ltb_spec (length (points t1 h xs (k - 1))) (N + 1)) as [L|L]; [|unfold points in L; rewrite map_length, seq_length in L; lia].
        replace (points t1 h (fun j => if (j <? k)%nat then xs j else y) k) with (points t1 h xs (k - 1) ++ [(nadd (aops Rarith) t h, y)]); [exact H'|].
        unfold points. rewrite (seq_S k 0), map_app. cbn [map]. replace (Datatypes.S (k - 1)) with k by lia. rewrite Nat.add_0_l, Nat.ltb_irrefl, ET. f_equal. apply map_ext_in. intros j HJ. apply in_seq in HJ. destruct (Nat.ltb_spec j k); [reflexivity|lia].
Qed.
(** the last point is at the end of the interval *)
Theorem C75_end : forall t1 t2 N (xs : nat -> vec), (0 < N)%nat -> nth_error (points t1 ((t2 - t1) / INR N) xs N) N = Some (t2, xs N).
Proof.
  intros t1 t2 N xs HN. unfold points. rewrite nth_error_map. rewrite (nth_error_nth' _ 0%nat) by (rewrite seq_length; lia). rewrite seq_nth by lia. cbn [option_map Nat.add]. do 2 f_equal. field. apply not_0_INR. lia.
Qed.
(** rejected: initial condition of the wrong size, no room, no dimension, negative number of steps *)
Theorem C75_errors : forall step n f x0 t1 t2 N,
  ((0 < n)%nat -> dims_fit n (N + 1) -> length x0 <> n -> integrate Rarith step f n x0 t1 t2 (Z.of_nat N) = Throw InvalidArgument) /\
  ((0 < n)%nat -> ~ dims_fit n (N + 1) -> integrate Rarith step f n x0 t1 t2 (Z.of_nat N) = Throw DimensionError \/ integrate Rarith step f n x0 t1 t2 (Z.of_nat N) = Throw BadAlloc) /\
  (n = 0%nat -> integrate Rarith step f n x0 t1 t2 (Z.of_nat N) = Throw DimensionError) /\
  ((0 < n)%nat -> integrate Rarith step f n x0 t1 t2 (-1) = Throw DimensionError) /\
  (forall z, (z < -1)%Z -> integrate Rarith step f n x0 t1 t2 z = Throw LengthError).
Proof.
  intros step n f x0 t1 t2 N. unfold integrate. split; [|split; [|split; [|split]]].
  - intros Hn HF HX. destruct (C74_new Rarith t1 t2 n N Hn HF) as (S0 & E0 & H0 & _). rewrite E0. cbn [bind]. destruct (C74_errors Rarith S0 0 0 t1 x0) as (_ & EE & _). rewrite EE; [reflexivity|lia|]. destruct H0 as (-> & _). lia.
  - intros Hn HF. destruct (dims_new t1 t2 n N Hn HF) as [-> | ->]; [left|right]; reflexivity.
  - intros ->. unfold sol_new, vec_resize. destruct (Z.ltb_spec (Z.of_nat N + 1) 0); [lia|]. cbn [bind]. unfold mat_resize. cbn [mat_empty m_rows m_cols]. destruct (Z.eqb_spec (Z.of_nat N + 1) (Z.of_nat 0)); [lia|]. reflexivity.
  - intros Hn. unfold sol_new, vec_resize. cbn [Z.add Z.pos_sub Z.ltb Z.compare bind]. unfold mat_resize. cbn [mat_empty m_rows m_cols]. destruct (Z.eqb_spec (Z.of_nat n) (Z.of_nat 0)); [lia|]. cbn [andb]. rewrite orb_true_r. reflexivity.
  - intros z Hz. unfold sol_new, vec_resize. destruct (Z.ltb_spec (z + 1) 0); [reflexivity|lia].
Qed.

(** every calculator of the library can be used *)
Theorem C75_calculators : forall n f h, system n f ->
  implements (EulerStep Rarith) n f h (fun t x y => rk_step euler_tab f t x h y) /\
  implements (EulerCromerStep Rarith) n f h (fun t x y => rk_step heun_tab f t x h y) /\
  implements (MidpointStep Rarith) n f h (fun t x y => rk_step midpoint_tab f t x h y) /\
  implements (RungeKutta4Step Rarith) n f h (fun t x y => rk_step rk4_tab f t x h y) /\
  implements (CashKarpStep Rarith) n f h (fun t x y => rk_step ck_tab f t x h y) /\
  implements (DormandPrince5Step Rarith) n f h (fun t x y => rk_step dp5_tab f t x h y) /\
  implements (DormandPrince8Step Rarith) n f h (fun t x y => rk_step dp8_tab f t x h y).
Proof.
  intros n f h HF. assert (HS : forall tab t x y, rk_step tab f t x h y -> length y = length x) by (intros tab t x y (ks & _ & ->); apply move_length).
  assert (HP : forall tab bs t x y e, rk_pair tab bs f t x h y e -> rk_step tab f t x h y /\ length e = length x) by (intros tab bs t x y e (ks & HK & EY & ->); split; [exists ks; auto|apply mk_length]).
  repeat split; intros t x out err HX HO HE.
  - destruct (C76_euler n f t x h out err HF HX HO HE) as (y & E & H). exists y, (repeat 0 n). rewrite repeat_length. rewrite (HS _ _ _ _ H). auto.
  - destruct (C76_heun n f t x h out err HF HX HO HE) as (y & e & E & H). exists y, e. apply HP in H. destruct H as [H L]. rewrite L, (HS _ _ _ _ H). auto.
  - destruct (C76_midpoint n f t x h out err HF HX HO HE) as (y & E & H). exists y, (repeat 0 n). rewrite repeat_length. rewrite (HS _ _ _ _ H). auto.
  - destruct (C76_rk4 n f t x h out err HF HX HO HE) as (y & E & H). exists y, (repeat 0 n). rewrite repeat_length. rewrite (HS _ _ _ _ H). auto.
  - destruct (C76_cash_karp n f t x h out err HF HX HO HE) as (y & e & E & H). exists y, e. apply HP in H. destruct H as [H L]. rewrite L, (HS _ _ _ _ H). auto.
  - destruct (C76_dormand_prince5 n f t x h out err HF HX HO HE) as (y & e & E & H). exists y, e. apply HP in H. destruct H as [H L]. rewrite L, (HS _ _ _ _ H). auto.
  - destruct (C76_dormand_prince8 n f t x h out err HF HX HO HE) as (y & e & E & H). exists y, e. apply HP in H. destruct H as [H L]. rewrite L, (HS _ _ _ _ H). auto.
Qed.
