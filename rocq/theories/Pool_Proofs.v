(** * Invariants of the thread pool *)

From Coq Require Import List Arith Bool Lia Permutation.
From Verif Require Import Base Pool_Model.
Import ListNotations.

Section PoolProofs.
Context {Tsk Exc : Type}.
Notation thread := (thread Tsk Exc).
Notation pool := (pool Tsk Exc).
Notation event := (event Tsk Exc).
Notation action := (action Tsk Exc).
Implicit Types (s : pool) (th : thread) (l : list thread).

(** ** Counting threads *)
Fixpoint cnt (f : thread -> nat) l : nat :=
  match l with [] => 0 | th :: l' => f th + cnt f l' end.

Lemma cnt_upd : forall f l i th th', nth_error l i = Some th ->
  cnt f (upd l i th') + f th = cnt f l + f th'.
Proof.
  induction l as [|x l IH]; intros [|i] th th' H; simpl in *; try discriminate.
  - injection H as ->. lia.
  - specialize (IH _ _ th' H). lia.
Qed.
Lemma cnt_map : forall f g l, (forall th, f (g th) = f th) -> cnt f (map g l) = cnt f l.
Proof. intros f g l H. induction l; simpl; auto. Qed.
Lemma cnt_map_other : forall f g h l, (forall th, f (g th) = h th) -> cnt f (map g l) = cnt h l.
Proof. intros f g h l H. induction l; simpl; auto. Qed.
Lemma cnt_zero : forall f l, (forall th, f th = 0) -> cnt f l = 0.
Proof. intros f l H. induction l; simpl; auto. rewrite H. auto. Qed.
Lemma cnt_add : forall f g h l, (forall th, f th = g th + h th) -> cnt f l = cnt g l + cnt h l.
Proof. intros f g h l H. induction l as [|x l IH]; simpl; auto. rewrite H. lia. Qed.
Lemma cnt_In : forall f l i th, nth_error l i = Some th -> f th <= cnt f l.
Proof.
  induction l as [|x l IH]; intros [|i] th H; simpl in *; try discriminate.
  - injection H as ->. lia.
  - specialize (IH _ _ H). lia.
Qed.
Lemma cnt_0_In : forall f l i th, cnt f l = 0 -> nth_error l i = Some th -> f th = 0.
Proof. intros f l i th H H1. pose proof (cnt_In f l i th H1). lia. Qed.
Lemma cnt_pos : forall f l, 0 < cnt f l -> exists i th, nth_error l i = Some th /\ 0 < f th.
Proof.
  induction l as [|x l IH]; simpl; intros H; [lia|].
  destruct (f x) as [|k] eqn:E.
  - destruct IH as (i & th & H1 & H2); [lia|]. exists (S i), th. auto.
  - exists 0, x. split; auto. lia.
Qed.
Lemma cnt_le : forall f g l, (forall th, f th <= g th) -> cnt f l <= cnt g l.
Proof. intros f g l H. induction l as [|x l IH]; simpl; auto. specialize (H x). lia. Qed.
Lemma cnt_app : forall f l k, cnt f (l ++ k) = cnt f l + cnt f k.
Proof. intros f l k. induction l as [|x l IH]; simpl; auto. lia. Qed.
Lemma cnt_repeat : forall f th n, cnt f (repeat th n) = n * f th.
Proof. intros f th n. induction n as [|n IH]; simpl; auto. Qed.

(** collecting what threads carry *)
Lemma flat_upd : forall A (f : thread -> list A) l i th th', nth_error l i = Some th ->
  Permutation (f th ++ flat_map f (upd l i th')) (f th' ++ flat_map f l).
Proof.
  induction l as [|x l IH]; intros [|i] th th' H; simpl in *; try discriminate.
  - injection H as ->. rewrite !app_assoc. apply Permutation_app_tail. apply Permutation_app_comm.
  - specialize (IH _ _ th' H). rewrite !app_assoc.
    etransitivity; [apply Permutation_app_tail, Permutation_app_comm|].
    etransitivity; [|apply Permutation_app_tail, Permutation_app_comm].
    rewrite <- !app_assoc. apply Permutation_app_head. exact IH.
Qed.
Lemma flat_map_map : forall A (f : thread -> list A) g l, (forall th, f (g th) = f th) ->
  flat_map f (map g l) = flat_map f l.
Proof. intros A f g l H. induction l; simpl; auto. rewrite H, IHl. auto. Qed.

(** ** Classes of threads *)
Definition b2n (b : bool) : nat := if b then 1 else 0.
Definition f_hold th := b2n match th with
  | Worker WCheck _ | Worker NHold _ | Client DHold _ => true
  | _ => match sub th with EHold _ | AHold => true | _ => false end end.
Definition f_infl th := b2n match th with
  | Worker (WRun _) _ | Worker (WPush _) _ | Worker WCb _ | Worker WDec _ => true | _ => false end.
Definition f_alive th := b2n match th with Worker WExit _ => false | Worker _ _ => true | _ => false end.
Definition f_awake th := b2n match th with
  | Worker WExit _ | Worker WBlocked _ => false | Worker _ _ => true | _ => false end.
Definition f_blk th := b2n match th with Worker WBlocked _ => true | _ => false end.
Definition f_enot th := b2n match sub th with ENotify => true | _ => false end.
Definition f_ntf th := b2n match th with Worker NLock _ | Worker NHold _ => true | _ => false end.
Definition f_abl th := b2n match sub th with ABlocked => true | _ => false end.
Definition f_dtor th := b2n match th with Client CIdle _ => false | Client _ _ => true | _ => false end.
Definition f_stopd th := b2n match th with
  | Client DNotify _ | Client (DJoin _) _ | Client DDone _ => true | _ => false end.
Definition f_join th := b2n match th with Client (DJoin _) _ | Client DDone _ => true | _ => false end.
Definition f_ccall th := b2n match th with Client _ NoCall => false | Client _ _ => true | _ => false end.

Definition wf th : Prop :=
  match th with
  | Worker _ NoCall => True | Worker (WRun _) _ => True | Worker _ _ => False
  | Client _ NoCall => True | Client CIdle _ => True | Client _ _ => False
  end.
Definition is_worker th : bool := match th with Worker _ _ => true | _ => false end.
Definition exited s j : Prop := exists c, nth_error (p_threads s) j = Some (Worker WExit c).

Definition held (m : option nat) : nat := match m with None => 0 | Some _ => 1 end.

Record inv s : Prop := {
  i_n : 1 <= p_n s;
  i_wf : forall i th, nth_error (p_threads s) i = Some th -> wf th;
  i_kind : forall i th, nth_error (p_threads s) i = Some th -> is_worker th = (i <? p_n s);
  i_len : p_n s <= length (p_threads s);
  i_mutex : cnt f_hold (p_threads s) = held (p_mutex s);
  i_owner : forall i, p_mutex s = Some i -> exists th, nth_error (p_threads s) i = Some th /\ f_hold th = 1;
  i_infl : p_inflight s = cnt f_infl (p_threads s);
  i_alive : b2n (p_stop s) = 0 -> cnt f_alive (p_threads s) = p_n s;
  i_dead : cnt f_alive (p_threads s) = 0 -> length (p_tasks s) = 0;
  i_awake : 0 < length (p_tasks s) -> 0 < cnt f_awake (p_threads s) + cnt f_enot (p_threads s);
  i_wait : 0 < cnt f_abl (p_threads s) ->
           0 < length (p_tasks s) + p_inflight s + cnt f_ntf (p_threads s);
  i_dtor : cnt f_dtor (p_threads s) = b2n (p_destroying s);
  i_stopd : cnt f_stopd (p_threads s) = b2n (p_stop s);
  i_join : 0 < cnt f_join (p_threads s) -> cnt f_blk (p_threads s) = 0;
  i_ccall : b2n (p_destroying s) = 1 -> cnt f_ccall (p_threads s) = 0;
  i_joined : forall i k c, nth_error (p_threads s) i = Some (Client (DJoin k) c) ->
             k <= p_n s /\ forall j, j < k -> exited s j;
  i_done : forall i c, nth_error (p_threads s) i = Some (Client DDone c) ->
           forall j, j < p_n s -> exited s j
}.

(** a thread whose own code is running, inside call [c] *)
Definition mkth (b : option Tsk) (c : call) : thread :=
  match b with Some t => Worker (WRun t) c | None => Client CIdle c end.

Lemma wf_sub : forall th, wf th -> sub th <> NoCall -> exists b, th = mkth b (sub th).
Proof.
  intros [p c|p c] H Hc; simpl in *.
  - destruct p; destruct c; try contradiction; exists (Some t); auto.
  - destruct p; destruct c; try contradiction; exists None; auto.
Qed.

(** ** The transitions, as a relation: one constructor per kind of step *)
Inductive pstep s : bool -> list event -> pool -> Prop :=
| P_acq : forall i th th', p_mutex s = None -> nth_error (p_threads s) i = Some th ->
    In (th, th') [(Worker WLock NoCall, Worker WCheck NoCall); (Worker NLock NoCall, Worker NHold NoCall);
                  (Client DLock NoCall, Client DHold NoCall)] ->
    pstep s true [] (with_mutex (set_thread s i th') (Some i))
| P_acq_e : forall i b t, p_mutex s = None -> nth_error (p_threads s) i = Some (mkth b (ELock t)) ->
    pstep s true [] (with_mutex (set_thread s i (mkth b (EHold t))) (Some i))
| P_acq_a : forall i b, p_mutex s = None -> nth_error (p_threads s) i = Some (mkth b ALock) ->
    pstep s true [] (with_mutex (set_thread s i (mkth b AHold)) (Some i))
| P_exit : forall i, nth_error (p_threads s) i = Some (Worker WCheck NoCall) ->
    p_stop s = true -> p_tasks s = [] ->
    pstep s true [EvExit i] (with_mutex (set_thread s i (Worker WExit NoCall)) None)
| P_pop : forall i t q, nth_error (p_threads s) i = Some (Worker WCheck NoCall) ->
    p_tasks s = t :: q ->
    pstep s true [EvStart i t] (with_inflight (with_tasks (with_mutex
       (set_thread s i (Worker (WRun t) NoCall)) None) q) (S (p_inflight s)))
| P_block : forall i, nth_error (p_threads s) i = Some (Worker WCheck NoCall) ->
    p_stop s = false -> p_tasks s = [] ->
    pstep s true [] (with_mutex (set_thread s i (Worker WBlocked NoCall)) None)
| P_push : forall i e, nth_error (p_threads s) i = Some (Worker (WPush e) NoCall) ->
    pstep s true [EvRecord e] (with_excs (set_thread s i (Worker WCb NoCall)) (p_excs s ++ [e]))
| P_cb : forall i, nth_error (p_threads s) i = Some (Worker WCb NoCall) ->
    pstep s true [] (set_thread s i (Worker WDec NoCall))
| P_dec : forall i k, nth_error (p_threads s) i = Some (Worker WDec NoCall) -> k = p_inflight s - 1 ->
    pstep s true [] (with_inflight (set_thread s i (Worker (if Nat.eqb k 0 then NLock else WLock) NoCall)) k)
| P_ntf : forall i, nth_error (p_threads s) i = Some (Worker NHold NoCall) -> p_tasks s = [] ->
    pstep s true [] (with_threads (with_mutex s None)
       (map wake_waiter (upd (p_threads s) i (Worker WLock NoCall))))
| P_nontf : forall i, nth_error (p_threads s) i = Some (Worker NHold NoCall) -> 0 < length (p_tasks s) ->
    pstep s true [] (with_mutex (set_thread s i (Worker WLock NoCall)) None)
| P_stop : forall i, nth_error (p_threads s) i = Some (Client DHold NoCall) ->
    pstep s true [] (with_stop (with_mutex (set_thread s i (Client DNotify NoCall)) None))
| P_dnot : forall i, nth_error (p_threads s) i = Some (Client DNotify NoCall) ->
    pstep s true [] (with_threads s (map wake_worker (upd (p_threads s) i (Client (DJoin 0) NoCall))))
| P_ret : forall i, nth_error (p_threads s) i = Some (Client (DJoin (p_n s)) NoCall) ->
    pstep s true [EvDtorRet] (set_thread s i (Client DDone NoCall))
| P_join : forall i k, nth_error (p_threads s) i = Some (Client (DJoin k) NoCall) -> k <> p_n s ->
    exited s k -> pstep s true [] (set_thread s i (Client (DJoin (S k)) NoCall))
| P_enq : forall i b t, nth_error (p_threads s) i = Some (mkth b (EHold t)) ->
    pstep s true [EvEnq t] (with_tasks (with_mutex (set_thread s i (mkth b ENotify)) None) (p_tasks s ++ [t]))
| P_wret : forall i b, nth_error (p_threads s) i = Some (mkth b AHold) ->
    p_tasks s = [] -> p_inflight s = 0 ->
    pstep s true [EvWaitRet i] (with_mutex (set_thread s i (mkth b NoCall)) None)
| P_wblk : forall i b, nth_error (p_threads s) i = Some (mkth b AHold) ->
    0 < length (p_tasks s) + p_inflight s ->
    pstep s true [] (with_mutex (set_thread s i (mkth b ABlocked)) None)
| P_fin : forall i t o, nth_error (p_threads s) i = Some (Worker (WRun t) NoCall) ->
    pstep s true [EvEnd i t o]
      (set_thread s i (Worker (match o with None => WDec | Some e => WPush e end) NoCall))
| P_not1 : forall i b j c, nth_error (p_threads s) i = Some (mkth b ENotify) ->
    nth_error (upd (p_threads s) i (mkth b NoCall)) j = Some (Worker WBlocked c) ->
    pstep s true [] (set_thread (set_thread s i (mkth b NoCall)) j (Worker WLock c))
| P_not0 : forall i b, nth_error (p_threads s) i = Some (mkth b ENotify) ->
    cnt f_blk (p_threads s) = 0 -> pstep s true [] (set_thread s i (mkth b NoCall))
| P_spw : forall i c, nth_error (p_threads s) i = Some (Worker WBlocked c) ->
    pstep s false [] (set_thread s i (Worker WLock c))
| P_spa : forall i b, nth_error (p_threads s) i = Some (mkth b ABlocked) ->
    pstep s false [] (set_thread s i (mkth b ALock))
| P_cenq : forall i b t, nth_error (p_threads s) i = Some (mkth b NoCall) ->
    (b = None -> p_destroying s = false) -> pstep s false [] (set_thread s i (mkth b (ELock t)))
| P_cwait : forall i b, nth_error (p_threads s) i = Some (mkth b NoCall) ->
    (b = None -> p_destroying s = false) -> pstep s false [EvWaitCall i] (set_thread s i (mkth b ALock))
| P_cdtor : forall i, nth_error (p_threads s) i = Some (Client CIdle NoCall) ->
    p_destroying s = false -> cnt f_ccall (p_threads s) = 0 ->
    pstep s false [EvDtorCall] (with_destroying (set_thread s i (Client DLock NoCall)))
| P_take : forall e es, p_excs s = e :: es -> pstep s false [EvTake e] (with_excs s es)
| P_take0 : p_excs s = [] -> pstep s false [EvTakeNull] s
| P_clear : pstep s false [EvClear (p_excs s)] (with_excs s []).

Definition internal (a : action) : bool :=
  match a with AAcquire _ | AStep _ | AFinish _ _ | ANotify _ _ => true | _ => false end.

Lemma existsb_cnt : forall (f : thread -> bool) l, existsb f l = false -> cnt (fun th => b2n (f th)) l = 0.
Proof.
  induction l as [|x l IH]; simpl; intros H; auto. apply orb_false_iff in H. destruct H as [-> H].
  rewrite IH; auto.
Qed.

Lemma may_call_mk : forall s th, may_call s th = true ->
  exists b, th = mkth b NoCall /\ (b = None -> p_destroying s = false).
Proof.
  intros s [p c|p c] H; simpl in H.
  - destruct p; try discriminate. destruct c; try discriminate. exists (Some t). split; auto. discriminate.
  - destruct p; try discriminate. destruct c; try discriminate. exists None. split; auto.
    intros _. destruct (p_destroying s); auto; discriminate.
Qed.

Lemma set_sub_mk : forall b c c', set_sub (mkth b c) c' = mkth b c'.
Proof. intros [t|] c c'; reflexivity. Qed.
Lemma sub_mk : forall b c, sub (mkth b c) = c.
Proof. intros [t|] c; reflexivity. Qed.

Ltac subcase W th Hs :=
  let b := fresh "b" in let E := fresh "E" in
  destruct (wf_sub th W ltac:(congruence)) as [b E]; rewrite Hs in E; subst th;
  rewrite ?set_sub_mk, ?sub_mk in *.

Lemma act_pstep : forall s a s' evs, (forall i th, nth_error (p_threads s) i = Some th -> wf th) ->
  act s a = Some (s', evs) -> pstep s (internal a) evs s'.
Proof.
  intros s a s' evs HW H. destruct a as [i|i|i o|i k|i|i t|i|i|i|i]; simpl in H; unfold get_thread in H.
  - destruct (p_mutex s) eqn:M; [discriminate|].
    destruct (nth_error (p_threads s) i) as [th|] eqn:E; [|discriminate]. pose proof (HW _ _ E) as W.
    destruct (acquire th) as [th'|] eqn:A; [|discriminate]. injection H as <- <-.
    destruct (sub th) eqn:Hs.
    + simpl. eapply P_acq; eauto. destruct th as [[]|[]]; simpl in A, Hs; subst; try discriminate;
        injection A as <-; simpl; auto.
    + subcase W th Hs. assert (th' = mkth b (EHold t)) as -> by (destruct b; simpl in *; congruence).
      apply P_acq_e; auto.
    + subcase W th Hs. destruct b; discriminate.
    + subcase W th Hs. destruct b; discriminate.
    + subcase W th Hs. assert (th' = mkth b AHold) as -> by (destruct b; simpl in *; congruence).
      apply P_acq_a; auto.
    + subcase W th Hs. destruct b; discriminate.
    + subcase W th Hs. destruct b; discriminate.
  - destruct (nth_error (p_threads s) i) as [th|] eqn:E; [|discriminate]. pose proof (HW _ _ E) as W.
    destruct (sub th) eqn:Hs.
    + destruct th as [[] []|[] []]; simpl in H, Hs; try discriminate.
      * destruct (p_stop s) eqn:St; simpl in H.
        { destruct (p_tasks s) eqn:Q; injection H as <- <-; [eapply P_exit; eauto|eapply P_pop; eauto]. }
        { destruct (p_tasks s) eqn:Q; simpl in H; injection H as <- <-; [eapply P_block; eauto|eapply P_pop; eauto]. }
      * injection H as <- <-. eapply P_push; eauto.
      * injection H as <- <-. eapply P_cb; eauto.
      * injection H as <- <-. eapply P_dec; eauto.
      * destruct (p_tasks s) eqn:Q; injection H as <- <-.
        { eapply (P_ntf s i); eauto. }
        { eapply P_nontf; eauto. rewrite Q. simpl. lia. }
      * injection H as <- <-. eapply P_stop; eauto.
      * injection H as <- <-. eapply P_dnot; eauto.
      * destruct (Nat.eqb_spec k (p_n s)) as [->|Hk].
        { injection H as <- <-. apply P_ret; auto. }
        { unfold get_thread in H. destruct (nth_error (p_threads s) k) as [[[] c'|]|] eqn:E'; try discriminate.
          injection H as <- <-. eapply P_join; eauto. exists c'; auto. }
    + subcase W th Hs. destruct b; discriminate.
    + subcase W th Hs. assert (H' : Some (with_tasks (with_mutex (set_thread s i (mkth b ENotify)) None) (p_tasks s ++ [t]), [EvEnq t]) = Some (s', evs))
        by (destruct b; exact H). injection H' as <- <-. apply P_enq; auto.
    + subcase W th Hs. destruct b; discriminate.
    + subcase W th Hs. destruct b; discriminate.
    + subcase W th Hs.
      assert (H' : (if match p_tasks s with [] => true | _ => false end && Nat.eqb (p_inflight s) 0
          then Some (with_mutex (set_thread s i (mkth b NoCall)) None, [EvWaitRet i])
          else Some (with_mutex (set_thread s i (mkth b ABlocked)) None, [])) = Some (s', evs))
        by (destruct b; exact H). clear H.
      destruct (p_tasks s) eqn:Q; simpl in H'.
      * destruct (Nat.eqb_spec (p_inflight s) 0); injection H' as <- <-.
        { apply P_wret; auto. }
        { apply P_wblk; auto. lia. }
      * injection H' as <- <-. apply P_wblk; auto. rewrite Q. simpl. lia.
    + subcase W th Hs. destruct b; discriminate.
  - destruct (nth_error (p_threads s) i) as [[[] []|]|] eqn:E; try discriminate. injection H as <- <-.
    apply P_fin; auto.
  - destruct (nth_error (p_threads s) i) as [th|] eqn:E; [|discriminate]. pose proof (HW _ _ E) as W.
    destruct (sub th) eqn:Hs; try discriminate. subcase W th Hs. destruct k as [j|].
    + destruct (nth_error (p_threads s) j) as [[[] c|]|] eqn:E'; try discriminate. injection H as <- <-.
      eapply P_not1; eauto. rewrite nth_error_upd_neq; auto. intros ->. rewrite E in E'. destruct b; discriminate.
    + destruct (existsb is_blocked (p_threads s)) eqn:B; [discriminate|]. injection H as <- <-.
      apply P_not0; auto. apply existsb_cnt in B. rewrite <- B. clear. induction (p_threads s) as [|x l IH]; simpl; auto.
  - destruct (nth_error (p_threads s) i) as [th|] eqn:E; [|discriminate]. pose proof (HW _ _ E) as W.
    destruct (sub th) eqn:Hs.
    2,3,4,5,6: subcase W th Hs; destruct b; discriminate.
    + destruct th as [[] []|[] []]; simpl in H, Hs; try discriminate. injection H as <- <-. eapply P_spw; eauto.
    + subcase W th Hs. assert (H' : Some (set_thread s i (mkth b ALock), @nil event) = Some (s', evs))
        by (destruct b; exact H). injection H' as <- <-. apply P_spa; auto.
  - destruct (nth_error (p_threads s) i) as [th|] eqn:E; [|discriminate].
    destruct (may_call s th) eqn:M; [|discriminate]. apply may_call_mk in M. destruct M as (b & -> & Hb).
    injection H as <- <-. rewrite set_sub_mk. apply P_cenq; auto.
  - destruct (nth_error (p_threads s) i) as [th|] eqn:E; [|discriminate].
    destruct (may_call s th) eqn:M; [|discriminate]. apply may_call_mk in M. destruct M as (b & -> & Hb).
    injection H as <- <-. rewrite set_sub_mk. apply P_cwait; auto.
  - destruct (nth_error (p_threads s) i) as [[|[] []]|] eqn:E; try discriminate.
    destruct (p_destroying s) eqn:D; [discriminate|]. simpl in H.
    destruct (existsb calling (p_threads s)) eqn:B; [discriminate|]. injection H as <- <-.
    apply P_cdtor; auto. apply existsb_cnt in B.
    assert (G : cnt f_ccall (p_threads s) <= cnt (fun th => b2n (calling th)) (p_threads s)).
    { apply cnt_le. intros [p c|p c]; simpl; auto. destruct p; destruct c; simpl; auto. }
    lia.
  - destruct (nth_error (p_threads s) i) as [th|] eqn:E; [|discriminate].
    destruct (may_call s th) eqn:M; [|discriminate]. destruct (p_excs s) as [|e es] eqn:X; injection H as <- <-.
    + apply P_take0; auto.
    + apply P_take; auto.
  - destruct (nth_error (p_threads s) i) as [th|] eqn:E; [|discriminate].
    destruct (may_call s th) eqn:M; [|discriminate]. injection H as <- <-. apply P_clear.
Qed.

(** ** How the list of threads evolves in one step *)
Definition is_exit th : Prop := match th with Worker WExit _ => True | _ => False end.
Definition join_ok s th : Prop :=
  match th with
  | Client (DJoin k) _ => k <= p_n s /\ forall j, j < k -> exited s j
  | Client DDone _ => forall j, j < p_n s -> exited s j
  | _ => True
  end.
Definition ok s th1 th2 : Prop :=
  wf th2 /\ is_worker th2 = is_worker th1 /\ (is_exit th1 -> is_exit th2) /\ join_ok s th2.
Definition evolve s l' : Prop :=
  length l' = length (p_threads s) /\
  forall j th2, nth_error l' j = Some th2 ->
    exists th1, nth_error (p_threads s) j = Some th1 /\ ok s th1 th2.

Lemma ok_refl : forall s i th, inv s -> nth_error (p_threads s) i = Some th -> ok s th th.
Proof.
  intros s i th H E. split; [eapply i_wf; eauto|]. split; auto. split; auto.
  destruct th as [|[] c]; simpl; auto.
  - eapply i_joined; eauto.
  - eapply i_done; eauto.
Qed.
Lemma evolve_refl : forall s, inv s -> evolve s (p_threads s).
Proof. intros s H. split; auto. intros j th E. exists th. split; auto. eapply ok_refl; eauto. Qed.
Lemma evolve_upd : forall s l i th1 th', evolve s l -> nth_error (p_threads s) i = Some th1 ->
  ok s th1 th' -> evolve s (upd l i th').
Proof.
  intros s l i th1 th' [HL HE] E HO. split; [rewrite upd_length; auto|].
  intros j th2. rewrite nth_error_upd. destruct (Nat.eqb_spec i j) as [->|Hne].
  - destruct (Nat.ltb_spec j (length l)); [|discriminate]. intros G. injection G as <-. eauto.
  - apply HE.
Qed.
Lemma evolve_map : forall s l g, evolve s l -> (forall th1 th2, ok s th1 th2 -> ok s th1 (g th2)) ->
  evolve s (map g l).
Proof.
  intros s l g [HL HE] Hg. split; [rewrite map_length; auto|]. intros j th2 E.
  rewrite nth_error_map in E. destruct (nth_error l j) as [x|] eqn:F; [|discriminate]. injection E as <-.
  destruct (HE j x F) as (th1 & H1 & H2). exists th1. split; auto.
Qed.
Lemma ok_wake_waiter : forall s th1 th2, ok s th1 th2 -> ok s th1 (wake_waiter th2).
Proof.
  intros s th1 th2 (H1 & H2 & H3 & H4). unfold ok.
  destruct th2 as [p c|p c]; destruct p; destruct c; simpl in *; try contradiction; auto.
Qed.
Lemma ok_wake_worker : forall s th1 th2, ok s th1 th2 -> ok s th1 (wake_worker th2).
Proof.
  intros s th1 th2 (H1 & H2 & H3 & H4). unfold ok.
  destruct th2 as [p c|p c]; destruct p; destruct c; simpl in *; try contradiction; auto 6.
Qed.

Lemma exited_evolve : forall s s' j, evolve s (p_threads s') -> exited s j -> exited s' j.
Proof.
  intros s s' j [HL HE] [c E].
  assert (Hj : j < length (p_threads s')) by (rewrite HL; apply nth_error_Some; congruence).
  destruct (nth_error_lt _ (p_threads s') j Hj) as [th2 E2]. destruct (HE _ _ E2) as (th1 & E1 & _ & _ & Hx & _).
  rewrite E in E1. injection E1 as <-. specialize (Hx I). destruct th2 as [[] c'|]; try contradiction.
  exists c'; auto.
Qed.

Lemma inv_intro : forall s s', inv s -> evolve s (p_threads s') -> p_n s' = p_n s ->
  cnt f_hold (p_threads s') = held (p_mutex s') ->
  (forall i, p_mutex s' = Some i -> exists th, nth_error (p_threads s') i = Some th /\ f_hold th = 1) ->
  p_inflight s' = cnt f_infl (p_threads s') ->
  (b2n (p_stop s') = 0 -> cnt f_alive (p_threads s') = p_n s') ->
  (cnt f_alive (p_threads s') = 0 -> length (p_tasks s') = 0) ->
  (0 < length (p_tasks s') -> 0 < cnt f_awake (p_threads s') + cnt f_enot (p_threads s')) ->
  (0 < cnt f_abl (p_threads s') -> 0 < length (p_tasks s') + p_inflight s' + cnt f_ntf (p_threads s')) ->
  cnt f_dtor (p_threads s') = b2n (p_destroying s') ->
  cnt f_stopd (p_threads s') = b2n (p_stop s') ->
  (0 < cnt f_join (p_threads s') -> cnt f_blk (p_threads s') = 0) ->
  (b2n (p_destroying s') = 1 -> cnt f_ccall (p_threads s') = 0) ->
  inv s'.
Proof.
  intros s s' H EV Hn. intros. pose proof EV as [HL HE]. constructor; auto.
  - rewrite Hn. apply (i_n _ H).
  - intros i th E. destruct (HE _ _ E) as (th1 & _ & W & _). auto.
  - intros i th E. destruct (HE _ _ E) as (th1 & E1 & _ & W & _). rewrite W, Hn. eapply i_kind; eauto.
  - rewrite Hn, HL. apply (i_len _ H).
  - intros i k c E. destruct (HE _ _ E) as (th1 & E1 & _ & _ & _ & J). simpl in J. rewrite Hn.
    split; [apply J|]. intros j Hj. eapply exited_evolve; eauto. apply J; auto.
  - intros i c E j Hj. destruct (HE _ _ E) as (th1 & E1 & _ & _ & _ & J). simpl in J. rewrite Hn in Hj.
    eapply exited_evolve; eauto.
Qed.

Lemma alive_split : forall l, cnt f_alive l = cnt f_awake l + cnt f_blk l.
Proof. intros l. apply cnt_add. intros [p c|p c]; [destruct p|]; reflexivity. Qed.
Lemma stopd_le : forall l, cnt f_stopd l <= cnt f_dtor l.
Proof. intros l. apply cnt_le. intros [p c|p c]; [|destruct p]; cbn; auto. Qed.
Lemma join_le : forall l, cnt f_join l <= cnt f_stopd l.
Proof. intros l. apply cnt_le. intros [p c|p c]; [|destruct p]; cbn; auto. Qed.

Lemma held_le : forall m, held m <= 1.
Proof. intros [k|]; simpl; lia. Qed.
Lemma b2n_le : forall b, b2n b <= 1.
Proof. intros []; simpl; lia. Qed.

Ltac uc f E th' :=
  let X := fresh "U" in pose proof (cnt_upd f _ _ _ th' E) as X;
  match type of X with _ + ?a = _ + ?b =>
    let a' := eval cbv in a in let b' := eval cbv in b in try change a with a' in X; try change b with b' in X end.
Ltac upd_counts E th' :=
  uc f_hold E th'; uc f_infl E th'; uc f_alive E th'; uc f_awake E th'; uc f_blk E th'; uc f_enot E th';
  uc f_ntf E th'; uc f_abl E th'; uc f_dtor E th'; uc f_stopd E th'; uc f_join E th'; uc f_ccall E th';
  match type of E with nth_error ?l ?i = _ =>
    pose proof (alive_split (upd l i th')); pose proof (stopd_le (upd l i th')); pose proof (join_le (upd l i th')) end.

Ltac inv_facts s H :=
  pose proof (held_le (p_mutex s)); pose proof (b2n_le (p_stop s)); pose proof (b2n_le (p_destroying s));
  pose proof (i_n _ H); pose proof (i_mutex _ H); pose proof (i_infl _ H);
  pose proof (i_alive _ H); pose proof (i_dead _ H); pose proof (i_awake _ H); pose proof (i_wait _ H);
  pose proof (i_dtor _ H); pose proof (i_stopd _ H); pose proof (i_join _ H); pose proof (i_ccall _ H);
  pose proof (alive_split (p_threads s)); pose proof (stopd_le (p_threads s)); pose proof (join_le (p_threads s)).

Ltac owner E :=
  let i := fresh "i" in let G := fresh "G" in
  intros i G; first [ discriminate G
    | injection G as <-; eexists; split; [apply nth_error_upd_eq; eapply nth_error_Some; rewrite E; discriminate|reflexivity] ].

Lemma owner_list : forall l i th th' k, nth_error l i = Some th -> f_hold th' = f_hold th ->
  (exists t, nth_error l k = Some t /\ f_hold t = 1) ->
  exists t, nth_error (upd l i th') k = Some t /\ f_hold t = 1.
Proof.
  intros l i th th' k E Hf (t & Ht & Hh). destruct (Nat.eq_dec i k) as [->|Hne].
  - exists th'. split; [apply nth_error_upd_eq; apply nth_error_Some; congruence|]. congruence.
  - exists t. split; auto. rewrite nth_error_upd_neq; auto.
Qed.
Lemma owner_upd : forall s i th th' k, inv s -> nth_error (p_threads s) i = Some th ->
  f_hold th' = f_hold th -> p_mutex s = Some k ->
  exists t, nth_error (upd (p_threads s) i th') k = Some t /\ f_hold t = 1.
Proof. intros s i th th' k H E Hf Hm. eapply owner_list; eauto. apply (i_owner _ H k Hm). Qed.

Ltac crunch := unfold set_thread, with_threads, with_mutex, with_tasks, with_inflight, with_excs, with_stop,
  with_destroying, exited in *; simpl in *.

Ltac least f E := let G := fresh "G" in pose proof (cnt_In f _ _ _ E) as G;
  match type of G with ?a <= _ => let a' := eval cbv in a in change a with a' in G end.
Ltac holder H E := least f_hold E.

Ltac ev H E := eapply evolve_upd; [apply evolve_refl; exact H|exact E|split; [exact I|split; [reflexivity|split; [intros []|exact I]]]].

Ltac owner_tac H E th' :=
  let G := fresh "G" in
  first [ solve [intros ? G; discriminate G]
        | solve [intros ? G; injection G as <-; eexists; split;
                 [apply nth_error_upd_eq; apply nth_error_Some; rewrite E; discriminate|reflexivity]]
        | solve [intros ? G; exact (owner_upd _ _ _ th' _ H E eq_refl G)] ].

Ltac nums := crunch; rewrite ?app_length in *; simpl in *; intros; try discriminate; try lia.

Ltac go H E := crunch;
  match goal with |- context [upd _ _ ?th'] =>
    upd_counts E th'; eapply inv_intro; [exact H|ev H E|reflexivity|..]; try (owner_tac H E th'); nums
  end.

Lemma inv_step : forall s b evs s', inv s -> pstep s b evs s' -> inv s'.
Proof.
  intros s b evs s' H P. inv_facts s H. destruct s as [n l q m st kk ex ds]. simpl in *.
  destruct P as [i th th' Mx E X|i b t Mx E|i b Mx E|i E St Q|i t q' E Q|i E St Q|i e E|i E|i k E Hk|i E Q|i E Q
    |i E|i E|i E|i k E Hk Hx|i b t E|i b E Q F|i b E F|i t o E|i b j c E E'|i b E B|i c E|i b E|i b t E D|i b E D
    |i E D C|e es X|X|]; simpl in *.
  - simpl in X. subst m. destruct X as [X|[X|[X|[]]]]; injection X as <- <-; go H E.
  - subst m. destruct b as [t0|]; go H E.
  - subst m. destruct b as [t0|]; go H E.
  - subst st q. holder H E. go H E.
  - subst q. holder H E. go H E.
  - subst st q. holder H E. go H E.
  - go H E.
  - go H E.
  - subst k. least f_infl E. destruct (Nat.eqb_spec (kk - 1) 0); go H E.
  - subst q. crunch. upd_counts E (Worker (Tsk := Tsk) (Exc := Exc) WLock NoCall).
    set (l' := upd l i (Worker WLock NoCall)) in *.
    assert (W : forall f : thread -> nat, (forall th, f (wake_waiter th) = f th) -> cnt f (map wake_waiter l') = cnt f l')
      by (intros; apply cnt_map; auto).
    assert (Z : cnt f_abl (map wake_waiter l') = 0).
    { rewrite (cnt_map_other f_abl wake_waiter (fun _ => 0)); [apply cnt_zero; auto|]. intros [p c|p c]; destruct c; reflexivity. }
    holder H E.
    eapply inv_intro; [exact H|apply evolve_map; [ev H E|apply ok_wake_waiter]|reflexivity|..]; simpl;
      rewrite ?(W f_hold), ?(W f_infl), ?(W f_alive), ?(W f_awake), ?(W f_enot), ?(W f_ntf), ?(W f_dtor),
        ?(W f_stopd), ?(W f_join), ?(W f_blk), ?(W f_ccall), ?Z;
      try (intros [p c|p c]; destruct p; destruct c; reflexivity); try (intros ? G'; discriminate G'); nums.
  - holder H E. go H E.
  - holder H E. least f_dtor E. go H E.
  - crunch. upd_counts E (Client (Tsk := Tsk) (Exc := Exc) (DJoin 0) NoCall).
    set (l' := upd l i (Client (DJoin 0) NoCall)) in *.
    assert (W : forall f : thread -> nat, (forall th, f (wake_worker th) = f th) -> cnt f (map wake_worker l') = cnt f l')
      by (intros; apply cnt_map; auto).
    assert (Z : cnt f_blk (map wake_worker l') = 0).
    { rewrite (cnt_map_other f_blk wake_worker (fun _ => 0)); [apply cnt_zero; auto|]. intros [p c|p c]; destruct p; reflexivity. }
    assert (Z' : cnt f_awake (map wake_worker l') = cnt f_alive l').
    { apply cnt_map_other. intros [p c|p c]; destruct p; reflexivity. }
    eapply inv_intro; [exact H|apply evolve_map; [|apply ok_wake_worker]|reflexivity|..]; simpl;
      rewrite ?(W f_hold), ?(W f_infl), ?(W f_alive), ?(W f_enot), ?(W f_ntf), ?(W f_dtor),
        ?(W f_stopd), ?(W f_join), ?(W f_abl), ?(W f_ccall), ?Z, ?Z';
      try (intros [p c|p c]; destruct p; destruct c; reflexivity); nums.
    + eapply evolve_upd; [apply evolve_refl; exact H|exact E|]. repeat split; auto; simpl; lia.
    + match goal with G : m = Some i0 |- _ => destruct (owner_upd _ _ _ (Client (DJoin 0) NoCall) i0 H E eq_refl G) as (t & Ht & Hh) end. simpl in Ht.
      exists (wake_worker t). rewrite nth_error_map. fold l' in Ht. rewrite Ht. split; auto.
      rewrite <- Hh. destruct t as [p c|p c]; destruct p; destruct c; reflexivity.
  - crunch. upd_counts E (Client (Tsk := Tsk) (Exc := Exc) DDone NoCall).
    eapply inv_intro; [exact H|eapply evolve_upd; [apply evolve_refl; exact H|exact E|]|reflexivity|..];
      try (owner_tac H E (Client (Tsk := Tsk) (Exc := Exc) DDone NoCall)); nums.
    split; [exact I|]. split; [reflexivity|]. split; [intros []|]. simpl. apply (i_joined _ H _ _ _ E).
  - crunch. upd_counts E (Client (Tsk := Tsk) (Exc := Exc) (DJoin (S k)) NoCall).
    eapply inv_intro; [exact H|eapply evolve_upd; [apply evolve_refl; exact H|exact E|]|reflexivity|..];
      try (owner_tac H E (Client (Tsk := Tsk) (Exc := Exc) (DJoin (S k)) NoCall)); nums.
    split; [exact I|]. split; [reflexivity|]. split; [intros []|]. simpl.
    destruct (i_joined _ H _ _ _ E) as [J1 J2]. simpl in J1. split; [lia|]. intros j Hj.
    destruct (Nat.eq_dec j k) as [->|]; [exact Hx|]. apply J2. lia.
  - destruct b as [t0|]; holder H E.
    + least f_alive E. go H E.
    + least f_ccall E. go H E.
  - subst q. destruct b as [t0|]; holder H E; go H E.
  - destruct b as [t0|]; holder H E; go H E.
  - destruct o as [e|]; go H E.
  - crunch. assert (Hij : i <> j).
    { intros ->. rewrite nth_error_upd_eq in E' by (apply nth_error_Some; congruence). destruct b; discriminate. }
    pose proof E' as E2. rewrite nth_error_upd_neq in E2 by auto.
    pose proof (i_wf _ H _ _ E2) as W. simpl in W. destruct c; try contradiction. clear W.
    destruct b as [t0|].
    + upd_counts E (Worker (Tsk := Tsk) (Exc := Exc) (WRun t0) NoCall). simpl in E'.
      upd_counts E' (Worker (Tsk := Tsk) (Exc := Exc) WLock NoCall).
      eapply inv_intro; [exact H|eapply evolve_upd; [ev H E|exact E2|repeat split; auto]|reflexivity|..]; nums.
      eapply owner_list; [exact E'|reflexivity|]. apply (owner_upd _ _ _ (Worker (WRun t0) NoCall) _ H E eq_refl). auto.
    + upd_counts E (Client (Tsk := Tsk) (Exc := Exc) CIdle NoCall). simpl in E'.
      upd_counts E' (Worker (Tsk := Tsk) (Exc := Exc) WLock NoCall).
      eapply inv_intro; [exact H|eapply evolve_upd; [ev H E|exact E2|repeat split; auto]|reflexivity|..]; nums.
      eapply owner_list; [exact E'|reflexivity|]. apply (owner_upd _ _ _ (Client CIdle NoCall) _ H E eq_refl). auto.
  - destruct b as [t0|]; go H E.
  - pose proof (i_wf _ H _ _ E) as W. simpl in W. destruct c; try contradiction. go H E.
  - destruct b as [t0|]; go H E.
  - destruct b as [t0|]; [|rewrite (D eq_refl) in *]; go H E.
  - destruct b as [t0|]; [|rewrite (D eq_refl) in *]; go H E.
  - subst ds. go H E.
  - eapply inv_intro; [exact H|apply (evolve_refl _ H)|reflexivity|..]; simpl; auto. apply (i_owner _ H).
  - exact H.
  - eapply inv_intro; [exact H|apply (evolve_refl _ H)|reflexivity|..]; simpl; auto. apply (i_owner _ H).
Qed.
End PoolProofs.
