(** * Theorems about the thread pool: C16, C17, C18, C19 *)

From Coq Require Import List Arith Bool Lia Permutation.
From Verif Require Import Base Pool_Model Pool_Proofs.
Import ListNotations.

(** ** Specification: projections of a trace of events *)
Section Spec.
Context {Tsk Exc : Type}.
Notation trace := (list (event Tsk Exc)).

(** tasks accepted by enqueue / started / ended, in the order in which that happened *)
Definition enqueued (tr : trace) : list Tsk :=
  flat_map (fun e => match e with EvEnq t => [t] | _ => [] end) tr.
Definition started (tr : trace) : list Tsk :=
  flat_map (fun e => match e with EvStart _ t => [t] | _ => [] end) tr.
Definition ended (tr : trace) : list Tsk :=
  flat_map (fun e => match e with EvEnd _ t _ => [t] | _ => [] end) tr.
(** started / ended by worker w *)
Definition started_by (w : nat) (tr : trace) : list Tsk :=
  flat_map (fun e => match e with EvStart i t => if Nat.eqb i w then [t] else [] | _ => [] end) tr.
Definition ended_by (w : nat) (tr : trace) : list Tsk :=
  flat_map (fun e => match e with EvEnd i t _ => if Nat.eqb i w then [t] else [] | _ => [] end) tr.
(** exceptions thrown by tasks / recorded / removed by get_exception or clear_exceptions *)
Definition thrown (tr : trace) : list Exc :=
  flat_map (fun e => match e with EvEnd _ _ (Some x) => [x] | _ => [] end) tr.
Definition recorded (tr : trace) : list Exc :=
  flat_map (fun e => match e with EvRecord x => [x] | _ => [] end) tr.
Definition removed (tr : trace) : list Exc :=
  flat_map (fun e => match e with EvTake x => [x] | EvClear xs => xs | _ => [] end) tr.
Definition wait_calls (i : nat) (tr : trace) : nat :=
  length (filter (fun e => match e with EvWaitCall j => Nat.eqb j i | _ => false end) tr).
Definition wait_rets (i : nat) (tr : trace) : nat :=
  length (filter (fun e => match e with EvWaitRet j => Nat.eqb j i | _ => false end) tr).

(** tasks inside their body in state [s], and in particular on worker w *)
Definition running_th (th : thread Tsk Exc) : list Tsk :=
  match th with Worker (WRun t) _ => [t] | _ => [] end.
Definition running (s : pool Tsk Exc) : list Tsk := flat_map running_th (p_threads s).
Definition running_on (w : nat) (s : pool Tsk Exc) : list Tsk :=
  match nth_error (p_threads s) w with Some th => running_th th | None => [] end.

(** a pool at rest: nothing queued or running, every worker asleep or ended, no call in progress *)
Definition at_rest (s : pool Tsk Exc) : Prop :=
  queued_tasks s = 0 /\ pending_tasks s = 0 /\ p_mutex s = None /\
  forall i th, nth_error (p_threads s) i = Some th ->
    th = Worker WBlocked NoCall \/ th = Worker WExit NoCall \/
    th = Client CIdle NoCall \/ th = Client DDone NoCall.

(** no task is inside wait_for_tasks *)
Definition no_task_waits (s : pool Tsk Exc) : Prop :=
  forall i p c, nth_error (p_threads s) i = Some (Worker p c) -> c <> ALock /\ c <> AHold /\ c <> ABlocked.

(** one step of library code or of a running task (ending), as opposed to a new call by client code or
    a spurious wake-up *)
Definition istep (s s' : pool Tsk Exc) : Prop :=
  exists a evs, internal a = true /\ act s a = Some (s', evs).

(** k internal steps lead from s to s' *)
Inductive isteps : nat -> pool Tsk Exc -> pool Tsk Exc -> Prop :=
| is_0 : forall s, isteps 0 s s
| is_S : forall k s s1 s2, istep s s1 -> isteps k s1 s2 -> isteps (S k) s s2.

(** no internal step is possible *)
Definition stuck (s : pool Tsk Exc) : Prop := forall s', ~ istep s s'.
End Spec.

Section Proofs.
Context {Tsk Exc : Type}.
Notation thread := (thread Tsk Exc).
Notation pool := (pool Tsk Exc).
Notation event := (event Tsk Exc).
Implicit Types (s : pool) (th : thread) (l : list thread) (tr : list event).

Lemma nth_repeat_app : forall A (x y : A) n m i z, nth_error (repeat x n ++ repeat y m) i = Some z ->
  (i < n /\ z = x) \/ (n <= i /\ z = y).
Proof.
  intros A x y n m i z H. destruct (Nat.lt_ge_cases i n) as [Hlt|Hge].
  - rewrite nth_error_app1 in H by (rewrite repeat_length; auto). apply nth_error_In, repeat_spec in H. auto.
  - rewrite nth_error_app2 in H by (rewrite repeat_length; auto). apply nth_error_In, repeat_spec in H. auto.
Qed.

Lemma inv_init : forall n m s, @pool_ctor Tsk Exc n m = Ok s -> inv s.
Proof.
  intros n m s H. unfold pool_ctor in H. destruct (Nat.eqb_spec n 0) as [|Hn]; [discriminate|]. injection H as <-.
  constructor; cbn [p_n p_threads p_tasks p_mutex p_stop p_inflight p_excs p_destroying];
    rewrite ?cnt_app, ?cnt_repeat; cbn; try lia.
  - intros i th E. apply nth_repeat_app in E. destruct E as [[_ ->]|[_ ->]]; exact I.
  - intros i th E. apply nth_repeat_app in E. destruct E as [[? ->]|[? ->]]; simpl; symmetry;
      [apply Nat.ltb_lt|apply Nat.ltb_ge]; auto.
  - rewrite app_length, repeat_length. lia.
  - discriminate.
  - intros i k c E. apply nth_repeat_app in E. destruct E as [[_ E]|[_ E]]; discriminate.
  - intros i c E. apply nth_repeat_app in E. destruct E as [[_ E]|[_ E]]; discriminate.
Qed.

Lemma exec_inv : forall n m tr s, exec n m tr s -> inv s.
Proof.
  intros n m tr s H. induction H as [s H|tr s a s' evs H IH HA]; [eapply inv_init; eauto|].
  eapply inv_step; eauto. eapply act_pstep; eauto. apply (i_wf _ IH).
Qed.

(** ** History *)
Definition pushing th : list Exc := match th with Worker (WPush e) _ => [e] | _ => [] end.
Definition waiting th : nat := match sub th with ALock | AHold | ABlocked => 1 | _ => 0 end.
Definition waiting_on s i : nat := match nth_error (p_threads s) i with Some th => waiting th | None => 0 end.

Definition is_exit th : Prop := match th with Worker WExit _ => True | _ => False end.

Record hist n m tr s : Prop := {
  h_n : p_n s = n;
  h_len : length (p_threads s) = n + m;
  h_fifo : enqueued tr = started tr ++ p_tasks s;
  h_run : Permutation (started tr) (ended tr ++ running s);
  h_by : forall w, started_by w tr = ended_by w tr ++ running_on w s;
  h_rec : recorded tr = removed tr ++ p_excs s;
  h_thr : Permutation (thrown tr) (recorded tr ++ flat_map pushing (p_threads s));
  h_wait : forall i, wait_calls i tr = wait_rets i tr + waiting_on s i;
  h_exit : forall w, In (EvExit w) tr -> p_stop s = true;
  h_exited : forall w, exited s w -> In (EvExit w) tr;
  h_dtor : p_destroying s = true -> In EvDtorCall tr;
  h_dtor2 : In EvDtorCall tr -> p_destroying s = true;
  h_ret : In EvDtorRet tr -> forall j, j < n -> exited s j;
  h_ret2 : forall i c, nth_error (p_threads s) i = Some (Client DDone c) -> In EvDtorRet tr
}.

Lemma hist_init : forall n m s, pool_ctor n m = Ok s -> hist n m [] s.
Proof.
  intros n m s H. unfold pool_ctor in H. destruct (Nat.eqb_spec n 0) as [|Hn]; [discriminate|]. injection H as <-.
  assert (R : forall A (f : thread -> list A), f (Worker WLock NoCall) = [] -> f (Client CIdle NoCall) = [] ->
     flat_map f (repeat (Worker WLock NoCall) n ++ repeat (Client CIdle NoCall) m) = []).
  { intros A f H1 H2. rewrite flat_map_app.
    assert (G : forall th k, f th = [] -> flat_map f (repeat th k) = []).
    { intros th k Hf. induction k; simpl; auto. rewrite Hf. auto. }
    rewrite !G; auto. }
  constructor; simpl; auto; try discriminate.
  - rewrite app_length, !repeat_length. auto.
  - unfold running. simpl. rewrite R; auto.
  - intros w. unfold running_on. simpl. destruct (nth_error _ w) as [th|] eqn:E; auto.
    apply nth_repeat_app in E. destruct E as [[_ ->]|[_ ->]]; auto.
  - rewrite R; auto.
  - intros i. unfold waiting_on. simpl. destruct (nth_error _ i) as [th|] eqn:E; auto.
    apply nth_repeat_app in E. destruct E as [[_ ->]|[_ ->]]; auto.
  - intros w [c E]. simpl in E. apply nth_repeat_app in E. destruct E as [[_ E]|[_ E]]; discriminate.
  - intros [].
  - intros i c E. apply nth_repeat_app in E. destruct E as [[_ E]|[_ E]]; discriminate.
Qed.

Lemma enq_app : forall tr k, enqueued (tr ++ k) = enqueued tr ++ enqueued k.
Proof. intros. apply flat_map_app. Qed.
Lemma sta_app : forall tr k, started (tr ++ k) = started tr ++ started k.
Proof. intros. apply flat_map_app. Qed.
Lemma end_app : forall tr k, ended (tr ++ k) = ended tr ++ ended k.
Proof. intros. apply flat_map_app. Qed.
Lemma sby_app : forall w tr k, started_by w (tr ++ k) = started_by w tr ++ started_by w k.
Proof. intros. apply flat_map_app. Qed.
Lemma eby_app : forall w tr k, ended_by w (tr ++ k) = ended_by w tr ++ ended_by w k.
Proof. intros. apply flat_map_app. Qed.
Lemma thr_app : forall tr k, thrown (tr ++ k) = thrown tr ++ thrown k.
Proof. intros. apply flat_map_app. Qed.
Lemma rec_app : forall tr k, recorded (tr ++ k) = recorded tr ++ recorded k.
Proof. intros. apply flat_map_app. Qed.
Lemma rem_app : forall tr k, removed (tr ++ k) = removed tr ++ removed k.
Proof. intros. apply flat_map_app. Qed.
Lemma wc_app : forall i tr k, wait_calls i (tr ++ k) = wait_calls i tr + wait_calls i k.
Proof. intros. unfold wait_calls. rewrite filter_app, app_length. auto. Qed.
Lemma wr_app : forall i tr k, wait_rets i (tr ++ k) = wait_rets i tr + wait_rets i k.
Proof. intros. unfold wait_rets. rewrite filter_app, app_length. auto. Qed.

Lemma hist_upd : forall n m tr s s' i th th' evs,
  hist n m tr s -> nth_error (p_threads s) i = Some th -> p_threads s' = upd (p_threads s) i th' ->
  p_n s' = p_n s ->
  p_tasks s ++ enqueued evs = started evs ++ p_tasks s' ->
  Permutation (running_th th ++ started evs) (ended evs ++ running_th th') ->
  (forall w, w <> i -> started_by w evs = [] /\ ended_by w evs = []) ->
  running_th th ++ started_by i evs = ended_by i evs ++ running_th th' ->
  p_excs s ++ recorded evs = removed evs ++ p_excs s' ->
  Permutation (pushing th ++ thrown evs) (recorded evs ++ pushing th') ->
  (forall j, wait_calls j evs + (if Nat.eqb j i then waiting th else 0) =
             wait_rets j evs + (if Nat.eqb j i then waiting th' else 0)) ->
  (p_stop s = true -> p_stop s' = true) ->
  (forall w, In (EvExit w) evs -> p_stop s' = true) ->
  (is_exit th' -> is_exit th \/ In (EvExit i) evs) ->
  (is_exit th -> is_exit th') ->
  (p_destroying s' = true -> p_destroying s = true \/ In EvDtorCall evs) ->
  (p_destroying s = true \/ In EvDtorCall evs -> p_destroying s' = true) ->
  (In EvDtorRet evs -> forall j, j < n -> exited s j) ->
  (forall c, th' = Client DDone c -> (exists c', th = Client DDone c') \/ In EvDtorRet evs) ->
  hist n m (tr ++ evs) s'.
Proof.
  intros n m tr s s' i th th' evs H E Hl Hn C1 C2 C3a C3b C4 C5 C6 C7 C8 C9 C10 C11 C11b C12 C13.
  assert (Hi : i < length (p_threads s)) by (apply nth_error_Some; congruence).
  assert (EX : forall j, exited s j -> exited s' j).
  { intros j [c Hj]. unfold exited. rewrite Hl. destruct (Nat.eq_dec i j) as [->|Hne].
    - rewrite E in Hj. injection Hj as ->. specialize (C10 I).
      destruct th' as [[] c'|]; try contradiction. exists c'. apply nth_error_upd_eq; auto.
    - exists c. rewrite nth_error_upd_neq; auto. }
  constructor.
  - rewrite Hn. apply (h_n _ _ _ _ H).
  - rewrite Hl, upd_length. apply (h_len _ _ _ _ H).
  - rewrite enq_app, sta_app, (h_fifo _ _ _ _ H), <- !app_assoc. f_equal. exact C1.
  - rewrite sta_app, end_app. unfold running. rewrite Hl.
    pose proof (flat_upd _ running_th _ _ _ th' E) as F. pose proof (h_run _ _ _ _ H) as R. unfold running in R.
    apply Permutation_app_inv_l with (l := running_th th).
    etransitivity; [apply Permutation_app_head, Permutation_app_tail, R|].
    etransitivity; [|apply Permutation_app_comm]. rewrite <- !app_assoc.
    etransitivity; [apply Permutation_app_swap_app|]. apply Permutation_app_head.
    etransitivity; [apply Permutation_app_swap_app|].
    etransitivity; [apply Permutation_app_head, C2|].
    rewrite app_assoc. etransitivity; [apply Permutation_app_tail, Permutation_app_comm|].
    rewrite <- app_assoc. apply Permutation_app_head.
    etransitivity; [apply Permutation_app_comm|]. etransitivity; [symmetry; exact F|]. apply Permutation_app_comm.
  - intros w. rewrite sby_app, eby_app, (h_by _ _ _ _ H w). unfold running_on. rewrite Hl.
    destruct (Nat.eq_dec w i) as [->|Hne].
    + rewrite E, nth_error_upd_eq by auto. rewrite <- !app_assoc. f_equal. exact C3b.
    + destruct (C3a w Hne) as [-> ->]. rewrite nth_error_upd_neq by auto. rewrite !app_nil_r. auto.
  - rewrite rec_app, rem_app, (h_rec _ _ _ _ H), <- !app_assoc. f_equal. exact C4.
  - rewrite thr_app, rec_app, Hl.
    pose proof (flat_upd _ pushing _ _ _ th' E) as F. pose proof (h_thr _ _ _ _ H) as R.
    apply Permutation_app_inv_l with (l := pushing th).
    etransitivity; [apply Permutation_app_head, Permutation_app_tail, R|].
    etransitivity; [|apply Permutation_app_comm]. rewrite <- !app_assoc.
    etransitivity; [apply Permutation_app_swap_app|]. apply Permutation_app_head.
    etransitivity; [apply Permutation_app_swap_app|].
    etransitivity; [apply Permutation_app_head, C5|].
    rewrite app_assoc. etransitivity; [apply Permutation_app_tail, Permutation_app_comm|].
    rewrite <- app_assoc. apply Permutation_app_head.
    etransitivity; [apply Permutation_app_comm|]. etransitivity; [symmetry; exact F|]. apply Permutation_app_comm.
  - intros j. rewrite wc_app, wr_app, (h_wait _ _ _ _ H j). unfold waiting_on. rewrite Hl. pose proof (C6 j) as C6j. clear C6.
    destruct (Nat.eqb_spec j i) as [Heq|Hne].
    + rewrite Heq in *. rewrite E, nth_error_upd_eq by auto. lia.
    + rewrite nth_error_upd_neq by auto. lia.
  - intros w Hw. apply in_app_or in Hw. destruct Hw as [Hw|Hw]; [apply C7; eapply h_exit; eauto|eauto].
  - intros w [c Hw]. rewrite Hl in Hw. apply in_or_app. destruct (Nat.eq_dec i w) as [->|Hne].
    + rewrite nth_error_upd_eq in Hw by auto. injection Hw as ->. destruct (C9 I) as [X|X]; auto. left.
      apply (h_exited _ _ _ _ H). destruct th as [[] c'|]; try contradiction. exists c'. auto.
    + rewrite nth_error_upd_neq in Hw by auto. left. apply (h_exited _ _ _ _ H). exists c; auto.
  - intros D. apply in_or_app. destruct (C11 D) as [X|X]; auto. left. apply (h_dtor _ _ _ _ H); auto.
  - intros D. apply C11b. apply in_app_or in D. destruct D as [D|D]; auto. left. apply (h_dtor2 _ _ _ _ H); auto.
  - intros R j Hj. apply EX. apply in_app_or in R. destruct R as [R|R]; [eapply h_ret; eauto|auto].
  - intros k c Hk. rewrite Hl in Hk. apply in_or_app. destruct (Nat.eq_dec i k) as [->|Hne].
    + rewrite nth_error_upd_eq in Hk by auto. injection Hk as ->. destruct (C13 c eq_refl) as [[c' X]|X]; auto.
      left. subst th. eapply h_ret2; eauto.
    + rewrite nth_error_upd_neq in Hk by auto. left. eapply h_ret2; eauto.
Qed.

Lemma hist_map : forall n m tr s g,
  hist n m tr s ->
  (forall th, running_th (g th) = running_th th /\ pushing (g th) = pushing th /\ waiting (g th) = waiting th /\
     (is_exit (g th) <-> is_exit th) /\ (forall c, g th = Client DDone c -> exists c', th = Client DDone c')) ->
  hist n m tr (with_threads s (map g (p_threads s))).
Proof.
  intros n m tr s g H Hg. constructor; simpl; try apply H.
  - rewrite map_length. apply H.
  - unfold running. simpl. rewrite flat_map_map; [apply H|]. intros th. apply Hg.
  - intros w. rewrite (h_by _ _ _ _ H w). f_equal. unfold running_on. simpl. rewrite nth_error_map.
    destruct (nth_error (p_threads s) w); simpl; auto. symmetry. apply Hg.
  - rewrite flat_map_map; [apply H|]. intros th. apply Hg.
  - intros i. rewrite (h_wait _ _ _ _ H i). f_equal. unfold waiting_on. simpl. rewrite nth_error_map.
    destruct (nth_error (p_threads s) i); simpl; auto. symmetry. apply Hg.
  - intros w [c Hw]. simpl in Hw. rewrite nth_error_map in Hw. destruct (nth_error (p_threads s) w) as [th|] eqn:F; [|discriminate].
    injection Hw as Hw. apply (h_exited _ _ _ _ H). destruct (Hg th) as (_ & _ & _ & X & _).
    rewrite Hw in X. destruct X as [X _]. specialize (X I). destruct th as [[] c'|]; try contradiction. exists c'; auto.
  - intros R j Hj. destruct (h_ret _ _ _ _ H R j Hj) as [c Hc]. unfold exited. simpl. rewrite nth_error_map, Hc. simpl.
    destruct (Hg (Worker WExit c)) as (_ & _ & _ & [_ X] & _). specialize (X I).
    destruct (g (Worker WExit c)) as [[] c'|]; try contradiction. exists c'; auto.
  - intros i c Hi. rewrite nth_error_map in Hi. destruct (nth_error (p_threads s) i) as [th|] eqn:F; [|discriminate].
    injection Hi as Hi. destruct (Hg th) as (_ & _ & _ & _ & X). destruct (X c Hi) as [c' ->]. eapply h_ret2; eauto.
Qed.

Lemma upd_same : forall A (l : list A) i x, nth_error l i = Some x -> upd l i x = l.
Proof. induction l as [|a l IH]; intros [|i] x H; simpl in *; try discriminate; [congruence|]. f_equal. auto. Qed.

Ltac eqbs := repeat match goal with |- context [Nat.eqb ?a ?b] => destruct (Nat.eqb_spec a b) end.
Ltac h0 := first
  [ solve [auto]
  | solve [intros; subst; simpl in *; auto; try discriminate; intuition (discriminate || auto)]
  | solve [let w := fresh in intros w ?; rewrite ?(proj2 (Nat.eqb_neq _ w)) by congruence; split; auto]
  | solve [let w := fresh in intros w; unfold wait_calls, wait_rets, waiting; simpl;
           match goal with |- context [Nat.eqb w ?i] => rewrite ?(Nat.eqb_sym i w) end; eqbs; simpl; lia]
  | solve [let w := fresh in intros w; eqbs; subst; simpl; rewrite ?Nat.eqb_refl; simpl; try congruence; try lia]
  | idtac ].
Ltac hu H E := eapply hist_upd; [exact H|exact E|reflexivity|reflexivity|..]; simpl; rewrite ?app_nil_r, ?Nat.eqb_refl; h0.

Lemma hist_step : forall n m tr s b evs s', inv s -> hist n m tr s -> pstep s b evs s' -> hist n m (tr ++ evs) s'.
Proof.
  intros n m tr s b evs s' HI H P.
  destruct P as [i th th' Mx E X|i b t Mx E|i b Mx E|i E St Q|i t q' E Q|i E St Q|i e E|i E|i k E Hk|i E Q|i E Q
    |i E|i E|i E|i k E Hk Hx|i b t E|i b E Q F|i b E F|i t o E|i b j c E E'|i b E B|i c E|i b E|i b t E D|i b E D
    |i E D C|e es X|X|].
  - simpl in X. destruct X as [X|[X|[X|[]]]]; injection X as <- <-; hu H E.
  - destruct b; hu H E.
  - destruct b; hu H E.
  - hu H E.
  - hu H E.
  - hu H E.
  - hu H E.
  - hu H E.
  - destruct (Nat.eqb k 0); hu H E.
  - assert (H1 : hist n m (tr ++ []) (with_mutex (set_thread s i (Worker WLock NoCall)) None)) by (hu H E).
    apply (hist_map _ _ _ _ wake_waiter H1). intros [p c|p c]; destruct c; simpl; (split; [|split; [|split; [|split]]]);
      auto; try tauto; try (intros ? E0; discriminate); intros ? E0; injection E0 as -> _; eauto.
  - hu H E.
  - hu H E.
  - assert (H1 : hist n m (tr ++ []) (set_thread s i (Client (DJoin 0) NoCall))) by (hu H E).
    apply (hist_map _ _ _ _ wake_worker H1). intros [p c|p c]; destruct p; simpl; (split; [|split; [|split; [|split]]]);
      auto; try tauto; try (intros ? E0; discriminate); eauto.
  - hu H E. intros _ j Hj. rewrite <- (h_n _ _ _ _ H) in Hj. apply (i_joined _ HI _ _ _ E). auto.
  - hu H E.
  - destruct b; hu H E.
  - destruct b; hu H E.
  - destruct b; hu H E.
  - destruct o; hu H E.
  - assert (H1 : hist n m (tr ++ []) (set_thread s i (mkth b NoCall))) by (destruct b; hu H E).
    rewrite app_nil_r in H1. hu H1 E'.
  - destruct b; hu H E.
  - hu H E.
  - destruct b; hu H E.
  - destruct b; hu H E.
  - destruct b; hu H E.
  - hu H E.
  - destruct (nth_error (p_threads s) 0) as [th|] eqn:E.
    2:{ apply nth_error_None in E. pose proof (i_n _ HI). pose proof (i_len _ HI). lia. }
    eapply hist_upd; [exact H|exact E|symmetry; apply upd_same; exact E|reflexivity|..]; simpl; rewrite ?app_nil_r; h0.
    intros c ->. eauto.
  - destruct (nth_error (p_threads s) 0) as [th|] eqn:E.
    2:{ apply nth_error_None in E. pose proof (i_n _ HI). pose proof (i_len _ HI). lia. }
    eapply hist_upd; [exact H|exact E|symmetry; apply upd_same; exact E|reflexivity|..]; simpl; rewrite ?app_nil_r; h0.
    intros c ->. eauto.
  - destruct (nth_error (p_threads s) 0) as [th|] eqn:E.
    2:{ apply nth_error_None in E. pose proof (i_n _ HI). pose proof (i_len _ HI). lia. }
    eapply hist_upd; [exact H|exact E|symmetry; apply upd_same; exact E|reflexivity|..]; simpl; rewrite ?app_nil_r; h0.
    intros c ->. eauto.
Qed.

Lemma exec_hist : forall n m tr s, exec n m tr s -> hist n m tr s.
Proof.
  intros n m tr s H. induction H as [s H|tr s a s' evs H IH HA]; [apply hist_init; auto|].
  pose proof (exec_inv _ _ _ _ H) as HI.
  eapply hist_step; eauto. eapply act_pstep; eauto. apply (i_wf _ HI).
Qed.

(** ** Termination of the internal steps *)
Section Measure.
Variables (n m : nat).
Definition KK := 9 + 2 * m.
Definition phiw (p : wpc (Tsk := Tsk) (Exc := Exc)) : nat :=
  match p with
  | WBlocked | WExit => 0 | WCheck => 1 | WLock => 2 | NHold => 3 + 2 * m | NLock => 4 + 2 * m
  | WDec => 5 + 2 * m | WCb => 6 + 2 * m | WPush _ => 7 + 2 * m | WRun _ => 8 + 2 * m
  end.
Definition phid (p : cpc) : nat :=
  match p with
  | CIdle | DDone => 0 | DJoin k => n + 1 - k | DNotify => n + 2 + 2 * m | DHold => n + 3 + 2 * m
  | DLock => n + 4 + 2 * m
  end.
Definition phic (c : call (Tsk := Tsk)) : nat :=
  match c with
  | NoCall | ABlocked => 0 | AHold => 1 | ALock => 2 | ENotify => 3 | EHold _ => 4 + KK | ELock _ => 5 + KK
  end.
Definition phi th : nat :=
  match th with Worker p c => phiw p + phic c | Client p c => phid p + phic c end.
Definition mu s : nat := KK * length (p_tasks s) + cnt phi (p_threads s).

Lemma cnt_map_le : forall (g : thread -> thread) l, (forall th, phi (g th) <= phi th + 2) ->
  cnt phi (map g l) <= cnt phi l + 2 * length l.
Proof. intros g l H. induction l as [|x l IH]; simpl; auto. specialize (H x). lia. Qed.

Lemma mu_step : forall s evs s', inv s -> n = p_n s -> m = length (p_threads s) -> pstep s true evs s' ->
  mu s' < mu s.
Proof.
  intros s evs s' HI Hn Hm P. remember true as b0 eqn:B0.
  destruct P as [i th th' Mx E X|i b t Mx E|i b Mx E|i E St Q|i t q' E Q|i E St Q|i e E|i E|i k E Hk|i E Q|i E Q
    |i E|i E|i E|i k E Hk Hx|i b t E|i b E Q F|i b E F|i t o E|i b j c E E'|i b E B|i c E|i b E|i b t E D|i b E D
    |i E D C|e es X|X|]; try discriminate; unfold mu; simpl;
    try (let H := fresh in
         match goal with |- context [cnt phi (upd (p_threads s) i ?th')] => pose proof (cnt_upd phi _ _ _ th' E) as H end;
         simpl in H; first [destruct b; simpl in *; lia | lia]).
  - simpl in X. pose proof (cnt_upd phi _ _ _ th' E) as G.
    destruct X as [X|[X|[X|[]]]]; injection X as <- <-; simpl in *; lia.
  - pose proof (cnt_upd phi _ _ _ (Worker (WRun t) NoCall) E) as G. rewrite Q. simpl length. unfold KK. simpl in *. lia.
  - match goal with |- context [cnt phi (upd (p_threads s) i ?th')] => pose proof (cnt_upd phi _ _ _ th' E) as G end.
    simpl in G. destruct (Nat.eqb k 0); simpl in *; lia.
  - pose proof (cnt_upd phi _ _ _ (Worker WLock NoCall) E) as G. simpl in G.
    pose proof (cnt_map_le wake_waiter (upd (p_threads s) i (Worker WLock NoCall))) as L.
    rewrite upd_length in L. rewrite <- Hm in L.
    enough (forall th, phi (wake_waiter th) <= phi th + 2) by (specialize (L H); lia).
    intros [p c|p c]; destruct c; simpl; lia.
  - pose proof (cnt_upd phi _ _ _ (Client (DJoin 0) NoCall) E) as G. simpl in G.
    pose proof (cnt_map_le wake_worker (upd (p_threads s) i (Client (DJoin 0) NoCall))) as L.
    rewrite upd_length in L. rewrite <- Hm in L.
    enough (forall th, phi (wake_worker th) <= phi th + 2) by (specialize (L H); lia).
    intros [p c|p c]; destruct p; simpl; lia.
  - pose proof (cnt_upd phi _ _ _ (Client (DJoin (S k)) NoCall) E) as G. simpl phi in G.
    destruct (i_joined _ HI _ _ _ E) as [Hle _]. simpl in *. lia.
  - pose proof (cnt_upd phi _ _ _ (mkth b ENotify) E) as G. rewrite app_length. simpl length.
    rewrite Nat.mul_add_distr_l, Nat.mul_1_r. generalize (KK * length (p_tasks s)). intros z.
    unfold KK in *. destruct b; simpl in *; unfold KK in *; lia.
  - pose proof (cnt_upd phi _ _ _ (Worker (match o with None => WDec | Some e => WPush e end) NoCall) E) as G.
    destruct o; simpl in *; lia.
  - pose proof (cnt_upd phi _ _ _ (mkth b NoCall) E) as G.
    pose proof (cnt_upd phi _ _ _ (Worker WLock c) E') as G'.
    destruct b; simpl in *; lia.
Qed.
End Measure.

Lemma istep_mu : forall n m tr s s', exec n m tr s -> istep s s' ->
  exists evs, exec n m (tr ++ evs) s' /\ mu n (n + m) s' < mu n (n + m) s.
Proof.
  intros n m tr s s' H (a & evs & HA & HE). exists evs. split; [econstructor; eauto|].
  pose proof (exec_inv _ _ _ _ H) as HI. pose proof (exec_hist _ _ _ _ H) as HH.
  eapply mu_step; eauto.
  - symmetry. apply (h_n _ _ _ _ HH).
  - symmetry. apply (h_len _ _ _ _ HH).
  - rewrite <- HA. eapply act_pstep; eauto. apply (i_wf _ HI).
Qed.

Lemma isteps_mu : forall k n m tr s s', exec n m tr s -> isteps k s s' ->
  (exists evs, exec n m (tr ++ evs) s') /\ k + mu n (n + m) s' <= mu n (n + m) s.
Proof.
  intros k n m tr s s' H HS. revert tr H. induction HS as [s|k s s1 s2 HS HR IH]; intros tr H.
  - split; [exists []; rewrite app_nil_r; auto|lia].
  - destruct (istep_mu _ _ _ _ _ H HS) as (evs & H1 & L). destruct (IH _ H1) as [(evs2 & H2) L2].
    split; [exists (evs ++ evs2); rewrite app_assoc; auto|lia].
Qed.

(** ** States without internal steps *)
Lemma stuck_act : forall s a s' evs, stuck s -> internal a = true -> act s a = Some (s', evs) -> False.
Proof. intros s a s' evs H H1 H2. apply (H s'). exists a, evs. auto. Qed.

Lemma blocked_dec : forall l, existsb is_blocked l = true ->
  exists j c, nth_error l j = Some (Worker WBlocked c).
Proof.
  induction l as [|x l IH]; simpl; intros H; [discriminate|]. apply orb_true_iff in H. destruct H as [H|H].
  - destruct x as [[] c|]; try discriminate. exists 0, c. auto.
  - destruct (IH H) as (j & c & Hj). exists (S j), c. auto.
Qed.

Lemma stuck_rest : forall n m tr s, exec n m tr s -> no_task_waits s -> stuck s ->
  at_rest s /\ (p_destroying s = true -> In EvDtorRet tr).
Proof.
  intros n m tr s HX HN HS. pose proof (exec_inv _ _ _ _ HX) as HI. pose proof (exec_hist _ _ _ _ HX) as HH.
  assert (HM : p_mutex s = None).
  { destruct (p_mutex s) as [i|] eqn:M; auto. exfalso.
    destruct (i_owner _ HI _ M) as (th & E & F). pose proof (i_wf _ HI _ _ E) as W.
    assert (A : act s (AStep i) <> None).
    { simpl. unfold get_thread. rewrite E. destruct th as [p c|p c]; destruct p, c; simpl in F, W |- *;
        try discriminate; try contradiction;
        repeat match goal with |- context [if ?x then _ else _] => destruct x end;
        try destruct (p_tasks s); simpl; congruence. }
    destruct (act s (AStep i)) as [[s' evs]|] eqn:A'; [|congruence]. eapply (stuck_act s (AStep i)); [exact HS|reflexivity|eassumption]. }
  assert (HA : forall i th, nth_error (p_threads s) i = Some th -> acquire th = None).
  { intros i th E. destruct (acquire th) as [th'|] eqn:A; auto. exfalso.
    eapply (stuck_act s (AAcquire i)); [exact HS|reflexivity|]. simpl. unfold get_thread. rewrite HM, E, A. reflexivity. }
  assert (HH0 : forall i th, nth_error (p_threads s) i = Some th -> f_hold th = 0).
  { intros i th E. eapply cnt_0_In; eauto. rewrite (i_mutex _ HI), HM. reflexivity. }
  assert (HST : forall i, act s (AStep i) = None).
  { intros i. destruct (act s (AStep i)) as [[s' evs]|] eqn:A; auto. exfalso. eapply (stuck_act s (AStep i)); [exact HS|reflexivity|eassumption]. }
  assert (HEN : forall i th, nth_error (p_threads s) i = Some th -> sub th <> ENotify).
  { intros i th E F. destruct (existsb is_blocked (p_threads s)) eqn:B.
    - destruct (blocked_dec _ B) as (j & c & Hj).
      eapply (stuck_act s (ANotify i (Some j))); [auto|reflexivity|]. simpl. unfold get_thread. rewrite E, F, Hj. reflexivity.
    - eapply (stuck_act s (ANotify i None)); [auto|reflexivity|]. simpl. unfold get_thread. rewrite E, F, B. reflexivity. }
  assert (HW : forall i p c, nth_error (p_threads s) i = Some (Worker p c) -> (p = WBlocked \/ p = WExit) /\ c = NoCall).
  { intros i p c E. pose proof (i_wf _ HI _ _ E) as W. pose proof (HA _ _ E) as A. pose proof (HH0 _ _ E) as F.
    pose proof (HST i) as S. pose proof (HEN _ _ E) as N. destruct (HN _ _ _ E) as (N1 & N2 & N3).
    simpl in S. unfold get_thread in S. rewrite E in S.
    destruct p, c; simpl in W, A, F, S, N; try discriminate; try contradiction; try congruence; auto.
    exfalso. eapply (stuck_act s (AFinish i None)); [auto|reflexivity|]. simpl. unfold get_thread. rewrite E. reflexivity. }
  assert (Hcl : forall i p c, nth_error (p_threads s) i = Some (Client p c) ->
      (p = CIdle /\ (c = NoCall \/ c = ABlocked)) \/ ((exists k, p = DJoin k) \/ p = DDone) /\ c = NoCall).
  { intros i p c E. pose proof (i_wf _ HI _ _ E) as W. pose proof (HA _ _ E) as A. pose proof (HH0 _ _ E) as F.
    pose proof (HST i) as S. pose proof (HEN _ _ E) as N.
    simpl in S. unfold get_thread in S. rewrite E in S.
    destruct p, c; simpl in W, A, F, S, N; try discriminate; try contradiction; try congruence; eauto 6. }
  assert (Z : forall f : thread -> nat, (forall p, p = WBlocked \/ p = WExit -> f (Worker p NoCall) = 0) ->
     (forall p c, f (Client p c) = 0) -> cnt f (p_threads s) = 0).
  { intros f F1 F2. destruct (cnt f (p_threads s)) eqn:C; auto. exfalso.
    destruct (cnt_pos f (p_threads s)) as (i & th & E & P); [lia|].
    destruct th as [p c|p c]; [destruct (HW _ _ _ E) as [HP ->]; rewrite F1 in P; auto; lia|rewrite F2 in P; lia]. }
  assert (Zi : p_inflight s = 0).
  { rewrite (i_infl _ HI). apply Z; [intros p [->| ->]|intros]; reflexivity. }
  assert (Zn : cnt f_ntf (p_threads s) = 0).
  { apply Z; [intros p [->| ->]|intros]; reflexivity. }
  assert (Zw : cnt f_awake (p_threads s) = 0).
  { apply Z; [intros p [->| ->]|intros]; reflexivity. }
  assert (Ze : cnt f_enot (p_threads s) = 0).
  { destruct (cnt f_enot (p_threads s)) eqn:C; auto. exfalso.
    destruct (cnt_pos f_enot (p_threads s)) as (i & th & E & P); [lia|].
    apply (HEN _ _ E). unfold f_enot in P. destruct (sub th); simpl in P; auto; lia. }
  assert (Zt : length (p_tasks s) = 0).
  { destruct (length (p_tasks s)) eqn:L; auto. exfalso. pose proof (i_awake _ HI). lia. }
  assert (Za : cnt f_abl (p_threads s) = 0).
  { destruct (cnt f_abl (p_threads s)) eqn:L; auto. exfalso. pose proof (i_wait _ HI). lia. }
  assert (Cl : forall i p c, nth_error (p_threads s) i = Some (Client p c) -> (p = CIdle \/ p = DDone) /\ c = NoCall).
  { intros i p c E. destruct (Hcl _ _ _ E) as [[-> [-> | ->]]|[[[k ->]| ->] ->]]; auto.
    - pose proof (cnt_0_In _ _ _ _ Za E) as X. discriminate.
    - exfalso. pose proof (HST i) as S. simpl in S. unfold get_thread in S. rewrite E in S. simpl in S.
      unfold get_thread in S. destruct (Nat.eqb_spec k (p_n s)) as [|Hk]; [discriminate|].
      destruct (i_joined _ HI _ _ _ E) as [Hle _].
      assert (J : 0 < cnt f_join (p_threads s)).
      { pose proof (cnt_In f_join _ _ _ E) as X. unfold f_join in X at 1. simpl in X. lia. }
      pose proof (i_join _ HI J) as Jb.
      destruct (nth_error (p_threads s) k) as [th|] eqn:Ek.
      2:{ apply nth_error_None in Ek. pose proof (i_len _ HI). lia. }
      pose proof (i_kind _ HI _ _ Ek) as Kd. destruct th as [q c|q c].
      + destruct (HW _ _ _ Ek) as [[-> | ->] ->]; [|discriminate].
        pose proof (cnt_0_In _ _ _ _ Jb Ek) as X. discriminate.
      + simpl in Kd. symmetry in Kd. apply Nat.ltb_ge in Kd. lia. }
  split.
  - split; [exact Zt|split; [exact Zi|split; [exact HM|]]]. intros i [p c|p c] E.
    + destruct (HW _ _ _ E) as [[-> | ->] ->]; auto.
    + destruct (Cl _ _ _ E) as [[-> | ->] ->]; auto.
  - intros D. pose proof (i_dtor _ HI) as X. rewrite D in X. simpl in X.
    destruct (cnt_pos f_dtor (p_threads s)) as (i & th & E & P); [lia|].
    destruct th as [p c|p c]; [unfold f_dtor in P; simpl in P; lia|].
    destruct (Cl _ _ _ E) as [[-> | ->] ->]; [unfold f_dtor in P; simpl in P; lia|].
    eapply h_ret2; eauto.
Qed.

(** ** Events one at a time *)
Lemma act_events : forall s a s' evs, act s a = Some (s', evs) -> evs = [] \/ exists e, evs = [e].
Proof.
  intros s a s' evs H. destruct a; simpl in H; unfold act_step in H;
    repeat match type of H with
    | context [match ?x with _ => _ end] => destruct x; try discriminate
    | context [if ?x then _ else _] => destruct x; try discriminate
    end; injection H as _ <-; eauto.
Qed.

Lemma exec_split : forall n m tr s, exec n m tr s -> forall tr1 e tr2, tr = tr1 ++ e :: tr2 ->
  exists s1 s2 a, exec n m tr1 s1 /\ act s1 a = Some (s2, [e]).
Proof.
  intros n m tr s H. induction H as [s H|tr s a s' evs H IH HA]; intros tr1 e tr2 E.
  - destruct tr1; discriminate.
  - destruct (act_events _ _ _ _ HA) as [->|[e' ->]].
    + rewrite app_nil_r in E. eauto.
    + destruct tr2 as [|x tr2 _] using rev_ind.
      * apply app_inj_tail in E. destruct E as [-> ->]. eauto 6.
      * rewrite app_comm_cons, app_assoc in E. apply app_inj_tail in E. destruct E as [E _]. eauto.
Qed.

Lemma all_exited_dead : forall s, inv s -> (forall j, j < p_n s -> exited s j) ->
  p_tasks s = [] /\ running s = [].
Proof.
  intros s HI H.
  assert (A : forall i p c, nth_error (p_threads s) i = Some (Worker p c) -> p = WExit).
  { intros i p c E. pose proof (i_kind _ HI _ _ E) as K. simpl in K. symmetry in K. apply Nat.ltb_lt in K.
    destruct (H _ K) as [c' E']. congruence. }
  split.
  - apply length_zero_iff_nil. apply (i_dead _ HI).
    destruct (cnt f_alive (p_threads s)) eqn:C; auto. exfalso.
    destruct (cnt_pos f_alive (p_threads s)) as (i & th & E & P); [lia|].
    destruct th as [p c|p c]; [rewrite (A _ _ _ E) in P|]; unfold f_alive in P; simpl in P; lia.
  - unfold running. destruct (flat_map running_th (p_threads s)) as [|t k] eqn:F; auto. exfalso.
    assert (X : In t (flat_map running_th (p_threads s))) by (rewrite F; left; auto).
    apply in_flat_map in X. destruct X as (th & Hin & Ht). apply In_nth_error in Hin. destruct Hin as [i E].
    destruct th as [p c|p c]; simpl in Ht; [|contradiction]. rewrite (A _ _ _ E) in Ht. contradiction.
Qed.

Lemma inflight_0 : forall s, inv s -> p_inflight s = 0 -> running s = [] /\ flat_map pushing (p_threads s) = [].
Proof.
  intros s HI H. rewrite (i_infl _ HI) in H. unfold running.
  assert (A : forall i th, nth_error (p_threads s) i = Some th -> running_th th = [] /\ pushing th = []).
  { intros i th E. pose proof (cnt_0_In _ _ _ _ H E) as X. destruct th as [[]|]; simpl; auto; discriminate. }
  split; [destruct (flat_map running_th (p_threads s)) as [|t k] eqn:F|destruct (flat_map pushing (p_threads s)) as [|t k] eqn:F];
    auto; exfalso.
  - assert (X : In t (flat_map running_th (p_threads s))) by (rewrite F; left; auto).
    apply in_flat_map in X. destruct X as (th & Hin & Ht). apply In_nth_error in Hin. destruct Hin as [i E].
    destruct (A _ _ E) as [R _]. rewrite R in Ht. contradiction.
  - assert (X : In t (flat_map pushing (p_threads s))) by (rewrite F; left; auto).
    apply in_flat_map in X. destruct X as (th & Hin & Ht). apply In_nth_error in Hin. destruct Hin as [i E].
    destruct (A _ _ E) as [_ R]. rewrite R in Ht. contradiction.
Qed.

Lemma stop_destroying : forall s, inv s -> p_stop s = true -> p_destroying s = true.
Proof.
  intros s HI H. pose proof (i_stopd _ HI) as X. pose proof (i_dtor _ HI) as Y. rewrite H in X. simpl in X.
  destruct (cnt_pos f_stopd (p_threads s)) as (i & th & E & P); [lia|].
  pose proof (cnt_In f_dtor _ _ _ E) as Z.
  assert (f_dtor th = 1) by (destruct th as [|[]]; unfold f_stopd, f_dtor in *; simpl in *; lia).
  destruct (p_destroying s); auto. simpl in Y. lia.
Qed.

(** the state in which an event happens *)
Lemma step_of : forall n m s1 s2 a tr1 e, exec n m tr1 s1 -> act s1 a = Some (s2, [e]) ->
  inv s1 /\ hist n m tr1 s1 /\ pstep s1 (internal a) [e] s2.
Proof.
  intros n m s1 s2 a tr1 e H HA. pose proof (exec_inv _ _ _ _ H) as HI.
  split; [auto|split; [apply exec_hist; auto|]]. eapply act_pstep; eauto. apply (i_wf _ HI).
Qed.

(** ** Deciding whether an internal step is possible *)
Definition candidates s : list (action Tsk Exc) :=
  flat_map (fun i => AAcquire i :: AStep i :: AFinish i None :: ANotify i None ::
                     map (fun j => ANotify i (Some j)) (seq 0 (length (p_threads s)))) (seq 0 (length (p_threads s))).

Lemma candidate : forall s i a, i < length (p_threads s) ->
  In a (AAcquire i :: AStep i :: AFinish i None :: ANotify i None ::
        map (fun j => ANotify i (Some j)) (seq 0 (length (p_threads s)))) -> In a (candidates s).
Proof. intros s i a H H1. unfold candidates. apply in_flat_map. exists i. split; auto. apply in_seq. lia. Qed.

Lemma istep_dec : forall s, (exists s', istep s s') \/ stuck s.
Proof.
  intros s. destruct (existsb (fun a => match act s a with Some _ => true | None => false end) (candidates s)) eqn:B.
  - left. apply existsb_exists in B. destruct B as (a & Hin & Ha). destruct (act s a) as [[s' evs]|] eqn:E; [|discriminate].
    exists s', a, evs. split; auto. unfold candidates in Hin. apply in_flat_map in Hin. destruct Hin as (i & _ & Hin).
    destruct Hin as [<-|[<-|[<-|[<-|Hin]]]]; auto. apply in_map_iff in Hin. destruct Hin as (j & <- & _). auto.
  - right. intros s' (a & evs & HA & HE).
    assert (N : forall c, In c (candidates s) -> act s c = None).
    { intros c Hc. destruct (act s c) as [q|] eqn:E; auto. exfalso.
      assert (X : existsb (fun a => match act s a with Some _ => true | None => false end) (candidates s) = true).
      { apply existsb_exists. exists c. rewrite E. auto. } congruence. }
    destruct a as [i|i|i o|i k|i|i t|i|i|i|i]; simpl in HA; try discriminate.
    + assert (L : i < length (p_threads s)).
      { simpl in HE. unfold get_thread in HE. destruct (p_mutex s); [discriminate|].
        destruct (nth_error (p_threads s) i) eqn:E; [|discriminate]. apply nth_error_Some. congruence. }
      rewrite N in HE; [discriminate|]. eapply candidate; eauto. simpl; auto.
    + assert (L : i < length (p_threads s)).
      { simpl in HE. unfold get_thread in HE.
        destruct (nth_error (p_threads s) i) eqn:E; [|discriminate]. apply nth_error_Some. congruence. }
      rewrite N in HE; [discriminate|]. eapply candidate; eauto. simpl; auto.
    + assert (L : i < length (p_threads s)).
      { simpl in HE. unfold get_thread in HE.
        destruct (nth_error (p_threads s) i) eqn:E; [|discriminate]. apply nth_error_Some. congruence. }
      assert (X : act s (AFinish i None) = None).
      { apply N. eapply candidate; eauto. simpl; auto. }
      simpl in HE, X. destruct (get_thread s i) as [[[] []|]|]; discriminate.
    + assert (L : i < length (p_threads s)).
      { simpl in HE. unfold get_thread in HE.
        destruct (nth_error (p_threads s) i) eqn:E; [|discriminate]. apply nth_error_Some. congruence. }
      rewrite N in HE; [discriminate|]. eapply candidate; eauto. simpl.
      destruct k as [j|]; auto. do 4 right. apply in_map_iff. exists j. split; auto. apply in_seq.
      simpl in HE. unfold get_thread in HE. destruct (nth_error (p_threads s) i); [|discriminate].
      destruct (sub t); try discriminate. destruct (nth_error (p_threads s) j) eqn:E; [|discriminate].
      assert (j < length (p_threads s)) by (apply nth_error_Some; congruence). lia.
Qed.

(** library steps do not start calls *)
Definition ok_task th : Prop := match th with Worker _ c => c <> ALock /\ c <> AHold /\ c <> ABlocked | _ => True end.

Lemma ntw_alt : forall s, no_task_waits s <-> (forall i th, nth_error (p_threads s) i = Some th -> ok_task th).
Proof.
  intros s. split.
  - intros H i [p c|p c] E; simpl; auto. eapply H; eauto.
  - intros H i p c E. exact (H _ _ E).
Qed.
Lemma ntw_upd : forall l i th', (forall j th, nth_error l j = Some th -> ok_task th) -> ok_task th' ->
  forall j th, nth_error (upd l i th') j = Some th -> ok_task th.
Proof.
  intros l i th' H H1 j th E. destruct (Nat.eq_dec i j) as [->|Hne].
  - assert (L : j < length l) by (rewrite <- (upd_length _ l j th'); apply nth_error_Some; congruence).
    rewrite nth_error_upd_eq in E by auto. injection E as <-. auto.
  - rewrite nth_error_upd_neq in E by auto. eauto.
Qed.
Lemma ntw_map : forall l g, (forall j th, nth_error l j = Some th -> ok_task th) -> (forall th, ok_task th -> ok_task (g th)) ->
  forall j th, nth_error (map g l) j = Some th -> ok_task th.
Proof.
  intros l g H H1 j th E. rewrite nth_error_map in E. destruct (nth_error l j) eqn:F; [|discriminate].
  injection E as <-. eauto.
Qed.

Lemma ntw_step : forall s evs s', no_task_waits s -> pstep s true evs s' -> no_task_waits s'.
Proof.
  intros s evs s' H P. rewrite ntw_alt in *. remember true as b0 eqn:B0.
  destruct P as [i th th' Mx E X|i b t Mx E|i b Mx E|i E St Q|i t q' E Q|i E St Q|i e E|i E|i k E Hk|i E Q|i E Q
    |i E|i E|i E|i k E Hk Hx|i b t E|i b E Q F|i b E F|i t o E|i b j c E E'|i b E B|i c E|i b E|i b t E D|i b E D
    |i E D C|e es X|X|]; try discriminate; simpl;
    try (pose proof (H _ _ E) as Hok; apply ntw_upd; [exact H|]; try destruct b; simpl in *; intuition congruence).
  - simpl in X. destruct X as [X|[X|[X|[]]]]; injection X as <- <-; apply ntw_upd; auto; simpl; repeat split; congruence.
  - apply ntw_map; [apply ntw_upd; auto; simpl; repeat split; congruence|].
    intros [p c|p c]; destruct c; simpl; intuition congruence.
  - apply ntw_map; [apply ntw_upd; auto; simpl; repeat split; congruence|].
    intros [p c|p c]; destruct p; simpl; intuition congruence.
  - assert (Hu : forall k th, nth_error (upd (p_threads s) i (mkth b NoCall)) k = Some th -> ok_task th).
    { apply ntw_upd; auto. destruct b; simpl; auto; repeat split; congruence. }
    pose proof (Hu _ _ E') as Hok. apply ntw_upd; auto.
Qed.

Lemma isteps_ntw : forall k n m tr s s', exec n m tr s -> isteps k s s' -> no_task_waits s -> no_task_waits s'.
Proof.
  intros k n m tr s s' H HS. revert tr H. induction HS as [s|k s s1 s2 HS HR IH]; intros tr H HN; auto.
  destruct (istep_mu _ _ _ _ _ H HS) as (evs & H1 & L). apply (IH _ H1).
  destruct HS as (a & evs' & HA & HE). eapply ntw_step; eauto. rewrite <- HA. eapply act_pstep; eauto.
  apply (i_wf _ (exec_inv _ _ _ _ H)).
Qed.

Lemma reach_stuck : forall n m b tr s, mu n (n + m) s <= b -> exec n m tr s ->
  exists k s', isteps k s s' /\ stuck s'.
Proof.
  intros n m b. induction b as [|b IH]; intros tr s L H;
    (destruct (istep_dec s) as [[s1 HS]|HS]; [|exists 0, s; split; auto; constructor]);
    destruct (istep_mu _ _ _ _ _ H HS) as (evs & H1 & L1); [lia|].
  destruct (IH (tr ++ evs) s1) as (k & s' & K & St); [lia|auto|]. exists (S k), s'. split; auto. econstructor; eauto.
Qed.
End Proofs.

(** ** C16 *)
Section Theorems.
Context {Tsk Exc : Type}.
Implicit Types (s : pool Tsk Exc) (tr : list (event Tsk Exc)).

Theorem C16_ctor : forall n m,
  @pool_ctor Tsk Exc n m = Throw InvalidArgument <-> n = 0.
Proof.
  intros n m. unfold pool_ctor. destruct (Nat.eqb_spec n 0); split; intros; congruence.
Qed.

(** In every execution: the tasks started are, in order, the first ones accepted; the rest are still
    queued.  Every started task has ended or is running, and each worker runs one task at a time. *)
Theorem C16_exactly_once : forall n m tr s, exec n m tr s ->
  (exists waiting, enqueued tr = started tr ++ waiting /\ length waiting = queued_tasks s) /\
  Permutation (started tr) (ended tr ++ running s) /\
  (forall w, exists now, started_by w tr = ended_by w tr ++ now /\ length now <= 1 /\ (n <= w -> now = [])).
Proof.
  intros n m tr s H. pose proof (exec_hist _ _ _ _ H) as HH. pose proof (exec_inv _ _ _ _ H) as HI. split; [|split].
  - exists (p_tasks s). split; [apply (h_fifo _ _ _ _ HH)|reflexivity].
  - apply (h_run _ _ _ _ HH).
  - intros w. exists (running_on w s). split; [apply (h_by _ _ _ _ HH)|]. unfold running_on.
    destruct (nth_error (p_threads s) w) as [th|] eqn:E; simpl; [|split; auto].
    split; [destruct th as [[]|]; simpl; auto|]. intros Hn. pose proof (i_kind _ HI _ _ E) as K.
    rewrite (h_n _ _ _ _ HH) in K. apply Nat.ltb_ge in Hn. rewrite Hn in K. destruct th; [discriminate|reflexivity].
Qed.

(** When the destructor has returned, every task accepted has been started and has ended, exactly
    once, nothing is running and every worker thread has ended. *)
Theorem C16_destructor : forall n m tr s, exec n m tr s -> In EvDtorRet tr ->
  enqueued tr = started tr /\ Permutation (enqueued tr) (ended tr) /\ running s = [] /\
  forall w, w < n -> In (EvExit w) tr.
Proof.
  intros n m tr s H R. pose proof (exec_hist _ _ _ _ H) as HH. pose proof (exec_inv _ _ _ _ H) as HI.
  pose proof (h_ret _ _ _ _ HH R) as HX.
  destruct (all_exited_dead s HI) as [T Rn]; [rewrite (h_n _ _ _ _ HH); exact HX|].
  pose proof (h_fifo _ _ _ _ HH) as F. rewrite T, app_nil_r in F.
  pose proof (h_run _ _ _ _ HH) as P. rewrite Rn, app_nil_r in P.
  split; [auto|split; [rewrite F; auto|split; [auto|]]]. intros w Hw. apply (h_exited _ _ _ _ HH). auto.
Qed.

(** A worker thread ends only once the destructor has been called. *)
Theorem C16_workers_live : forall n m tr s w, exec n m tr s -> In (EvExit w) tr -> In EvDtorCall tr.
Proof.
  intros n m tr s w H Hw. pose proof (exec_hist _ _ _ _ H) as HH.
  apply (h_dtor _ _ _ _ HH). apply stop_destroying; [eapply exec_inv; eauto|]. eapply h_exit; eauto.
Qed.

(** ** C17 *)

(** At the moment a call of wait_for_tasks returns, every task accepted so far has ended, and its
    exception, if any, has been recorded; the return belongs to a call in progress. *)
Theorem C17_barrier : forall n m tr s i tr1 tr2, exec n m tr s -> tr = tr1 ++ EvWaitRet i :: tr2 ->
  wait_rets i tr1 < wait_calls i tr1 /\
  enqueued tr1 = started tr1 /\ Permutation (enqueued tr1) (ended tr1) /\
  Permutation (thrown tr1) (recorded tr1).
Proof.
  intros n m tr s i tr1 tr2 H ->. destruct (exec_split _ _ _ _ H _ _ _ eq_refl) as (s1 & s2 & a & H1 & HA).
  destruct (step_of _ _ _ _ _ _ _ H1 HA) as (HI & HH & P).
  remember [EvWaitRet i] as evs eqn:Ev. destruct P; try discriminate. injection Ev as ->.
  destruct (inflight_0 _ HI H3) as [R Pu].
  pose proof (h_fifo _ _ _ _ HH) as F. rewrite H2, app_nil_r in F.
  pose proof (h_run _ _ _ _ HH) as Q. rewrite R, app_nil_r in Q.
  pose proof (h_thr _ _ _ _ HH) as T. rewrite Pu, app_nil_r in T.
  pose proof (h_wait _ _ _ _ HH i) as W. unfold waiting_on in W. rewrite H0 in W.
  split; [|split; [auto|split; [rewrite F; auto|auto]]].
  destruct b; simpl in W; unfold waiting in W; simpl in W; lia.
Qed.

(** wait_for_tasks called from inside a task never returns. *)
Theorem C17_wait_inside_task : forall n m tr s i, exec n m tr s -> i < n -> ~ In (EvWaitRet i) tr.
Proof.
  intros n m tr s i H Hi Hin. apply in_split in Hin. destruct Hin as (tr1 & tr2 & ->).
  destruct (exec_split _ _ _ _ H _ _ _ eq_refl) as (s1 & s2 & a & H1 & HA).
  destruct (step_of _ _ _ _ _ _ _ H1 HA) as (HI & HH & P).
  remember [EvWaitRet i] as evs eqn:Ev. destruct P; try discriminate. injection Ev as ->.
  pose proof (i_kind _ HI _ _ H0) as K. rewrite (h_n _ _ _ _ HH) in K. apply Nat.ltb_lt in Hi. rewrite Hi in K.
  destruct b; [|discriminate]. pose proof (cnt_In f_infl _ _ _ H0) as X.
  rewrite <- (i_infl _ HI), H3 in X. unfold f_infl in X. simpl in X. lia.
Qed.

(** ** C18 *)

(** No deadlock and no lost wake-up: in every reachable state in which no task is itself inside
    wait_for_tasks, some thread can take a step (of library code, or by its task ending), or all
    accepted tasks have ended, no call of wait_for_tasks or of the destructor is in progress, and
    the workers are asleep or ended. *)
Theorem C18_no_deadlock : forall n m tr s, exec n m tr s -> no_task_waits s ->
  (exists s', istep s s') \/
  (at_rest s /\ enqueued tr = started tr /\ Permutation (enqueued tr) (ended tr) /\
   (forall i, wait_calls i tr = wait_rets i tr) /\ (In EvDtorCall tr -> In EvDtorRet tr)).
Proof.
  intros n m tr s H HN. destruct (istep_dec s) as [|HS]; auto. right.
  destruct (stuck_rest _ _ _ _ H HN HS) as [HR HD].
  pose proof (exec_hist _ _ _ _ H) as HH. pose proof (exec_inv _ _ _ _ H) as HI.
  split; [auto|]. destruct HR as (Q & I0 & M & T).
  apply length_zero_iff_nil in Q. destruct (inflight_0 _ HI I0) as [R _].
  pose proof (h_fifo _ _ _ _ HH) as F. rewrite Q, app_nil_r in F.
  pose proof (h_run _ _ _ _ HH) as P. rewrite R, app_nil_r in P.
  split; [auto|split; [rewrite F; auto|split]].
  - intros i. rewrite (h_wait _ _ _ _ HH i). unfold waiting_on.
    destruct (nth_error (p_threads s) i) as [th|] eqn:E; [|lia].
    destruct (T _ _ E) as [-> |[-> |[-> | ->]]]; unfold waiting; simpl; lia.
  - intros D. apply HD. apply (h_dtor2 _ _ _ _ HH); auto.
Qed.

(** Steps of the library cannot go on forever: from every reachable state, their number until client
    code calls again (or a spurious wake-up happens) is bounded whatever the scheduler does; the run
    reaches a state where no such step is possible, which C18_no_deadlock describes. *)
Theorem C18_terminates : forall n m tr s, exec n m tr s ->
  (exists bound, forall k s', isteps k s s' -> k <= bound) /\
  (exists k s', isteps k s s' /\ stuck s').
Proof.
  intros n m tr s H. split.
  - exists (mu n (n + m) s). intros k s' HS. pose proof (isteps_mu _ _ _ _ _ _ H HS) as [_ L]. lia.
  - eapply reach_stuck; eauto.
Qed.

(** Both together: however the scheduler picks, once it can no longer pick, every task has ended,
    every wait has returned and so has the destructor. *)
Theorem C18_eventually : forall n m tr s k s', exec n m tr s -> no_task_waits s ->
  isteps k s s' -> stuck s' ->
  exists evs, exec n m (tr ++ evs) s' /\ at_rest s' /\
    Permutation (enqueued (tr ++ evs)) (ended (tr ++ evs)) /\
    (forall i, wait_calls i (tr ++ evs) = wait_rets i (tr ++ evs)) /\
    (In EvDtorCall tr -> In EvDtorRet (tr ++ evs)).
Proof.
  intros n m tr s k s' H HN HS St. destruct (isteps_mu _ _ _ _ _ _ H HS) as [(evs & H1) _].
  pose proof (isteps_ntw _ _ _ _ _ _ H HS HN) as HN'.
  destruct (C18_no_deadlock _ _ _ _ H1 HN') as [[s2 X]|(A & B & C & D & E)]; [destruct (St s2); auto|].
  exists evs. split; [auto|split; [auto|split; [auto|split; [auto|]]]].
  intros X. apply E. apply in_or_app; auto.
Qed.

(** ** C19 *)

(** The exceptions recorded, in order, are those already removed followed by those still held; those
    thrown are recorded exactly once, except by tasks that still count as pending; exceptions never
    end a worker (C16_workers_live). *)
Theorem C19_recorded : forall n m tr s, exec n m tr s ->
  (exists kept, recorded tr = removed tr ++ kept /\ length kept = exception_count s /\
                (has_exceptions s = false <-> kept = [])) /\
  (exists unrecorded, Permutation (thrown tr) (recorded tr ++ unrecorded) /\ length unrecorded <= pending_tasks s).
Proof.
  intros n m tr s H. pose proof (exec_hist _ _ _ _ H) as HH. pose proof (exec_inv _ _ _ _ H) as HI. split.
  - exists (p_excs s). split; [apply (h_rec _ _ _ _ HH)|split; [reflexivity|]].
    unfold has_exceptions. destruct (p_excs s); simpl; split; auto; discriminate.
  - exists (flat_map pushing (p_threads s)). split; [apply (h_thr _ _ _ _ HH)|].
    unfold pending_tasks. rewrite (i_infl _ HI).
    induction (p_threads s) as [|th l IH]; simpl; auto. rewrite app_length.
    assert (length (pushing th) <= f_infl th) by (destruct th as [[]|]; unfold f_infl; simpl; lia). lia.
Qed.

(** get_exception (and rethrow_if_exception) yields the oldest recorded exception not yet removed and
    yields nothing only if there is none; clear_exceptions removes exactly those. *)
Theorem C19_take : forall n m tr s tr1 ev tr2, exec n m tr s -> tr = tr1 ++ ev :: tr2 ->
  match ev with
  | EvTake e => exists rest, recorded tr1 = removed tr1 ++ e :: rest
  | EvTakeNull => recorded tr1 = removed tr1
  | EvClear es => recorded tr1 = removed tr1 ++ es
  | _ => True
  end.
Proof.
  intros n m tr s tr1 ev tr2 H ->. destruct (exec_split _ _ _ _ H _ _ _ eq_refl) as (s1 & s2 & a & H1 & HA).
  destruct (step_of _ _ _ _ _ _ _ H1 HA) as (HI & HH & P). pose proof (h_rec _ _ _ _ HH) as R.
  remember [ev] as evs eqn:Ev. destruct P; try discriminate; injection Ev as <-; auto.
  - exists es. rewrite R. congruence.
  - rewrite R, H0, app_nil_r. auto.
Qed.

(** After wait_for_tasks: all that was thrown is removed or held (C17_barrier gives the first
    hypothesis at each return). *)
Theorem C19_after_wait : forall n m tr s, exec n m tr s -> pending_tasks s = 0 ->
  exists kept, Permutation (thrown tr) (removed tr ++ kept) /\ length kept = exception_count s.
Proof.
  intros n m tr s H H0. destruct (C19_recorded _ _ _ _ H) as [(kept & R & L & _) (un & P & U)].
  exists kept. split; auto. assert (un = []) as -> by (destruct un; simpl in *; auto; lia).
  rewrite app_nil_r in P. rewrite <- R. auto.
Qed.
End Theorems.
Print Assumptions C16_ctor.
Print Assumptions C16_exactly_once.
Print Assumptions C16_destructor.
Print Assumptions C16_workers_live.
Print Assumptions C17_barrier.
Print Assumptions C17_wait_inside_task.
Print Assumptions C18_no_deadlock.
Print Assumptions C18_terminates.
Print Assumptions C18_eventually.
Print Assumptions C19_recorded.
Print Assumptions C19_take.
Print Assumptions C19_after_wait.

(** ** Examples: a run computed by the model *)
Section Examples.
Fixpoint run (s : pool nat nat) (l : list (action nat nat)) : option (pool nat nat * list (event nat nat)) :=
  match l with
  | [] => Some (s, [])
  | a :: l' => match act s a with
               | Some (s', e) => match run s' l' with Some (s2, es) => Some (s2, e ++ es) | None => None end
               | None => None
               end
  end.
Lemma run_exec : forall l s n m tr s' es, exec n m tr s -> run s l = Some (s', es) -> exec n m (tr ++ es) s'.
Proof.
  induction l as [|a l IH]; intros s n m tr s' es H R; simpl in R.
  - injection R as <- <-. rewrite app_nil_r. auto.
  - destruct (act s a) as [[s1 e]|] eqn:A; [|discriminate].
    destruct (run s1 l) as [[s2 es2]|] eqn:B; [|discriminate]. injection R as <- <-.
    rewrite app_assoc. eapply IH; eauto. econstructor; eauto.
Qed.

(** two workers (0, 1), one client (2): worker 0 blocks, the client enqueues tasks 7 and 8, the
    workers run them, task 7 throws 99, the client waits, takes the exception, destroys the pool *)
Definition script : list (action nat nat) :=
  [AAcquire 0; AStep 0; AEnqueue 2 7; AAcquire 2; AStep 2; ANotify 2 (Some 0); AEnqueue 2 8; AAcquire 2; AStep 2;
   ANotify 2 None; AAcquire 1; AStep 1; AAcquire 0; AStep 0; AWait 2; AAcquire 2; AStep 2;
   AFinish 1 (Some 99); AFinish 0 None; AStep 1; AStep 1; AStep 1; AStep 0; AAcquire 0; AStep 0;
   AAcquire 2; AStep 2; ATake 2; ADestroy 2; AAcquire 1; AStep 1; AAcquire 2; AStep 2; AStep 2;
   AAcquire 0; AStep 0; AAcquire 1; AStep 1; AStep 2; AStep 2; AStep 2].
Example C16_witness : exists s0 s tr, pool_ctor 2 1 = Ok s0 /\ run s0 script = Some (s, tr) /\ exec 2 1 tr s /\
  In EvDtorRet tr /\ In (EvWaitRet 2) tr /\ In (EvTake 99) tr /\ In (EvExit 1) tr /\ enqueued tr = [7; 8] /\ ended tr = [7; 8].
Proof.
  eexists _, _, _. split; [reflexivity|]. split; [vm_compute; reflexivity|]. split.
  - eapply (run_exec script _ 2 1 []); [constructor; reflexivity|vm_compute; reflexivity].
  - simpl. repeat (split; [tauto|]). split; reflexivity.
Qed.

(** a state in the middle of that run, with work left *)
Example C18_witness : exists (s : pool nat nat) tr, exec 2 1 tr s /\ no_task_waits s /\ (exists s', istep s s') /\ queued_tasks s = 2.
Proof.
  assert (X : exists s0 s tr, pool_ctor 2 1 = Ok s0 /\ run s0 (firstn 9 script) = Some (s, tr)) .
  { eexists _, _, _. split; [reflexivity|]. vm_compute. reflexivity. }
  destruct X as (s0 & s & tr & H0 & H1). exists s, tr.
  split; [eapply (run_exec _ _ _ _ []); [constructor; exact H0|exact H1]|].
  injection H0 as <-. vm_compute in H1. injection H1 as <- <-.
  split; [|split; [|reflexivity]].
  - intros [|[|[|i]]] p c E; simpl in E; try discriminate; [..|destruct i; discriminate]; injection E as <- <-; repeat split; discriminate.
  - eexists _, (ANotify 2 None), _. split; [reflexivity|]. vm_compute. reflexivity.
Qed.

(** a task that waits: worker 0's task calls wait_for_tasks; no internal step is left *)
Example C17_wait_inside_task_witness : exists (s : pool nat nat) tr, exec 1 1 tr s /\ wait_calls 0 tr = 1 /\ stuck s.
Proof.
  assert (X : exists s0 s tr, pool_ctor 1 1 = Ok s0 /\
     run s0 [AEnqueue 1 7; AAcquire 1; AStep 1; ANotify 1 None; AAcquire 0; AStep 0; AWait 0; AAcquire 0; AStep 0] = Some (s, tr)).
  { eexists _, _, _. split; [reflexivity|]. vm_compute. reflexivity. }
  destruct X as (s0 & s & tr & H0 & H1). exists s, tr.
  split; [eapply (run_exec _ _ _ _ []); [constructor; exact H0|exact H1]|].
  injection H0 as <-. vm_compute in H1. injection H1 as <- <-.
  split; [reflexivity|]. intros s' (a & evs & HA & HE).
  destruct a as [i|i|i o|i k|i|i t|i|i|i|i]; try discriminate; destruct i as [|[|[|i]]]; simpl in HE; discriminate.
Qed.
End Examples.
