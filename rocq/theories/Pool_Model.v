(** * Model of mml/tools/ThreadPool.h

    The pool is a transition system.  Its states hold the queue, the mutex, the flags and the program
    counter of every thread; an [action] says which thread the scheduler lets run next and resolves the
    choices that C++ leaves open (which blocked thread [notify_one] wakes, spurious wake-ups, how a
    task ends, what client code calls next).  [act] executes one action and returns the new state
    and the observable events.  Granularity: acquiring [queue_mutex], each critical section's body
    with its release, the atomic decrement of [in_flight_tasks] and each notify are separate steps.
    A critical section body is one step because the mutex keeps other threads from the data it reads
    and writes, except the atomic [in_flight_tasks], which it reads at most once.  Operations under
    [exceptions_mutex] are single steps.

    Simplifications: threads are all running when the constructor returns; failures of the C++
    runtime (thread creation, allocation, mutex errors) are not modelled; the counters do not
    overflow.  The contract of the destructor is built in: it starts only when no other client
    call is in progress, and client threads make no calls afterwards (running tasks may). *)

From Coq Require Import List Arith Bool.
From Verif Require Import Base.
Import ListNotations.

Section Pool.
Context {Tsk Exc : Type}.

(** Program counter of a worker: ThreadPool.h:125-177 *)
Inductive wpc :=
| WLock                 (* 130: about to lock queue_mutex, or woken in condition.wait *)
| WCheck                (* 132-139: holds the mutex, evaluates the predicate *)
| WBlocked              (* 132: blocked in condition.wait *)
| WRun (t : Tsk)        (* 144: inside task() *)
| WPush (e : Exc)       (* 147-151: exception caught, not yet recorded *)
| WCb                   (* 153-167: error callback; its exceptions are swallowed *)
| WDec                  (* 170: --in_flight_tasks *)
| NLock                 (* 171: it became 0, about to lock queue_mutex *)
| NHold                 (* 172-175: holds the mutex *)
| WExit.                (* 135: returned *)

(** Program counter of a client thread: its own code, or the destructor, ThreadPool.h:182-194 *)
Inductive cpc :=
| CIdle
| DLock                 (* 186 *)
| DHold                 (* 187 *)
| DNotify               (* 189: condition.notify_all() *)
| DJoin (k : nat)       (* 192-193: joining worker k *)
| DDone.

(** A call in progress: enqueue, ThreadPool.h:206-213, or wait_for_tasks, ThreadPool.h:221-226 *)
Inductive call :=
| NoCall
| ELock (t : Tsk)       (* 209 *)
| EHold (t : Tsk)       (* 210 *)
| ENotify               (* 212: condition.notify_one() *)
| ALock                 (* 222, or woken in tasks_done_condition.wait *)
| AHold                 (* 223-225: holds the mutex, evaluates the predicate *)
| ABlocked.             (* 223: blocked in tasks_done_condition.wait *)

(** Enqueue and wait can be called by client threads and from inside a running task. *)
Inductive thread := Worker (p : wpc) (c : call) | Client (p : cpc) (c : call).

(** ThreadPool.h:91-114, the data members; [destroying] records that the destructor was called. *)
Record pool := mkPool {
  p_n : nat;                   (* num_threads *)
  p_threads : list thread;     (* workers first, then client threads *)
  p_tasks : list Tsk;          (* tasks *)
  p_mutex : option nat;        (* owner of queue_mutex *)
  p_stop : bool;               (* stop *)
  p_inflight : nat;            (* in_flight_tasks *)
  p_excs : list Exc;           (* exceptions *)
  p_destroying : bool
}.

Inductive event :=
| EvEnq (t : Tsk)                              (* task pushed by an enqueue *)
| EvStart (w : nat) (t : Tsk)                  (* worker w starts task t *)
| EvEnd (w : nat) (t : Tsk) (o : option Exc)   (* the task returned, or threw *)
| EvRecord (e : Exc)                           (* exception recorded *)
| EvTake (e : Exc)                             (* get_exception (or rethrow_if_exception) took e *)
| EvTakeNull                                   (* get_exception returned nullptr *)
| EvClear (es : list Exc)                      (* clear_exceptions dropped es *)
| EvWaitCall (i : nat) | EvWaitRet (i : nat)
| EvDtorCall | EvDtorRet
| EvExit (w : nat).                            (* worker thread w ended *)

Inductive action :=
| AAcquire (i : nat)                      (* thread i acquires queue_mutex *)
| AStep (i : nat)                         (* next step of thread i's library code *)
| AFinish (i : nat) (o : option Exc)      (* the task running on i ends *)
| ANotify (i : nat) (k : option nat)      (* notify_one by i; k is the thread woken, if any *)
| ASpurious (i : nat)                     (* spurious wake-up of thread i *)
| AEnqueue (i : nat) (t : Tsk)            (* thread i calls enqueue *)
| AWait (i : nat)                         (* thread i calls wait_for_tasks *)
| ADestroy (i : nat)                      (* thread i destroys the pool *)
| ATake (i : nat)                         (* thread i calls get_exception *)
| AClear (i : nat).                       (* thread i calls clear_exceptions *)

(** ThreadPool.h:119-178  ThreadPool(numThreads), used by [clients] client threads *)
Definition pool_ctor (n clients : nat) : res pool :=
  if Nat.eqb n 0 then Throw InvalidArgument
  else Ok (mkPool n (repeat (Worker WLock NoCall) n ++ repeat (Client CIdle NoCall) clients)
                  [] None false 0 [] false).

Definition set_thread (s : pool) (i : nat) (th : thread) : pool :=
  mkPool (p_n s) (upd (p_threads s) i th) (p_tasks s) (p_mutex s) (p_stop s) (p_inflight s)
         (p_excs s) (p_destroying s).
Definition with_threads (s : pool) (l : list thread) : pool :=
  mkPool (p_n s) l (p_tasks s) (p_mutex s) (p_stop s) (p_inflight s) (p_excs s) (p_destroying s).
Definition with_mutex (s : pool) (m : option nat) : pool :=
  mkPool (p_n s) (p_threads s) (p_tasks s) m (p_stop s) (p_inflight s) (p_excs s) (p_destroying s).
Definition with_tasks (s : pool) (q : list Tsk) : pool :=
  mkPool (p_n s) (p_threads s) q (p_mutex s) (p_stop s) (p_inflight s) (p_excs s) (p_destroying s).
Definition with_inflight (s : pool) (k : nat) : pool :=
  mkPool (p_n s) (p_threads s) (p_tasks s) (p_mutex s) (p_stop s) k (p_excs s) (p_destroying s).
Definition with_excs (s : pool) (es : list Exc) : pool :=
  mkPool (p_n s) (p_threads s) (p_tasks s) (p_mutex s) (p_stop s) (p_inflight s) es (p_destroying s).
Definition with_stop (s : pool) : pool :=
  mkPool (p_n s) (p_threads s) (p_tasks s) (p_mutex s) true (p_inflight s) (p_excs s) (p_destroying s).
Definition with_destroying (s : pool) : pool :=
  mkPool (p_n s) (p_threads s) (p_tasks s) (p_mutex s) (p_stop s) (p_inflight s) (p_excs s) true.

Definition get_thread (s : pool) (i : nat) : option thread := nth_error (p_threads s) i.

(** wake every worker blocked in [condition], every waiter blocked in [tasks_done_condition] *)
Definition wake_worker (th : thread) : thread :=
  match th with Worker WBlocked c => Worker WLock c | _ => th end.
Definition wake_waiter (th : thread) : thread :=
  match th with
  | Worker p ABlocked => Worker p ALock
  | Client p ABlocked => Client p ALock
  | _ => th
  end.

Definition is_blocked (th : thread) : bool := match th with Worker WBlocked _ => true | _ => false end.
Definition calling (th : thread) : bool :=
  match th with Client CIdle NoCall => false | Client _ _ => true | Worker _ _ => false end.

Definition sub (th : thread) : call := match th with Worker _ c => c | Client _ c => c end.
Definition set_sub (th : thread) (c : call) : thread :=
  match th with Worker p _ => Worker p c | Client p _ => Client p c end.

(** may the thread's own code make a call now? *)
Definition may_call (s : pool) (th : thread) : bool :=
  match th with
  | Worker (WRun _) NoCall => true
  | Client CIdle NoCall => negb (p_destroying s)
  | _ => false
  end.

Definition acquire (th : thread) : option thread :=
  match th with
  | Worker WLock NoCall => Some (Worker WCheck NoCall)
  | Worker NLock NoCall => Some (Worker NHold NoCall)
  | Client DLock NoCall => Some (Client DHold NoCall)
  | _ => match sub th with
         | ELock t => Some (set_sub th (EHold t))
         | ALock => Some (set_sub th AHold)
         | _ => None
         end
  end.

(** one step of library code of thread [i] in state [th] *)
Definition act_step (s : pool) (i : nat) (th : thread) : option (pool * list event) :=
  match th with
  | Worker WCheck NoCall =>
      if p_stop s || negb (match p_tasks s with [] => true | _ => false end)
      then match p_tasks s with
           | [] => Some (with_mutex (set_thread s i (Worker WExit NoCall)) None, [EvExit i])
           | t :: q => Some (with_inflight (with_tasks (with_mutex
                              (set_thread s i (Worker (WRun t) NoCall)) None) q) (S (p_inflight s)),
                             [EvStart i t])
           end
      else Some (with_mutex (set_thread s i (Worker WBlocked NoCall)) None, [])
  | Worker (WPush e) NoCall =>
      Some (with_excs (set_thread s i (Worker WCb NoCall)) (p_excs s ++ [e]), [EvRecord e])
  | Worker WCb NoCall => Some (set_thread s i (Worker WDec NoCall), [])
  | Worker WDec NoCall =>
      let k := p_inflight s - 1 in
      Some (with_inflight (set_thread s i (Worker (if Nat.eqb k 0 then NLock else WLock) NoCall)) k, [])
  | Worker NHold NoCall =>
      let s1 := with_mutex (set_thread s i (Worker WLock NoCall)) None in
      Some (if match p_tasks s with [] => true | _ => false end
            then with_threads s1 (map wake_waiter (p_threads s1)) else s1, [])
  | Client DHold NoCall => Some (with_stop (with_mutex (set_thread s i (Client DNotify NoCall)) None), [])
  | Client DNotify NoCall =>
      Some (with_threads s (map wake_worker (upd (p_threads s) i (Client (DJoin 0) NoCall))), [])
  | Client (DJoin k) NoCall =>
      if Nat.eqb k (p_n s) then Some (set_thread s i (Client DDone NoCall), [EvDtorRet])
      else match get_thread s k with
           | Some (Worker WExit _) => Some (set_thread s i (Client (DJoin (S k)) NoCall), [])
           | _ => None
           end
  | _ =>
      match sub th with
      | EHold t => Some (with_tasks (with_mutex (set_thread s i (set_sub th ENotify)) None)
                                    (p_tasks s ++ [t]), [EvEnq t])
      | AHold =>
          if match p_tasks s with [] => true | _ => false end && Nat.eqb (p_inflight s) 0
          then Some (with_mutex (set_thread s i (set_sub th NoCall)) None, [EvWaitRet i])
          else Some (with_mutex (set_thread s i (set_sub th ABlocked)) None, [])
      | _ => None
      end
  end.

Definition act (s : pool) (a : action) : option (pool * list event) :=
  match a with
  | AAcquire i =>
      match p_mutex s, get_thread s i with
      | None, Some th => match acquire th with
                         | Some th' => Some (with_mutex (set_thread s i th') (Some i), [])
                         | None => None
                         end
      | _, _ => None
      end
  | AStep i => match get_thread s i with Some th => act_step s i th | None => None end
  | AFinish i o =>
      match get_thread s i with
      | Some (Worker (WRun t) NoCall) =>
          Some (set_thread s i (Worker (match o with None => WDec | Some e => WPush e end) NoCall),
                [EvEnd i t o])
      | _ => None
      end
  | ANotify i k =>
      match get_thread s i with
      | Some th =>
          match sub th with
          | ENotify =>
              let s1 := set_thread s i (set_sub th NoCall) in
              match k with
              | Some j => match get_thread s j with
                          | Some (Worker WBlocked c) => Some (set_thread s1 j (Worker WLock c), [])
                          | _ => None
                          end
              | None => if existsb is_blocked (p_threads s) then None else Some (s1, [])
              end
          | _ => None
          end
      | None => None
      end
  | ASpurious i =>
      match get_thread s i with
      | Some (Worker WBlocked c) => Some (set_thread s i (Worker WLock c), [])
      | Some th => match sub th with
                   | ABlocked => Some (set_thread s i (set_sub th ALock), [])
                   | _ => None
                   end
      | None => None
      end
  | AEnqueue i t =>
      match get_thread s i with
      | Some th => if may_call s th then Some (set_thread s i (set_sub th (ELock t)), []) else None
      | None => None
      end
  | AWait i =>
      match get_thread s i with
      | Some th => if may_call s th then Some (set_thread s i (set_sub th ALock), [EvWaitCall i]) else None
      | None => None
      end
  | ADestroy i =>
      match get_thread s i with
      | Some (Client CIdle NoCall) =>
          if p_destroying s || existsb calling (p_threads s) then None
          else Some (with_destroying (set_thread s i (Client DLock NoCall)), [EvDtorCall])
      | _ => None
      end
  | ATake i =>
      match get_thread s i with
      | Some th => if may_call s th
                   then match p_excs s with
                        | [] => Some (s, [EvTakeNull])
                        | e :: es => Some (with_excs s es, [EvTake e])
                        end
                   else None
      | None => None
      end
  | AClear i =>
      match get_thread s i with
      | Some th => if may_call s th then Some (with_excs s [], [EvClear (p_excs s)]) else None
      | None => None
      end
  end.

(** Executions from the constructed pool, with the events in order. *)
Inductive exec (n clients : nat) : list event -> pool -> Prop :=
| exec_init : forall s, pool_ctor n clients = Ok s -> exec n clients [] s
| exec_step : forall tr s a s' evs, exec n clients tr s -> act s a = Some (s', evs) ->
    exec n clients (tr ++ evs) s'.

(** ThreadPool.h:230-251  has_tasks, pending_tasks, queued_tasks, thread_count;
    269-279  has_exceptions, exception_count *)
Definition has_tasks (s : pool) : bool :=
  negb (match p_tasks s with [] => true | _ => false end) || (0 <? p_inflight s).
Definition pending_tasks (s : pool) : nat := p_inflight s.
Definition queued_tasks (s : pool) : nat := length (p_tasks s).
Definition thread_count (s : pool) : nat := p_n s.
Definition has_exceptions (s : pool) : bool := negb (match p_excs s with [] => true | _ => false end).
Definition exception_count (s : pool) : nat := length (p_excs s).

End Pool.
Arguments thread : clear implicits.
Arguments pool : clear implicits.
Arguments event : clear implicits.
Arguments action : clear implicits.
