(** Model of [hub::multi_thread::ThreadPool] (/repo/src/multi-thread/thread_pool.h).
    A labelled transition system: one step = one atomic action of one thread.  Actions
    between which no other thread can observe or change anything relevant are merged
    (said at each one). *)
From Verif Require Import Base.

(** Program counter of a worker thread, thread_pool.h:53-67. *)
Inductive wpc :=
| WAcquire            (* 57: constructing [lock]; also re-acquiring the lock inside [wait] *)
| WTest               (* 58: holds the lock, about to evaluate [!stop_ && tasks_.empty()] *)
| WSleepy             (* 59: holds the lock, condition seen true, has not yet gone to sleep *)
| WAsleep             (* 59: inside [cv_.wait], lock released, not yet notified *)
| WPost               (* 61: holds the lock, left the while loop *)
| WRunning (t : nat)  (* 65: lock released, executing task [t] *)
| WDone.              (* 61: returned *)

(** Program counter of a client thread calling [commit], thread_pool.h:79-95. *)
Inductive cpc :=
| CIdle
| CAcquire (t : nat)  (* 87: constructing [lock] *)
| CHold (t : nat)     (* 88-91: holds the lock *)
| CNotify             (* 93: lock released, about to [notify_one] *)
| CThrown.            (* 89: left by exception, task refused *)

(** Program counter of the destructor, thread_pool.h:71-77. *)
Inductive dpc :=
| DNone      (* not started *)
| DStopped   (* 72 done *)
| DJoining   (* 73 done, in the join loop 74-76 *)
| DFinished.

(** thread_pool.h:40-45, the members, with the program counters of the threads and ghost histories. *)
Record pool := mkPool {
  max_tasks : nat;               (* max_tasks_ *)
  queue : list nat;              (* tasks_, front first *)
  stop : bool;                   (* stop_ *)
  locked : bool;                 (* lock_ is held by somebody *)
  workers : list wpc;
  clients : list cpc;
  dtor : dpc;
  (* ghost history *)
  accepted : list nat;           (* tasks whose commit enqueued them, in that order *)
  started : list nat;            (* tasks handed to a worker, in that order *)
  ub : bool                      (* front()/pop() was called on an empty queue *)
}.

(** Scheduler choices. *)
(** The scheduler's freedom in thread_pool.h:51-95: which thread moves, and which waiter notify_one (line 93) picks. *)
Inductive label :=
| LWorker (i : nat)              (* worker [i] performs its next action *)
| LSpurious (i : nat)            (* [cv_.wait] of worker [i] returns spuriously *)
| LCall (c t : nat)              (* client [c] calls [commit] with task [t] *)
| LClient (c : nat) (wake : option nat)
                                 (* client [c] performs its next action; for [notify_one],
                                    [wake] is the waiter chosen by the implementation *)
| LDtor.                         (* destructor performs its next action *)

(** Helper: a step of one worker that changes its program counter and the mutex only (thread_pool.h:57-65). *)
Definition set_worker (s : pool) (i : nat) (w : wpc) (lk : bool) : pool :=
  mkPool (max_tasks s) (queue s) (stop s) lk (list_set (workers s) i w) (clients s)
         (dtor s) (accepted s) (started s) (ub s).

(** Helper: a step of one client that changes its program counter and the mutex only (thread_pool.h:87-93). *)
Definition set_client (s : pool) (c : nat) (k : cpc) (lk : bool) : pool :=
  mkPool (max_tasks s) (queue s) (stop s) lk (workers s) (list_set (clients s) c k)
         (dtor s) (accepted s) (started s) (ub s).

(** A waiter of cv_ (thread_pool.h:59). *)
Definition is_asleep (w : wpc) : bool := match w with WAsleep => true | _ => false end.
(** A worker that join() (thread_pool.h:75) does not wait for. *)
Definition is_done (w : wpc) : bool := match w with WDone => true | _ => false end.
(** [notify_all]: every waiter starts re-acquiring the mutex. *)
(** thread_pool.h:73 as seen by one worker. *)
Definition wake (w : wpc) : wpc := match w with WAsleep => WAcquire | _ => w end.

(** One action of worker [i], thread_pool.h:53-67. *)
Definition worker_step (s : pool) (i : nat) : option pool :=
  match nth_error (workers s) i with
  | Some WAcquire => if locked s then None else Some (set_worker s i WTest true)
  | Some WTest =>      (* line 58; the queue cannot change while the lock is held *)
      if negb (stop s) && (match queue s with [] => true | _ => false end)
      then Some (set_worker s i WSleepy true)
      else Some (set_worker s i WPost true)
  | Some WSleepy =>    (* wait atomically releases the lock and sleeps *)
      Some (set_worker s i WAsleep false)
  | Some WAsleep => None
  | Some WPost =>      (* 61-64: [if (stop_) return; task = front(); pop();] and unlock *)
      if stop s then Some (set_worker s i WDone false)
      else match queue s with
           | [] => Some (mkPool (max_tasks s) [] (stop s) false (workers s) (clients s)
                                (dtor s) (accepted s) (started s) true)
           | t :: q => Some (mkPool (max_tasks s) q (stop s) false
                                    (list_set (workers s) i (WRunning t)) (clients s)
                                    (dtor s) (accepted s) (started s ++ [t]) (ub s))
           end
  | Some (WRunning _) => Some (set_worker s i WAcquire (locked s))   (* 65: task() returned *)
  | Some WDone => None
  | None => None
  end.

(** One action of client [c] inside [commit], thread_pool.h:86-93. *)
Definition client_step (s : pool) (c : nat) (w : option nat) : option pool :=
  match nth_error (clients s) c with
  | Some (CAcquire t) => if locked s then None else Some (set_client s c (CHold t) true)
  | Some (CHold t) =>  (* 88-91 and unlock; nobody else can change the queue meanwhile.
                          Line 89: [stop_ || task_num > max_tasks_] throws. *)
      if stop s || (max_tasks s <? length (queue s))
      then Some (set_client s c CThrown false)
      else Some (mkPool (max_tasks s) (queue s ++ [t]) (stop s) false (workers s)
                        (list_set (clients s) c CNotify) (dtor s)
                        (accepted s ++ [t]) (started s) (ub s))
  | Some CNotify =>    (* 93: notify_one wakes one waiter if there is one *)
      match w with
      | Some i => match nth_error (workers s) i with
                  | Some WAsleep =>
                      Some (set_client (set_worker s i WAcquire (locked s)) c CIdle (locked s))
                  | _ => None
                  end
      | None => if existsb is_asleep (workers s) then None
                else Some (set_client s c CIdle (locked s))
      end
  | _ => None
  end.

(** One action of the destructor, thread_pool.h:71-77.  The flag is stored without the lock. *)
Definition dtor_step (s : pool) : option pool :=
  match dtor s with
  | DNone => Some (mkPool (max_tasks s) (queue s) true (locked s) (workers s) (clients s)
                          DStopped (accepted s) (started s) (ub s))
  | DStopped => Some (mkPool (max_tasks s) (queue s) (stop s) (locked s)
                             (map wake (workers s)) (clients s)
                             DJoining (accepted s) (started s) (ub s))
  | DJoining => if forallb is_done (workers s)
                then Some (mkPool (max_tasks s) (queue s) (stop s) (locked s) (workers s)
                                  (clients s) DFinished (accepted s) (started s) (ub s))
                else None
  | DFinished => None
  end.

(** thread_pool.h:51-95: all threads interleaved; LSpurious is the spurious return allowed to wait at line 59. *)
Definition step (s : pool) (l : label) : option pool :=
  match l with
  | LWorker i => worker_step s i
  | LSpurious i => match nth_error (workers s) i with
                   | Some WAsleep => Some (set_worker s i WAcquire (locked s))
                   | _ => None
                   end
  | LCall c t => match nth_error (clients s) c with
                 | Some CIdle | Some CThrown => Some (set_client s c (CAcquire t) (locked s))
                 | _ => None
                 end
  | LClient c w => client_step s c w
  | LDtor => dtor_step s
  end.

(** State after construction, thread_pool.h:51-69: [nw] workers about to lock. *)
Definition init (maxt nw nc : nat) : pool :=
  mkPool maxt [] false false (repeat WAcquire nw) (repeat CIdle nc) DNone [] [] false.

(** A schedule is a list of labels; [run] fails if a label is not enabled. *)
(** Executions of thread_pool.h:51-95. *)
Fixpoint run (s : pool) (ls : list label) : option pool :=
  match ls with
  | [] => Some s
  | l :: ls' => match step s l with Some s' => run s' ls' | None => None end
  end.

(** The states the code of thread_pool.h:51-95 can be in under some schedule. *)
Definition reachable (maxt nw nc : nat) (s : pool) : Prop :=
  exists ls, run (init maxt nw nc) ls = Some s.
