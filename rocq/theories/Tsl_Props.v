(** C102: the workers of tf::Executor do not sleep through work. *)
From Verif Require Import Tsl_Model Tsl_Spec Tsl_Proofs Tsl_Proofs2 Tsl_Proofs3.
From Coq Require Import List Arith.
(** When all workers sleep and no other thread is inside the executor, no task is left in any queue, and the counters are back to zero. *)
Theorem C102_rest N s : N <> 0 -> reachable N s -> quiet s -> (forall w, w < N -> asleep s w) -> gq s = 0 /\ (forall w, w < N -> lq s w = 0) /\ thieves s = 0 /\ actives s = 0.
Proof. apply rest. Qed.
(** As long as the shared queue has a task, some worker ends up with a task in hand even if only that worker runs. *)
Theorem C102_served N s : N <> 0 -> reachable N s -> quiet s -> done s = false -> gq s <> 0 -> exists w s', w < N /\ alone N w s s' /\ holds (wk s' w).
Proof. apply served. Qed.
(** A worker's own queue has tasks only while that worker executes tasks: they are never left behind. *)
Theorem C102_own_queue N s w : reachable N s -> w < N -> lq s w <> 0 -> wk s w = Run.
Proof. intros R. apply (i_lq _ _ (reach_inv _ _ R)). Qed.
(** While a worker executes tasks and another sleeps, some worker looks for tasks to steal, or one is being woken to do so. *)
Theorem C102_thief N s v w : reachable N s -> done s = false -> v < N -> w < N -> working (wk s v) -> asleep s w -> exists u, u < N /\ looking s u.
Proof. apply thief. Qed.
(** Once the destructor has set _done and notified, no worker sleeps, so all can be joined. *)
Theorem C102_shutdown N s w : reachable N s -> quiet s -> done s = true -> w < N -> ~ asleep s w.
Proof. apply shutdown. Qed.
(** And, no task being left, each leaves even if only it runs. *)
Theorem C102_join N s w : reachable N s -> quiet s -> done s = true -> gq s = 0 -> w < N -> lq s w = 0 -> exists s', alone N w s s' /\ wk s' w = Exit.
Proof. apply join. Qed.
(** A call of the executor that schedules n tasks puts n tasks in the shared queue, and does nothing to the workers' own queues or to _done. *)
Theorem C102_submitted N s k n s0 s' : estep N s k Idle s0 -> ex s0 k = Psh n n -> calling N k s0 s' -> ex s' k = Idle ->
  gq s' = gq s + n /\ lq s' = lq s /\ done s' = done s.
Proof. apply submitted. Qed.
(** A thread inside a call can always go on, and returns after some steps even if nobody else runs. *)
Theorem C102_call_returns N s k : exists s', calling N k s s' /\ ex s' k = Idle.
Proof. apply call_returns. Qed.
(** No task is lost and none is taken twice: in every history, when no other thread is inside the executor, the tasks scheduled so far are those taken so far and those in the queues. *)
Theorem C102_conserved N K a b s : tally N K a b s -> quiet s -> a = b + gq s + queued N (lq s).
Proof. apply conserved. Qed.
(** So when all workers sleep as many tasks have been taken as have been scheduled. *)
Theorem C102_all_taken N K a b s : N <> 0 -> tally N K a b s -> quiet s -> (forall w, w < N -> asleep s w) -> a = b.
Proof. apply all_taken. Qed.
Print Assumptions C102_join.
Print Assumptions C102_rest.
Print Assumptions C102_served.
Print Assumptions C102_own_queue.
Print Assumptions C102_thief.
Print Assumptions C102_shutdown.
Print Assumptions C102_submitted.
Print Assumptions C102_call_returns.
Print Assumptions C102_conserved.
Print Assumptions C102_all_taken.
