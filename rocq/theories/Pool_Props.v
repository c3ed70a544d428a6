(** C02, C03: the thread pool, for every schedule. *)
From Verif Require Import Base Pool_Model Pool_Proofs Pool_Proofs2.

(** C02.  [accepted] is the sequence of tasks whose [commit] returned a future, in commit
    order; [started] the sequence of tasks handed to workers.  In every reachable state of
    every schedule the accepted sequence is the started one followed by the queue: tasks
    start in FIFO order, none is invented, duplicated or lost; the queue holds at most
    [max_tasks+1] entries; and no worker ever pops an empty queue. *)
Theorem C02_pool_fifo : forall maxt nw nc s, reachable maxt nw nc s ->
  accepted s = started s ++ queue s /\ length (queue s) <= S maxt /\ ub s = false.
Proof. exact pool_fifo. Qed.
Print Assumptions C02_pool_fifo.

Theorem C02_pool_at_most_once : forall maxt nw nc s, reachable maxt nw nc s ->
  NoDup (accepted s) -> NoDup (started s) /\ (forall t, In t (started s) -> ~ In t (queue s)).
Proof. exact pool_at_most_once. Qed.
Print Assumptions C02_pool_at_most_once.

(** C02, the acceptance rule: inside its critical section a commit is refused iff the pool is
    stopped or the queue holds more than [max_tasks] entries; a refusal changes nothing. *)
Theorem C02_commit_rule : forall s c t w s',
  nth_error (clients s) c = Some (CHold t) -> step s (LClient c w) = Some s' ->
  if stop s || (max_tasks s <? length (queue s))
  then nth_error (clients s') c = Some CThrown /\ queue s' = queue s /\ accepted s' = accepted s
  else nth_error (clients s') c = Some CNotify /\ queue s' = queue s ++ [t] /\
       accepted s' = accepted s ++ [t].
Proof. exact pool_commit_rule. Qed.
Print Assumptions C02_commit_rule.

(** C02 in terms of what threads outside see, read off the schedule: [commits c ls] are the
    tasks client [c] called [commit] with, [executed s0 ls] the tasks whose execution some
    worker began, in order.  There is a history [h] of completed commits (client, task,
    accepted?) that contains for every client exactly its calls, in order (except one still in
    progress), and whose accepted tasks, in order, are the executed ones followed by the
    queue. *)
Theorem C02_history : forall maxt nw nc ls s, run (init maxt nw nc) ls = Some s ->
  exists h : list (nat * nat * bool),
    map (fun e => snd (fst e)) (filter (fun e => snd e) h) =
      executed (init maxt nw nc) ls ++ queue s /\
    forall c, exists rest,
      commits c ls = map (fun e => snd (fst e)) (filter (fun e => fst (fst e) =? c) h) ++ rest /\
      length rest <= 1 /\
      (nth_error (clients s) c = Some CIdle \/ nth_error (clients s) c = Some CThrown -> rest = []).
Proof. exact pool_history. Qed.
Print Assumptions C02_history.

(** C02, no lost wake-up while running: a queued task never waits with every worker asleep
    unless a commit is just about to notify. *)
Theorem C02_no_lost_wakeup : forall maxt nw nc s, 0 < nw -> reachable maxt nw nc s ->
  stop s = false -> queue s <> [] ->
  (exists c, nth_error (clients s) c = Some CNotify) \/
  (exists i w, nth_error (workers s) i = Some w /\ w <> WAsleep).
Proof. exact pool_no_lost_wakeup. Qed.
Print Assumptions C02_no_lost_wakeup.

(** C02, a worker that has left its waiting loop while the pool runs finds a task: it never calls front() or pop() on an empty
    queue, and its next action hands it the oldest one. *)
Theorem C02_no_empty_pop : forall maxt nw nc s i, reachable maxt nw nc s ->
  nth_error (workers s) i = Some WPost -> stop s = false ->
  exists t q s', queue s = t :: q /\ step s (LWorker i) = Some s' /\ queue s' = q /\ nth_error (workers s') i = Some (WRunning t) /\ ub s' = false.
Proof.
  intros maxt nw nc s i Hr Hw Hs. pose proof (reachable_inv _ _ _ _ Hr) as I. destruct (inv_post _ _ I i Hw) as [A|A]; [congruence|].
  destruct (queue s) as [|t q] eqn:Eq; [congruence|]. exists t, q. unfold step, worker_step. rewrite Hw, Hs, Eq. eexists. split; auto. split; [reflexivity|]. cbn.
  split; auto. split; [|apply (inv_ub _ _ I)]. assert (L : i < length (workers s)) by (apply nth_error_Some; congruence).
  clear - L. revert i L. induction (workers s) as [|w ws IH]; intros i L; [cbn in L; lia|]. destruct i; [reflexivity|]. cbn. apply IH. cbn in L. lia.
Qed.
Print Assumptions C02_no_empty_pop.
Example C02_no_empty_pop_case : exists s, reachable 1000 1 1 s /\ nth_error (workers s) 0 = Some WPost /\ stop s = false.
Proof. eexists. split; [exists [LCall 0 7; LClient 0 None; LClient 0 None; LWorker 0; LWorker 0]; vm_compute; reflexivity|]. split; reflexivity. Qed.

(** The bound [max_tasks+1] is attained (so the queue can exceed [max_tasks]), and a run that
    starts a task exists. *)
Example C02_bound_attained : exists s, reachable 0 1 1 s /\ length (queue s) = 1 /\ stop s = false.
Proof.
  eexists; split; [exists [LCall 0 7; LClient 0 None; LClient 0 None]; vm_compute; reflexivity|].
  split; reflexivity.
Qed.
Example C02_some_run : exists s, reachable 1000 2 1 s /\ started s = [7] /\ queue s = [8] /\
  nth_error (workers s) 1 = Some (WRunning 7).
Proof.
  eexists; split.
  - exists [LWorker 0; LWorker 0; LWorker 0; LCall 0 7; LClient 0 None; LClient 0 None;
            LClient 0 (Some 0); LCall 0 8; LClient 0 None; LClient 0 None;
            LWorker 1; LWorker 1; LWorker 1].
    vm_compute; reflexivity.
  - repeat split.
Qed.

(** C03.  After the destructor raised the flag no queued task is ever started. *)
Theorem C03_no_start_after_stop : forall ls s s', stop s = true -> run s ls = Some s' ->
  stop s' = true /\ started s' = started s /\ queue s' = queue s /\ accepted s' = accepted s.
Proof. exact stop_run. Qed.
Print Assumptions C03_no_start_after_stop.

(** "Every accepted task is executed before the pool is destroyed" is false. *)
Theorem C03_all_tasks_run_refuted : exists s, reachable 1000 1 1 s /\ dtor s = DFinished /\
  accepted s = [5] /\ started s = [].
Proof. exact pool_discards. Qed.
Print Assumptions C03_all_tasks_run_refuted.

(** "Destruction always terminates" is false: for every pool with at least one worker there is
    a reachable state from which no schedule without a spurious wake-up ever lets the
    destructor's join loop finish. *)
Theorem C03_destructor_terminates_refuted : forall maxt nw nc, exists s,
  reachable maxt (S nw) nc s /\
  forall ls s', forallb (fun l => negb (spurious l)) ls = true -> run s ls = Some s' ->
    dtor s' = DJoining.
Proof. exact pool_destructor_stuck. Qed.
Print Assumptions C03_destructor_terminates_refuted.

(** When destruction has completed, every worker thread has returned. *)
Theorem C03_destroyed_means_joined : forall maxt nw nc s, reachable maxt nw nc s ->
  dtor s = DFinished -> forall i w, nth_error (workers s) i = Some w -> w = WDone.
Proof. exact pool_joined. Qed.
Print Assumptions C03_destroyed_means_joined.

(** The only culprit is the window between test and wait: if no worker is in it when
    [notify_all] executes, then in every later state nobody sleeps, every action other than a
    new [commit] call strictly decreases a measure, and the destructor can finish. *)
Theorem C03_clean_shutdown : forall maxt nw nc s s1, reachable maxt nw nc s ->
  dtor s = DStopped -> (forall i, nth_error (workers s) i <> Some WSleepy) ->
  step s LDtor = Some s1 ->
  forall ls s2, run s1 ls = Some s2 ->
    (forall i, nth_error (workers s2) i <> Some WAsleep) /\
    (forall l s3, is_call l = false -> step s2 l = Some s3 -> weight s3 < weight s2) /\
    exists ls' s', run s2 ls' = Some s' /\ dtor s' = DFinished.
Proof. exact pool_clean_shutdown. Qed.
Print Assumptions C03_clean_shutdown.

Example C03_clean_nonvacuous : exists s, reachable 1000 2 1 s /\ dtor s = DStopped /\
  (forall i, nth_error (workers s) i <> Some WSleepy) /\ nth_error (workers s) 0 = Some WAsleep.
Proof.
  eexists; split; [exists [LWorker 0; LWorker 0; LWorker 0; LDtor]; vm_compute; reflexivity|].
  repeat split; auto. intros [|[|i]]; simpl; try discriminate. destruct i; discriminate.
Qed.
