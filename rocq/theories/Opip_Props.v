(** C04: the asynchronous output pipe, for every schedule. *)
From Verif Require Import Base Opip_Model Opip_Proofs Opip_Proofs2.

(** C04.  In every reachable state of every interleaving (even with the uninitialised flag)
    the file content is a prefix of the pushed sequence. *)
Theorem C04_file_is_prefix : forall np s, reachable np s ->
  exists rest, pushed s = file s ++ rest.
Proof. exact opip_prefix. Qed.
Print Assumptions C04_file_is_prefix.

(** C04.  If the flag was never read before its initialisation, then when the destructor has
    returned the file holds exactly the pushed sequence, and front() is never called on an
    empty queue. *)
Theorem C04_complete_at_destruction : forall np s, reachable np s -> uninit_read s = false ->
  (life s = LDead -> file s = pushed s) /\ ub_pop s = false.
Proof. exact opip_complete. Qed.
Print Assumptions C04_complete_at_destruction.

(** C04 in terms of what the producers did, read off the schedule: after destruction every file
    entry can be attributed to a producer such that the entries of each producer [p] are
    exactly the items it pushed, in the order it pushed them; and the writer has ended. *)
Theorem C04_file_merges_pushes : forall np ls s, run (init np) ls = Some s ->
  uninit_read s = false -> life s = LDead ->
  writer s = WEnd /\
  exists tags, length tags = length (file s) /\ forall p, tagged p tags (file s) = pushes p ls.
Proof.
  intros np ls s H U L. split; [|exact (opip_merge np ls s H U L)].
  apply (ctl_dead s). apply (reach_good np s); auto. exists ls; auto. auto.
Qed.
Print Assumptions C04_file_merges_pushes.

(** C04 at every moment (also after an uninitialised read): what has been enqueued is an
    interleaving of what the producers pushed, at most the item being pushed excepted. *)
Theorem C04_pushes_enqueued : forall np ls s, run (init np) ls = Some s ->
  exists tags, length tags = length (pushed s) /\
    forall p, exists rest, pushes p ls = tagged p tags (pushed s) ++ rest /\ length rest <= 1.
Proof. exact opip_merge_any. Qed.
Print Assumptions C04_pushes_enqueued.

(** C04.  Destruction terminates: while the destructor is in progress every action except a
    spurious wake-up decreases a measure, some action is always possible, and the destructor
    can return. *)
Theorem C04_destructor_terminates : forall np s,
  reachable np s -> uninit_read s = false -> shutting s ->
  (forall l s', spurious l = false -> step s l = Some s' -> weight s' < weight s) /\
  (exists l s', spurious l = false /\ step s l = Some s') /\
  (exists ls s', run s ls = Some s' /\ life s' = LDead).
Proof. exact opip_shutdown. Qed.
Print Assumptions C04_destructor_terminates.

Theorem C04_no_lost_wakeup : forall np s, reachable np s -> uninit_read s = false ->
  writer s = WAsleep -> queue s <> [] ->
  life s = LDNotify \/ exists p, nth_error (prods s) p = Some PNotify.
Proof. exact opip_no_lost_wakeup. Qed.
Print Assumptions C04_no_lost_wakeup.

(** C04, unconditional completeness is false: with the declared member order the writer can
    read the flag before it is initialised; a schedule in which it reads [true] loses data
    although the destructor returns. *)
Theorem C04_complete_refuted : exists s, reachable 1 s /\ life s = LDead /\
  pushed s = [7] /\ file s = [].
Proof. exact opip_lost. Qed.
Print Assumptions C04_complete_refuted.

(** C04.  The item taken is there: a writer about to test the flag finds it set or an item in the queue. *)
Theorem C04_no_empty_pop : forall np s, reachable np s -> uninit_read s = false -> writer s = WCheck ->
  stop s = Some true \/ queue s <> [].
Proof. intros np s R U W. apply (ctl_check s); auto. apply (reach_good np s); auto. Qed.
Print Assumptions C04_no_empty_pop.

(** C04.  With an uninitialised flag that first reads as true and is then initialised to false, front() is called on an empty queue. *)
Theorem C04_empty_pop_refuted : exists s, reachable 1 s /\ life s = LAlive /\ pushed s = [] /\ ub_pop s = true.
Proof.
  eexists. split; [exists [LWriter true; LWriter true; LLife; LWriter true]; vm_compute; reflexivity|]. repeat split.
Qed.
Print Assumptions C04_empty_pop_refuted.

(** Once the writer has ended, no schedule writes anything more. *)
Theorem C04_ended_writer_writes_nothing : forall ls s s', writer s = WEnd -> run s ls = Some s' ->
  writer s' = WEnd /\ file s' = file s.
Proof. exact opip_lost_forever. Qed.
Print Assumptions C04_ended_writer_writes_nothing.

(** A complete life with two producers and no uninitialised read. *)
Example C04_some_life : exists s, reachable 2 s /\ uninit_read s = false /\ life s = LDead /\
  file s = [7; 8] /\ pushed s = [7; 8].
Proof.
  eexists; split.
  - exists [LLife; LWriter false; LWriter false; LPush 0 7; LProd 0; LPush 1 8; LProd 0; LProd 1;
            LProd 1; LProd 0; LWriter false; LWriter false; LWriter false; LWriter false;
            LProd 1; LLife; LLife; LLife; LLife;
            LWriter false; LWriter false; LWriter false; LWriter false; LWriter false; LLife].
    vm_compute; reflexivity.
  - repeat split.
Qed.
(** The destructor theorem applies to a state with a queued item and the writer asleep. *)
Example C04_shutting_case : exists s, reachable 1 s /\ uninit_read s = false /\ shutting s /\
  queue s = [7].
Proof.
  eexists; split.
  - exists [LLife; LPush 0 7; LProd 0; LProd 0; LProd 0; LLife]. vm_compute; reflexivity.
  - repeat split. left; reflexivity.
Qed.
