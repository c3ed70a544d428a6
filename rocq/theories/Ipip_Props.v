(** C05: the asynchronous input pipe, for every schedule. *)
From Verif Require Import Base Ipip_Model Ipip_Proofs Ipip_Proofs2 Ipip_Proofs3.

(** C05.  For every well-formed file (records [recs], [tr] telling whether white space follows
    the last one), every number of reader threads and every interleaving: what has been handed
    out is a prefix of the file's records, in order, without loss or duplication (followed by
    at most one junk record, see [all_reads]). *)
Theorem C05_delivered_in_order : forall nr recs tr s,
  reachable nr (open_file (map Some recs) tr) s ->
  exists rest, map Some recs ++ (if tr || is_nil recs then [None] else []) = delivered s ++ rest.
Proof. exact ipip_prefix. Qed.
Print Assumptions C05_delivered_in_order.

(** C05.  A reader is told "end of input" only after every record has been handed out. *)
Theorem C05_end_means_complete : forall nr recs tr s,
  reachable nr (open_file (map Some recs) tr) s -> uninit_read s = false -> ended s = true ->
  delivered s = map Some recs ++ (if tr || is_nil recs then [None] else []).
Proof. exact ipip_complete. Qed.
Print Assumptions C05_end_means_complete.

(** C05.  The pipe never buffers more than 100 records, whatever the file and the schedule. *)
Theorem C05_buffer_bounded : forall nr f s, reachable nr f s -> uninit_read s = false ->
  length (queue s) <= 100.
Proof. exact ipip_bounded. Qed.
Print Assumptions C05_buffer_bounded.

(** C05.  When destruction has completed the loader thread has returned. *)
Theorem C05_destroyed_means_joined : forall nr f s, reachable nr f s -> uninit_read s = false ->
  life s = LDead -> loader s = LdEnd.
Proof. exact ipip_joined. Qed.
Print Assumptions C05_destroyed_means_joined.

(** "Exactly the file's records are delivered" is false: a file with a final newline delivers
    one junk record more, and in every schedule in which the end is reported it does so. *)
Theorem C05_no_junk_refuted : forall nr recs s,
  reachable nr (open_file (map Some recs) true) s -> uninit_read s = false -> ended s = true ->
  delivered s = map Some recs ++ [None].
Proof. intros nr recs s R U E. exact (ipip_complete nr recs true s R U E). Qed.
Print Assumptions C05_no_junk_refuted.

Example C05_junk_case : exists s, reachable 1 (open_file [Some 7] true) s /\ uninit_read s = false /\
  ended s = true /\ delivered s = [Some 7; None].
Proof.
  eexists; split.
  - exists ([LLife; LLife] ++ repeat (LLoader false) 11 ++
            [LCall 0; LReader 0; LReader 0; LReader 0; LCall 0; LReader 0; LReader 0; LReader 0;
             LCall 0; LReader 0; LReader 0; LReader 0]).
    vm_compute; reflexivity.
  - repeat split.
Qed.

(** C05.  No deadlock: if the end mark was not overwritten during construction and the stop
    flag was not read uninitialised, then whenever some [>>] is in progress the loader or some
    reader can take a step (without relying on spurious wake-ups or on new calls). *)
Theorem C05_no_deadlock : forall nr f s r k, reachable nr f s -> uninit_read s = false ->
  overwritten s = false -> nth_error (readers s) r = Some k -> k <> RIdle ->
  exists l s', (l = LLoader false \/ exists p, l = LReader p) /\ step s l = Some s'.
Proof. exact ipip_no_deadlock. Qed.
Print Assumptions C05_no_deadlock.

(** C05.  Destruction terminates once its flag is raised. *)
Theorem C05_destructor_terminates : forall nr f s,
  reachable nr f s -> uninit_read s = false -> stop s = Some true ->
  (forall l s', spurious l = false -> step s l = Some s' -> weight s' < weight s) /\
  (life s <> LDead -> exists l s', spurious l = false /\ step s l = Some s') /\
  (exists ls s', run s ls = Some s' /\ life s' = LDead).
Proof. exact ipip_shutdown. Qed.
Print Assumptions C05_destructor_terminates.

(** "A reader never blocks for ever" is false: because the initialiser of the end mark runs
    after the loader thread has been started, there is a reachable state (without any
    uninitialised read) from which no continuation, not even one with spurious wake-ups, lets
    the reader's second [>>] return. *)
Theorem C05_reader_returns_refuted : exists s, reachable 1 (open_file [Some 7] false) s /\
  uninit_read s = false /\ delivered s = [Some 7] /\
  nth_error (readers s) 0 = Some RAcquire /\
  forall ls s', run s ls = Some s' -> (exists k, nth_error (readers s') 0 = Some k /\ k <> RIdle) /\
    delivered s' = [Some 7] /\ life s' = LAlive.
Proof. exact ipip_blocked. Qed.
Print Assumptions C05_reader_returns_refuted.

(** A missing file never reports the end of input: every [>>] that returns hands out junk, and
    the loader never finishes before destruction. *)
Theorem C05_missing_file_never_ends : forall nr s,
  reachable nr open_missing s -> uninit_read s = false ->
  ended s = false /\ Forall (fun v => v = None) (delivered s) /\
  (stop s <> Some true -> finishing (loader s) = false).
Proof. exact ipip_missing_never_ends. Qed.
Print Assumptions C05_missing_file_never_ends.

Example C05_missing_file_case : exists s, reachable 1 open_missing s /\ uninit_read s = false /\
  delivered s = [None] /\ length (queue s) = 99.
Proof.
  eexists; split.
  - exists ([LLife; LLife] ++ repeat (LLoader false) 105 ++ [LCall 0; LReader 0; LReader 0; LReader 0]).
    vm_compute; reflexivity.
  - repeat split.
Qed.
(** A waiting reader with the loader asleep-free, as in [C05_no_deadlock]. *)
Example C05_waiting_reader : exists s, reachable 2 (open_file [Some 7; Some 8] false) s /\
  uninit_read s = false /\ overwritten s = false /\ nth_error (readers s) 1 = Some RAsleep.
Proof.
  eexists; split.
  - exists [LLife; LLife; LCall 1; LReader 1; LReader 1]. vm_compute; reflexivity.
  - repeat split.
Qed.

(** C05.  A live pipe that no reader is using can always be destroyed: the destructor may start, whatever the loader is doing, and can run to its end. *)
Theorem C05_destroyable : forall nr f s, reachable nr f s -> uninit_read s = false -> life s = LAlive ->
  (forall p k, nth_error (readers s) p = Some k -> k = RIdle) ->
  exists s1 ls s', step s LLife = Some s1 /\ run s1 ls = Some s' /\ life s' = LDead.
Proof. exact ipip_destroyable. Qed.
Print Assumptions C05_destroyable.
(** One reader, idle, with the loader in the middle of filling the buffer. *)
Example C05_destroyable_case : exists s, reachable 1 (open_file [Some 7; Some 8] false) s /\ uninit_read s = false /\ life s = LAlive /\
  readers s = [RIdle] /\ loader s = LdFill 1.
Proof. eexists; split; [exists ([LLife; LLife] ++ repeat (LLoader false) 5); vm_compute; reflexivity|repeat split]. Qed.
