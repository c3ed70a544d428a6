(** C06: records written through a ConcurrentFile are atomic, for every schedule. *)
From Verif Require Import Base CFile_Model CFile_Proofs.

(** C06.  For any number of threads with any programs (lists of records) and every schedule:
    when all threads are done, the file is the concatenation of whole records, where the
    records completed by each thread are exactly its program, in order. *)
Theorem C06_records_atomic : forall progs s, reachable progs s ->
  (forall k, In k (pcs s) -> k = TIdle) /\ (forall l, In l (todo s) -> l = []) ->
  file s = concat (map snd (log s)) /\
  (forall t p, nth_error progs t = Some p ->
     map snd (filter (fun e => fst e =? t) (log s)) = p) /\
  (forall e, In e (log s) -> fst e < length progs).
Proof. exact cfile_final. Qed.
Print Assumptions C06_records_atomic.

(** C06 at every intermediate moment: whole records, then at most one unfinished record (only
    while the lock is held), and per-thread prefixes of the programs. *)
Theorem C06_records_atomic_always : forall progs s, reachable progs s ->
  exists part, file s = concat (map snd (log s)) ++ part /\
    (locked s = false -> part = []) /\
    (forall t p, nth_error progs t = Some p ->
       exists rest, p = map snd (filter (fun e => fst e =? t) (log s)) ++ rest) /\
    (forall e, In e (log s) -> fst e < length progs).
Proof. exact cfile_any. Qed.
Print Assumptions C06_records_atomic_always.

Theorem C06_no_deadlock : forall progs s, reachable progs s ->
  ((forall k, In k (pcs s) -> k = TIdle) /\ (forall l, In l (todo s) -> l = [])) \/
  exists t s', step s t = Some s'.
Proof. exact cfile_progress. Qed.
Print Assumptions C06_no_deadlock.

(** "A chained expression [f << a << b] is written contiguously" is false. *)
Theorem C06_chain_atomic_refuted : exists s, reachable [[[1]; [2]]; [[1]; [2]]] s /\
  all_done s /\ file s = [1; 1; 2; 2].
Proof. exact cfile_chain_interleaves. Qed.
Print Assumptions C06_chain_atomic_refuted.

Example C06_case : exists s, reachable [[[1;2;3]]; [[4;5]; [6]]] s /\ all_done s /\
  file s = [4;5;1;2;3;6].
Proof.
  eexists; split.
  - exists [0;1;1;1;1;1;0;1;0;0;0;0;1;1;1]. vm_compute; reflexivity.
  - split; [|reflexivity]. split; simpl; intuition.
Qed.
