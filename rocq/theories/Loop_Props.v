(** C01: the parallel loop. *)
From Verif Require Import Base Loop_Model Loop_Proofs.

(** [indices (b,e)] is [b, b+1, ..., e-1]: what [for (i = b; i < e; ++i)] visits.
    The indices visited by all workers, concatenated in worker order, are [0,1,...,total-1]
    when [total mod T = 0] or [total mod T < total / T]; otherwise exactly the last
    [total mod T] indices are missing.  Being a [seq] there are no duplicates. *)
Theorem C01_loop_coverage : forall total T rs,
  multi_threads_loop total T = Ok rs ->
  length rs = T /\
  (forall r, In r rs -> fst r <= snd r <= total) /\
  flat_map indices rs =
    (if (total mod T =? 0) || (total mod T <? total / T) then seq 0 total
     else seq 0 (total - total mod T)).
Proof. exact loop_all. Qed.
Print Assumptions C01_loop_coverage.

(** The loop is defined exactly for a positive number of threads. *)
Theorem C01_loop_defined : forall total T,
  (exists rs, multi_threads_loop total T = Ok rs) <-> 0 < T.
Proof. exact loop_defined. Qed.
Print Assumptions C01_loop_defined.

(** The claim "every index below [total] is processed" is false of the code. *)
Theorem C01_full_coverage_refuted :
  exists total T rs, 0 < T /\ multi_threads_loop total T = Ok rs /\
    ~ (forall i, i < total -> In i (flat_map indices rs)).
Proof. exact loop_refuted. Qed.
Print Assumptions C01_full_coverage_refuted.

(** Every total below the thread count is dropped completely. *)
Theorem C01_small_totals_dropped : forall total T rs,
  total < T -> multi_threads_loop total T = Ok rs -> 
  flat_map indices rs = [].
Proof. exact loop_small. Qed.
Print Assumptions C01_small_totals_dropped.

Example C01_nonvacuous :
  multi_threads_loop 11 3 = Ok [(0,3);(3,6);(6,11)] /\
  multi_threads_loop 5 2 = Ok [(0,2);(2,5)] /\
  multi_threads_loop 7 4 = Ok [(0,1);(1,2);(2,3);(3,4)].
Proof. repeat split. Qed.

(** Arguments given to [multi_thread]: an lvalue reaches every thread unchanged; an rvalue
    reaches only the first thread, the k-th one sees it after k moves. *)
Theorem C01_forwarded_arguments : forall (A : Type) (moved : A -> A) (rv : bool) n v,
  multi_thread_args moved rv n v =
  if rv then map (fun k => Nat.iter k moved v) (seq 0 n) else repeat v n.
Proof. exact @multi_thread_args_spec. Qed.
Print Assumptions C01_forwarded_arguments.

Example C01_rvalue_argument_lost :
  (* a vector argument passed as an rvalue to three threads: moved-from vectors are empty *)
  multi_thread_args (fun _ : list nat => []) true 3 [7;8] = [[7;8];[];[]].
Proof. reflexivity. Qed.
