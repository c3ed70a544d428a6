(** Running a task graph with tf::Executor (src/taskflow/core): every interleaving of the workers and of the threads that submit runs.
    Modelled: a graph of static tasks built with precede/succeed, submitted any number of times with run, run_n or run_until from any number of threads.
    Not modelled: condition, dynamic, module, cudaflow and async tasks, semaphores, cancellation, observers, other taskflows on the same executor, and how a sleeping worker is woken:
    a free worker may take any scheduled node at any moment (the queues themselves are C98).
    Interleaving is sequentially consistent, one atomic access per step. *)
From Coq Require Import List Arith.
Import ListNotations.
(** A taskflow: its nodes are 0 .. size-1; edges lists the calls of Node::_precede in order, graph.hpp:348-351. *)
Record graph := mkG { size : nat; edges : list (nat * nat) }.
(** Node::_successors after these calls, graph.hpp:349. *)
Definition succs (g : graph) (u : nat) : list nat := map snd (filter (fun e => fst e =? u) (edges g)).
(** Node::_dependents after these calls, graph.hpp:350. *)
Definition deps (g : graph) (v : nat) : list nat := map fst (filter (fun e => snd e =? v) (edges g)).
(** Node::num_dependents, graph.hpp:359-361; with static tasks only it is also what _set_up_join_counter stores, graph.hpp:419-433. *)
Definition num_dependents (g : graph) (v : nat) : nat := length (deps g v).
(** The sources found by _set_up_topology, executor.hpp:1010-1017. *)
Definition sources (g : graph) : list nat := filter (fun v => num_dependents g v =? 0) (seq 0 (size g)).
(** Where a worker stands inside _invoke, executor.hpp:636-756: about to start the work (line 665), inside it, before the reset of lines 723-728,
    before the i-th turn of the loop of lines 737-742 (or, past the last one, before line 755), before line 739 and before line 740. *)
Inductive pc := Got | Busy | Worked | Out (i : nat) | Hit (i : nat) | Give (i : nat).
(** Where the thread that handles the topology stands: nowhere; before _set_up_topology (executor.hpp:999); in the loop of _schedule (lines 618-620, 627-629) with these nodes still to be pushed;
    before the call of _pred (line 1034), of _call (line 1045), before the lock of line 1048; between lines 1060 and 1063. *)
Inductive driver := Off | SetUp | Push (l : list nat) | Ask | Bye | Lock | Dec.
(** What can be observed (executor.hpp:818, 1034, 1045, 1056 and 1084): the work of a task starts and ends, the predicate of run c is asked again and answers, its callback is called, its future becomes ready. *)
Inductive event := Start (u : nat) | Finish (u : nat) | Asked (c : nat) (b : bool) | Called (c : nat) | Ready (c : nat).
(** The shared state: Node::_join_counter (graph.hpp:213), Topology::_join_counter (topology.hpp:50), the contents of all queues, the busy workers with the node each of them runs, the handler of the topology;
    f._topologies (runs number cur to sub-1, the one number cur at the front), calls so far of the predicate of run cur, _num_topologies,
    the threads inside run_until between lines 1095 and 1116, the threads between lines 1081 and 1086 (false: before set_value, true: after it), and the history so far. *)
Record st := mkS { jc : nat -> nat; tj : nat; queue : list nat; act : list (nat * pc); drv : driver; cur : nat; sub : nat; calls : nat; num : nat; pend : nat; owe : list (nat * bool); log : list event }.
(** A store to one counter (graph.hpp:213, 432). *)
Definition upd (f : nat -> nat) (v x : nat) : nat -> nat := fun w => if w =? v then x else f w.
(** Before the first run (executor.hpp, topology.hpp:50: all counters zero). *)
Definition init : st := mkS (fun _ => 0) 0 [] [] Off 0 0 0 0 0 [] [].
(** A worker moves on inside _invoke, executor.hpp:636-756: the access it makes at this point of the code. [b] is the rest of the busy workers. *)
Inductive work (g : graph) (s : st) (a b : list (nat * pc)) (u : nat) : pc -> st -> Prop :=
(** _invoke_static_task, executor.hpp:665-668, 816-820. *)
| w_start : work g s a b u Got (mkS (jc s) (tj s) (queue s) (a ++ (u, Busy) :: b) (drv s) (cur s) (sub s) (calls s) (num s) (pend s) (owe s) (log s ++ [Start u]))
| w_finish : work g s a b u Busy (mkS (jc s) (tj s) (queue s) (a ++ (u, Worked) :: b) (drv s) (cur s) (sub s) (calls s) (num s) (pend s) (owe s) (log s ++ [Finish u]))
(** The counter is recovered, executor.hpp:727. *)
| w_reset : work g s a b u Worked (mkS (upd (jc s) u (num_dependents g u)) (tj s) (queue s) (a ++ (u, Out 0) :: b) (drv s) (cur s) (sub s) (calls s) (num s) (pend s) (owe s) (log s))
(** One turn of the loop, executor.hpp:737-738. *)
| w_dec i v : nth_error (succs g u) i = Some v ->
    work g s a b u (Out i) (mkS (upd (jc s) v (jc s v - 1)) (tj s) (queue s) (a ++ (u, if jc s v - 1 =? 0 then Hit i else Out (S i)) :: b) (drv s) (cur s) (sub s) (calls s) (num s) (pend s) (owe s) (log s))
(** j.fetch_add(1), executor.hpp:739. *)
| w_add i : work g s a b u (Hit i) (mkS (jc s) (tj s + 1) (queue s) (a ++ (u, Give i) :: b) (drv s) (cur s) (sub s) (calls s) (num s) (pend s) (owe s) (log s))
(** _schedule of one node, executor.hpp:740, 578-588. *)
| w_push i v : nth_error (succs g u) i = Some v ->
    work g s a b u (Give i) (mkS (jc s) (tj s) (v :: queue s) (a ++ (u, Out (S i)) :: b) (drv s) (cur s) (sub s) (calls s) (num s) (pend s) (owe s) (log s))
(** _tear_down_invoke, executor.hpp:787-792; the worker is free again, or goes on into _tear_down_topology. *)
| w_down : work g s a b u (Out (length (succs g u))) (mkS (jc s) (tj s - 1) (queue s) (a ++ b) (if tj s =? 1 then Ask else drv s) (cur s) (sub s) (calls s) (num s) (pend s) (owe s) (log s)).
(** What the executor does on its own, executor.hpp:578-800 and 999-1088; [W] is the number of workers and [stop c k] what the predicate of run c answers when called for the k-th time. *)
Inductive internal (W : nat) (g : graph) (stop : nat -> nat -> bool) (s : st) : st -> Prop :=
(** A free worker takes a scheduled node, executor.hpp:463 (pop), 481 and 498 (steal). *)
| i_take q1 q2 u : queue s = q1 ++ u :: q2 -> length (act s) < W ->
    internal W g stop s (mkS (jc s) (tj s) (q1 ++ q2) ((u, Got) :: act s) (drv s) (cur s) (sub s) (calls s) (num s) (pend s) (owe s) (log s))
(** A busy worker moves on. *)
| i_work a b u p s' : act s = a ++ (u, p) :: b -> work g s a b u p s' -> internal W g stop s s'
(** _set_up_topology, executor.hpp:999-1024, up to the scheduling: nobody else looks at the graph then, so it is one step. *)
| i_setup : drv s = SetUp ->
    internal W g stop s (mkS (fun v => num_dependents g v) (length (sources g)) (queue s) (act s) (Push (sources g)) (cur s) (sub s) 1 (num s) (pend s) (owe s) (log s))
(** One turn of the loop of _schedule, executor.hpp:618-620 and 627-629. *)
| i_push v l : drv s = Push (v :: l) ->
    internal W g stop s (mkS (jc s) (tj s) (v :: queue s) (act s) (Push l) (cur s) (sub s) (calls s) (num s) (pend s) (owe s) (log s))
(** The predicate says to go on, executor.hpp:1034-1038. *)
| i_again : drv s = Ask -> stop (cur s) (calls s) = false ->
    internal W g stop s (mkS (jc s) (length (sources g)) (queue s) (act s) (Push (sources g)) (cur s) (sub s) (S (calls s)) (num s) (pend s) (owe s) (log s ++ [Asked (cur s) false]))
(** The predicate says to stop, executor.hpp:1034, 1040. *)
| i_stop : drv s = Ask -> stop (cur s) (calls s) = true ->
    internal W g stop s (mkS (jc s) (tj s) (queue s) (act s) Bye (cur s) (sub s) (calls s) (num s) (pend s) (owe s) (log s ++ [Asked (cur s) true]))
(** The callback, executor.hpp:1044-1046. *)
| i_call : drv s = Bye ->
    internal W g stop s (mkS (jc s) (tj s) (queue s) (act s) Lock (cur s) (sub s) (calls s) (num s) (pend s) (owe s) (log s ++ [Called (cur s)]))
(** Under the lock: there is another run, executor.hpp:1048-1060. *)
| i_next : drv s = Lock -> 1 < sub s - cur s ->
    internal W g stop s (mkS (jc s) (tj s) (queue s) (act s) Dec (S (cur s)) (sub s) (calls s) (num s) (pend s) (owe s) (log s ++ [Ready (cur s)]))
(** _decrement_topology, executor.hpp:1063. *)
| i_dec : drv s = Dec ->
    internal W g stop s (mkS (jc s) (tj s) (queue s) (act s) SetUp (cur s) (sub s) (calls s) (num s - 1) (pend s) (owe s) (log s))
(** Under the lock: there is none, executor.hpp:1067-1080. *)
| i_last : drv s = Lock -> sub s - cur s <= 1 ->
    internal W g stop s (mkS (jc s) (tj s) (queue s) (act s) Off (S (cur s)) (sub s) (calls s) (num s) (pend s) ((cur s, false) :: owe s) (log s))
(** p.set_value(), executor.hpp:1084. *)
| i_ready o1 o2 c : owe s = o1 ++ (c, false) :: o2 ->
    internal W g stop s (mkS (jc s) (tj s) (queue s) (act s) (drv s) (cur s) (sub s) (calls s) (num s) (pend s) (o1 ++ (c, true) :: o2) (log s ++ [Ready c]))
(** _decrement_topology_and_notify, executor.hpp:1086. *)
| i_paid o1 o2 c : owe s = o1 ++ (c, true) :: o2 ->
    internal W g stop s (mkS (jc s) (tj s) (queue s) (act s) (drv s) (cur s) (sub s) (calls s) (num s - 1) (pend s) (o1 ++ o2) (log s)).
(** What the calling threads do inside run_until, executor.hpp:1093-1133. *)
Inductive user (g : graph) (s : st) : st -> Prop :=
(** _increment_topology, executor.hpp:1095. *)
| u_enter : user g s (mkS (jc s) (tj s) (queue s) (act s) (drv s) (cur s) (sub s) (calls s) (S (num s)) (S (pend s)) (owe s) (log s))
(** An empty taskflow, or the predicate says at once to stop: nothing is run, executor.hpp:1098-1103. *)
| u_early : 0 < pend s -> user g s (mkS (jc s) (tj s) (queue s) (act s) (drv s) (cur s) (sub s) (calls s) (num s - 1) (pend s - 1) (owe s) (log s))
(** The run is queued and, if it is alone, this thread goes on to set it up, executor.hpp:1117-1130. *)
| u_push : 0 < pend s -> size g <> 0 ->
    user g s (mkS (jc s) (tj s) (queue s) (act s) (if S (sub s) - cur s =? 1 then SetUp else drv s) (cur s) (S (sub s)) (calls s) (num s) (pend s - 1) (owe s) (log s)).
(** Any history of an executor with W workers, executor.hpp:578-1160. *)
Inductive reachable (W : nat) (g : graph) (stop : nat -> nat -> bool) : st -> Prop :=
| r_init : reachable W g stop init
| r_internal s s' : reachable W g stop s -> internal W g stop s s' -> reachable W g stop s'
| r_user s s' : reachable W g stop s -> user g s s' -> reachable W g stop s'.
(** The predicate of run_n(f, repeat), executor.hpp:986-990: repeat-- == 0 at the k-th call, counting from 0. *)
Definition run_n (repeat : nat) (k : nat) : bool := repeat =? k.
