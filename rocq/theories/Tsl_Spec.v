(** What is expected of the workers' sleep. *)
From Verif Require Import Tsl_Model.
From Coq Require Import List Arith.
(** Worker w sleeps and nobody has woken it. *)
Definition asleep (s : st) (w : nat) : Prop := wk s w = Sleep /\ tok s w = false.
(** No other thread is inside a call of the executor. *)
Definition quiet (s : st) : Prop := forall k, ex s k = Idle.
(** Worker w has a task in hand. *)
Definition holds (p : pc) : Prop := match p with Got | Ntf1 | Act0 | Act1 | Ntf2 | Run => True | _ => False end.
(** Worker w is executing tasks, counted as active. *)
Definition working (p : pc) : Prop := match p with Act1 | Ntf2 | Run => True | _ => False end.
(** Worker w looks for a task or will do so before it can sleep, or is about to wake another: it is awake and not merely executing tasks or about to sleep; or it has been notified. *)
Definition looking (s : st) (w : nat) : Prop := match wk s w with Start | Th | Got | Ntf1 | Act1 | Ntf2 | Prep | Canc1 | Steal | Chk | Chk2 | Last | Canc0 => True | LastQ | Com | Sleep => tok s w = true | _ => False end.
(** Worker w runs, and nobody else. *)
Inductive alone (N w : nat) : st -> st -> Prop :=
| a_nil s : alone N w s s
| a_step s s1 s2 : wstep N s w (wk s w) s1 -> alone N w s1 s2 -> alone N w s s2.
(** The other thread k goes on with a call it is inside of, and nobody else runs, until at most the return of that call. *)
Inductive calling (N k : nat) : st -> st -> Prop :=
| c_nil s : calling N k s s
| c_step s s1 s2 : ex s k <> Idle -> estep N s k (ex s k) s1 -> calling N k s1 s2 -> calling N k s s2.
(** How many tasks a thread schedules by entering the executor. *)
Definition scheduled (e e' : ext) : nat := match e, e' with Idle, Psh n _ => n | _, _ => 0 end.
(** How many successors the task that worker w executes has scheduled in this step: its own queue has grown by so many. *)
Definition spawned (s s' : st) (w : nat) : nat := lq s' w - lq s w.
(** How many tasks worker w takes in this step: while it executes tasks and goes on doing so, one if its own queue has become shorter; otherwise one if it had none in hand and now has one. *)
Definition taken (s s' : st) (w : nat) : nat :=
  match wk s w with
  | Run => match wk s' w with Run => if lq s' w <? lq s w then 1 else 0 | _ => 0 end
  | Got | Ntf1 | Act0 | Act1 | Ntf2 => 0
  | _ => match wk s' w with Got | Ntf1 | Act0 | Act1 | Ntf2 | Run => 1 | _ => 0 end
  end.
(** A history of N workers and K other threads, with the number of tasks scheduled so far and of tasks taken so far. *)
Inductive tally (N K : nat) : nat -> nat -> st -> Prop :=
| t_init : tally N K 0 0 init
| t_work a b s w s' : tally N K a b s -> w < N -> wstep N s w (wk s w) s' -> tally N K (a + spawned s s' w) (b + taken s s' w) s'
| t_ext a b s k s' : tally N K a b s -> k < K -> estep N s k (ex s k) s' -> tally N K (a + scheduled (ex s k) (ex s' k)) b s'.
(** All tasks in the queues of the first N workers. *)
Fixpoint queued (N : nat) (q : nat -> nat) : nat := match N with 0 => 0 | S n => queued n q + q n end.
