(** What running a task graph means. *)
From Verif Require Import Tgr_Model.
From Coq Require Import List.
Import ListNotations.
(** Every edge joins two nodes of the graph. *)
Definition well_formed (g : graph) : Prop := forall u v, In (u, v) (edges g) -> u < size g /\ v < size g.
(** No cycle: the nodes can be numbered so that every edge goes up. *)
Definition acyclic (g : graph) : Prop := exists rank : nat -> nat, forall u v, In (u, v) (edges g) -> rank u < rank v.
(** A legal beginning of one pass over the graph: a task starts at most once and only after all its predecessors have finished; it finishes at most once and only after it has started; nothing else happens. *)
Definition sound (g : graph) (l : list event) : Prop := forall pre e post, l = pre ++ e :: post ->
  match e with
  | Start v => v < size g /\ ~ In (Start v) pre /\ (forall u, In (u, v) (edges g) -> In (Finish u) pre)
  | Finish v => In (Start v) pre /\ ~ In (Finish v) pre
  | _ => False
  end.
(** A complete pass: every task has finished. *)
Definition pass (g : graph) (l : list event) : Prop := sound g l /\ forall v, v < size g -> In (Finish v) l.
(** [history g stop c k l]: l is the history of runs 0 .. c-1, complete and one after the other, followed by k passes of run c after each of which its predicate, called for the first time before the run,
    has answered that another pass is wanted. *)
Inductive history (g : graph) (stop : nat -> nat -> bool) : nat -> nat -> list event -> Prop :=
| h_none : history g stop 0 0 []
| h_pass c k l r : history g stop c k l -> pass g r -> stop c (S k) = false -> history g stop c (S k) (l ++ r ++ [Asked c false])
| h_run c k l r : history g stop c k l -> pass g r -> stop c (S k) = true -> history g stop (S c) 0 (l ++ r ++ [Asked c true; Called c]).
(** The events other than futures becoming ready. *)
Definition is_ready (e : event) : bool := match e with Ready _ => true | _ => false end.
Definition body (l : list event) : list event := filter (fun e => negb (is_ready e)) l.
(** The history of one whole run c: the passes rs, then the last one r, then the callback. *)
Definition run_log (c : nat) (rs : list (list event)) (r : list event) : list event := concat (map (fun p => p ++ [Asked c false]) rs) ++ r ++ [Asked c true; Called c].
(** k steps of the executor on its own. *)
Inductive steps (W : nat) (g : graph) (stop : nat -> nat -> bool) : nat -> st -> st -> Prop :=
| s_none s : steps W g stop 0 s s
| s_more k s s' s'' : internal W g stop s s' -> steps W g stop k s' s'' -> steps W g stop (S k) s s''.
