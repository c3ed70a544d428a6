(** Vocabulary for C70: what happened to one stored callback object during a run. *)
From Verif Require Import Sim_Model Own_Model.
Open Scope R_scope.

Definition same_kind (a b : kind) : bool :=
  match a, b with
  | KOp i, KOp j | KStart i, KStart j | KStopOp i, KStopOp j => (i =? j)%nat
  | KStep, KStep => true
  | _, _ => false
  end.
(** The events of one kind, e.g. the calls of the i-th operation. *)
Definition only {W} (k : kind) (tr : list (event W)) : list (event W) := filter (fun e => same_kind (ek e) k) tr.

(** [evs] are successive calls of one object: the first finds it as [c], every call changes the world as its body says
    and the next call finds the object as the previous one left it; the last leaves [c']. *)
Fixpoint successive {W X} (c : callable W unit) (evs : list (event (W * X))) (c' : callable W unit) : Prop :=
  match evs with
  | [] => c' = c
  | e :: r => exists c1, invoke c (eh e) (fst (before e)) = (tt, fst (after e), c1) /\ successive c1 r c'
  end.
