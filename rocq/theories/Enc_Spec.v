(** What an event count promises. *)
From Verif Require Import Enc_Model.
From Coq Require Import List Arith.
Import ListNotations.
(** A notify(true) has taken effect since w last prepared to wait; the history is read latest first. *)
Fixpoint told (l : list event) (w : nat) : bool := match l with
  | [] => false
  | Prep v :: l => if v =? w then false else told l w
  | All :: _ => true
  | _ :: l => told l w
  end.
(** How many waiters are still to be notified: those that prepared, less those that took it back or were notified. *)
Fixpoint owed (l : list event) : nat := match l with
  | [] => 0
  | Prep _ :: l => S (owed l)
  | Undo _ :: l | One :: l => owed l - 1
  | All :: _ => 0
  | Nobody :: l => owed l
  end.
(** w sleeps and has not been signalled. *)
Definition blocked (s : st) (w : nat) : Prop := ws s w = Park /\ sig s w = false.
(** No notify is under way. *)
Definition no_notify (s : st) : Prop := forall k, ns s k = Rest.
(** Not inside any call, or asleep. *)
Definition outside (x : wst) : Prop := x = Away \/ x = Park.
(** Waiter w runs, and nobody else. *)
Inductive alone (w : nat) : st -> st -> Prop :=
| a_nil s : alone w s s
| a_step s s1 s2 : wstep s w (ws s w) s1 -> alone w s1 s2 -> alone w s s2.
(** The notifying thread k runs, and nobody else. *)
Inductive alonen (k : nat) : st -> st -> Prop :=
| an_nil s : alonen k s s
| an_step s s1 s2 : nstep s k (ns s k) s1 -> alonen k s1 s2 -> alonen k s s2.
(** What a step does as its callers see it: an event, a return of commit_wait or cancel_wait because the waiter was notified, or nothing. *)
Inductive act := Ev (a : event) | Ret (w : nat) | Tau.
(** A waiter's step is an event if it is logged, a return if the waiter is outside afterwards. *)
Definition wact (s : st) (w : nat) (s' : st) : act := if length (log s') =? length (log s) then match ws s w, ws s' w with Away, _ => Tau | _, Away => Ret w | _, _ => Tau end else match log s' with a :: _ => Ev a | [] => Tau end.
(** A notifying thread's step. *)
Definition nact (s s' : st) : act := if length (log s') =? length (log s) then Tau else match log s' with a :: _ => Ev a | [] => Tau end.
(** An event count in one piece: the set of those that have prepared to wait and have been neither notified nor taken back. *)
Inductive astep (A : nat -> Prop) : act -> (nat -> Prop) -> Prop :=
| as_prep w A' : ~ A w -> (forall v, A' v <-> A v \/ v = w) -> astep A (Ev (Prep w)) A'
| as_undo w A' : A w -> (forall v, A' v <-> A v /\ v <> w) -> astep A (Ev (Undo w)) A'
| as_one w A' : A w -> (forall v, A' v <-> A v /\ v <> w) -> astep A (Ev One) A'
| as_all A' : (forall v, ~ A' v) -> astep A (Ev All) A'
| as_nobody A' : (forall v, ~ A v) -> (forall v, ~ A' v) -> astep A (Ev Nobody) A'
| as_ret w A' : ~ A w -> (forall v, A' v <-> A v) -> astep A (Ret w) A'
| as_tau A' : (forall v, A' v <-> A v) -> astep A Tau A'.
