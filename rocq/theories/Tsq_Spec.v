(** Specification for C98: a double-ended queue of which one thread pushes and pops at the right, and any thread takes at the left; and linearisability. *)
From Verif Require Export Tsq_Model.
From Coq Require Export Permutation.
Section Spec.
Context {A : Type}.
(** The sequential deque: what one operation, with its result, does. *)
Inductive deque : list A -> op A -> list A -> Prop :=
| d_push q o : deque q (Push o) (q ++ [o])
| d_pop q x : deque (q ++ [x]) (Pop (Some x)) q
| d_pop_empty : deque [] (Pop None) []
| d_steal q x : deque (x :: q) (Steal (Some x)) q
| d_steal_fails q : deque q (Steal None) q.
Inductive deques : list A -> list (op A) -> list A -> Prop :=
| ds_nil q : deques q [] q
| ds_snoc q l q' o q'' : deques q l q' -> deque q' o q'' -> deques q (l ++ [o]) q''.
Definition of_kind (k : kind A) (o : op A) : Prop := match k, o with KPush x, Push y => x = y | KPop, Pop _ => True | KSteal, Steal _ => True | _, _ => False end.
(** [linear h l st]: the operations of the history h can be put in the order l so that each takes effect at a point between its call and its return, with the
    result it returns; st: for each thread, whether it is outside, called and without effect so far, or has had its effect and not returned. *)
Inductive phase := Outside | Called (k : kind A) | Done (o : op A).
Definition turn (st : option nat -> phase) (w : option nat) (p : phase) : option nat -> phase := fun v => if match v, w with None, None => true | Some i, Some j => Nat.eqb i j | _, _ => false end then p else st v.
Inductive linear : list (event A) -> list (op A) -> (option nat -> phase) -> Prop :=
| l_start : linear [] [] (fun _ => Outside)
| l_call h l st w k : linear h l st -> st w = Outside -> linear (h ++ [Call w k]) l (turn st w (Called k))
| l_effect h l st w k o : linear h l st -> st w = Called k -> of_kind k o -> linear h (l ++ [o]) (turn st w (Done o))
| l_return h l st w o : linear h l st -> st w = Done o -> linear (h ++ [Ret w o]) l (turn st w Outside).
(** Items handed in and items handed out by the calls that have returned, with multiplicities. *)
Fixpoint pushed (h : list (event A)) : list A := match h with [] => [] | Ret _ (Push o) :: r => o :: pushed r | _ :: r => pushed r end.
Fixpoint taken (h : list (event A)) : list A := match h with [] => [] | Ret _ (Pop (Some x)) :: r | Ret _ (Steal (Some x)) :: r => x :: taken r | _ :: r => taken r end.
(** No call is under way. *)
Definition quiet (s : state A) : Prop := owner s = OIdle /\ forall k, thieves s k = SIdle.
(** What the slots hold between _top and _bottom, the oldest first. *)
Definition items (s : state A) : list A := map (fun n => a_pop (heap s (cur s)) (top s + Z.of_nat n)) (seq 0 (Z.to_nat (bottom s - top s))).
(** Running under a schedule: the thread named takes its next step, if it is inside a call. *)
Fixpoint exec (junk : A) (s : state A) (sched : list (option nat)) : state A * list (event A) :=
  match sched with
  | [] => (s, [])
  | w :: r => match match w with None => own_step junk s | Some k => thief_step s k end with
              | None => exec junk s r
              | Some (s', e) => let (s'', e') := exec junk s' r in (s'', e ++ e')
              end
  end.
Definition power_of_two (c : Z) : Prop := exists k, 0 <= k /\ c = 2 ^ k.
End Spec.
