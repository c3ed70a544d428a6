(** Model of the asynchronous output pipe [hub::multi_thread::Opip]
    (/repo/src/multi-thread/ciostream.hpp:12-62) as a transition system.
    Data items are natural numbers; writing to the file is appending to a list. *)
From Verif Require Import Base.

(** Writer thread, ciostream.hpp:17-34. *)
Inductive wpc :=
| WAcquire          (* 19, or re-acquiring inside [wait] *)
| WTest             (* 20: holds the lock, evaluates [stop_ || !queue_.empty()] *)
| WAsleep           (* 20: asleep in [cv_.wait], lock released *)
| WCheck            (* 22: holds the lock, wait returned *)
| WWrite (d : nat)  (* 28: lock released, item popped, not yet written *)
| WDrain            (* 31-34: after [break]; the lock was released on leaving the scope *)
| WEnd.

(** Producers calling [operator<<], ciostream.hpp:47-53. *)
Inductive ppc :=
| PIdle
| PAcquire (x : nat)   (* 49 *)
| PHold (x : nat)      (* 50 *)
| PNotify.             (* 52 *)

(** Life cycle: the constructor initialises [thread_] (starting the writer) BEFORE [stop_]
    (member order, ciostream.hpp:56-61); then the destructor, 37-45. *)
Inductive lpc :=
| LCtor        (* writer may already run, [stop_] not yet initialised *)
| LAlive       (* constructor finished *)
| LDAcquire    (* 39 *)
| LDHold       (* 40 *)
| LDNotify     (* 42 *)
| LDJoin       (* 44 *)
| LDead.

(** Members of Opip, ciostream.hpp:56-61, the program counters of the threads and ghost fields. *)
Record pipe := mkPipe {
  queue : list nat;
  stop : option bool;        (* [None]: uninitialised *)
  locked : bool;
  writer : wpc;
  prods : list ppc;
  life : lpc;
  file : list nat;           (* what has been written *)
  pushed : list nat;         (* ghost: everything enqueued so far, in order *)
  uninit_read : bool;        (* ghost: [stop_] was read before initialisation *)
  ub_pop : bool              (* ghost: front() on an empty queue *)
}.

(** Scheduler choices: which thread of ciostream.hpp:16-53 moves next. *)
Inductive label :=
| LWriter (garbage : bool)   (* writer's next action; [garbage] is the value an
                                uninitialised [stop_] happens to have *)
| LSpurious
| LPush (p x : nat)          (* producer [p] starts [pipe << x] *)
| LProd (p : nat)            (* next action of producer [p] *)
| LLife.                     (* next action of constructor/destructor *)

(** Field update used by the transitions of ciostream.hpp:17-34. *)
Definition upd_w (s : pipe) (w : wpc) (lk : bool) : pipe :=
  mkPipe (queue s) (stop s) lk w (prods s) (life s) (file s) (pushed s) (uninit_read s) (ub_pop s).
(** Field update used by the transitions of ciostream.hpp:47-53. *)
Definition upd_p (s : pipe) (p : nat) (k : ppc) (lk : bool) : pipe :=
  mkPipe (queue s) (stop s) lk (writer s) (list_set (prods s) p k) (life s) (file s) (pushed s)
         (uninit_read s) (ub_pop s).

(** Reading [stop_] (plain [bool], ciostream.hpp:20, 22): yields [garbage] and records the fact if uninitialised. *)
Definition read_stop (s : pipe) (garbage : bool) : bool * pipe :=
  match stop s with
  | Some b => (b, s)
  | None => (garbage, mkPipe (queue s) (stop s) (locked s) (writer s) (prods s) (life s)
                             (file s) (pushed s) true (ub_pop s))
  end.

(** queue_.empty(), ciostream.hpp:20, 31. *)
Definition is_nil {A} (l : list A) : bool := match l with [] => true | _ => false end.

Definition writer_step (s : pipe) (g : bool) : option pipe :=
  match writer s with
  | WAcquire => if locked s then None else Some (upd_w s WTest true)
  | WTest => let (b, s1) := read_stop s g in
             if b || negb (is_nil (queue s)) then Some (upd_w s1 WCheck true)
             else Some (upd_w s1 WAsleep false)     (* wait releases the lock atomically *)
  | WAsleep => None
  | WCheck => let (b, s1) := read_stop s g in
              if b then Some (upd_w s1 WDrain false)   (* 22: break, unlock *)
              else match queue s with                   (* 24-26: front, pop, unlock *)
                   | [] => Some (mkPipe [] (stop s1) (locked s1) (writer s1) (prods s1) (life s1)
                                        (file s1) (pushed s1) (uninit_read s1) true)
                   | d :: q => Some (mkPipe q (stop s1) false (WWrite d) (prods s1) (life s1)
                                            (file s1) (pushed s1) (uninit_read s1) (ub_pop s1))
                   end
  | WWrite d => Some (mkPipe (queue s) (stop s) (locked s) WAcquire (prods s) (life s)
                             (file s ++ [d]) (pushed s) (uninit_read s) (ub_pop s))
  | WDrain => match queue s with
              | [] => Some (upd_w s WEnd (locked s))
              | d :: q => Some (mkPipe q (stop s) (locked s) WDrain (prods s) (life s)
                                       (file s ++ [d]) (pushed s) (uninit_read s) (ub_pop s))
              end
  | WEnd => None
  end.

(** Effect of cv_.notify_one / notify_all, ciostream.hpp:42, 52, on the writer. *)
Definition wake (w : wpc) : wpc := match w with WAsleep => WAcquire | _ => w end.

Definition prod_step (s : pipe) (p : nat) : option pipe :=
  match nth_error (prods s) p with
  | Some (PAcquire x) => if locked s then None else Some (upd_p s p (PHold x) true)
  | Some (PHold x) =>   (* 50 and unlock *)
      Some (mkPipe (queue s ++ [x]) (stop s) false (writer s) (list_set (prods s) p PNotify)
                   (life s) (file s) (pushed s ++ [x]) (uninit_read s) (ub_pop s))
  | Some PNotify =>     (* 52: the writer is the only possible waiter *)
      let s1 := upd_p s p PIdle (locked s) in Some (upd_w s1 (wake (writer s1)) (locked s1))
  | _ => None
  end.

(** No operator<< (ciostream.hpp:47-53) in progress. *)
Definition is_idle (p : ppc) : bool := match p with PIdle => true | _ => false end.

(** Field update used by the transitions of ciostream.hpp:37-45, 61. *)
Definition upd_l (s : pipe) (st : option bool) (l : lpc) (lk : bool) : pipe :=
  mkPipe (queue s) st lk (writer s) (prods s) l (file s) (pushed s) (uninit_read s) (ub_pop s).

Definition life_step (s : pipe) : option pipe :=
  match life s with
  | LCtor => Some (upd_l s (Some false) LAlive (locked s))           (* 61 *)
  | LAlive => (* object lifetime: the destructor starts when no operator<< is in progress *)
      if forallb is_idle (prods s) then Some (upd_l s (stop s) LDAcquire (locked s)) else None
  | LDAcquire => if locked s then None else Some (upd_l s (stop s) LDHold true)   (* 39 *)
  | LDHold => Some (upd_l s (Some true) LDNotify false)                           (* 40-41 *)
  | LDNotify => let s1 := upd_l s (stop s) LDJoin (locked s) in                   (* 42 *)
                Some (upd_w s1 (wake (writer s1)) (locked s1))
  | LDJoin => match writer s with
              | WEnd => Some (upd_l s (stop s) LDead (locked s))                  (* 44 *)
              | _ => None
              end
  | LDead => None
  end.

(** One atomic action of ciostream.hpp:16-61. *)
Definition step (s : pipe) (l : label) : option pipe :=
  match l with
  | LWriter g => writer_step s g
  | LSpurious => match writer s with WAsleep => Some (upd_w s WAcquire (locked s)) | _ => None end
  | LPush p x => match life s, nth_error (prods s) p with
                 | LAlive, Some PIdle => Some (upd_p s p (PAcquire x) (locked s))
                 | _, _ => None       (* only on a constructed, not yet destroyed object *)
                 end
  | LProd p => prod_step s p
  | LLife => life_step s
  end.

(** The moment [thread_] has been initialised (ciostream.hpp:60) with [np] producer threads. *)
Definition init (np : nat) : pipe :=
  mkPipe [] None false WAcquire (repeat PIdle np) LCtor [] [] false false.

(** Any interleaving of the actions of ciostream.hpp:16-61. *)
Fixpoint run (s : pipe) (ls : list label) : option pipe :=
  match ls with
  | [] => Some s
  | l :: ls' => match step s l with Some s' => run s' ls' | None => None end
  end.

(** States reachable by ciostream.hpp:16-61. *)
Definition reachable (np : nat) (s : pipe) : Prop := exists ls, run (init np) ls = Some s.
