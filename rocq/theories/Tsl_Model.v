(** How the workers of tf::Executor look for tasks, go to sleep and are woken (src/taskflow/core/executor.hpp): N workers, any number of other threads that schedule tasks, every interleaving of the atomic accesses, sequentially consistent.
    Of the queues only the lengths are kept. A steal may fail. The notifier is used through what C101 (C101_refines) proves of it: a notify takes effect at one point, on a waiter that has prepared or sleeps and has not been notified, if there is one; which one is left open. *)
From Coq Require Import List Arith.
Import ListNotations.
(** Where a worker stands in the loop of executor.hpp:387-399:
    Start before ++_num_thieves (line 478; no task in hand); Th in _explore_task (lines 405-449) or before it; Got with a task in hand before line 485 or 501; Ntf1 before the notify of line 486 or 502; Act0, Act1 before the two tests of line 457, Ntf2 before the notify of line 458; Run in the loop of lines 461-464; Leave before line 466;
    Prep after prepare_wait (line 490); Canc1 in cancel_wait (line 495); Steal before line 498; Chk before line 511; Chk2 before line 518; Last before line 519; LastQ in the loop of lines 524-530; Canc0 in cancel_wait (line 520 or 527); Com in commit_wait (line 534); Sleep asleep there; DCanc, DNtf, DDec before lines 512, 513, 514; Exit after line 515. *)
Inductive pc := Start | Th | Got | Ntf1 | Act0 | Act1 | Ntf2 | Run | Leave | Prep | Canc1 | Steal | Chk | Chk2 | Last | LastQ | Canc0 | Com | Sleep | DCanc | DNtf | DDec | Exit.
(** Where another thread stands: outside; in _schedule (executor.hpp:587-594, 623-630) with n nodes of which r are still to be pushed; before notify(false), this many times; before notify(true). *)
Inductive ext := Idle | Psh (n r : nat) | Nt (k : nat) | NAll.
(** The shared queue, the workers' queues, _num_thieves, _num_actives, _done (executor.hpp:200-222), the threads, and which waiters have been notified. *)
Record st := mkS { gq : nat; lq : nat -> nat; thieves : nat; actives : nat; done : bool; wk : nat -> pc; tok : nat -> bool; ex : nat -> ext }.
(** A store to one of them, executor.hpp:200-222. *)
Definition set {A} (f : nat -> A) (i : nat) (x : A) : nat -> A := fun j => if j =? i then x else f j.
(** Between prepare_wait and the return of commit_wait or cancel_wait, executor.hpp:490-534. *)
Definition waiting (p : pc) : bool := match p with Prep | Canc1 | Chk | Chk2 | Last | LastQ | Canc0 | Com | Sleep | DCanc => true | _ => false end.
(** The effect of notify(false), notifier.hpp:162-199 (see C101). *)
Inductive one (N : nat) (s : st) : (nat -> bool) -> Prop :=
| o_some w : w < N -> waiting (wk s w) = true -> tok s w = false -> one N s (set (tok s) w true)
| o_none : (forall w, w < N -> waiting (wk s w) = true -> tok s w = true) -> one N s (tok s).
(** The effect of notify(true), notifier.hpp:171-173. *)
Definition all (s : st) : nat -> bool := fun w => if waiting (wk s w) then true else tok s w.
(** All workers are started, executor.hpp:265-283, 374-402. *)
Definition init : st := mkS 0 (fun _ => 0) 0 0 false (fun _ => Start) (fun _ => false) (fun _ => Idle).
(** A worker's steps, executor.hpp:405-537. *)
Inductive wstep (N : nat) (s : st) (w : nat) : pc -> st -> Prop :=
(** Line 478. *)
| s_enter : wstep N s w Start (mkS (gq s) (lq s) (S (thieves s)) (actives s) (done s) (set (wk s) w Th) (tok s) (ex s))
(** Lines 431-435: a steal succeeds. *)
| s_global g : gq s = S g -> wstep N s w Th (mkS g (lq s) (thieves s) (actives s) (done s) (set (wk s) w Got) (tok s) (ex s))
| s_local v n : v < N -> v <> w -> lq s v = S n -> wstep N s w Th (mkS (gq s) (set (lq s) v n) (thieves s) (actives s) (done s) (set (wk s) w Got) (tok s) (ex s))
(** Lines 440-448 and 490: it gives up and prepares to wait. *)
| s_giveup : wstep N s w Th (mkS (gq s) (lq s) (thieves s) (actives s) (done s) (set (wk s) w Prep) (set (tok s) w false) (ex s))
(** Lines 484-488, 500-504. *)
| s_got : wstep N s w Got (mkS (gq s) (lq s) (thieves s - 1) (actives s) (done s) (set (wk s) w (if thieves s =? 1 then Ntf1 else Act0)) (tok s) (ex s))
| s_ntf1 t : one N s t -> wstep N s w Ntf1 (mkS (gq s) (lq s) (thieves s) (actives s) (done s) (set (wk s) w Act0) t (ex s))
(** Lines 457-459. *)
| s_act0 : wstep N s w Act0 (mkS (gq s) (lq s) (thieves s) (S (actives s)) (done s) (set (wk s) w (if actives s =? 0 then Act1 else Run)) (tok s) (ex s))
| s_act1 : wstep N s w Act1 (mkS (gq s) (lq s) (thieves s) (actives s) (done s) (set (wk s) w (if thieves s =? 0 then Ntf2 else Run)) (tok s) (ex s))
| s_ntf2 t : one N s t -> wstep N s w Ntf2 (mkS (gq s) (lq s) (thieves s) (actives s) (done s) (set (wk s) w Run) t (ex s))
(** Lines 461-464: the task pushes successors (lines 580-585), the next one is popped, or none is left. *)
| s_push : wstep N s w Run (mkS (gq s) (set (lq s) w (S (lq s w))) (thieves s) (actives s) (done s) (wk s) (tok s) (ex s))
| s_pop n : lq s w = S n -> wstep N s w Run (mkS (gq s) (set (lq s) w n) (thieves s) (actives s) (done s) (wk s) (tok s) (ex s))
| s_leave : lq s w = 0 -> wstep N s w Run (mkS (gq s) (lq s) (thieves s) (actives s) (done s) (set (wk s) w Leave) (tok s) (ex s))
(** Line 466. *)
| s_dec : wstep N s w Leave (mkS (gq s) (lq s) (thieves s) (actives s - 1) (done s) (set (wk s) w Start) (tok s) (ex s))
(** Lines 493-509. *)
| s_empty : gq s = 0 -> wstep N s w Prep (mkS (gq s) (lq s) (thieves s) (actives s) (done s) (set (wk s) w Chk) (tok s) (ex s))
| s_more : gq s <> 0 -> wstep N s w Prep (mkS (gq s) (lq s) (thieves s) (actives s) (done s) (set (wk s) w Canc1) (tok s) (ex s))
| s_canc1 : wstep N s w Canc1 (mkS (gq s) (lq s) (thieves s) (actives s) (done s) (set (wk s) w Steal) (set (tok s) w false) (ex s))
| s_steal g : gq s = S g -> wstep N s w Steal (mkS g (lq s) (thieves s) (actives s) (done s) (set (wk s) w Got) (tok s) (ex s))
| s_miss : wstep N s w Steal (mkS (gq s) (lq s) (thieves s) (actives s) (done s) (set (wk s) w Th) (tok s) (ex s))
(** Lines 511-516. *)
| s_on : done s = false -> wstep N s w Chk (mkS (gq s) (lq s) (thieves s) (actives s) (done s) (set (wk s) w Chk2) (tok s) (ex s))
| s_off : done s = true -> wstep N s w Chk (mkS (gq s) (lq s) (thieves s) (actives s) (done s) (set (wk s) w DCanc) (tok s) (ex s))
| s_dcanc : wstep N s w DCanc (mkS (gq s) (lq s) (thieves s) (actives s) (done s) (set (wk s) w DNtf) (set (tok s) w false) (ex s))
| s_dntf : wstep N s w DNtf (mkS (gq s) (lq s) (thieves s) (actives s) (done s) (set (wk s) w DDec) (all s) (ex s))
| s_exit : wstep N s w DDec (mkS (gq s) (lq s) (thieves s - 1) (actives s) (done s) (set (wk s) w Exit) (tok s) (ex s))
(** Lines 518-531: the last thief looks whether somebody works or a queue has something; the loop over the queues is not atomic, so it may miss it. *)
| s_sub : wstep N s w Chk2 (mkS (gq s) (lq s) (thieves s - 1) (actives s) (done s) (set (wk s) w (if thieves s =? 1 then Last else Com)) (tok s) (ex s))
| s_last : wstep N s w Last (mkS (gq s) (lq s) (thieves s) (actives s) (done s) (set (wk s) w (if actives s =? 0 then LastQ else Canc0)) (tok s) (ex s))
| s_found v : v < N -> lq s v <> 0 -> wstep N s w LastQ (mkS (gq s) (lq s) (thieves s) (actives s) (done s) (set (wk s) w Canc0) (tok s) (ex s))
| s_none : wstep N s w LastQ (mkS (gq s) (lq s) (thieves s) (actives s) (done s) (set (wk s) w Com) (tok s) (ex s))
| s_canc0 : wstep N s w Canc0 (mkS (gq s) (lq s) (thieves s) (actives s) (done s) (set (wk s) w Start) (set (tok s) w false) (ex s))
(** Line 534: notified already, or asleep, or woken. *)
| s_com : tok s w = true -> wstep N s w Com (mkS (gq s) (lq s) (thieves s) (actives s) (done s) (set (wk s) w Start) (set (tok s) w false) (ex s))
| s_sleep : tok s w = false -> wstep N s w Com (mkS (gq s) (lq s) (thieves s) (actives s) (done s) (set (wk s) w Sleep) (tok s) (ex s))
| s_wake : tok s w = true -> wstep N s w Sleep (mkS (gq s) (lq s) (thieves s) (actives s) (done s) (set (wk s) w Start) (set (tok s) w false) (ex s)).
(** Another thread's steps, executor.hpp:573-633, 286-298. *)
Inductive estep (N : nat) (s : st) (k : nat) : ext -> st -> Prop :=
(** _schedule, lines 573-574, 602-614. *)
| e_call n : n <> 0 -> estep N s k Idle (mkS (gq s) (lq s) (thieves s) (actives s) (done s) (wk s) (tok s) (set (ex s) k (Psh n n)))
(** Lines 591-592, 626-628. *)
| e_push n r : estep N s k (Psh n (S r)) (mkS (S (gq s)) (lq s) (thieves s) (actives s) (done s) (wk s) (tok s) (set (ex s) k (Psh n r)))
(** Line 632 and notifier.hpp:202-211; line 596 for one node. *)
| e_n n : estep N s k (Psh n 0) (mkS (gq s) (lq s) (thieves s) (actives s) (done s) (wk s) (tok s) (set (ex s) k (if N <=? n then NAll else Nt n)))
| e_1 : estep N s k (Psh 1 0) (mkS (gq s) (lq s) (thieves s) (actives s) (done s) (wk s) (tok s) (set (ex s) k (Nt 1)))
| e_one j t : one N s t -> estep N s k (Nt (S j)) (mkS (gq s) (lq s) (thieves s) (actives s) (done s) (wk s) t (set (ex s) k (Nt j)))
| e_ret : estep N s k (Nt 0) (mkS (gq s) (lq s) (thieves s) (actives s) (done s) (wk s) (tok s) (set (ex s) k Idle))
| e_all : estep N s k NAll (mkS (gq s) (lq s) (thieves s) (actives s) (done s) (wk s) (all s) (set (ex s) k Idle))
(** The destructor, lines 291-294. *)
| e_done : estep N s k Idle (mkS (gq s) (lq s) (thieves s) (actives s) true (wk s) (tok s) (set (ex s) k NAll)).
(** Any history, executor.hpp:265-633. *)
Inductive reachable (N : nat) : st -> Prop :=
| r_init : reachable N init
| r_work s w s' : reachable N s -> w < N -> wstep N s w (wk s w) s' -> reachable N s'
| r_ext s k s' : reachable N s -> estep N s k (ex s k) s' -> reachable N s'.
