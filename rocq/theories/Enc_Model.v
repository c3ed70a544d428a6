(** tf::Notifier, the event count on which idle workers sleep (src/taskflow/core/notifier.hpp): any number of waiters and notifying threads, every interleaving.
    One atomic access per step, sequentially consistent; compare_exchange_weak may fail at any time. The 64-bit word is kept as its three fields, the epoch unbounded (Encw_Model has the packed word and its arithmetic).
    The mutex and condition variable of _park/_unpark are reduced to the flag they protect. *)
From Coq Require Import List Arith.
Import ListNotations.
(** _state, notifier.hpp:219-234: epoch, number of waiters between prepare_wait and commit_wait/cancel_wait, top of the stack of sleeping waiters. *)
Record word := mkW { ep : nat; wc : nat; stk : option nat }.
(** Where a waiter stands: outside; after prepare_wait with its ticket (the epoch commit_wait computes in notifier.hpp:107-109); in the loop of commit_wait before a load (line 110 or 116), with a word loaded before the store of the next pointer (lines 125-128) and before the compare_exchange (line 129);
    in _park (line 133); in the loop of cancel_wait before a load (line 141 or 147) or before the compare_exchange (line 154). *)
Inductive wst := Away | Pre (t : nat) | Com (t : nat) | Str (t : nat) (x : word) | Cas (t : nat) (x : word) | Park | Can (t : nat) | Cnl (t : nat) (x : word).
(** Where a notifying thread stands in notify(all), notifier.hpp:162-199: outside; before the load of line 164; with a word loaded; with a word and the next pointer of line 180 loaded, before the compare_exchange of line 189;
    before line 194 with the popped waiter; in _unpark (lines 245-257) before reading the next pointer of this waiter; before signalling it. *)
Inductive nst := Rest | Load (all : bool) | Have (all : bool) (x : word) | Popp (x : word) (nx : option nat) | Null (w : nat) | Unp (o : option nat) | Sig (w : nat) (nx : option nat).
(** What is observed, in the order of the accesses that decide (notifier.hpp:99, 154, 164, 189): w prepares to wait; w takes that back; notify(true) takes effect; notify(false) takes effect on somebody; a notify finds nobody. *)
Inductive event := Prep (w : nat) | Undo (w : nat) | All | One | Nobody.
(** The shared state: _state, Waiter::next, Waiter::state == kSignaled (notifier.hpp:71-82), all threads, and the history, latest first. *)
Record st := mkS { wd : word; next : nat -> option nat; sig : nat -> bool; ws : nat -> wst; ns : nat -> nst; log : list event }.
(** A store to one waiter or thread, notifier.hpp:71-82. *)
Definition set {A} (f : nat -> A) (i : nat) (x : A) : nat -> A := fun j => if j =? i then x else f j.
(** No waiter at all, notifier.hpp:167. *)
Definition empty (x : word) : bool := match stk x with None => wc x =? 0 | Some _ => false end.
(** The constructor, notifier.hpp:84-88. *)
Definition init (e : nat) : st := mkS (mkW e 0 None) (fun _ => None) (fun _ => false) (fun _ => Away) (fun _ => Rest) [].
(** A waiter's steps, notifier.hpp:98-158. *)
Inductive wstep (s : st) (w : nat) : wst -> st -> Prop :=
(** prepare_wait, notifier.hpp:98-101. *)
| w_prep : wstep s w Away (mkS (mkW (ep (wd s)) (S (wc (wd s))) (stk (wd s))) (next s) (sig s) (set (ws s) w (Pre (ep (wd s) + wc (wd s)))) (ns s) (Prep w :: log s))
(** The caller decides to sleep: commit_wait, notifier.hpp:104-105. *)
| w_commit t : wstep s w (Pre t) (mkS (wd s) (next s) (set (sig s) w false) (set (ws s) w (Com t)) (ns s) (log s))
(** The caller decides not to: cancel_wait, notifier.hpp:137. *)
| w_cancel t : wstep s w (Pre t) (mkS (wd s) (next s) (sig s) (set (ws s) w (Can t)) (ns s) (log s))
(** Not its turn yet, notifier.hpp:112-118. *)
| w_spin t : ep (wd s) < t -> wstep s w (Com t) s
(** Already notified, notifier.hpp:120. *)
| w_skip t : t < ep (wd s) -> wstep s w (Com t) (mkS (wd s) (next s) (sig s) (set (ws s) w Away) (ns s) (log s))
(** Its turn, notifier.hpp:110-123; then the next pointer is stored, notifier.hpp:124-128. *)
| w_turn t : ep (wd s) = t -> wstep s w (Com t) (mkS (wd s) (next s) (sig s) (set (ws s) w (Str t (wd s))) (ns s) (log s))
| w_store t x : wstep s w (Str t x) (mkS (wd s) (set (next s) w (stk x)) (sig s) (set (ws s) w (Cas t x)) (ns s) (log s))
(** The compare_exchange, notifier.hpp:129-133. *)
| w_cas t x : wd s = x -> wstep s w (Cas t x) (mkS (mkW (S (ep x)) (wc x - 1) (Some w)) (next s) (sig s) (set (ws s) w Park) (ns s) (log s))
| w_fail t x : wstep s w (Cas t x) (mkS (wd s) (next s) (sig s) (set (ws s) w (Com t)) (ns s) (log s))
(** _park returns, notifier.hpp:237-243. *)
| w_wake : sig s w = true -> wstep s w Park (mkS (wd s) (next s) (sig s) (set (ws s) w Away) (ns s) (log s))
(** The same loop in cancel_wait, notifier.hpp:141-157. *)
| w_cspin t : ep (wd s) < t -> wstep s w (Can t) s
| w_cskip t : t < ep (wd s) -> wstep s w (Can t) (mkS (wd s) (next s) (sig s) (set (ws s) w Away) (ns s) (log s))
| w_cturn t : ep (wd s) = t -> wstep s w (Can t) (mkS (wd s) (next s) (sig s) (set (ws s) w (Cnl t (wd s))) (ns s) (log s))
| w_ccas t x : wd s = x -> wstep s w (Cnl t x) (mkS (mkW (S (ep x)) (wc x - 1) (stk x)) (next s) (sig s) (set (ws s) w Away) (ns s) (Undo w :: log s))
| w_cfail t x : wstep s w (Cnl t x) (mkS (wd s) (next s) (sig s) (set (ws s) w (Can t)) (ns s) (log s)).
(** A notifying thread's steps, notifier.hpp:162-199. *)
Inductive nstep (s : st) (k : nat) : nst -> st -> Prop :=
(** notify(all) is called, notifier.hpp:162-163. *)
| n_call all : nstep s k Rest (mkS (wd s) (next s) (sig s) (ws s) (set (ns s) k (Load all)) (log s))
(** The load and the easy case, notifier.hpp:164-168. *)
| n_none all : empty (wd s) = true -> nstep s k (Load all) (mkS (wd s) (next s) (sig s) (ws s) (set (ns s) k Rest) (Nobody :: log s))
| n_load all : empty (wd s) = false -> nstep s k (Load all) (mkS (wd s) (next s) (sig s) (ws s) (set (ns s) k (Have all (wd s))) (log s))
(** A failed compare_exchange loads again, notifier.hpp:189. *)
| n_fail all x : nstep s k (Have all x) (mkS (wd s) (next s) (sig s) (ws s) (set (ns s) k (Load all)) (log s))
| n_pfail x nx : nstep s k (Popp x nx) (mkS (wd s) (next s) (sig s) (ws s) (set (ns s) k (Load false)) (log s))
(** Everybody, notifier.hpp:171-173, 189-195. *)
| n_all x : wd s = x -> nstep s k (Have true x) (mkS (mkW (ep x + wc x) 0 None) (next s) (sig s) (ws s) (set (ns s) k (Unp (stk x))) (All :: log s))
(** One that has prepared, notifier.hpp:174-176, 189-191. *)
| n_pre x : wc x <> 0 -> wd s = x -> nstep s k (Have false x) (mkS (mkW (S (ep x)) (wc x - 1) (stk x)) (next s) (sig s) (ws s) (set (ns s) k Rest) (One :: log s))
(** One that sleeps: its next pointer, notifier.hpp:177-180. *)
| n_next x w : wc x = 0 -> stk x = Some w -> nstep s k (Have false x) (mkS (wd s) (next s) (sig s) (ws s) (set (ns s) k (Popp x (next s w))) (log s))
(** The pop, notifier.hpp:181-193. *)
| n_pop x nx w : wd s = x -> stk x = Some w -> nstep s k (Popp x nx) (mkS (mkW (ep x) 0 nx) (next s) (sig s) (ws s) (set (ns s) k (Null w)) (One :: log s))
(** The next pointer is cleared, notifier.hpp:194. *)
| n_null w : nstep s k (Null w) (mkS (wd s) (set (next s) w None) (sig s) (ws s) (set (ns s) k (Unp (Some w))) (log s))
(** _unpark, notifier.hpp:245-258. *)
| n_done : nstep s k (Unp None) (mkS (wd s) (next s) (sig s) (ws s) (set (ns s) k Rest) (log s))
| n_walk w : nstep s k (Unp (Some w)) (mkS (wd s) (next s) (sig s) (ws s) (set (ns s) k (Sig w (next s w))) (log s))
| n_sig w nx : nstep s k (Sig w nx) (mkS (wd s) (next s) (set (sig s) w true) (ws s) (set (ns s) k (Unp nx)) (log s)).
(** Any history of the notifier, notifier.hpp:65-260. *)
Inductive reachable (e : nat) : st -> Prop :=
| r_init : reachable e (init e)
| r_wait s w s' : reachable e s -> wstep s w (ws s w) s' -> reachable e s'
| r_note s k s' : reachable e s -> nstep s k (ns s k) s' -> reachable e s'.
(** The use the header prescribes (notifier.hpp:31-48): a thread that makes the predicate true calls notify(true) next; a waiter calls commit_wait only after it has found the predicate false, having prepared. The predicate stays true. *)
Inductive client (e : nat) : bool -> st -> Prop :=
| c_init : client e false (init e)
| c_set p s k : client e p s -> ns s k = Rest -> client e true (mkS (wd s) (next s) (sig s) (ws s) (set (ns s) k (Load true)) (log s))
| c_commit s w t s' : client e false s -> ws s w = Pre t -> wstep s w (Pre t) s' -> client e false s'
| c_cancel p s w t : client e p s -> ws s w = Pre t -> client e p (mkS (wd s) (next s) (sig s) (set (ws s) w (Can t)) (ns s) (log s))
| c_wait p s w s' : client e p s -> (forall t, ws s w <> Pre t) -> wstep s w (ws s w) s' -> client e p s'
| c_note p s k s' : client e p s -> ns s k <> Rest -> nstep s k (ns s k) s' -> client e p s'.
