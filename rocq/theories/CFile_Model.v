(** Model of concurrent writers of one [hub::multi_thread::ConcurrentFile]
    (/repo/src/multi-thread/multi-thread.hpp:111-177).  Copies of a ConcurrentFile share the
    stream and the mutex (130-131), so one file and one lock are modelled.  A record is the
    list of characters that [*(os.file_) << tup] (175) produces; the stream is written
    character by character, so that without the lock characters would interleave. *)
From Verif Require Import Base.

(** The text of one [os << tup], multi-thread.hpp:173-177. *)
Definition record := list nat.          (* characters *)

Inductive tpc :=
| TIdle                  (* between two [<<] *)
| TAcquire (r : record)  (* 174: waiting for the lock_guard *)
| TWrite (done rest : record).  (* 175: holds the lock; [done] already in the stream *)

Record state := mkSt {
  file : list nat;
  locked : bool;
  pcs : list tpc;
  todo : list (list record);            (* records each thread has still to write *)
  log : list (nat * record)             (* ghost: completed records, in completion order *)
}.

(** One action of thread [t]. *)
Definition step (s : state) (t : nat) : option state :=
  match nth_error (pcs s) t, nth_error (todo s) t with
  | Some TIdle, Some (r :: rs) =>       (* call [os << r] *)
      Some (mkSt (file s) (locked s) (list_set (pcs s) t (TAcquire r)) (list_set (todo s) t rs) (log s))
  | Some (TAcquire r), _ =>             (* 174 *)
      if locked s then None
      else Some (mkSt (file s) true (list_set (pcs s) t (TWrite [] r)) (todo s) (log s))
  | Some (TWrite d (c :: r)), _ =>      (* 175, one character *)
      Some (mkSt (file s ++ [c]) (locked s) (list_set (pcs s) t (TWrite (d ++ [c]) r)) (todo s) (log s))
  | Some (TWrite d []), _ =>            (* 176-177: return, lock released *)
      Some (mkSt (file s) false (list_set (pcs s) t TIdle) (todo s) (log s ++ [(t, d)]))
  | _, _ => None
  end.

(** The constructor, multi-thread.hpp:111-131: an empty file, a free mutex, no thread inside [<<]. *)
Definition init (progs : list (list record)) : state :=
  mkSt [] false (map (fun _ => TIdle) progs) progs [].

(** Any interleaving of the actions of multi-thread.hpp:173-177; no line of its own. *)
Fixpoint run (s : state) (ls : list nat) : option state :=
  match ls with
  | [] => Some s
  | l :: ls' => match step s l with Some s' => run s' ls' | None => None end
  end.

(** States of the file during runs of multi-thread.hpp:173-177. *)
Definition reachable (progs : list (list record)) (s : state) : Prop :=
  exists ls, run (init progs) ls = Some s.

(** The records thread [t] completed, in order. *)
(** Specification helper over the ghost log of multi-thread.hpp:173-177. *)
Definition of_thread (t : nat) (l : list (nat * record)) : list record :=
  map snd (filter (fun e => fst e =? t) l).
