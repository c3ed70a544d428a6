(** Model of every operation of one [hub::multi_thread::ConcurrentFile] used by many threads
    (/repo/src/multi-thread/multi-thread.hpp:109-185).  Copies of the object share the stream and
    the mutex (130-131), so one stream and one mutex are modelled.  All five operations
    (execute, flush, eof, <<, >>) have the same shape: take a lock_guard on the mutex, do something
    with the stream in several small accesses, return a value.  The "something" is a program over
    the stream, one access at a time, so that without the mutex the accesses of two threads would
    interleave. *)
From Verif Require Import Text.

(** What runs while the lock is held: multi-thread.hpp:147-148 (the callback of execute),
    152-153, 157-158, 174-176, 181-184.  [Act f] is one access to the stream, [Ret r] the return
    value, [Again] an operation on the same file from inside the callback of execute.
    Programs are finite on every path: a callback that never returns is not modelled. *)
Inductive prog (S R : Type) : Type :=
| Ret (r : R)
| Act (f : S -> S * prog S R)
| Again.
Arguments Ret {S R} r.
Arguments Act {S R} f.
Arguments Again {S R}.

(** Where a thread is with respect to the lock_guard of multi-thread.hpp:147, 152, 157, 174, 181. *)
Inductive pc (S R : Type) : Type :=
| Out                      (* in the client's own code *)
| Wait (p : prog S R)      (* called the operation, waits for the mutex *)
| Hold (p : prog S R).     (* holds the mutex; [p] remains to be done *)
Arguments Out {S R}.
Arguments Wait {S R} p.
Arguments Hold {S R} p.

(** The client code of a thread: which operation it calls next, given all the values its calls have
    returned so far (multi-thread.hpp:115-127 are the operations it can call); [None]: it is done. *)
Definition client (S R : Type) := list R -> option (prog S R).

(** The shared stream and mutex of multi-thread.hpp:130-131, and the threads. *)
Record state (S R : Type) := mkSt {
  stream : S;
  locked : bool;
  threads : list (pc S R * list R)      (* position and values returned so far *)
}.
Arguments mkSt {S R}.
Arguments stream {S R}.
Arguments locked {S R}.
Arguments threads {S R}.

(** One action of thread [t], multi-thread.hpp:145-185.  The mutex is a plain std::mutex: taking it
    while it is held blocks, also when the holder is the caller itself (147). *)
Definition step {S R} (cl : list (client S R)) (s : state S R) (t : nat) : option (state S R) :=
  match nth_error (threads s) t, nth_error cl t with
  | Some (Out, h), Some c =>
      match c h with
      | Some p => Some (mkSt (stream s) (locked s) (list_set (threads s) t (Wait p, h)))
      | None => None
      end
  | Some (Wait p, h), Some _ =>          (* 147, 152, 157, 174, 181: the lock_guard *)
      if locked s then None
      else Some (mkSt (stream s) true (list_set (threads s) t (Hold p, h)))
  | Some (Hold (Act f), h), Some _ =>    (* 148, 153, 158, 175, 182-183: one access *)
      let (x, p) := f (stream s) in
      Some (mkSt x (locked s) (list_set (threads s) t (Hold p, h)))
  | Some (Hold (Ret r), h), Some _ =>    (* 148, 154, 158, 176, 184: return, the guard unlocks *)
      Some (mkSt (stream s) false (list_set (threads s) t (Out, h ++ [r])))
  | Some (Hold Again, h), Some _ => None (* 147 a second time: the mutex is held *)
  | _, _ => None
  end.

(** multi-thread.hpp:134-139: the stream as opened, a free mutex. *)
Definition init {S R} (cl : list (client S R)) (x : S) : state S R :=
  mkSt x false (map (fun _ => (Out, [])) cl).

(** Any interleaving of the actions of multi-thread.hpp:145-185. *)
Fixpoint run {S R} (cl : list (client S R)) (s : state S R) (ls : list nat) : option (state S R) :=
  match ls with
  | [] => Some s
  | l :: ls' => match step cl s l with Some s' => run cl s' ls' | None => None end
  end.

(** The std::fstream (130) opened for reading: the characters not read yet, and the two state bits
    that [bool(stream)] and [eof()] look at (183, 158). *)
Record istr := mkI { rest : text; eofbit : bool; failbit : bool }.

(** What the operations of multi-thread.hpp:143-185 return: a bool for eof (158), the word and
    status of [>>] (182-184), nothing for flush and [<<]. *)
Inductive res := RUnit | RBool (b : bool) | RWord (w : option text).

(** [file >> w; return bool(file)], multi-thread.hpp:182-184, for a std::string, from
    the first character on: characters up to the next white space or the end.  [n] bounds the
    number of accesses.  C++ library: std::basic_istream. *)
Fixpoint rd_word (n : nat) (w : text) : prog istr res :=
  Act (fun s =>
    match rest s with
    | [] => (mkI [] true (failbit s), Ret (RWord (if failbit s then None else Some w)))
    | c :: r =>
        if isspace c then (s, Ret (RWord (if failbit s then None else Some w)))
        else (mkI r (eofbit s) (failbit s),
              match n with 0 => Ret (RWord None) | S n' => rd_word n' (w ++ [c]) end)
    end).

(** multi-thread.hpp:182: the leading white space; no character left sets eofbit and failbit. *)
Fixpoint rd_skip (n : nat) : prog istr res :=
  Act (fun s =>
    match rest s with
    | [] => (mkI [] true true, Ret (RWord None))
    | c :: r =>
        if isspace c then (mkI r (eofbit s) (failbit s), match n with 0 => Ret (RWord None) | S n' => rd_skip n' end)
        else (s, rd_word n [])
    end).

(** multi-thread.hpp:179-185, operator>>: nothing is read from a stream that is not good
    (failbit is set instead). *)
Definition op_read : prog istr res :=
  Act (fun s =>
    if eofbit s || failbit s then (mkI (rest s) (eofbit s) true, Ret (RWord None))
    else (s, rd_skip (length (rest s)))).

(** multi-thread.hpp:156-159, eof. *)
Definition op_eof : prog istr res := Act (fun s => (s, Ret (RBool (eofbit s)))).

(** multi-thread.hpp:151-154, flush (of a stream only read from: nothing to write). *)
Definition op_flush : prog istr res := Act (fun s => (s, Ret RUnit)).

(** A file just opened for reading with the given content, multi-thread.hpp:134-139. *)
Definition opened (t : text) : istr := mkI t false false.

(** multi-thread.hpp:172-177 and 145-149 on a file opened for writing: the characters of one [<<],
    or of all the [<<] of a callback given to execute, one by one. *)
Fixpoint op_write (r : text) : prog text res :=
  match r with
  | [] => Ret RUnit
  | c :: r' => Act (fun f => (f ++ [c], op_write r'))
  end.
