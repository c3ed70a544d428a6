(** Model of the asynchronous input pipe [hub::multi_thread::Ipip]
    (/repo/src/multi-thread/ciostream.hpp:64-127) as a transition system. *)
From Verif Require Import Base.

(** * The file stream, as far as [eof()] and [>>] can observe it.
    Standard formatted extraction (std::istream), used at ciostream.hpp:69,76,78: a file is a
    list of white-space separated records ([None] marks text that cannot be parsed as a
    record) and the knowledge whether white space follows the last record.  Extraction that
    consumes the last record up to the end of the file sets eofbit; extraction with nothing
    left sets eofbit and failbit; unparsable text sets failbit only; once failbit is set
    extraction does nothing.  A failed extraction leaves the freshly declared [data] (77) as
    it is: the value [None] here. *)
Record stream := mkStream {
  toks : list (option nat);
  trailing : bool;
  eofbit : bool;
  failbit : bool
}.

(** std::fstream(name, in) on a readable file, ciostream.hpp:68. *)
Definition open_file (l : list (option nat)) (tr : bool) : stream := mkStream l tr false false.
(** [std::fstream(name, in)] on a file that cannot be opened sets failbit (68). *)
Definition open_missing : stream := mkStream [] false false true.

(** file_ >> data, ciostream.hpp:78. *)
Definition extract (f : stream) : option nat * stream :=
  if failbit f then (None, f)
  else if eofbit f then (None, mkStream (toks f) (trailing f) true true)
  else match toks f with
       | [] => (None, mkStream [] (trailing f) true true)
       | None :: t => (None, mkStream (None :: t) (trailing f) false true)
       | Some v :: t =>
           (Some v, mkStream t (trailing f) (match t with [] => negb (trailing f) | _ => false end) false)
       end.

(** * The threads *)
(** Loader thread, ciostream.hpp:68-90. *)
Inductive lpc :=
| LdTest            (* 69 *)
| LdAcquire         (* 71, or re-acquiring inside [wait] *)
| LdPred            (* 72: holds the lock, evaluates [stop_ || queue_.empty()] *)
| LdAsleep          (* 72: asleep in [cv_load_.wait] *)
| LdBreak           (* 74: holds the lock *)
| LdFill (i : nat)  (* 76-80: holds the lock, [i] records read in this batch *)
| LdNotify          (* 82 *)
| LdEoqAcq          (* 86 *)
| LdEoqHold         (* 87 *)
| LdNotify2         (* 89 *)
| LdEnd.

(** Threads calling [operator>>], ciostream.hpp:104-116. *)
Inductive rpc :=
| RIdle
| RAcquire          (* 105, or re-acquiring inside [wait] *)
| RTest             (* 106: holds the lock *)
| RAsleep           (* 106: asleep in [cv_io_.wait] *)
| RCheck.           (* 108-115: holds the lock *)

(** Life cycle: [thread_] (124) is initialised before [stop_] (125) and [eoq_] (126);
    destructor 92-102. *)
Inductive life_pc :=
| LCtor0 | LCtor1 | LAlive
| LDAcquire | LDHold | LDNotifyIo | LDNotifyLoad | LDJoin | LDead.

(** Members of Ipip, ciostream.hpp:119-126, the program counters of the threads and ghost fields. *)
Record pipe := mkPipe {
  queue : list (option nat);
  fstr : stream;
  stop : option bool;              (* [None]: uninitialised *)
  eoq : option bool;
  locked : bool;
  loader : lpc;
  readers : list rpc;
  life : life_pc;
  loaded : list (option nat);      (* ghost: everything enqueued, in order *)
  delivered : list (option nat);   (* ghost: everything handed to readers, in order *)
  ended : bool;                    (* ghost: some [>>] has returned false *)
  uninit_read : bool;              (* ghost: [stop_] was read before initialisation *)
  overwritten : bool               (* ghost: the initialiser of [eoq_] overwrote [true] *)
}.

(** Scheduler choices: which thread of ciostream.hpp:68-116 moves next. *)
Inductive label :=
| LLoader (garbage : bool)
| LSpuriousL                  (* spurious wake-up of the loader *)
| LSpuriousR (r : nat)        (* spurious wake-up of reader [r] *)
| LCall (r : nat)             (* reader [r] starts [in >> x] *)
| LReader (r : nat)
| LLife.

(** Field update used by the transitions of ciostream.hpp:68-90. *)
Definition upd_ld (s : pipe) (w : lpc) (lk : bool) : pipe :=
  mkPipe (queue s) (fstr s) (stop s) (eoq s) lk w (readers s) (life s) (loaded s) (delivered s)
         (ended s) (uninit_read s) (overwritten s).
(** Field update used by the transitions of ciostream.hpp:104-116. *)
Definition upd_rs (s : pipe) (rs : list rpc) (lk : bool) : pipe :=
  mkPipe (queue s) (fstr s) (stop s) (eoq s) lk (loader s) rs (life s) (loaded s) (delivered s)
         (ended s) (uninit_read s) (overwritten s).
(** Field update used by the transitions of ciostream.hpp:92-102, 125-126. *)
Definition upd_life (s : pipe) (st eq : option bool) (l : life_pc) (lk : bool) (ow : bool) : pipe :=
  mkPipe (queue s) (fstr s) st eq lk (loader s) (readers s) l (loaded s) (delivered s)
         (ended s) (uninit_read s) ow.

(** Reading stop_ in the loader, ciostream.hpp:72, 74; before 125 has run the value is arbitrary. *)
Definition read_stop (s : pipe) (garbage : bool) : bool * pipe :=
  match stop s with
  | Some b => (b, s)
  | None => (garbage, mkPipe (queue s) (fstr s) (stop s) (eoq s) (locked s) (loader s) (readers s)
                             (life s) (loaded s) (delivered s) (ended s) true (overwritten s))
  end.

(** queue_.empty(), ciostream.hpp:72, 106, 108, 113. *)
Definition is_nil {A} (l : list A) : bool := match l with [] => true | _ => false end.
(** Effect of cv_io_.notify_all, ciostream.hpp:82, 89, 98, on a reader. *)
Definition wake_r (r : rpc) : rpc := match r with RAsleep => RAcquire | _ => r end.
(** Effect of cv_load_.notify_one, ciostream.hpp:99, 113, on the loader. *)
Definition wake_l (l : lpc) : lpc := match l with LdAsleep => LdAcquire | _ => l end.
Definition batch : nat := 100.   (* 76 *)

Definition loader_step (s : pipe) (g : bool) : option pipe :=
  match loader s with
  | LdTest => Some (upd_ld s (if eofbit (fstr s) then LdEoqAcq else LdAcquire) (locked s))
  | LdAcquire => if locked s then None else Some (upd_ld s LdPred true)
  | LdPred => let (b, s1) := read_stop s g in
              if b || is_nil (queue s) then Some (upd_ld s1 LdBreak true)
              else Some (upd_ld s1 LdAsleep false)
  | LdAsleep => None
  | LdBreak => let (b, s1) := read_stop s g in
               if b then Some (upd_ld s1 LdEoqAcq false) else Some (upd_ld s1 (LdFill 0) true)
  | LdFill i =>
      if (i <? batch) && negb (eofbit (fstr s)) then
        let (v, f) := extract (fstr s) in
        Some (mkPipe (queue s ++ [v]) f (stop s) (eoq s) (locked s) (LdFill (S i)) (readers s)
                     (life s) (loaded s ++ [v]) (delivered s) (ended s) (uninit_read s)
                     (overwritten s))
      else Some (upd_ld s LdNotify false)
  | LdNotify => Some (upd_ld (upd_rs s (map wake_r (readers s)) (locked s)) LdTest (locked s))
  | LdEoqAcq => if locked s then None else Some (upd_ld s LdEoqHold true)
  | LdEoqHold => Some (mkPipe (queue s) (fstr s) (stop s) (Some true) false LdNotify2 (readers s)
                              (life s) (loaded s) (delivered s) (ended s) (uninit_read s)
                              (overwritten s))
  | LdNotify2 => Some (upd_ld (upd_rs s (map wake_r (readers s)) (locked s)) LdEnd (locked s))
  | LdEnd => None
  end.

(** [eoq_] (ciostream.hpp:126) is only read by [operator>>] (106, 108), i.e. after construction, when it is initialised;
    reading [None] is given the value [false] (unreachable, see the proofs). *)
Definition bval (b : option bool) : bool := match b with Some true => true | _ => false end.

Definition reader_step (s : pipe) (r : nat) : option pipe :=
  match nth_error (readers s) r with
  | Some RAcquire => if locked s then None else Some (upd_rs s (list_set (readers s) r RTest) true)
  | Some RTest => if bval (eoq s) || negb (is_nil (queue s))
                  then Some (upd_rs s (list_set (readers s) r RCheck) true)
                  else Some (upd_rs s (list_set (readers s) r RAsleep) false)
  | Some RCheck =>
      match queue s with
      | [] => (* 108: eoq_ && empty: return false (the wait guarantees eoq_) *)
          Some (mkPipe [] (fstr s) (stop s) (eoq s) false (loader s) (list_set (readers s) r RIdle)
                       (life s) (loaded s) (delivered s) true (uninit_read s) (overwritten s))
      | v :: q => (* 110-115 *)
          Some (mkPipe q (fstr s) (stop s) (eoq s) false
                       (if is_nil q then wake_l (loader s) else loader s)
                       (list_set (readers s) r RIdle) (life s) (loaded s) (delivered s ++ [v])
                       (ended s) (uninit_read s) (overwritten s))
      end
  | _ => None
  end.

(** No operator>> (ciostream.hpp:104-116) in progress. *)
Definition is_idle (p : rpc) : bool := match p with RIdle => true | _ => false end.

Definition life_step (s : pipe) : option pipe :=
  match life s with
  | LCtor0 => Some (upd_life s (Some false) (eoq s) LCtor1 (locked s) (overwritten s))     (* 125 *)
  | LCtor1 => Some (upd_life s (stop s) (Some false) LAlive (locked s)
                             (overwritten s || bval (eoq s)))                              (* 126 *)
  | LAlive => (* lifetime: no [>>] in progress when the destructor starts *)
      if forallb is_idle (readers s)
      then Some (upd_life s (stop s) (eoq s) LDAcquire (locked s) (overwritten s)) else None
  | LDAcquire => if locked s then None                                                     (* 94 *)
                 else Some (upd_life s (stop s) (eoq s) LDHold true (overwritten s))
  | LDHold => Some (upd_life s (Some true) (Some true) LDNotifyIo false (overwritten s))   (* 95-96 *)
  | LDNotifyIo => Some (upd_rs (upd_life s (stop s) (eoq s) LDNotifyLoad (locked s) (overwritten s))
                               (map wake_r (readers s)) (locked s))                        (* 98 *)
  | LDNotifyLoad => let s1 := upd_life s (stop s) (eoq s) LDJoin (locked s) (overwritten s) in
                    Some (upd_ld s1 (wake_l (loader s1)) (locked s1))                      (* 99 *)
  | LDJoin => match loader s with
              | LdEnd => Some (upd_life s (stop s) (eoq s) LDead (locked s) (overwritten s)) (* 101 *)
              | _ => None
              end
  | LDead => None
  end.

(** One atomic action of ciostream.hpp:68-126. *)
Definition step (s : pipe) (l : label) : option pipe :=
  match l with
  | LLoader g => loader_step s g
  | LSpuriousL => match loader s with LdAsleep => Some (upd_ld s LdAcquire (locked s)) | _ => None end
  | LSpuriousR r => match nth_error (readers s) r with
                    | Some RAsleep => Some (upd_rs s (list_set (readers s) r RAcquire) (locked s))
                    | _ => None
                    end
  | LCall r => match life s, nth_error (readers s) r with
               | LAlive, Some RIdle => Some (upd_rs s (list_set (readers s) r RAcquire) (locked s))
               | _, _ => None
               end
  | LReader r => reader_step s r
  | LLife => life_step s
  end.

(** The moment [thread_] (ciostream.hpp:124) has been initialised, with [nr] reader threads, on file [f]. *)
Definition init (nr : nat) (f : stream) : pipe :=
  mkPipe [] f None None false LdTest (repeat RIdle nr) LCtor0 [] [] false false false.

(** Any interleaving of the actions of ciostream.hpp:68-126. *)
Fixpoint run (s : pipe) (ls : list label) : option pipe :=
  match ls with
  | [] => Some s
  | l :: ls' => match step s l with Some s' => run s' ls' | None => None end
  end.

(** States reachable by ciostream.hpp:68-126. *)
Definition reachable (nr : nat) (f : stream) (s : pipe) : Prop :=
  exists ls, run (init nr f) ls = Some s.

(** * Specification: what ciostream.hpp:76-80 should deliver for a well-formed file ([recs], all parsable); the code
    as written delivers one additional junk record when white space follows the last record
    or the file has no record at all. *)
Definition all_reads (recs : list nat) (tr : bool) : list (option nat) :=
  map Some recs ++ (if tr || is_nil recs then [None] else []).
