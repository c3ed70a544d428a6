(** tf::TaskQueue (/repo/src/taskflow/core/tsq.hpp), the work-stealing queue under the executor that runs the parallel sub-steps of Bulirsch-Stoer.
    One owner thread pushes and pops; any number of thieves steal.  Every access to an atomic variable that other threads may access is one step of an
    interleaving; the interleavings are sequentially consistent (the memory orders of the accesses are not modelled).  64-bit indices are unbounded integers.
    A call returns in the step of its last access; the items are non-null pointers (a null result is None). *)
From Coq Require Export ZArith List Bool Arith.
Export ListNotations.
Open Scope Z_scope.
Section Tsq.
Variable A : Type. (** the pointers stored *)
Variable junk : A. (** content of slots never written *)
(** struct Array, tsq.hpp:31-68: capacity and slots. *)
Record arr := mkA { cap : Z; cells : Z -> A }.
(** Array::push, tsq.hpp:51-54: S[i & M].store(o), M = C - 1. *)
Definition a_push (a : arr) (i : Z) (o : A) : arr := mkA (cap a) (fun j => if Z.eqb j (Z.land i (cap a - 1)) then o else cells a j).
(** Array::pop, tsq.hpp:56-58. *)
Definition a_pop (a : arr) (i : Z) : A := cells a (Z.land i (cap a - 1)).
(** The copying loop of resize, tsq.hpp:62-64: n iterations from index i. *)
Fixpoint copy (old new : arr) (i : Z) (n : nat) : arr := match n with O => new | S k => copy old (a_push new i (a_pop old i)) (i + 1) k end.
(** Array::resize(b, t), tsq.hpp:60-66.  The loop ends when i = b; it starts at t <= b. *)
Definition resize (a : arr) (b t : Z) : arr := copy a (mkA (2 * cap a) (fun _ => junk)) t (Z.to_nat (b - t)).
(** The owner, before each access: push, tsq.hpp:171-187, and pop, tsq.hpp:191-217. *)
Inductive own :=
| OIdle
| Pu1 (o : A)                         (** load _bottom, line 172 *)
| Pu2 (o : A) (b : Z)                 (** load _top, line 173 *)
| Pu3 (o : A) (b t : Z)               (** load _array, line 174; test of line 177; resize, line 178 *)
| Pu4 (o : A) (b : Z) (a : nat)       (** store _array, line 181 *)
| Pu5 (o : A) (b : Z) (a : nat)       (** a->push(b, o), line 184 *)
| Pu6 (o : A) (b : Z)                 (** store _bottom, line 186 *)
| Po1                                 (** load _bottom, line 192 *)
| Po2 (b : Z)                         (** load _array, line 193 *)
| Po3 (b : Z) (a : nat)               (** store _bottom, line 194 *)
| Po4 (b : Z) (a : nat)               (** load _top, line 196; test of line 200 *)
| Po5 (b : Z) (a : nat) (t : Z)       (** a->pop(b), line 201; test of line 202 *)
| Po6 (b t : Z) (x : A)               (** compare_exchange, lines 204-208 *)
| Po7 (b : Z) (r : option A).         (** store _bottom, lines 209, 213 *)
(** A thief, before each access: steal, tsq.hpp:221-239. *)
Inductive thief :=
| SIdle
| St1                                 (** load _top, line 222 *)
| St2 (t : Z)                         (** load _bottom, line 224; test of line 228 *)
| St3 (t : Z)                         (** load _array, line 229 *)
| St4 (t : Z) (a : nat)               (** a->pop(t), line 230 *)
| St5 (t : Z) (x : A).                (** compare_exchange, lines 231-235 *)
(** The members, tsq.hpp:70-73: _top, _bottom, _array; arrays are never deleted before the destructor (_garbage), so they are numbered and kept; and the threads. *)
Record state := mkS { top : Z; bottom : Z; cur : nat; heap : nat -> arr; next : nat; owner : own; thieves : nat -> thief }.
(** What a caller sees.  The calls of push, pop and steal, tsq.hpp:115-131. *)
Inductive kind := KPush (o : A) | KPop | KSteal.
(** An operation with its result, tsq.hpp:115-131. *)
Inductive op := Push (o : A) | Pop (r : option A) | Steal (r : option A).
(** A call or a return of a thread, tsq.hpp:115-131; None is the owner. *)
Inductive event := Call (who : option nat) (k : kind) | Ret (who : option nat) (r : op).
(** Updates of single members and of one thread's locals, tsq.hpp:171-239. *)
Definition set_owner (s : state) (o : own) : state := mkS (top s) (bottom s) (cur s) (heap s) (next s) o (thieves s).
(** tsq.hpp:221-239. *)
Definition set_thief (s : state) (k : nat) (p : thief) : state := mkS (top s) (bottom s) (cur s) (heap s) (next s) (owner s) (fun j => if Nat.eqb j k then p else thieves s j).
(** tsq.hpp:70. *)
Definition set_top (s : state) (t : Z) : state := mkS t (bottom s) (cur s) (heap s) (next s) (owner s) (thieves s).
(** tsq.hpp:71. *)
Definition set_bottom (s : state) (b : Z) : state := mkS (top s) b (cur s) (heap s) (next s) (owner s) (thieves s).
(** tsq.hpp:72. *)
Definition set_cur (s : state) (a : nat) : state := mkS (top s) (bottom s) a (heap s) (next s) (owner s) (thieves s).
(** tsq.hpp:51-54. *)
Definition set_arr (s : state) (i : nat) (a : arr) : state := mkS (top s) (bottom s) (cur s) (fun j => if Nat.eqb j i then a else heap s j) (next s) (owner s) (thieves s).
(** new Array in resize, tsq.hpp:61. *)
Definition alloc (s : state) (a : arr) : state := mkS (top s) (bottom s) (cur s) (fun j => if Nat.eqb j (next s) then a else heap s j) (S (next s)) (owner s) (thieves s).
(** One step of the owner that is inside a call, tsq.hpp:171-217, with the return if it is the last. *)
Definition own_step (s : state) : option (state * list event) :=
  match owner s with
  | OIdle => None
  | Pu1 o => Some (set_owner s (Pu2 o (bottom s)), [])
  | Pu2 o b => Some (set_owner s (Pu3 o b (top s)), [])
  | Pu3 o b t => let a := heap s (cur s) in
                 if cap a - 1 <? b - t then Some (set_owner (alloc s (resize a b t)) (Pu4 o b (next s)), []) else Some (set_owner s (Pu5 o b (cur s)), [])
  | Pu4 o b a => Some (set_owner (set_cur s a) (Pu5 o b a), [])
  | Pu5 o b a => Some (set_owner (set_arr s a (a_push (heap s a) b o)) (Pu6 o b), [])
  | Pu6 o b => Some (set_owner (set_bottom s (b + 1)) OIdle, [Ret None (Push o)])
  | Po1 => Some (set_owner s (Po2 (bottom s - 1)), [])
  | Po2 b => Some (set_owner s (Po3 b (cur s)), [])
  | Po3 b a => Some (set_owner (set_bottom s b) (Po4 b a), [])
  | Po4 b a => if top s <=? b then Some (set_owner s (Po5 b a (top s)), []) else Some (set_owner s (Po7 b None), [])
  | Po5 b a t => let x := a_pop (heap s a) b in if t =? b then Some (set_owner s (Po6 b t x), []) else Some (set_owner s OIdle, [Ret None (Pop (Some x))])
  | Po6 b t x => if top s =? t then Some (set_owner (set_top s (t + 1)) (Po7 b (Some x)), []) else Some (set_owner s (Po7 b None), [])
  | Po7 b r => Some (set_owner (set_bottom s (b + 1)) OIdle, [Ret None (Pop r)])
  end.
(** One step of thief k inside a call, tsq.hpp:221-239. *)
Definition thief_step (s : state) (k : nat) : option (state * list event) :=
  match thieves s k with
  | SIdle => None
  | St1 => Some (set_thief s k (St2 (top s)), [])
  | St2 t => if t <? bottom s then Some (set_thief s k (St3 t), []) else Some (set_thief s k SIdle, [Ret (Some k) (Steal None)])
  | St3 t => Some (set_thief s k (St4 t (cur s)), [])
  | St4 t a => Some (set_thief s k (St5 t (a_pop (heap s a) t)), [])
  | St5 t x => if top s =? t then Some (set_thief (set_top s (t + 1)) k SIdle, [Ret (Some k) (Steal (Some x))]) else Some (set_thief s k SIdle, [Ret (Some k) (Steal None)])
  end.
(** The program: the owner calls push and pop, thieves call steal, in any order and any number of times; steps interleave in any way, tsq.hpp:99-131 (only the owner pushes and pops). *)
Inductive step : state -> list event -> state -> Prop :=
| call_push s o : owner s = OIdle -> step s [Call None (KPush o)] (set_owner s (Pu1 o))
| call_pop s : owner s = OIdle -> step s [Call None KPop] (set_owner s Po1)
| call_steal s k : thieves s k = SIdle -> step s [Call (Some k) KSteal] (set_thief s k St1)
| own_runs s s' e : own_step s = Some (s', e) -> step s e s'
| thief_runs s s' e k : thief_step s k = Some (s', e) -> step s e s'.
(** The constructor, tsq.hpp:135-142 (capacity a power of two, asserted there). *)
Definition fresh (c : Z) : state := mkS 0 0 0%nat (fun _ => mkA c (fun _ => junk)) 1%nat OIdle (fun _ => SIdle).
(** Runs from the constructor, tsq.hpp:135-142. *)
Inductive runs (c : Z) : list event -> state -> Prop :=
| r_start : runs c [] (fresh c)
| r_step h s e s' : runs c h s -> step s e s' -> runs c (h ++ e) s'.
(** size, tsq.hpp:162-167, with both loads in one instant (used only between calls). *)
Definition size (s : state) : Z := if bottom s >=? top s then bottom s - top s else 0.
(** empty, tsq.hpp:154-159, likewise. *)
Definition empty (s : state) : bool := bottom s <=? top s.
(** capacity, tsq.hpp:242-245. *)
Definition capacity (s : state) : Z := cap (heap s (cur s)).
End Tsq.
Arguments cap {A}. Arguments cells {A}. Arguments a_push {A}. Arguments a_pop {A}. Arguments copy {A}. Arguments resize {A}. Arguments OIdle {A}. Arguments SIdle {A}.
Arguments top {A}. Arguments bottom {A}. Arguments cur {A}. Arguments heap {A}. Arguments next {A}. Arguments owner {A}. Arguments thieves {A}.
Arguments KPush {A}. Arguments KPop {A}. Arguments KSteal {A}. Arguments Push {A}. Arguments Pop {A}. Arguments Steal {A}. Arguments Call {A}. Arguments Ret {A}.
Arguments Pu1 {A}. Arguments Pu2 {A}. Arguments Pu3 {A}. Arguments Pu4 {A}. Arguments Pu5 {A}. Arguments Pu6 {A}. Arguments Po1 {A}. Arguments Po2 {A}. Arguments Po3 {A}. Arguments Po4 {A}. Arguments Po5 {A}. Arguments Po6 {A}. Arguments Po7 {A}.
Arguments St1 {A}. Arguments St2 {A}. Arguments St3 {A}. Arguments St4 {A}. Arguments St5 {A}.
Arguments mkA {A}. Arguments mkS {A}. Arguments set_owner {A}. Arguments set_thief {A}. Arguments set_top {A}. Arguments set_bottom {A}. Arguments set_cur {A}. Arguments set_arr {A}. Arguments alloc {A}.
Arguments own_step {A}. Arguments thief_step {A}. Arguments step {A}. Arguments fresh {A}. Arguments runs {A}. Arguments size {A}. Arguments empty {A}. Arguments capacity {A}.
