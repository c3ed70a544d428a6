(** The parallel loops of the bundled taskflow library (src/taskflow/core/algorithm/for_each.hpp): for_each, for_each_guided, for_each_dynamic, for_each_static
    and their _index versions, run by any number of workers in any interleaving of their accesses to the shared counter.
    Not modelled: the factoring versions, which are commented out in the source (lines 240-392); how a spawned task reaches a worker (C98, C100, C102); overflow of the index type I.
    Sequentially consistent, one access to the counter or one call of the body per step. *)
From Coq Require Import ZArith List Bool.
Import ListNotations.
Open Scope Z_scope.
(** size_t arithmetic (for_each.hpp:87, 98, 631: unsigned, so it wraps). *)
Definition u64 (x : Z) : Z := x mod 2 ^ 64.
(** is_range_invalid, utility/iterator.hpp:16-20. *)
Definition is_range_invalid (b e step : Z) : bool := ((step =? 0) && negb (b =? e)) || ((b <? e) && (step <=? 0)) || ((e <? b) && (0 <=? step)).
(** distance, utility/iterator.hpp:10-12: C++ division truncates; None is a division by zero. Overflow of the index type is not modelled. *)
Definition distance (b e step : Z) : option Z := if step =? 0 then None else Some ((e - b + step + (if 0 <? step then -1 else 1)) ÷ step).
(** What a task captures, for_each.hpp:84, 184, 437, 507, 593, 614, 703, 726: whether the loop runs over iterators (then an element is named by its distance from beg: beg is 0 and inc is 1) or over indices,
    the range, the number of workers after the cut of lines 75-77 and the size of a chunk. *)
Record cfg := mkC { iter : bool; beg : Z; inc : Z; N : Z; W : Z; chunk : Z }.
(** What follows a run of consecutive elements: line 125, line 97 (and 441), the end of the task (line 600), line 749 with the s0 of the turn. *)
Inductive kont := KLoad | KFine | KDone | KTrip (s0 : Z).
(** Where a task stands: before the load of lines 89 and 125; before the compare_exchange of line 118; before the fetch_add of lines 98 and 443; before that of line 594 and of line 617;
    in the loop of lines 104-106 (121-123, 451-453, 741-743; for line 596 the counter is shifted by s0); in the loop of lines 627-629; over. *)
Inductive pc := Load | Cas (s0 : Z) | Fine | Even (items : Z) | First | Run (x e0 : Z) (k : kont) | Items (n s0 : Z) | Done.
(** A task: where it stands, its copy of beg (or s, or e), and z of line 86 (in line 614: how far beg has been moved). *)
Record task := mkW { at_ : pc; pos : Z; z : Z }.
(** The counter next (line 79), the tasks, and the elements the body was called with so far. *)
Record st := mkS { next : Z; ws : list task; log : list Z }.
(** std::advance(beg, s0-z), line 103, 120, 450, 595 and 619 (an iterator that can only go forward stays where it is when asked to go back), and s = s0 * inc + beg, line 203, 222, 520, 707 and 739. *)
Definition seek (c : cfg) (w : task) (s0 : Z) : Z := if iter c then pos w + Z.max 0 (s0 - z w) else s0 * inc c + beg c.
(** The tests of lines 91-96. *)
Definition decide (c : cfg) (s0 : Z) : pc := if s0 <? N c then (if N c - s0 <? u64 (2 * W c * (chunk c + 1)) then Fine else Cas s0) else Done.
(** trip, line 616 and 728. *)
Definition trip (c : cfg) : Z := u64 (W c * chunk c).
(** A turn of the loop of lines 731-754 starts with this s0: lines 733-739. *)
Definition turn (c : cfg) (w : task) (s0 : Z) : task := let e := u64 (s0 + chunk c) in mkW (Run s0 (if N c <? e then N c else e) (KTrip s0)) (seek c w s0) (z w).
(** Lines 745-753: the turn that started with s0 and ended at e0 is over. *)
Definition after_turn (c : cfg) (w : task) (s0 e0 : Z) : task :=
  if e0 =? N c then mkW Done (pos w) (z w) else let s := u64 (s0 + trip c) in if N c <=? s then mkW Done (pos w) (z w) else turn c w s.
(** One step of a task that finds n in the counter: the task afterwards, the counter afterwards, the calls of the body. [q] is static_cast<size_t>(p2 * r) of line 113: any number.
    Lines 84-128, 184-226, 437-455, 507-525, 593-598, 614-638, 703-711, 726-754. *)
Definition wstep (c : cfg) (q : Z) (w : task) (n : Z) : task * Z * list Z :=
  match at_ w with
  | Load => (mkW (decide c n) (pos w) (z w), n, [])
  | Cas s0 =>
      let r := N c - s0 in
      let q := if q <? chunk c then chunk c else q in
      let e0 := if q <=? r then s0 + q else N c in
      if n =? s0 then (mkW (Run s0 e0 KLoad) (seek c w s0) (z w), e0, []) else (mkW (decide c n) (pos w) (z w), n, [])
  | Fine =>
      let n' := u64 (n + chunk c) in
      if N c <=? n then (mkW Done (pos w) (z w), n', [])
      else (mkW (Run n (if chunk c <=? N c - n then n + chunk c else N c) KFine) (seek c w n) (z w), n', [])
  | Even items => (mkW (Run n (n + items) KDone) (seek c w n) (z w), u64 (n + items), [])
  | First =>
      let n' := u64 (n + chunk c) in
      if iter c then let b := seek c w n in (mkW (Items 0 n) b b, n', []) else (turn c w n, n', [])
  | Run x e0 k =>
      if x <? e0 then (mkW (Run (x + 1) e0 k) (pos w + (if iter c then 1 else inc c)) (z w), n, [pos w])
      else match k with
           | KLoad => (mkW Load (pos w) e0, n, [])
           | KFine => (mkW Fine (pos w) e0, n, [])
           | KDone => (mkW Done (pos w) (z w), n, [])
           | KTrip s0 => (after_turn c w s0 e0, n, [])
           end
  | Items i s0 =>
      if (i <? chunk c) && negb (pos w =? N c) then (mkW (Items (i + 1) s0) (pos w + 1) (z w), n, [pos w])
      else let s := u64 (s0 + trip c) in
           if negb (i =? chunk c) || (N c <=? s) then (mkW Done (pos w) (z w), n, []) else (mkW (Items 0 s) (z w + trip c) (z w + trip c), n, [])
  | Done => (w, n, [])
  end.
(** The loops of lines 584-601 and 606-641: spawn a task for i, i+1, ... until the body of the loop breaks. *)
Fixpoint spawn (f : Z -> option task) (k : nat) (i : Z) : list task :=
  match k with O => [] | S k => match f i with None => [] | Some w => w :: spawn f k (i + 1) end end.
(** A new task at this point: it has a copy of beg, lines 84, 437, 593 and 614. *)
Definition fresh (c : cfg) (p : pc) : task := mkW p (if iter c then 0 else beg c) 0.
(** Lines 586-590 and 696-700. *)
Definition even (c : cfg) (i : Z) : option task :=
  let items := if i <? N c mod W c then N c / W c + 1 else N c / W c in if items =? 0 then None else Some (fresh c (Even items)).
(** Lines 609-611 and 721-723. *)
Definition first (c : cfg) (i : Z) : option task := if N c <=? u64 (i * chunk c) then None else Some (fresh c First).
(** The three ways to cut the range, for_each.hpp:46, 398, 544; for_each and for_each_index are the guided ones with chunk size 1 (lines 18-34). *)
Inductive policy := Guided | Dynamic | Static.
(** The loop in the calling task alone, lines 71 and 168-170: no counter (here: one at the end of the range). *)
Definition alone (c : cfg) : st := mkS (N c) [mkW (Run 0 (N c) KDone) (if iter c then 0 else beg c) 0] [].
(** What the task built by for_each_... does before it joins the tasks it spawned: lines 61-84, 160-184, 414-437, 485-507, 561-614, 672-726. [nw] is num_workers(), [h] the chunk size asked for, [n] the number of elements. *)
Definition launch (p : policy) (it : bool) (b a n nw h : Z) : cfg * st :=
  match p with
  | Static =>
      let c := mkC it b a n nw h in
      (c, if it && (n =? 0) then mkS 0 [] []
          else if (nw <=? 1) || (n <=? h) then alone c
          else if h =? 0 then mkS 0 (spawn (even c) (Z.to_nat nw) 0) [] else mkS 0 (spawn (first c) (Z.to_nat nw) 0) [])
  | _ =>
      let ck := if h =? 0 then 1 else h in
      let c := mkC it b a n (if n <? nw then n else nw) ck in
      (c, if it && (n =? 0) then mkS 0 [] []
          else if (nw <=? 1) || (n <=? ck) then alone c
          else mkS 0 (repeat (fresh c (match p with Guided => Load | _ => Fine end)) (Z.to_nat (W c))) [])
  end.
(** Any task that is not over makes a step (for_each.hpp:84-130: the tasks run concurrently). *)
Inductive step (c : cfg) : st -> st -> Prop :=
| go : forall q u l1 w l2 n lg w' n' calls, 0 <= q -> at_ w <> Done -> wstep c q w n = (w', n', calls) -> u = mkS n (l1 ++ w :: l2) lg -> step c u (mkS n' (l1 ++ w' :: l2) (lg ++ calls)).
(** Executions of the tasks after the launch, for_each.hpp:84-133. *)
Inductive steps (c : cfg) : nat -> st -> st -> Prop :=
| s_zero : forall s, steps c 0 s s
| s_more : forall k s u v, steps c k s u -> step c u v -> steps c (S k) s v.
(** sf.join() returns, for_each.hpp:133, 231, 460, 530, 644, 760: every task is over. *)
Definition joined (s : st) : Prop := forall w, In w (ws s) -> at_ w = Done.
