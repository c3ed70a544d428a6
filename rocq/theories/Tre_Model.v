(** The parallel reductions of the bundled taskflow library (src/taskflow/core/algorithm/reduce.hpp): reduce, reduce_guided, reduce_dynamic, reduce_static without a chunk size,
    and the transform_reduce versions of them, run by any number of workers in any interleaving.
    Not modelled: reduce_static and transform_reduce_static with a chunk size (lines 340-422, 771-853); how a spawned task reaches a worker (C98, C100, C102).
    Sequentially consistent; one access to the counter, the mutex or the result, or one call of bop, per step. *)
From Coq Require Import ZArith List Bool.
Import ListNotations.
Open Scope Z_scope.
Section Reduce.
(** The type T of the result, the function bop, and the element (for transform_reduce: uop of the element) at a distance from beg; reduce.hpp:32-34, 458-460. *)
Variable A : Type.
Variable o : A -> A -> A.
Variable v : Z -> A.
(** size_t arithmetic (reduce.hpp:81, 101, 112: unsigned, so it wraps). *)
Definition u64 (x : Z) : Z := x mod 2 ^ 64.
(** N, W after the cut of lines 65-67, C, and whether the task was built by reduce_guided or reduce_dynamic; reduce.hpp:55-67. *)
Record cfg := mkC { N : Z; W : Z; C : Z; guided : bool }.
(** What follows a run of consecutive elements: line 139; line 111 (and 231); line 332. *)
Inductive kont := KLoad | KFine | KEnd.
(** Where a task stands: before the fetch_add of line 81 (210); before the load of lines 103 and 139; before the compare_exchange of line 132; before the fetch_add of line 112 (232); before that of line 314;
    in the loop of lines 118-120 (135-137, 238-240; for line 328 the counter is shifted by s0); in the loop of line 61 (190, 290); before the lock of line 144 (90, 244, 332); before r is read in line 145; before it is written; before the unlock; over. *)
Inductive pc := Start | Load | Cas (s0 : Z) | Fine | Even (items : Z) | Run (x e0 : Z) (k : kont) | Seq | Want | Got | Put (y : A) | Rel | Done.
(** A task: where it stands, its copy of beg, z of line 100, and sum of line 98 (after lines 90 and 318: *beg). *)
Record task := mkW { at_ : pc; pos : Z; z : Z; sum : A }.
(** The counter next (line 70), r (line 42), whether the mutex is locked (line 69), and the tasks. *)
Record st := mkS { next : Z; res : A; locked : bool; ws : list task }.
(** std::advance(beg, s0-z), line 117, 134 and 237 (an iterator that can only go forward stays where it is when asked to go back). *)
Definition advance (w : task) (s0 : Z) : Z := pos w + Z.max 0 (s0 - z w).
(** The tests of lines 105-110; past the loop comes line 144. *)
Definition decide (c : cfg) (s0 : Z) : pc := if s0 <? N c then (if N c - s0 <? u64 (2 * W c * (C c + 1)) then Fine else Cas s0) else Want.
(** One step of a task that finds n in the counter, r in the result and k in the mutex: None when it has to wait for the mutex or is over. [q] is static_cast<size_t>(p2 * r) of line 127: any number.
    Lines 81-145, 210-245, 314-333, 508-572. *)
Definition wstep (c : cfg) (q : Z) (w : task) (n : Z) (r : A) (k : bool) : option (task * Z * A * bool) :=
  match at_ w with
  | Start =>
      let n' := u64 (n + 2) in
      if N c <=? n then Some (mkW Done (pos w) (z w) (sum w), n', r, k)
      else let b := pos w + n in
        if N c - n =? 1 then Some (mkW Want b (z w) (v b), n', r, k)
        else Some (mkW (if guided c then Load else Fine) (b + 2) (u64 (n + 2)) (o (v b) (v (b + 1))), n', r, k)
  | Load => Some (mkW (decide c n) (pos w) (z w) (sum w), n, r, k)
  | Cas s0 =>
      let l := N c - s0 in
      let q := if q <? C c then C c else q in
      let e0 := if q <=? l then s0 + q else N c in
      if n =? s0 then Some (mkW (Run s0 e0 KLoad) (advance w s0) (z w) (sum w), e0, r, k) else Some (mkW (decide c n) (pos w) (z w) (sum w), n, r, k)
  | Fine =>
      let n' := u64 (n + C c) in
      if N c <=? n then Some (mkW Want (pos w) (z w) (sum w), n', r, k)
      else Some (mkW (Run n (if C c <=? N c - n then n + C c else N c) KFine) (advance w n) (z w) (sum w), n', r, k)
  | Even items =>
      let n' := u64 (n + items) in
      let b := pos w + n in
      if items =? 1 then Some (mkW Want b (z w) (v b), n', r, k)
      else Some (mkW (Run (n + 2) (n + items) KEnd) (b + 2) (z w) (o (v b) (v (b + 1))), n', r, k)
  | Run x e0 j =>
      if x <? e0 then Some (mkW (Run (x + 1) e0 j) (pos w + 1) (z w) (o (sum w) (v (pos w))), n, r, k)
      else match j with
           | KLoad => Some (mkW Load (pos w) e0 (sum w), n, r, k)
           | KFine => Some (mkW Fine (pos w) e0 (sum w), n, r, k)
           | KEnd => Some (mkW Want (pos w) (z w) (sum w), n, r, k)
           end
  | Seq => if pos w =? N c then Some (mkW Done (pos w) (z w) (sum w), n, r, false) else Some (mkW Seq (pos w + 1) (z w) (sum w), n, o r (v (pos w)), k)
  | Want => if k then None else Some (mkW Got (pos w) (z w) (sum w), n, r, true)
  | Got => Some (mkW (Put (o r (sum w))) (pos w) (z w) (sum w), n, r, k)
  | Put y => Some (mkW Rel (pos w) (z w) (sum w), n, y, k)
  | Rel => Some (mkW Done (pos w) (z w) (sum w), n, r, false)
  | Done => None
  end.
(** The loops of lines 72-76 and 303-309: spawn a task for i, i+1, ... until the body of the loop breaks. *)
Fixpoint spawn (f : Z -> option task) (k : nat) (i : Z) : list task :=
  match k with O => [] | S k => match f i with None => [] | Some w => w :: spawn f k (i + 1) end end.
(** Lines 74-76 and 203-205; sum is not there yet. *)
Definition pair (c : cfg) (init : A) (i : Z) : option task := if N c <=? u64 (i * 2) then None else Some (mkW Start 0 0 init).
(** Lines 305-309. *)
Definition even (c : cfg) (init : A) (i : Z) : option task :=
  let items := if i <? N c mod W c then N c / W c + 1 else N c / W c in if items =? 0 then None else Some (mkW (Even items) 0 0 init).
(** The reduction in the calling task alone, lines 60-63, 189-192 and 289-292: no counter (here: one at the end of the range) and no mutex (here: one that is locked). *)
Definition alone (c : cfg) (init : A) : st := mkS (N c) init true [mkW Seq 0 0 init].
(** The three ways to cut the range, reduce.hpp:32, 161, 261 (the last with chunk size 0); reduce is reduce_guided with chunk size 1 (lines 12-25). *)
Inductive policy := Guided | Dynamic | Static.
(** What the task built by reduce_... does before it joins the tasks it spawned: lines 51-79, 180-208, 280-311, 478-506. [nw] is num_workers(), [h] the chunk size asked for (Static: none), [n] the number of elements. *)
Definition launch (p : policy) (n nw h : Z) (init : A) : cfg * st :=
  match p with
  | Static =>
      let c := mkC n nw 0 false in
      (c, if n =? 0 then mkS 0 init false [] else if (nw <=? 1) || (n <=? 0) then alone c init else mkS 0 init false (spawn (even c init) (Z.to_nat nw) 0))
  | _ =>
      let ck := if h =? 0 then 1 else h in
      let c := mkC n (if n <? nw then n else nw) ck (match p with Guided => true | _ => false end) in
      (c, if n =? 0 then mkS 0 init false [] else if (nw <=? 1) || (n <=? ck) then alone c init else mkS 0 init false (spawn (pair c init) (Z.to_nat (W c)) 0))
  end.
(** Any task that can makes a step (reduce.hpp:79-147: the tasks run concurrently). *)
Inductive step (c : cfg) : st -> st -> Prop :=
| go : forall q l1 w l2 n r k w' n' r' k' u, 0 <= q -> wstep c q w n r k = Some (w', n', r', k') -> u = mkS n r k (l1 ++ w :: l2) -> step c u (mkS n' r' k' (l1 ++ w' :: l2)).
(** Executions of the tasks after the launch, reduce.hpp:79-150. *)
Inductive steps (c : cfg) : nat -> st -> st -> Prop :=
| s_zero : forall s, steps c 0 s s
| s_more : forall m s u x, steps c m s u -> step c u x -> steps c (S m) s x.
(** sf.join() returns, reduce.hpp:150, 250, 425, 578: every task is over. *)
Definition joined (s : st) : Prop := forall w, In w (ws s) -> at_ w = Done.
End Reduce.
