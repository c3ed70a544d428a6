(** reduce_static and transform_reduce_static of the bundled taskflow library with a chunk size (src/taskflow/core/algorithm/reduce.hpp:261-428, 691-859): task number w takes the chunks w, w+W, w+2W, ...
    (in the order in which the tasks reach the counter), run by any number of workers in any interleaving.
    Sequentially consistent; one access to the counter, the mutex or the result, or one turn of a loop, per step. *)
From Coq Require Import ZArith List Bool.
Import ListNotations.
Open Scope Z_scope.
Section Reduce.
(** The type T of the result, the function bop, and the element (for transform_reduce_static: uop of the element) at a distance from beg; reduce.hpp:261-263, 691-693. *)
Variable A : Type.
Variable o : A -> A -> A.
Variable v : Z -> A.
(** size_t arithmetic (reduce.hpp:351, 352, 368, 406: unsigned, so it wraps). *)
Definition u64 (x : Z) : Z := x mod 2 ^ 64.
(** N, W and C, reduce.hpp:284-286. *)
Record cfg := mkC { N : Z; W : Z; C : Z }.
(** Where a task stands: before the fetch_add of line 352; in the loop of lines 386-388 (true) or 402-404 (false) with i and the s0 of the turn; in the loop of line 290 (the calling task alone);
    before the lock of line 417 (360, 377); before r is read in line 418; before it is written; before the unlock; over. *)
Inductive pc := First | Items (i s0 : Z) (f : bool) | Seq | Want | Got | Put (y : A) | Rel | Done.
(** A task: where it stands, e of lines 384 and 400 (line 290: beg), beg, and sum of line 356 (after lines 361 and 378: *beg). *)
Record task := mkW { at_ : pc; pos : Z; b : Z; sum : A }.
(** The counter next (line 295), r (line 271), whether the mutex is locked (line 294), and the tasks. *)
Record st := mkS { next : Z; res : A; locked : bool; ws : list task }.
(** trip, line 351. *)
Definition trip (c : cfg) : Z := u64 (W c * C c).
(** One step of a task that finds n in the counter, r in the result and k in the mutex: None when it has to wait for the mutex or is over. Lines 351-418, 290. *)
Definition wstep (c : cfg) (w : task) (n : Z) (r : A) (k : bool) : option (task * Z * A * bool) :=
  match at_ w with
  | First =>
      let n' := u64 (n + C c) in
      let p := b w + n in
      if C c =? 1 then
        if N c <=? u64 (n + trip c) then Some (mkW Want p p (v p), n', r, k)
        else let x := o (v p) (v (p + trip c)) in
             let s := u64 (n + trip c * 2) in
             if N c <=? s then Some (mkW Want p p x, n', r, k) else let p' := p + trip c + trip c in Some (mkW (Items 0 s false) p' p' x, n', r, k)
      else if N c - n =? 1 then Some (mkW Want p p (v p), n', r, k)
      else Some (mkW (Items 2 n true) (p + 2) (p + 2) (o (v p) (v (p + 1))), n', r, k)
  | Items i s0 f =>
      if (i <? C c) && negb (pos w =? N c) then Some (mkW (Items (i + 1) s0 f) (pos w + 1) (b w) (o (sum w) (v (pos w))), n, r, k)
      else let s := u64 (s0 + trip c) in
           if negb (i =? C c) || (N c <=? s) then Some (mkW Want (pos w) (b w) (sum w), n, r, k)
           else let p := b w + (if f then trip c - 2 else trip c) in Some (mkW (Items 0 s false) p p (sum w), n, r, k)
  | Seq => if pos w =? N c then Some (mkW Done (pos w) (b w) (sum w), n, r, false) else Some (mkW Seq (pos w + 1) (b w) (sum w), n, o r (v (pos w)), k)
  | Want => if k then None else Some (mkW Got (pos w) (b w) (sum w), n, r, true)
  | Got => Some (mkW (Put (o r (sum w))) (pos w) (b w) (sum w), n, r, k)
  | Put y => Some (mkW Rel (pos w) (b w) (sum w), n, y, k)
  | Rel => Some (mkW Done (pos w) (b w) (sum w), n, r, false)
  | Done => None
  end.
(** The loop of lines 341-350: spawn a task for i, i+1, ... until w*C reaches N. *)
Fixpoint spawn (c : cfg) (init : A) (k : nat) (i : Z) : list task :=
  match k with O => [] | S k => if N c <=? u64 (i * C c) then [] else mkW First 0 0 init :: spawn c init k (i + 1) end.
(** What the task built by reduce_static does before it joins the tasks it spawned: lines 280-350; with one worker or one chunk the calling task loops alone (lines 289-292: no counter, here one at the end of the range, and no mutex, here a locked one).
    [nw] is num_workers(), [h] the chunk size (not zero: zero is in Tre_Model), [n] the number of elements. *)
Definition launch (n nw h : Z) (init : A) : cfg * st :=
  let c := mkC n nw h in
  (c, if n =? 0 then mkS 0 init false []
      else if (nw <=? 1) || (n <=? h) then mkS n init true [mkW Seq 0 0 init] else mkS 0 init false (spawn c init (Z.to_nat nw) 0)).
(** Any task that can makes a step (reduce.hpp:349-421: the tasks run concurrently). *)
Inductive step (c : cfg) : st -> st -> Prop :=
| go : forall l1 w l2 n r k w' n' r' k' u, wstep c w n r k = Some (w', n', r', k') -> u = mkS n r k (l1 ++ w :: l2) -> step c u (mkS n' r' k' (l1 ++ w' :: l2)).
(** Executions of the tasks after the launch, reduce.hpp:349-425. *)
Inductive steps (c : cfg) : nat -> st -> st -> Prop :=
| s_zero : forall s, steps c 0 s s
| s_more : forall m s u x, steps c m s u -> step c u x -> steps c (S m) s x.
(** sf.join() returns, reduce.hpp:425, 856: every task is over. *)
Definition joined (s : st) : Prop := forall w, In w (ws s) -> at_ w = Done.
End Reduce.
