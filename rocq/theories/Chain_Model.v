(** Model of /repo/src/particle-system/chain.hpp: chain index construction, conversion between
    Cartesian and chain coordinates, re-indexing.  Scalars are reals.  Only the configuration
    [bijective_transfer = true] (chain.hpp:132) exists in the code and is modelled. *)
From Coq Require Export Permutation Sorted.
From Verif Require Export Base Vec.
Open Scope R_scope.

(** * Index construction *)
(** struct Node, chain.hpp:47-64: squared distance, the two particles, availability flag. *)
Record node := mkN { nd_r : R; nd_i : nat; nd_j : nat; nd_avail : bool }.

(** create_distances_array, chain.hpp:244-255: for every i, for every j > i. *)
Definition dist_node (pos : list vec) (i j : nat) : node :=
  let dr := vsub (nth j pos vzero) (nth i pos vzero) in
  mkN (vx dr * vx dr + vy dr * vy dr + vz dr * vz dr) i j true.
(** create_distances_array, chain.hpp:244-255: the double loop. *)
Definition create_distances_array (pos : list vec) : list node :=
  let num := length pos in
  flat_map (fun i => map (dist_node pos i) (seq (i + 1) (num - (i + 1)))) (seq 0 num).

(** std::sort with comparator [ni.r < nj.r] (chain.hpp:168): any rearrangement in which no
    node is followed by a strictly closer one (std::sort is not stable, ties are arbitrary). *)
Definition is_sorted_version (d d' : list node) : Prop :=
  Permutation d d' /\ StronglySorted (fun a b => nd_r a <= nd_r b) d'.

(** not_in_list, chain.hpp:213-217. *)
Definition not_in_list (l : list nat) (x : nat) : bool := negb (existsb (Nat.eqb x) l).

(** try_add_to_chain with try_insert inlined, chain.hpp:219-242.
    Result: (n.avail was cleared, inserted, list, head, tail). *)
Definition try_add_to_chain (l : list nat) (head tail : nat) (n : node)
  : bool * bool * list nat * nat * nat :=
  if (head =? nd_i n)%nat then
    if not_in_list l (nd_j n) then (true, true, nd_j n :: l, nd_j n, tail) else (true, false, l, head, tail)
  else if (head =? nd_j n)%nat then
    if not_in_list l (nd_i n) then (true, true, nd_i n :: l, nd_i n, tail) else (true, false, l, head, tail)
  else if (tail =? nd_i n)%nat then
    if not_in_list l (nd_j n) then (true, true, l ++ [nd_j n], head, nd_j n) else (true, false, l, head, tail)
  else if (tail =? nd_j n)%nat then
    if not_in_list l (nd_i n) then (true, true, l ++ [nd_i n], head, nd_i n) else (true, false, l, head, tail)
  else (false, false, l, head, tail).

(** n.avail = false, chain.hpp:221, 261. *)
Definition clear_avail (n : node) : node := mkN (nd_r n) (nd_i n) (nd_j n) false.

(** The loop chain.hpp:268-279.  [None]: loop not left within [fuel] iterations.  On success
    [k = 1] followed by the loop's [++k] continues with k = 2. *)
Fixpoint chain_scan (fuel : nat) (dist : list node) (l : list nat) (head tail chained num k : nat)
  : option (list nat) :=
  match fuel with
  | O => None
  | S fuel' =>
    if (k <? length dist)%nat then
      match nth_error dist k with
      | None => None                                   (* unreachable: k < dist_size *)
      | Some nd =>
        if nd_avail nd then
          let '(cleared, inserted, l', head', tail') := try_add_to_chain l head tail nd in
          let dist' := if cleared then list_set dist k (clear_avail nd) else dist in
          if inserted then
            let chained' := S chained in
            if (chained' =? num)%nat then Some l'
            else chain_scan fuel' dist' l' head' tail' chained' num 2
          else chain_scan fuel' dist' l' head' tail' chained num (S k)
        else chain_scan fuel' dist l head tail chained num (S k)
      end
    else Some l
  end.

(** create_index_from_dist_array, chain.hpp:257-285; [dist[0]] of an empty array is UB. *)
Definition create_index_from_dist_array (fuel : nat) (dist : list node) (num : nat)
  : outcome (option (list nat)) :=
  obind (aget dist 0) (fun n0 =>
    Ok (chain_scan fuel (list_set dist 0 (clear_avail n0)) [nd_i n0; nd_j n0] (nd_i n0) (nd_j n0) 1 num 1)).

(** calc_chain_index, chain.hpp:164-170, as a relation (the sort is not a function). *)
Definition calc_chain_index (fuel : nat) (pos : list vec) (r : outcome (option (list nat))) : Prop :=
  exists d, is_sorted_version (create_distances_array pos) d /\
            r = create_index_from_dist_array fuel d (length pos).

(** * Coordinates *)
(** Array write [a[i] = x], as in chain.hpp:332-338, 347-352. *)
Definition aset {A} (a : list A) (i : nat) (x : A) : outcome (list A) :=
  if (i <? length a)%nat then Ok (list_set a i x) else UB.
(** [for (i = lo; i < lo + cnt; ++i) st = body i st]: the loops of chain.hpp:185, 305, 316, 337, 351. *)
Fixpoint for_up {S} (lo cnt : nat) (body : nat -> S -> outcome S) (st : S) : outcome S :=
  match cnt with
  | O => Ok st
  | Datatypes.S c => obind (body lo st) (for_up (Datatypes.S lo) c body)
  end.

(** to_chain / calc_chain, chain.hpp:327-340, 208-211; [chain] is the preallocated output.
    [size - 1] with size = 0 is the largest size_t: the write is out of bounds. *)
Definition to_chain (cart chain : list vec) (index : list nat) : outcome (list vec) :=
  match length cart with
  | O => UB
  | S n1 =>
    obind (aget index 0) (fun i0 => obind (aget cart i0) (fun c0 =>
    obind (aset chain n1 c0) (fun chain =>
    for_up 0 n1 (fun i chain =>
      obind (aget index (i + 1)) (fun a => obind (aget cart a) (fun ca =>
      obind (aget index i) (fun b => obind (aget cart b) (fun cb =>
      aset chain i (vsub ca cb)))))) chain)))
  end.

(** to_cartesian / calc_cartesian, chain.hpp:342-354, 200-206; [cart] is the preallocated output. *)
Definition to_cartesian (chain cart : list vec) (index : list nat) : outcome (list vec) :=
  match length cart with
  | O => UB
  | S n1 =>
    obind (aget index 0) (fun i0 => obind (aget chain n1) (fun c0 =>
    obind (aset cart i0 c0) (fun cart =>
    for_up 1 n1 (fun i cart =>
      obind (aget index i) (fun a => obind (aget index (i - 1)) (fun b =>
      obind (aget cart b) (fun cb => obind (aget chain (i - 1)) (fun d =>
      aset cart a (vadd cb d)))))) cart)))
  end.

(** std::find(...) - begin: the first position holding [x], or the length (chain.hpp:183). *)
Fixpoint find_pos (l : list nat) (x : nat) : nat :=
  match l with
  | [] => 0
  | y :: t => if (y =? x)%nat then 0 else S (find_pos t x)
  end%nat.

(** get_new_node, chain.hpp:287-325 (Kahan error fields are not modelled). *)
Definition get_new_node (chain : list vec) (head tail : nat) : outcome vec :=
  let '(first, last, sign) := if (tail <? head)%nat then (tail, head, false) else (head, tail, true) in
  obind (aget chain first) (fun d0 =>
    if sign then
      for_up (first + 1) (last - (first + 1)) (fun j nd => obind (aget chain j) (fun d => Ok (vadd nd d))) d0
    else
      for_up (first + 1) (last - (first + 1)) (fun j nd => obind (aget chain j) (fun d => Ok (vsub nd d))) (vneg d0)).

(** update_chain, chain.hpp:172-198. *)
Definition update_chain (chain cart : list vec) (idx new_idx : list nat) : outcome (list vec) :=
  match length chain with
  | O => UB
  | S n1 =>
    obind (for_up 0 n1 (fun i new_chain =>
        obind (aget new_idx i) (fun a => obind (aget new_idx (i + 1)) (fun b =>
        obind (get_new_node chain (find_pos idx a) (find_pos idx b)) (fun d => Ok (new_chain ++ [d]))))) [])
      (fun new_chain => obind (aget new_idx 0) (fun a => obind (aget cart a) (fun c => Ok (new_chain ++ [c]))))
  end.
