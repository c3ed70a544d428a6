(** Specification vocabulary for the chain properties (independent of the code's loops). *)
From Verif Require Import Chain_Model.

(** A pair (given by a node) can extend the chain [l] to [l']: one of its members is an end of
    [l], the other is not in [l] and is put next to that end. *)
Inductive attach (l : list nat) (nd : node) : list nat -> Prop :=
| at_front a b m : (nd_i nd = a /\ nd_j nd = b) \/ (nd_i nd = b /\ nd_j nd = a) ->
    l = a :: m -> ~ In b l -> attach l nd (b :: l)
| at_back a b m : (nd_i nd = a /\ nd_j nd = b) \/ (nd_i nd = b /\ nd_j nd = a) ->
    l = m ++ [a] -> ~ In b l -> attach l nd (l ++ [b]).
Definition can_attach (l : list nat) (nd : node) : Prop := exists l', attach l nd l'.

(** Greedy construction over the sorted pairs [d]: always take the first pair of rank at least
    [lo] that can be attached; after the first insertion ranks below 2 are never looked at. *)
Inductive greedy (d : list node) : nat -> list nat -> list nat -> Prop :=
| g_done lo l : (forall k nd, (lo <= k)%nat -> nth_error d k = Some nd -> ~ can_attach l nd) -> greedy d lo l l
| g_step lo l k nd l1 l2 : (lo <= k)%nat -> nth_error d k = Some nd -> attach l nd l1 ->
    (forall k' nd', (lo <= k' < k)%nat -> nth_error d k' = Some nd' -> ~ can_attach l nd') ->
    greedy d 2 l1 l2 -> greedy d lo l l2.

(** [a] and [b] are neighbours in the list [l]. *)
Definition adjacent (a b : nat) (l : list nat) : Prop :=
  exists l1 l2, l = l1 ++ a :: b :: l2 \/ l = l1 ++ b :: a :: l2.

(** Squared distance of particles [a] and [b]. *)
Definition dist2 (pos : list vec) (a b : nat) : R := norm2 (vsub (nth a pos vzero) (nth b pos vzero)).

(** [idx] lists every particle number below [n] exactly once. *)
Definition is_index (n : nat) (idx : list nat) : Prop := Permutation idx (seq 0 n).
