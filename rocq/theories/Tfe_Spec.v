(** What a parallel loop owes its user. *)
From Coq Require Import ZArith List.
From Verif Require Import Tfe_Model.
Import ListNotations.
Open Scope Z_scope.
(** The elements a loop over the n elements with these values has to visit: beg, beg + inc, beg + 2 inc, ... *)
Definition elements (b a n : Z) : list Z := map (fun i => b + Z.of_nat i * a) (seq 0 (Z.to_nat n)).
(** The values of the loop "for (i = b; i before e; i += a)". *)
Definition visits (b e a v : Z) : Prop := exists i, 0 <= i /\ v = b + i * a /\ if 0 <? a then v < e else e < v.
(** The range and the chunks are small enough for a counter of 64 bits. *)
Definition fits (n nw h : Z) : Prop := 0 <= n /\ 0 <= nw /\ 0 <= h /\ n + (nw + 1) * (h + 2) < 2 ^ 64.
(** What the loop starts from: iterators are named by their distance from beg. *)
Definition named (it : bool) (b a : Z) : Prop := it = true -> b = 0 /\ a = 1.
