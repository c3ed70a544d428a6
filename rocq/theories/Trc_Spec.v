(** What a parallel reduction with chunks dealt in turn owes its user: see Tre_Spec for sequential, associative and commutative. *)
From Coq Require Import ZArith.
Open Scope Z_scope.
(** The range and the chunks are small enough for a counter of 64 bits; the chunk size is not zero. *)
Definition fits_chunks (n nw h : Z) : Prop := 0 <= n /\ 0 <= nw /\ 1 <= h /\ n + 3 * (nw + 1) * (h + 1) < 2 ^ 64.
