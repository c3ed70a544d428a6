(** What a parallel reduction owes its user. *)
From Coq Require Import ZArith List.
Import ListNotations.
Open Scope Z_scope.
(** The result of the sequential loop "for (it = beg; it != end; ++it) init = op(init, *it)" over n elements. *)
Definition sequential {A} (o : A -> A -> A) (v : Z -> A) (init : A) (n : Z) : A := fold_left (fun a i => o a (v (Z.of_nat i))) (seq 0 (Z.to_nat n)) init.
(** The operations a parallel reduction is meant for. *)
Definition associative {A} (o : A -> A -> A) : Prop := forall a b c, o a (o b c) = o (o a b) c.
Definition commutative {A} (o : A -> A -> A) : Prop := forall a b, o a b = o b a.
(** The range and the chunks are small enough for a counter of 64 bits. *)
Definition fits (n nw h : Z) : Prop := 0 <= n /\ 0 <= nw /\ 0 <= h /\ n + (nw + 2) * (h + 3) < 2 ^ 64.
