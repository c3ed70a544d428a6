(** What the element-wise helpers promise, independently of the loops. *)
From Verif Require Export Arr_Model.

(** Element [i] of array [x] is [v]. *)
Definition at_is {A} (h : heap A) (x i : nat) (v : A) : Prop := nth_error (h x) i = Some v.

(** From heap [h] to heap [h'] only the first [n] elements of [d] changed, and element [i] became a value
    related to [i] by [R] ([R] speaks of the old heap). *)
Definition writes {A} (h h' : heap A) (d n : nat) (R : nat -> A -> Prop) : Prop :=
  (forall x, x <> d -> h' x = h x) /\
  length (h' d) = length (h d) /\
  (forall i, n <= i -> nth_error (h' d) i = nth_error (h d) i) /\
  (forall i, i < n -> exists v, at_is h' d i v /\ R i v).

(** An admissible reordered execution of [n] iterations: every iteration loads once, then stores once. *)
Definition position (e : event) (es : list event) (k : nat) : Prop := nth_error es k = Some e.
Definition admissible (n : nat) (es : list event) : Prop :=
  NoDup es /\
  (forall i, In (Load i) es \/ In (Store i) es -> i < n) /\
  (forall i, i < n -> exists p q, position (Load i) es p /\ position (Store i) es q /\ p < q).

(** x1 op (x2 op (... op xk)). *)
Fixpoint right_assoc {A} (op : A -> A -> A) (x : A) (xs : list A) : A :=
  match xs with [] => x | y :: r => op x (right_assoc op y r) end.
