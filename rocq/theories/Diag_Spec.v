(** Specification vocabulary for energy, momentum and their rates. *)
From Verif Require Import Vec Force_Model.
From Coq Require Import Reals.
Open Scope R_scope.

(** Derivative of a vector-valued function, component by component. *)
Definition vderiv (f : R -> vec) (t : R) (d : vec) : Prop :=
  derivable_pt_lim (fun x => vx (f x)) t (vx d) /\ derivable_pt_lim (fun x => vy (f x)) t (vy d) /\ derivable_pt_lim (fun x => vz (f x)) t (vz d).
(** Textbook quantities: double sum over i < j. *)
Definition kinetic_sum (s : sys) : R := rsum (fun i => / 2 * sm s i * norm2 (sv s i)) (sn s).
Definition potential_sum (s : sys) : R :=
  - rsum (fun i => rsum (fun j => if Nat.ltb i j then sm s i * sm s j / norm (vsub (sp s i) (sp s j)) else 0) (sn s)) (sn s).
(** A motion: n bodies of fixed masses. *)
Definition at_time (n : nat) (m : nat -> R) (P V : R -> nat -> vec) (t : R) : sys := mkS n m (P t) (V t).
