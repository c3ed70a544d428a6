(** What it means for a tabulated function, independently of the code. *)
From Coq Require Import Reals List.
From Verif Require Import Base Vec Force_Model Disk_Model.
Open Scope R_scope.
(** Entry i of a table. *)
Definition entry (l : list R) (i : nat) : R := nth i l 0.
(** The straight line through table points i and i+1. *)
Definition segment (xs ys : list R) (i : nat) (x : R) : R :=
  entry ys i + (x - entry xs i) * (entry ys (i + 1) - entry ys i) / (entry xs (i + 1) - entry xs i).
(** f jumps by more than h at x: points as close as wanted to the left of x have values further than h from f x. *)
Definition jumps (f : R -> outcome R) (x h : R) : Prop :=
  exists y, f x = Ok y /\ forall d, 0 < d -> exists x' y', x - d < x' < x /\ f x' = Ok y' /\ h < Rabs (y' - y).
(** f never leaves its tables. *)
Definition defined_everywhere (f : R -> outcome R) : Prop := forall x, exists y, f x = Ok y.
(** The Mach number of star i in the gas: its speed relative to the gas over the sound speed Omega*H. *)
Definition mach (s : sys) (i : nat) : outcome R :=
  let dr := vsub (sp s i) (sp s 0%nat) in
  obind (mag_v_rel s i) (fun w => obind (mag_H dr) (fun H => Ok (sqrt (dot w w) / (sqrt (Gc * sm s 0%nat / (norm dr * norm dr * norm dr)) * H)))).
