(** Specification vocabulary for the IAS15 step error estimate. *)
From Verif Require Export Ias_Model.
Open Scope R_scope.

(** Layout of the state array: time, positions, velocities, (auxiliary velocities), (omega, binding energy). *)
Definition entries (n : nat) (dep regu : bool) : nat := (1 + 3 * n + 3 * n + (if dep then 3 * n else 0) + (if regu then 2 else 0))%nat.
(** Entry [k] is a coordinate of particle [i]. *)
Definition entry_of (n : nat) (dep : bool) (i k : nat) : Prop :=
  exists a, (a < 3)%nat /\ (k = 1 + 3 * i + a \/ k = 1 + 3 * n + 3 * i + a \/ (dep = true /\ k = 1 + 6 * n + 3 * i + a))%nat.
(** A particle that moves by less than a millionth of its distance from the origin in the physical step h / scale. *)
Definition slow (w : view) (h : R) (i : nat) : Prop :=
  (i < w_n w)%nat /\ w_scale w <> 0 /\ norm (nth i (w_vel w) vzero) * Rabs (h / w_scale w) < norm (nth i (w_pos w) vzero) * 1e-6.
(** The entries that count: not the time of a system without regularisation, not the coordinates of slow particles. *)
Definition counted (w : view) (h : R) (k : nat) : Prop :=
  (k < entries (w_n w) (w_dep w) (w_regu w))%nat /\ (w_regu w = false -> k <> 0%nat) /\ (forall i, slow w h i -> ~ entry_of (w_n w) (w_dep w) i k).
(** [e] is the largest |b6| over the largest |dy/dh| in units of 5e-10, over the entries that count (0 when the latter is 0). *)
Definition estimates (w : view) (h : R) (dyh b6 : list R) (e : R) : Prop :=
  0 <= e /\
  (((forall k, counted w h k -> nth k dyh 0 = 0) /\ e = 0) \/
   exists k1 k2, counted w h k1 /\ counted w h k2 /\ nth k1 dyh 0 <> 0 /\ (forall k, counted w h k -> Rabs (nth k dyh 0) <= Rabs (nth k1 dyh 0)) /\
     (forall k, counted w h k -> Rabs (nth k b6 0) <= e * 5e-10 * Rabs (nth k1 dyh 0)) /\ Rabs (nth k2 b6 0) = e * 5e-10 * Rabs (nth k1 dyh 0)).
(** The arrays and the system have their sizes. *)
Definition fits (w : view) (dyh b6 : list R) : Prop :=
  length (w_pos w) = w_n w /\ length (w_vel w) = w_n w /\ length dyh = entries (w_n w) (w_dep w) (w_regu w) /\ length b6 = length dyh.
