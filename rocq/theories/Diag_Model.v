(** Model of the remaining diagnostics of /repo/src/core-computation.hpp (kinetic, potential and total energy and the
    angular momenta are in Force_Model.v).  Exact real arithmetic. *)
From Verif Require Export Force_Model.
From Verif Require Import Ctrl_Model.
From Coq Require Import List Rpower.
Import ListNotations.
Open Scope R_scope.

(** calc_com, core-computation.hpp:454-459: array_dot(var, mass) / array_sum(mass). *)
Definition calc_com (n : nat) (m : nat -> R) (f : nat -> vec) : vec := vscal (/ rsum m n) (vsum (fun i => vscal (m i) (f i)) n).
(** move_to_com, 461-466. *)
Definition move_to_com (n : nat) (m : nat -> R) (f : nat -> vec) : nat -> vec :=
  let c := calc_com n m f in fun i => vsub (f i) c.
(** calc_angular_momentum(particles, idx), 548-557. *)
Definition angular_momentum_of (s : sys) (ids : list nat) : vec := lvsum (fun i => vscal (sm s i) (cross (sp s i) (sv s i))) ids.
(** calc_fall_free_time, 588-602; [big] is math::max_value<double>. *)
Definition pow15 (r : R) : R := if Rlt_dec 0 r then Rpower r 1.5 else 0.      (* POW(r, 1.5); pow(0, 1.5) = 0 *)
Definition fall_free_pair (m : nat -> R) (p : nat -> vec) (ij : nat * nat) : R :=
  pow15 (norm (vsub (p (fst ij)) (p (snd ij)))) / sqrt (m (fst ij) + m (snd ij)).
(** calc_fall_free_time, core-computation.hpp:588-603. *)
Definition fall_free_time (big : R) (n : nat) (m : nat -> R) (p : nat -> vec) : R :=
  fold_left (fun t ij => let f := fall_free_pair m p ij in if Rlt_dec f t then f else t) (all_pairs n) big * PI * 0.5 / sqrt (2 * Gc).
(** calc_energy_error, 619-631: regularised systems (have bindE) and the others. *)
Definition energy_error_regu (s : sys) (bindE : R) : R := ln (Rabs ((kinetic_energy s + bindE) / - potential_energy s)).
(** calc_energy_error of the systems without bindE, core-computation.hpp:627. *)
Definition energy_error (s : sys) (E0 : R) : R := Rabs ((kinetic_energy s - - potential_energy s - E0) / E0).
