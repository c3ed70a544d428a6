(** Specification vocabulary for motions of particle systems and regularised time. *)
From Verif Require Import Vec Force_Model Force_Spec System_Model System_Spec Diag_Spec.
From Coq Require Import List Reals.
Import ListNotations.
Open Scope R_scope.

Definition pos_of (s : st) (i : nat) : vec := nth i (s_p s) vzero.
Definition vel_of (s : st) (i : nat) : vec := nth i (s_v s) vzero.
Definition mass_of (s : st) (i : nat) : R := nth i (s_m s) 0.
Definition of_list (l : list vec) (i : nat) : vec := nth i l vzero.

(** Textbook kinetic energy and (positive) potential of a state. *)
Definition Tkin (s : st) : R := kinetic_sum (sys_of (s_m s) (s_p s) (s_v s)).
Definition Upot (s : st) : R := - potential_sum (sys_of (s_m s) (s_p s) (s_v s)).
Definition apart (s : st) : Prop := Force_Spec.distinct_positions (sys_of (s_m s) (s_p s) (s_v s)).

(** Every entry of an array-valued function has the given derivative. *)
Definition entries_deriv (f : R -> list R) (t : R) (d : list R) : Prop :=
  forall k, (k < length d)%nat -> derivable_pt_lim (fun x => nth k (f x) 0) t (nth k d 0).
(** A motion of n bodies in physical time under the sum of all accelerations. *)
Definition moves (I : inter) (S : R -> st) (t : R) : Prop :=
  derivable_pt_lim (fun x => s_t (S x)) t 1 /\
  (forall i, (i < npart (S t))%nat -> vderiv (fun x => pos_of (S x) i) t (vel_of (S t) i)) /\
  (forall i, (i < npart (S t))%nat -> vderiv (fun x => vel_of (S x) i) t (of_list (total_acc I (s_m (S t)) (s_p (S t)) (s_v (S t))) i)) /\
  (I_dep I = true -> forall i, (i < npart (S t))%nat -> vderiv (fun x => of_list (s_w (S x)) i) t (of_list (total_acc I (s_m (S t)) (s_p (S t)) (s_v (S t))) i)).
(** The same in regularised time: one unit takes the time [dx] for the positions and the clock and [dv] for the velocities;
    omega and the binding energy change by the powers of the Newtonian and of all accelerations. *)
Definition moves_regularised (I : inter) (r : regu) (dx dv : R) (S : R -> st) (t : R) : Prop :=
  let m := s_m (S t) in let v := s_v (S t) in let a := total_acc I m (s_p (S t)) v in
  derivable_pt_lim (fun x => s_t (S x)) t dx /\
  (forall i, (i < npart (S t))%nat -> vderiv (fun x => pos_of (S x) i) t (vscal dx (vel_of (S t) i))) /\
  (forall i, (i < npart (S t))%nat -> vderiv (fun x => vel_of (S x) i) t (vscal dv (of_list a i))) /\
  (I_dep I = true -> forall i, (i < npart (S t))%nat -> vderiv (fun x => of_list (s_w (S x)) i) t (vscal dv (of_list a i))) /\
  derivable_pt_lim (fun x => s_om (S x)) t (match r with TTL => dv * power m v (I_newt I m (s_p (S t))) | _ => 0 end) /\
  derivable_pt_lim (fun x => s_be (S x)) t (match r with LogH => if I_ind I || I_dep I then - (dv * power m v a) else 0 | _ => 0 end).
(** Fixed masses and array lengths along a curve of states. *)
Definition same_bodies (I : inter) (S : R -> st) (m : list R) : Prop :=
  forall x, s_m (S x) = m /\ length (s_p (S x)) = length m /\ length (s_v (S x)) = length m /\ (I_dep I = true -> length (s_w (S x)) = length m).

(** Two bodies: relative coordinates, total momentum, angular momentum and Laplace-Runge-Lenz vector. *)
Definition rel_pos (s : st) : vec := vsub (pos_of s 0) (pos_of s 1).
Definition rel_vel (s : st) : vec := vsub (vel_of s 0) (vel_of s 1).
Definition lrl2 (s : st) : vec :=
  vsub (cross (rel_vel s) (cross (rel_pos s) (rel_vel s))) (vscal ((mass_of s 0 + mass_of s 1) / norm (rel_pos s)) (rel_pos s)).
(** Shape and orientation of the relative orbit and the motion of the centre of mass. *)
Definition same_orbit (s s' : st) : Prop :=
  Tkin s' - Upot s' = Tkin s - Upot s /\ momentum s' = momentum s /\ angular s' = angular s /\
  cross (rel_pos s') (rel_vel s') = cross (rel_pos s) (rel_vel s) /\ lrl2 s' = lrl2 s.
(** A two-body system as the LogH constructor leaves it and as its steps keep it: the stored binding energy is minus the energy. *)
Definition two_bodies (s : st) : Prop :=
  exists m0 m1, s_m s = [m0; m1] /\ 0 < m0 /\ 0 < m1 /\ length (s_p s) = 2%nat /\ length (s_v s) = 2%nat.
Definition consistent (s : st) : Prop := s_be s = - (Tkin s - Upot s).
