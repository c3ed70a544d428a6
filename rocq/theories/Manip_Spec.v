(** Specification vocabulary for clusters of particles: plain sums over the members. *)
From Verif Require Import Vec Manip_Model.
From Coq Require Import List.
Import ListNotations.
Open Scope R_scope.

Fixpoint lsum {A} (f : A -> R) (l : list A) : R := match l with [] => 0 | x :: t => f x + lsum f t end.
Fixpoint lvsum {A} (f : A -> vec) (l : list A) : vec := match l with [] => vzero | x :: t => vadd (f x) (lvsum f t) end.
(** All unordered pairs of members. *)
Fixpoint pairs {A} (l : list A) : list (A * A) := match l with [] => [] | x :: t => map (fun y => (x, y)) t ++ pairs t end.

Definition total_mass (l : list particle) : R := lsum pt_m l.
(** c is the centre of the f-values weighted by mass: M c = sum m f. *)
Definition is_centre (f : particle -> vec) (l : list particle) (c : vec) : Prop :=
  vscal (total_mass l) c = lvsum (fun p => vscal (pt_m p) (f p)) l.
Definition kinetic (v0 : vec) (l : list particle) : R := lsum (fun p => / 2 * pt_m p * norm2 (vsub (pt_v p) v0)) l.
Definition potential (l : list particle) : R :=
  - lsum (fun '(p, q) => Gc * pt_m p * pt_m q / norm (vsub (pt_p p) (pt_p q))) (pairs l).
(** Same particles up to one common shift of all positions and one of all velocities. *)
Definition rigidly_moved (dp dv : vec) (l l' : list particle) : Prop :=
  l' = map (fun p => mkP (pt_m p) (vadd (pt_p p) dp) (vadd (pt_v p) dv) (pt_R p)) l.
