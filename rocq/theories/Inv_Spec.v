(** Specification vocabulary for the symmetries of the equations of motion: the same physical system described by
    another observer, or with its particles listed in another order. *)
From Coq Require Import Permutation.
From Verif Require Export Force_Spec Build_Spec.
Open Scope R_scope.

(** A rotation or reflection of space: a linear map that keeps all scalar products. *)
Definition isometry (A : vec -> vec) : Prop :=
  (forall a b, A (vadd a b) = vadd (A a) (A b)) /\ (forall k a, A (vscal k a) = vscal k (A a)) /\
  (forall a b, dot (A a) (A b) = dot a b).
(** The system seen from axes turned by [A], with origin shifted by [d] and moving with velocity [- u]. *)
Definition seen (A : vec -> vec) (d u : vec) (s : sys) : sys :=
  mkS (sn s) (sm s) (fun k => vadd (A (sp s k)) d) (fun k => vadd (A (sv s k)) u).
(** The list [l'] holds the particles of [l] in another order and seen from other axes: new particle k is old particle [pi k]. *)
Definition reframed (pi : nat -> nat) (A : vec -> vec) (d u : vec) (l l' : list body) : Prop :=
  length l' = length l /\ forall k b, (k < length l)%nat -> nth_error l (pi k) = Some b ->
    nth_error l' k = Some (mkB (b_m b) (vadd (A (b_p b)) d) (vadd (A (b_v b)) u)).
(** A renumbering of n particles. *)
Definition renumbering (n : nat) (pi : nat -> nat) : Prop := Permutation (map pi (seq 0 n)) (seq 0 n).
(** A state [s'] shows what the state [s] shows, renumbered and seen by the other observer: same time, same masses,
    positions turned and shifted by [d] + (elapsed time) [u], velocities turned and boosted by [u]. *)
Definition same_motion (pi : nat -> nat) (A : vec -> vec) (d u : vec) (t0 : R) (s s' : st) : Prop :=
  npart s' = npart s /\ s_t s' = s_t s /\ length (s_p s') = npart s /\ length (s_v s') = npart s /\
  forall k, (k < npart s)%nat ->
    nth k (s_m s') 0 = nth (pi k) (s_m s) 0 /\
    nth k (s_p s') vzero = vadd (vadd (A (nth (pi k) (s_p s) vzero)) d) (vscal (s_t s - t0) u) /\
    nth k (s_v s') vzero = vadd (A (nth (pi k) (s_v s) vzero)) u.
(** A list of vectors renumbered, turned and shifted; masses renumbered. *)
Definition view (n : nat) (pi : nat -> nat) (A : vec -> vec) (d : vec) (l : list vec) : list vec :=
  map (fun k => vadd (A (nth (pi k) l vzero)) d) (seq 0 n).
Definition renum (n : nat) (pi : nat -> nat) (m : list R) : list R := map (fun k => nth (pi k) m 0) (seq 0 n).
(** The accelerations are those of the renumbered, turned system, wherever the origin is, when velocities are boosted by [u]. *)
Definition covariant (n : nat) (pi : nat -> nat) (A : vec -> vec) (u : vec) (I : inter) : Prop :=
  forall d m p v, length m = n -> length p = n -> length v = n ->
    I_newt I (renum n pi m) (view n pi A d p) = view n pi A vzero (I_newt I m p) /\
    (I_ind I = true -> I_vi I (renum n pi m) (view n pi A d p) = view n pi A vzero (I_vi I m p)) /\
    (I_dep I = true -> I_vd I (renum n pi m) (view n pi A d p) (view n pi A u v) = view n pi A vzero (I_vd I m p v)).
