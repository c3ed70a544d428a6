(** Specification vocabulary for adaptive runs seen from other coordinate axes: exchanging and flipping axes. *)
From Coq Require Import Permutation.
From Verif Require Export Inv_Spec Meth_Model BS_Spec.
Open Scope R_scope.

(** The i-th coordinate. *)
Definition coordinate (i : nat) (v : vec) : R := match i with O => vx v | 1%nat => vy v | _ => vz v end.
(** New axes that are the old axes in another order, each possibly flipped: new coordinate i is plus or minus old coordinate [c i]. *)
Definition axis_change (A : vec -> vec) : Prop :=
  exists (c : nat -> nat) (s : nat -> R), Permutation (map c [0; 1; 2]%nat) [0; 1; 2]%nat /\ (forall i, s i = 1 \/ s i = -1) /\
    forall v, A v = mkV (s 0%nat * coordinate (c 0%nat) v) (s 1%nat * coordinate (c 1%nat) v) (s 2%nat * coordinate (c 2%nat) v).
(** The state array (time, positions, velocities, auxiliary velocities if any, rest) of the renumbered system seen from the axes [A]. *)
Definition frame_array (I : inter) (n : nat) (pi : nat -> nat) (A : vec -> vec) (y : list R) : list R :=
  nth 0 y 0 :: coords (view n pi A vzero (to_vecs n (skipn 1 y))) ++ coords (view n pi A vzero (to_vecs n (skipn (3 * n + 1) y))) ++
  (if I_dep I then coords (view n pi A vzero (to_vecs n (skipn (6 * n + 1) y))) else []) ++ skipn (omega_offset I n) y.
(** An error estimate that does not depend on the numbering and the axes, for state arrays of [n] particles ([e]: variables besides
    positions and velocities, 1 or 3). *)
Definition blind {E : Type} (I : inter) (e n : nat) (pi : nat -> nat) (A : vec -> vec) (err : list R -> list R -> list R -> E) : Prop :=
  let T := frame_array I n pi A in let k := variable_number I e n in
  forall a b c, length a = k -> length b = k -> length c = k -> err (T a) (T b) (T c) = err a b c.
(** [k] calls of an adaptive method, each requested step computed by [pick] from the time and the step the previous call returned
    (the simulator requests the returned step, or what is left to the end time). *)
Fixpoint adaptive {Y : Type} (call : Y -> st -> R -> outcome (Y * st * R)) (pick : R -> R -> R) (k : nat) (y : Y) (s : st) (h : R) : outcome (Y * st * R) :=
  match k with
  | O => Ok (y, s, h)
  | S k => obind (call y s (pick (s_t s) h)) (fun '(y', s', h') => adaptive call pick k y' s' h')
  end.
(** Both runs abort, both are undefined, or both succeed with the same next step and show the same motion. *)
Definition alike {Y : Type} (pi : nat -> nat) (A : vec -> vec) (o o' : outcome (Y * st * R)) : Prop :=
  match o, o' with
  | Ok (_, s, h), Ok (_, s', h') => h' = h /\ same_motion pi A vzero vzero 0 s s'
  | Abort, Abort => True
  | UB, UB => True
  | _, _ => False
  end.
