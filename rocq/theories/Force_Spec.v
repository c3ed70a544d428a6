(** Specification vocabulary for the force properties. *)
From Coq Require Import Permutation.
From Verif Require Export Force_Model.
Open Scope R_scope.

(** Sum over a list. *)
Fixpoint lsum {A} (f : A -> vec) (l : list A) : vec :=
  match l with [] => vzero | a :: t => vadd (f a) (lsum f t) end.

(** Exchange symmetry of a pair term. *)
Definition exchange_symmetric (F : pair_force) : Prop := forall dr dv i j,
  F (vneg dr) (vneg dv) j i = (snd (F dr dv i j), fst (F dr dv i j)).

(** The index array lists each particle once, and the chain coordinates are the differences of
    consecutive members (C17). *)
Definition chain_consistent (s : sys) (c : chn) : Prop :=
  Permutation (map (ch_idx c) (seq 0 (sn s))) (seq 0 (sn s)) /\
  forall i, (i + 1 < sn s)%nat ->
    ch_p c i = vsub (sp s (ch_idx c (i + 1))) (sp s (ch_idx c i)) /\
    ch_v c i = vsub (sv s (ch_idx c (i + 1))) (sv s (ch_idx c i)).

(** The unordered pair of a call. *)
Definition upair (i j : nat) : nat * nat := (Nat.min i j, Nat.max i j).

(** The same particles listed in another order: new particle k is old particle [pi k]. *)
Definition relabel (pi : nat -> nat) (s : sys) : sys :=
  mkS (sn s) (fun k => sm s (pi k)) (fun k => sp s (pi k)) (fun k => sv s (pi k)).

(** A force adds a term that depends on the system only. *)
Definition additive (f : force) : Prop := exists g, forall s acc k, f_add f s acc k = vadd (acc k) (g s k).
(** That term, and the sum of the terms of a list of forces. *)
Definition term (f : force) (s : sys) (k : nat) : vec := f_add f s (fun _ => vzero) k.
Definition fsum (fs : list force) (s : sys) (k : nat) : vec := lsum (fun f => term f s k) fs.

(** No two particles at the same place. *)
Definition distinct_positions (s : sys) : Prop :=
  forall i j, (i < sn s)%nat -> (j < sn s)%nat -> i <> j -> sp s i <> sp s j.
(** Total momentum carried by an acceleration array, and its torque about the origin. *)
Definition total_force (s : sys) (a : nat -> vec) : vec := vsum (fun k => vscal (sm s k) (a k)) (sn s).
Definition total_torque (s : sys) (a : nat -> vec) : vec := vsum (fun k => vscal (sm s k) (cross (sp s k) (a k))) (sn s).
