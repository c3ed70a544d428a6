(** Models of the helpers of /repo/src/scattering/hierarchical.hpp over the reals.  get_hierarchical_struct (104-155) is
    not modelled: it does not compile (std::vector has no members pos, vel, mass). *)
From Coq Require Export Permutation Sorted String.
From Coq Require Import DecimalString.
From Verif Require Export Base Vec Orbit_Model.
Open Scope R_scope.

(** HierarchicalNode, hierarchical.hpp:38-46. *)
Record node := mkN { n_pos : vec; n_vel : vec; n_mass : R; n_weight : nat; n_name : string }.
(** std::to_string of a size_t, hierarchical.hpp:64. *)
Definition to_string (i : nat) : string := NilEmpty.string_of_uint (Nat.to_uint i).
(** create_init_list, hierarchical.hpp:53-67: positions, velocities and masses of the particles, by index. *)
Definition create_init_list (m : list R) (p v : list vec) : outcome (list node) :=
  fold_left (fun ol i => obind ol (fun l => obind (aget p i) (fun x => obind (aget v i) (fun w => obind (aget m i) (fun ms =>
    Ok (l ++ [mkN x w ms i (to_string i)])))))) (seq 0 (List.length m)) (Ok []).
(** check_most_bound, hierarchical.hpp:69-81 (the loop starts at 1). *)
Definition check_most_bound (l : list node) (idx : nat) (amin : R) : outcome bool :=
  fold_right (fun i rest => if (i =? idx)%nat then rest else
    obind (aget l idx) (fun x => obind (aget l i) (fun y =>
    let a := fst (calc_a_e (n_mass x + n_mass y) (vsub (n_pos x) (n_pos y)) (vsub (n_vel x) (n_vel y))) in
    if Rlt_dec 0 a then if Rlt_dec a amin then Ok false else rest else rest))) (Ok true) (seq 1 (List.length l - 1)).
(** check_unbound, hierarchical.hpp:83-90: the potential is overwritten, not summed up (86). *)
Definition check_unbound (l : list node) : outcome bool :=
  obind (aget l 0) (fun x =>
  let pot := fold_left (fun _ y => - n_mass y / norm (vsub (n_pos x) (n_pos y))) (tl l) 0 in
  Ok (if Rle_dec 0 (0.5 * norm2 (n_vel x) + pot) then true else false)).
(** hierarchical_to_string, hierarchical.hpp:92-100: std::sort leaves any permutation ordered by weight. *)
Definition hierarchical_to_string (l l' : list node) (out : string) : Prop :=
  Permutation l l' /\ StronglySorted (fun x y => (n_weight x <= n_weight y)%nat) l' /\
  out = fold_left (fun s x => (s ++ n_name x)%string) l' EmptyString.
