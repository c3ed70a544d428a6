(** What a user reads off a system. *)
From Verif Require Export Build_Model System_Spec.
Open Scope R_scope.

(** The same masses, time, positions and velocities. *)
Definition same_physics (s s' : st) : Prop :=
  s_m s = s_m s' /\ s_t s = s_t s' /\ s_p s = s_p s' /\ s_v s = s_v s'.
(** The system shows exactly the given particles, in the given order, at the given time. *)
Definition shows (s : st) (t : R) (set : list body) : Prop :=
  s_t s = t /\ s_m s = map b_m set /\ s_p s = map b_p set /\ s_v s = map b_v set.
(** Chain coordinates describe the Cartesian ones: differences along the index, last entry the first member. *)
Definition chain_describes (idx : list nat) (ch cart : list vec) : Prop :=
  length ch = length cart /\
  nth (length cart - 1) ch vzero = nth (nth 0 idx 0%nat) cart vzero /\
  forall i, (i + 1 < length cart)%nat -> nth i ch vzero = vsub (nth (nth (i + 1) idx 0%nat) cart vzero) (nth (nth i idx 0%nat) cart vzero).
