(** Specification vocabulary for the methods: the chain form of a state array. *)
From Verif Require Export Meth_Model BS_Spec Build_Spec.
Open Scope R_scope.

(** Differences of neighbours along the index, then the first member itself. *)
Definition chain_form (idx : list nat) (a : list vec) : list vec :=
  map (fun i => if (i + 1 <? length a)%nat then vsub (nth (nth (i + 1) idx 0%nat) a vzero) (nth (nth i idx 0%nat) a vzero)
                else nth (nth 0 idx 0%nat) a vzero) (seq 0 (length a)).
(** The state array (time, positions, velocities, auxiliary velocities if any, rest) with positions and
    velocities replaced by their chain form; [n] particles. *)
Definition chain_array (I : inter) (n : nat) (idx : list nat) (y : list R) : list R :=
  nth 0 y 0 :: coords (chain_form idx (to_vecs n (skipn 1 y))) ++ coords (chain_form idx (to_vecs n (skipn (3 * n + 1) y))) ++
  (if I_dep I then coords (chain_form idx (to_vecs n (skipn (6 * n + 1) y))) else []) ++
  skipn (omega_offset I n) y.
(** Masses and total momentum of [s0]; centre of mass moved uniformly in physical time. *)
Definition drifts (s0 s : st) : Prop :=
  s_m s = s_m s0 /\ momentum s = momentum s0 /\ moment s = vadd (moment s0) (vscal (s_t s - s_t s0) (momentum s0)).
(** Any number of calls; [step y x h y' x']: a call on iterator state [y] and system [x] with requested step [h] (any) succeeds
    and leaves [y'], [x']. *)
Inductive calls {Y X : Type} (step : Y -> X -> R -> Y -> X -> Prop) : Y -> X -> Y -> X -> Prop :=
| calls_none y x : calls step y x y x
| calls_more y x h y1 x1 y2 x2 : step y x h y1 x1 -> calls step y1 x1 y2 x2 -> calls step y x y2 x2.
(** A chain system of [n] particles whose chain coordinates describe its positions and velocities, with an increment array of the
    right size ([e] = 1 for ChainSystem, 3 for ARchainSystem).  C72 and C73 show every built system is, and stays so. *)
Definition chain_ready (I : inter) (e n : nat) (c : cst) : Prop :=
  consistent newton_only c /\ npart (c_st c) = n /\ length (s_inc (c_st c)) = variable_number I e n.
