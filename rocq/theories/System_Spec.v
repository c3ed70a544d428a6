(** Specification vocabulary for the particle systems and integrators. *)
From Coq Require Export Permutation.
From Verif Require Export System_Model.
Open Scope R_scope.

(** Every interaction part returns one acceleration per particle. *)
Definition sized (I : inter) : Prop := forall m p v, length p = length m -> length v = length m ->
  length (I_newt I m p) = length m /\ length (I_vi I m p) = length m /\ length (I_vd I m p v) = length m.

(** Array lengths of a system built by its constructor ([extra]: 1 plain, 3 regularised). *)
Definition well_sized (I : inter) (extra : nat) (s : st) : Prop :=
  length (s_p s) = npart s /\ length (s_v s) = npart s /\ (I_dep I = true -> length (s_w s) = npart s) /\
  length (s_inc s) = variable_number I extra (npart s).

(** Total momentum, angular momentum about the origin, first mass moment. *)
Definition momentum (s : st) : vec := vsum (fun i => vscal (nth i (s_m s) 0) (nth i (s_v s) vzero)) (npart s).
Definition angular (s : st) : vec :=
  vsum (fun i => vscal (nth i (s_m s) 0) (cross (nth i (s_p s) vzero) (nth i (s_v s) vzero))) (npart s).
Definition moment (s : st) : vec := vsum (fun i => vscal (nth i (s_m s) 0) (nth i (s_p s) vzero)) (npart s).

(** Two states that agree in everything but the memorised step scale. *)
Definition same_but_scale (s s' : st) : Prop := set_sc s 0 = set_sc s' 0.
(** Two states that agree in masses, time, positions, velocities, auxiliary velocities, omega,
    binding energy and step scale (all but the increment array and its flag). *)
Definition strip (s : st) : st :=
  mkSt (s_m s) (s_t s) (s_p s) (s_v s) (s_w s) (s_om s) (s_be s) (s_sc s) [] false.

(** Sum of the drift (kick) coefficients of a scheme. *)
Fixpoint drift_sum (l : list op) : R := match l with [] => 0 | D c :: t => c + drift_sum t | K _ :: t => drift_sum t end.
Fixpoint kick_sum (l : list op) : R := match l with [] => 0 | K c :: t => c + kick_sum t | D _ :: t => kick_sum t end.
(** Sum of the k-th powers of the kick coefficients. *)
Fixpoint kick_pow (k : nat) (l : list op) : R :=
  match l with [] => 0 | K c :: t => c ^ k + kick_pow k t | D _ :: t => kick_pow k t end.
(** Every drift coefficient is, up to [eps], half the sum of the kick coefficients around it
    ([prev]: kick coefficient before). *)
Fixpoint half_sums (eps prev : R) (l : list op) : Prop :=
  match l with
  | [] => True
  | D c :: [] => Rabs (c - prev / 2) <= eps
  | D c :: (K k :: t) => Rabs (c - (prev + k) / 2) <= eps /\ half_sums eps k t
  | _ => False
  end.

(** Componentwise sum of two arrays of equal length. *)
Fixpoint zip_add (a b : list R) : list R :=
  match a, b with x :: a', y :: b' => (x + y) :: zip_add a' b' | _, _ => [] end.

(** A chain system whose chain coordinates are those of its Cartesian ones under its index. *)
Definition consistent (I : inter) (c : cst) : Prop :=
  let s := c_st c in let n := npart s in
  (1 <= n)%nat /\ Permutation (c_idx c) (seq 0 n) /\ length (s_p s) = n /\ length (s_v s) = n /\
  chain_of n (c_idx c) (s_p s) = Ok (c_cp c) /\ chain_of n (c_idx c) (s_v s) = Ok (c_cv c) /\
  (I_dep I = true -> length (s_w s) = n /\ chain_of n (c_idx c) (s_w s) = Ok (c_cw c)).
(** The interactions evaluated along the chain give the direct values on consistent chains. *)
Definition agree (I : inter) (CI : cinter) (n : nat) : Prop := forall m p v idx cp cv,
  length m = n -> length p = n -> length v = n -> Permutation idx (seq 0 n) ->
  chain_of n idx p = Ok cp -> chain_of n idx v = Ok cv ->
  C_newt CI m p cp idx = Ok (I_newt I m p) /\ (I_ind I = true -> C_vi CI m p cp idx = Ok (I_vi I m p)) /\
  (I_dep I = true -> C_vd CI m p v cp cv idx = Ok (I_vd I m p v)).

(** Net force and net torque of an acceleration array. *)
Definition net_force (m : list R) (a : list vec) : vec := vsum (fun i => vscal (nth i m 0) (nth i a vzero)) (length m).
Definition net_torque (m : list R) (p a : list vec) : vec :=
  vsum (fun i => vscal (nth i m 0) (cross (nth i p vzero) (nth i a vzero))) (length m).
(** Every interaction part obeys the third law: no net force, no net torque. *)
Definition balanced (I : inter) : Prop := forall m p v, length p = length m -> length v = length m ->
  (net_force m (I_newt I m p) = vzero /\ net_torque m p (I_newt I m p) = vzero) /\
  (I_ind I = true -> net_force m (I_vi I m p) = vzero /\ net_torque m p (I_vi I m p) = vzero) /\
  (I_dep I = true -> net_force m (I_vd I m p v) = vzero /\ net_torque m p (I_vd I m p v) = vzero).
(** What a run from [s0] to [s] conserves: momentum and angular momentum; the centre of mass moves
    uniformly in physical time; masses are untouched. *)
Definition conserves (s0 s : st) : Prop :=
  momentum s = momentum s0 /\ angular s = angular s0 /\ s_m s = s_m s0 /\
  moment s = vadd (moment s0) (vscal (s_t s - s_t s0) (momentum s0)).

(** The symplectic schemes the library offers. *)
Definition schemes : list (list op) :=
  [leapfrog_dkd; leapfrog_kdk; symplectic4; symplectic6; symplectic8; symplectic10].
(** Two chain states that agree in everything an observer can read: Cartesian and chain coordinates,
    index, time, omega, binding energy (not the increment array; the auxiliary chain velocities only
    when velocity-dependent forces exist). *)
Definition chain_same (I : inter) (eqst : st -> st -> Prop) (c c' : cst) : Prop :=
  eqst (strip (c_st c)) (strip (c_st c')) /\ c_idx c = c_idx c' /\ c_cp c = c_cp c' /\ c_cv c = c_cv c' /\
  (I_dep I = true -> c_cw c = c_cw c').
(** The accelerations beyond Newtonian gravity (only those the interactions have), and all accelerations together. *)
Definition external_acc (I : inter) (m : list R) (p v : list vec) : list vec :=
  map (fun i => vadd (if I_ind I then nth i (I_vi I m p) vzero else vzero) (if I_dep I then nth i (I_vd I m p v) vzero else vzero)) (seq 0 (length m)).
Definition total_acc (I : inter) (m : list R) (p v : list vec) : list vec :=
  map (fun i => vadd (nth i (I_newt I m p) vzero) (nth i (external_acc I m p v) vzero)) (seq 0 (length m)).
(** Power of an acceleration field. *)
Definition power (m : list R) (v a : list vec) : R :=
  rsum (fun i => nth i m 0 * dot (nth i v vzero) (nth i a vzero)) (length m).
