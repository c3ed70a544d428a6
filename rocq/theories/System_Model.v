(** Model of the particle systems and of the symplectic integrators:
    /repo/src/particle-system/{base-system,chain-system,regu-system,archain}.hpp,
    /repo/src/type-class.hpp:97-148, /repo/src/core-computation.hpp (array helpers),
    /repo/src/integrator/symplectic/symplectic-integrator.hpp.
    Scalars and state scalars are reals; arrays are lists of the length of the C++ arrays.
    The scratch acceleration arrays (InteractionData) are not part of the state: every function
    below overwrites the scratch arrays it reads. *)
From Verif Require Export Force_Model Chain_Model.
Open Scope R_scope.

(** * Array helpers *)
(** calc::array_advance(var, increment, step_size), core-computation.hpp:364-371, for arrays of
    equal length. *)
Definition advance (a b : list vec) (h : R) : list vec :=
  map (fun xy => vadd (fst xy) (vscal h (snd xy))) (combine a b).
(** calc::array_add, core-computation.hpp (dst = a + b). *)
(** core-computation.hpp array_add as used at base-system.hpp:296. *)
Definition vladd (a b : list vec) : list vec := map (fun xy => vadd (fst xy) (snd xy)) (combine a b).
(** add_coords_to / add_scaled_coords_to, type-class.hpp:129-148: what is appended. *)
Definition coords (l : list vec) : list R := flat_map (fun v => [vx v; vy v; vz v]) l.
(** type-class.hpp:138-148. *)
Definition scaled (l : list vec) (h : R) : list R := coords (map (vscal h) l).
(** advance_scaled_coords_to(begin + off, ...), type-class.hpp:119-127, and increment[off] += d.
    Entries past the end are dropped here; C29_increment_in_bounds shows there are none. *)
Fixpoint add_at (off : nat) (ds inc : list R) : list R :=
  match inc with
  | [] => []
  | x :: t => match off with
              | S o => x :: add_at o ds t
              | O => match ds with [] => x :: t | d :: ds' => (x + d) :: add_at 0 ds' t end
              end
  end.
(** load_to_coords, type-class.hpp:97-107: the [len]/3 vectors in a range. *)
Fixpoint to_vecs (k : nat) (l : list R) : list vec :=
  match k with
  | O => []
  | S k' => match l with x :: y :: z :: t => mkV x y z :: to_vecs k' t | _ => [] end
  end.
(** type-class.hpp:97-107, called at base-system.hpp:206-212. *)
Definition load_coords (y : list R) (b e : nat) : list vec := to_vecs ((e - b) / 3) (skipn b y).

(** * Interactions
    What the evaluated interaction terms are, as functions of masses, positions and (for the
    velocity-dependent part only) velocities: Newtonian part, velocity-independent and
    velocity-dependent extra parts (interaction.hpp; their composition is C21). *)
Record inter := mkI { I_dep : bool; I_ind : bool;                 (* ext_vel_dep, ext_vel_indep *)
                      I_newt : list R -> list vec -> list vec;
                      I_vi : list R -> list vec -> list vec;
                      I_vd : list R -> list vec -> list vec -> list vec }.
(** The system seen by the force terms. *)
(** The accessors number/mass/pos/vel of point-particles.hpp:105-171 read by interaction/*.hpp. *)
Definition sys_of (m : list R) (p v : list vec) : sys :=
  mkS (length m) (fun i => nth i m 0) (fun i => nth i p vzero) (fun i => nth i v vzero).
(** A loop "for i < n: dst[i] = f(i)" (e.g. base-system.hpp:241). *)
Definition tolist {A} (n : nat) (f : nat -> A) : list A := map f (seq 0 n).
(** NewtonianGrav evaluated directly. *)
(** interaction/newtonian.hpp through interaction.hpp eval_newtonian_acc, called at base-system.hpp:311; see Force_Model. *)
Definition newton_acc (m : list R) (p : list vec) : list vec :=
  let s := sys_of m p [] in
  tolist (length m) (add_acc (newton_pair (sm s)) (direct_calls s) (fun _ => vzero)).
(** Interactions<NewtonianGrav>: no extra force. *)
(** The flags of Interactions<NewtonianGrav> read at base-system.hpp:262, 312. *)
Definition newton_only : inter := mkI false false newton_acc (fun _ p => p) (fun _ p _ => p).
(** Interactions::eval_acc (C21). *)
Definition tot_vi (I : inter) (m : list R) (p : list vec) : list vec :=     (* eval_vel_indep_acc, base-system.hpp:310 *)
  if I_ind I then vladd (I_newt I m p) (I_vi I m p) else I_newt I m p.
(** Interactions::eval_acc as called at base-system.hpp:241, 271. *)
Definition eval_total (I : inter) (m : list R) (p v : list vec) : list vec :=
  if I_dep I then vladd (tot_vi I m p) (I_vd I m p v) else tot_vi I m p.
(** Interactions::eval_extra_acc. *)
(** Interactions::eval_extra_acc as called at regu-system.hpp:323. *)
Definition eval_extra (I : inter) (m : list R) (p v : list vec) : list vec :=
  match I_dep I, I_ind I with
  | true, true => vladd (I_vd I m p v) (I_vi I m p)
  | true, false => I_vd I m p v
  | false, _ => I_vi I m p
  end.

(** * State of the systems in Cartesian coordinates *)
(** Masses, time, positions, velocities, auxiliary velocities (used with velocity-dependent forces
    only), omega, bindE and scale_ of Regularization (regularised systems only), the increment
    array and the sync_increment_ flag. *)
(** Data members base-system.hpp:174-180, regu-system.hpp:211-215. *)
Record st := mkSt { s_m : list R; s_t : R; s_p : list vec; s_v : list vec; s_w : list vec;
                    s_om : R; s_be : R; s_sc : R; s_inc : list R; s_sync : bool }.
(** number(), point-particles.hpp:247-250. *)
Definition npart (s : st) : nat := length (s_m s).
Definition time_offset : nat := 0.                                   (* base-system.hpp:127-133 *)
Definition pos_offset : nat := 1.
(** base-system.hpp:131. *)
Definition vel_offset (n : nat) : nat := (n * 3 + 1)%nat.
(** base-system.hpp:133. *)
Definition aux_offset (n : nat) : nat := (n * 6 + 1)%nat.
Definition omega_offset (I : inter) (n : nat) : nat := (n * 3 * (2 + Nat.b2n (I_dep I)) + 1)%nat.   (* archain.hpp:113-119 *)
Definition bindE_offset (I : inter) (n : nat) : nat := (n * 3 * (2 + Nat.b2n (I_dep I)) + 2)%nat.
(** variable_number: 1 extra entry in the plain systems, 3 in the regularised ones. *)
Definition variable_number (I : inter) (extra n : nat) : nat := (n * 3 * (2 + Nat.b2n (I_dep I)) + extra)%nat.
(** sync_*_increment. *)
(** base-system.hpp:319-347, regu-system.hpp:367-411. *)
Definition sync (s : st) (off : nat) (ds : list R) (inc : list R) : list R :=
  if s_sync s then add_at off ds inc else inc.
(** base-system.hpp:123, regu-system.hpp:152, chain-system.hpp:96, archain.hpp:96. *)
Definition clear_increment (s : st) : st :=                          (* calc::array_set_zero(increment_) *)
  mkSt (s_m s) (s_t s) (s_p s) (s_v s) (s_w s) (s_om s) (s_be s) (s_sc s) (map (fun _ => 0) (s_inc s)) (s_sync s).
Definition pre_iter (I : inter) (s : st) : st :=                     (* pre_iter_process, base-system.hpp:254-258 *)
  if I_dep I then mkSt (s_m s) (s_t s) (s_p s) (s_v s) (s_v s) (s_om s) (s_be s) (s_sc s) (s_inc s) (s_sync s) else s.

(** * SimpleSystem, base-system.hpp *)
Definition drift (s : st) (h : R) : st :=                            (* 278-283 *)
  mkSt (s_m s) (s_t s + h) (advance (s_p s) (s_v s) h) (s_v s) (s_w s) (s_om s) (s_be s) (s_sc s)
       (sync s pos_offset (scaled (s_v s) h) (sync s time_offset [h] (s_inc s))) (s_sync s).
(** base-system.hpp:297-298. *)
Definition kick_vel (s : st) (a : list vec) (h : R) : st :=          (* array_advance(vel) + sync_vel_increment *)
  mkSt (s_m s) (s_t s) (s_p s) (advance (s_v s) a h) (s_w s) (s_om s) (s_be s) (s_sc s)
       (sync s (vel_offset (npart s)) (scaled a h) (s_inc s)) (s_sync s).
(** base-system.hpp:305-306. *)
Definition kick_aux (s : st) (a : list vec) (h : R) : st :=          (* array_advance(aux) + sync_auxi_vel_increment *)
  mkSt (s_m s) (s_t s) (s_p s) (s_v s) (advance (s_w s) a h) (s_om s) (s_be s) (s_sc s)
       (sync s (aux_offset (npart s)) (scaled a h) (s_inc s)) (s_sync s).
Definition kick_real_vel (I : inter) (vi : list vec) (s : st) (h : R) : st :=    (* 292-299: evaluated with aux velocities *)
  kick_vel s (vladd vi (I_vd I (s_m s) (s_p s) (s_w s))) h.
Definition kick_pseu_vel (I : inter) (vi : list vec) (s : st) (h : R) : st :=    (* 302-307 *)
  kick_aux s (vladd vi (I_vd I (s_m s) (s_p s) (s_v s))) h.
Definition kick (I : inter) (s : st) (h : R) : st :=                 (* 261-275 *)
  if I_dep I then
    let half := 0.5 * h in
    let vi := tot_vi I (s_m s) (s_p s) in
    let s1 := kick_real_vel I vi s half in
    let s2 := kick_pseu_vel I vi s1 h in
    kick_real_vel I vi s2 half
  else kick_vel s (eval_total I (s_m s) (s_p s) (s_v s)) h.
Definition write (I : inter) (s : st) : list R :=                    (* 223-232 *)
  s_t s :: coords (s_p s) ++ coords (s_v s) ++ (if I_dep I then coords (s_w s) else []).
Definition read (I : inter) (s : st) (y : list R) : outcome st :=    (* 199-219 *)
  let n := npart s in
  if (length y =? variable_number I 1 n)%nat then
    obind (aget y time_offset) (fun t =>
    Ok (mkSt (s_m s) t (load_coords y pos_offset (vel_offset n)) (load_coords y (vel_offset n) (aux_offset n))
             (if I_dep I then load_coords y (aux_offset n) (length y) else s_w s)
             (s_om s) (s_be s) (s_sc s) (s_inc s) (s_sync s)))
  else Abort.
Definition derivative (I : inter) (s : st) : list R :=               (* evaluate_general_derivative, 236-246 *)
  let a := eval_total I (s_m s) (s_p s) (s_v s) in
  1 :: coords (s_v s) ++ coords a ++ (if I_dep I then coords a else []).

(** * RegularizedSystem, regu-system.hpp *)
(** regu-system.hpp:36 (enum ReguType). *)
Inductive regu := LogH | TTL | NoReg.
(** calc::calc_kinetic_energy as called at regu-system.hpp:513. *)
Definition kin (s : st) : R := kinetic_energy (sys_of (s_m s) (s_p s) (s_v s)).
(** calc::calc_potential_energy as called at regu-system.hpp:529. *)
Definition pot (s : st) : R := potential_energy (sys_of (s_m s) (s_p s) (s_v s)).
(** Regularization::eval_pos_phy_time, 509-522: physical step and new scale_. *)
Definition pos_phy (r : regu) (s : st) (h : R) : R * R :=
  match r with
  | LogH => let sc := s_be s + kin s in (h / sc, sc)
  | TTL => (h / s_om s, s_om s)
  | NoReg => (h, s_sc s)
  end.
(** eval_vel_phy_time, 524-538. *)
Definition vel_phy (r : regu) (s : st) (h : R) : R * R :=
  match r with
  | LogH => (h / - pot s, - pot s)
  | TTL => (h / - pot s, - pot s)
  | NoReg => (h, s_sc s)
  end.
(** The assignment to scale_ at regu-system.hpp:513, 529. *)
Definition set_sc (s : st) (sc : R) : st :=
  mkSt (s_m s) (s_t s) (s_p s) (s_v s) (s_w s) (s_om s) (s_be s) sc (s_inc s) (s_sync s).
(** calc::coord_contract_to_scalar(mass, a, b), core-computation.hpp:422-430. *)
Definition contract (m : list R) (a b : list vec) : R :=
  rsum (fun i => dot (nth i a vzero) (nth i b vzero) * nth i m 0) (length m).
Definition calc_domega_dt (r : regu) (m : list R) (v dom : list vec) : R :=      (* 430-438 *)
  match r with TTL => contract m v dom | _ => 0 end.
Definition calc_dbindE_dt (I : inter) (r : regu) (m : list R) (v db : list vec) : R :=   (* 441-449 *)
  if I_ind I || I_dep I then match r with LogH => - contract m v db | _ => 0 end else 0.
Definition advance_omega (I : inter) (r : regu) (s : st) (dom : list vec) (h : R) : st :=   (* 452-458 *)
  let d := calc_domega_dt r (s_m s) (s_v s) dom * h in
  mkSt (s_m s) (s_t s) (s_p s) (s_v s) (s_w s) (s_om s + d) (s_be s) (s_sc s)
       (sync s (omega_offset I (npart s)) [d] (s_inc s)) (s_sync s).
Definition advance_bindE (I : inter) (r : regu) (s : st) (db : list vec) (h : R) : st :=    (* 461-467 *)
  let d := calc_dbindE_dt I r (s_m s) (s_v s) db * h in
  mkSt (s_m s) (s_t s) (s_p s) (s_v s) (s_w s) (s_om s) (s_be s + d) (s_sc s)
       (sync s (bindE_offset I (npart s)) [d] (s_inc s)) (s_sync s).
Definition rdrift (r : regu) (s : st) (h : R) : st :=                (* 252-258 *)
  let (dt, sc) := pos_phy r s h in drift (set_sc s sc) dt.
(** kick_pseu_vel, 470-483. *)
Definition rkick_pseu (I : inter) (r : regu) (vi newt ext : list vec) (s : st) (dt : R) : st :=
  let vd := I_vd I (s_m s) (s_p s) (s_v s) in
  let s1 := kick_aux s (vladd vi vd) dt in
  let s2 := advance_omega I r s1 newt dt in
  if I_ind I then advance_bindE I r s2 (vladd ext vd) dt else advance_bindE I r s2 vd dt.
Definition rkick (I : inter) (r : regu) (s0 : st) (h : R) : st :=    (* 261-283 *)
  let (dt, sc) := vel_phy r s0 h in
  let s := set_sc s0 sc in
  let half := 0.5 * dt in
  let newt := I_newt I (s_m s) (s_p s) in                            (* eval_vel_indep_acc, 418-427 *)
  let ext := I_vi I (s_m s) (s_p s) in
  let vi := if I_ind I then vladd ext newt else newt in
  if I_dep I then
    let s1 := kick_real_vel I vi s half in                           (* kick_real_vel, 486-494: as in SimpleSystem *)
    let s2 := rkick_pseu I r vi newt ext s1 dt in
    kick_real_vel I vi s2 half
  else
    let s1 := advance_omega I r s newt half in
    let s2 := if I_ind I then advance_bindE I r s1 ext half else s1 in
    let s3 := kick_vel s2 vi dt in
    let s4 := if I_ind I then advance_bindE I r s3 ext half else s3 in
    advance_omega I r s4 newt half.
Definition rwrite (I : inter) (s : st) : list R := write I s ++ [s_om s; s_be s].     (* 294-307 *)
(** 344-364; the auxiliary range ends at y.end(), i.e. includes omega and bindE. *)
Definition rread (I : inter) (s : st) (y : list R) : outcome st :=
  let n := npart s in
  if (length y =? variable_number I 3 n)%nat then
    obind (aget y time_offset) (fun t =>
    obind (aget y (omega_offset I n)) (fun om =>
    obind (aget y (bindE_offset I n)) (fun be =>
    Ok (mkSt (s_m s) t (load_coords y pos_offset (vel_offset n)) (load_coords y (vel_offset n) (aux_offset n))
             (if I_dep I then load_coords y (aux_offset n) (length y) else s_w s)
             om be (s_sc s) (s_inc s) (s_sync s)))))
  else Abort.
(** evaluate_general_derivative, 311-340.  With extra forces accels_.acc() holds Newtonian + extra;
    without, calc_dbindE_dt ignores it. *)
Definition rderivative (I : inter) (r : regu) (s : st) : list R :=
  let pr := fst (pos_phy r s 1) in
  let vr := fst (vel_phy r s 1) in
  let newt := I_newt I (s_m s) (s_p s) in
  let acc := if I_ind I || I_dep I then vladd (eval_extra I (s_m s) (s_p s) (s_v s)) newt else newt in
  pr :: scaled (s_v s) pr ++ scaled acc vr ++ (if I_dep I then scaled acc vr else []) ++
  [calc_domega_dt r (s_m s) (s_v s) newt * vr; calc_dbindE_dt I r (s_m s) (s_v s) acc * vr].
(** Constructor: Regularization(particles), 499-506 (without regularisation scale_ keeps its initial value 1, 79), and aux_vel_ = vel, regu-system.hpp:222-232.
    [inc0] is the value-initialised increment array. *)
Definition rnew (I : inter) (r : regu) (m : list R) (t : R) (p v : list vec) : st :=
  let s := sys_of m p v in
  let om := - potential_energy s in
  mkSt m t p v v om (- total_energy s) (match r with NoReg => 1 | _ => om end)
       (repeat 0 (variable_number I 3 (length m))) false.

(** * Chain systems: the same state plus chain coordinates and index *)
(** Data members chain-system.hpp:139-150, archain.hpp:162-182. *)
Record cst := mkCst { c_st : st; c_cp : list vec; c_cv : list vec; c_cw : list vec; c_idx : list nat }.
(** Interactions evaluated on a chain system (they read chain coordinates too). *)
(** Interactions evaluated on a system with chain_pos/chain_vel/index (chain-system.hpp:202, 311-331). *)
Record cinter := mkCI { C_newt : list R -> list vec -> list vec -> list nat -> outcome (list vec);
                        C_vi : list R -> list vec -> list vec -> list nat -> outcome (list vec);
                        C_vd : list R -> list vec -> list vec -> list vec -> list vec -> list nat -> outcome (list vec) }.
(** Scratch array chain_acc_ of chain-system.hpp:203. *)
Definition blank (n : nat) : list vec := repeat vzero n.     (* a scratch array: its contents are overwritten *)
(** Chain::calc_chain(acc, chain_acc_, index()). *)
(** chain-system.hpp:203, 322, 336. *)
Definition chain_of (n : nat) (idx : list nat) (a : list vec) : outcome (list vec) := to_chain a (blank n) idx.
(** chain_advance, chain-system.hpp:301-307. *)
Definition chain_advance (idx : list nat) (var cvar cinc : list vec) (h : R) : outcome (list vec * list vec) :=
  let cvar' := advance cvar cinc h in
  obind (to_cartesian cvar' var idx) (fun var' => Ok (var', cvar')).
(** Assignment to pos and time at chain-system.hpp:184-189. *)
Definition set_pos (s : st) (t : R) (p : list vec) (inc : list R) : st :=
  mkSt (s_m s) t p (s_v s) (s_w s) (s_om s) (s_be s) (s_sc s) inc (s_sync s).
(** Assignment to vel at chain-system.hpp:192-207. *)
Definition set_vel (s : st) (v : list vec) (inc : list R) : st :=
  mkSt (s_m s) (s_t s) (s_p s) v (s_w s) (s_om s) (s_be s) (s_sc s) inc (s_sync s).
(** Assignment to aux_vel_ at chain-system.hpp:318-325. *)
Definition set_aux (s : st) (w : list vec) (inc : list R) : st :=
  mkSt (s_m s) (s_t s) (s_p s) (s_v s) w (s_om s) (s_be s) (s_sc s) inc (s_sync s).

(** ChainSystem::drift, chain-system.hpp:184-189. *)
Definition cdrift (c : cst) (h : R) : outcome cst :=
  let s := c_st c in
  obind (chain_advance (c_idx c) (s_p s) (c_cp c) (c_cv c) h) (fun '(p', cp') =>
  Ok (mkCst (set_pos s (s_t s + h) p' (sync s pos_offset (scaled (c_cv c) h) (sync s time_offset [h] (s_inc s))))
            cp' (c_cv c) (c_cw c) (c_idx c))).
(** chain_advance(vel, chain_vel, chain_acc) + sync_vel_increment. *)
(** chain-system.hpp:203-205. *)
Definition ckick_vel (c : cst) (a : list vec) (h : R) : outcome cst :=
  let s := c_st c in
  obind (chain_of (npart s) (c_idx c) a) (fun ca =>
  obind (chain_advance (c_idx c) (s_v s) (c_cv c) ca h) (fun '(v', cv') =>
  Ok (mkCst (set_vel s v' (sync s (vel_offset (npart s)) (scaled ca h) (s_inc s))) (c_cp c) cv' (c_cw c) (c_idx c)))).
(** chain-system.hpp:322-324. *)
Definition ckick_aux (c : cst) (a : list vec) (h : R) : outcome cst :=
  let s := c_st c in
  obind (chain_of (npart s) (c_idx c) a) (fun ca =>
  obind (chain_advance (c_idx c) (s_w s) (c_cw c) ca h) (fun '(w', cw') =>
  Ok (mkCst (set_aux s w' (sync s (aux_offset (npart s)) (scaled ca h) (s_inc s))) (c_cp c) (c_cv c) cw' (c_idx c)))).
(** Evaluation with swapped (auxiliary) velocities, and with the real ones. *)
(** chain-system.hpp:329-333. *)
Definition c_dep_aux (CI : cinter) (c : cst) : outcome (list vec) :=
  C_vd CI (s_m (c_st c)) (s_p (c_st c)) (s_w (c_st c)) (c_cp c) (c_cw c) (c_idx c).
(** chain-system.hpp:320. *)
Definition c_dep_real (CI : cinter) (c : cst) : outcome (list vec) :=
  C_vd CI (s_m (c_st c)) (s_p (c_st c)) (s_v (c_st c)) (c_cp c) (c_cv c) (c_idx c).
Definition ckick_real_vel (CI : cinter) (vi : list vec) (c : cst) (h : R) : outcome cst :=    (* chain-system.hpp:327-340 *)
  obind (c_dep_aux CI c) (fun vd => ckick_vel c (vladd vi vd) h).
Definition ckick_pseu_vel (CI : cinter) (vi : list vec) (c : cst) (h : R) : outcome cst :=    (* chain-system.hpp:318-325 *)
  obind (c_dep_real CI c) (fun vd => ckick_aux c (vladd vi vd) h).
(** eval_vel_indep_acc, chain-system.hpp:309-316. *)
Definition c_newt (CI : cinter) (c : cst) : outcome (list vec) :=
  C_newt CI (s_m (c_st c)) (s_p (c_st c)) (c_cp c) (c_idx c).
(** chain-system.hpp:313. *)
Definition c_ext (CI : cinter) (c : cst) : outcome (list vec) :=
  C_vi CI (s_m (c_st c)) (s_p (c_st c)) (c_cp c) (c_idx c).
(** chain-system.hpp:309-316. *)
Definition c_tot_vi (I : inter) (CI : cinter) (c : cst) : outcome (list vec) :=
  if I_ind I then obind (c_newt CI c) (fun a => obind (c_ext CI c) (fun b => Ok (vladd a b))) else c_newt CI c.
(** ChainSystem::kick, 192-207; without velocity-dependent forces eval_acc is Newtonian + extra. *)
Definition ckick (I : inter) (CI : cinter) (c : cst) (h : R) : outcome cst :=
  obind (c_tot_vi I CI c) (fun vi =>
  if I_dep I then
    let half := 0.5 * h in
    obind (ckick_real_vel CI vi c half) (fun c1 =>
    obind (ckick_pseu_vel CI vi c1 h) (fun c2 => ckick_real_vel CI vi c2 half))
  else ckick_vel c vi h).

(** post_iter_process, 218-227; [new_idx] is the index calc_chain_index returned for the current
    positions (C15/C16). *)
Definition post_iter (new_idx : list nat) (c : cst) : outcome cst :=
  let s := c_st c in
  if list_eq_dec Nat.eq_dec new_idx (c_idx c) then Ok c
  else
    obind (update_chain (c_cp c) (s_p s) (c_idx c) new_idx) (fun cp' =>
    obind (to_cartesian cp' (s_p s) new_idx) (fun p' =>
    obind (update_chain (c_cv c) (s_v s) (c_idx c) new_idx) (fun cv' =>
    obind (to_cartesian cv' (s_v s) new_idx) (fun v' =>
    Ok (mkCst (mkSt (s_m s) (s_t s) p' v' (s_w s) (s_om s) (s_be s) (s_sc s) (s_inc s) (s_sync s))
              cp' cv' (c_cw c) new_idx))))).
Definition cpre_iter (I : inter) (c : cst) : cst :=                  (* 210-215 *)
  if I_dep I then mkCst (pre_iter I (c_st c)) (c_cp c) (c_cv c) (c_cv c) (c_idx c) else c.
Definition cwrite (I : inter) (c : cst) : list R :=                  (* 231-241 *)
  s_t (c_st c) :: coords (c_cp c) ++ coords (c_cv c) ++ (if I_dep I then coords (c_cw c) else []).
Definition arwrite (I : inter) (c : cst) : list R :=                 (* archain.hpp:277-292 *)
  cwrite I c ++ [s_om (c_st c); s_be (c_st c)].
(** read_from_scalar_array, chain-system.hpp:259-283 ([extra] = 1) and archain.hpp:374-402
    ([extra] = 3, also omega and bindE). *)
Definition cread_gen (I : inter) (extra : nat) (c : cst) (y : list R) : outcome cst :=
  let s := c_st c in let n := npart s in
  if (length y =? variable_number I extra n)%nat then
    obind (aget y time_offset) (fun t =>
    let cp := load_coords y pos_offset (vel_offset n) in
    let cv := load_coords y (vel_offset n) (aux_offset n) in
    obind (to_cartesian cp (s_p s) (c_idx c)) (fun p' =>
    obind (to_cartesian cv (s_v s) (c_idx c)) (fun v' =>
    obind (if I_dep I then
             let cw := load_coords y (aux_offset n) (length y) in
             obind (to_cartesian cw (s_w s) (c_idx c)) (fun w' => Ok (cw, w'))
           else Ok (c_cw c, s_w s)) (fun '(cw, w') =>
    obind (if (extra =? 3)%nat then
             obind (aget y (omega_offset I n)) (fun om => obind (aget y (bindE_offset I n)) (fun be => Ok (om, be)))
           else Ok (s_om s, s_be s)) (fun '(om, be) =>
    Ok (mkCst (mkSt (s_m s) t p' v' w' om be (s_sc s) (s_inc s) (s_sync s)) cp cv cw (c_idx c)))))))
  else Abort.
(** chain-system.hpp:259-283. *)
Definition cread (I : inter) := cread_gen I 1.
(** archain.hpp:374-402. *)
Definition arread (I : inter) := cread_gen I 3.

(** * ARchainSystem, archain.hpp: regularised chain system *)
(** The chain data seen by the force terms and by the potential energy. *)
(** The accessors index/chain_pos/chain_vel of chain-system.hpp:60-75 read by the force terms. *)
Definition chn_of (cp cv : list vec) (idx : list nat) : chn :=
  mkCh (fun i => nth i idx 0%nat) (fun i => nth i cp vzero) (fun i => nth i cv vzero).
(** calc::calc_potential_energy on a chain system, called at regu-system.hpp:529; see Force_Model. *)
Definition c_pot (c : cst) : outcome R :=
  chain_potential_energy (sys_of (s_m (c_st c)) (s_p (c_st c)) (s_v (c_st c))) (chn_of (c_cp c) (c_cv c) (c_idx c)).
(** regu-system.hpp:524-538 on an ARchainSystem. *)
Definition cvel_phy (r : regu) (c : cst) (h : R) : outcome (R * R) :=
  match r with
  | NoReg => Ok (h, s_sc (c_st c))
  | _ => obind (c_pot c) (fun u => Ok (h / - u, - u))
  end.
(** Helper: replaces the Cartesian part of the state (archain.hpp:220-254). *)
Definition cset_st (c : cst) (s : st) : cst := mkCst s (c_cp c) (c_cv c) (c_cw c) (c_idx c).
Definition ardrift (r : regu) (c : cst) (h : R) : outcome cst :=     (* 220-226 *)
  let (dt, sc) := pos_phy r (c_st c) h in cdrift (cset_st c (set_sc (c_st c) sc)) dt.
(** archain.hpp:461-468. *)
Definition c_omega (I : inter) (r : regu) (c : cst) (a : list vec) (h : R) : cst :=
  cset_st c (advance_omega I r (c_st c) a h).
(** archain.hpp:470-477. *)
Definition c_bindE (I : inter) (r : regu) (c : cst) (a : list vec) (h : R) : cst :=
  cset_st c (advance_bindE I r (c_st c) a h).
(** kick_pseu_vel, archain.hpp:479-494. *)
Definition arkick_pseu (I : inter) (CI : cinter) (r : regu) (vi newt ext : list vec) (c : cst) (dt : R) : outcome cst :=
  obind (c_dep_real CI c) (fun vd =>
  obind (ckick_aux c (vladd vi vd) dt) (fun c1 =>
  let c2 := c_omega I r c1 newt dt in
  Ok (if I_ind I then c_bindE I r c2 (vladd ext vd) dt else c_bindE I r c2 vd dt))).
Definition arkick (I : inter) (CI : cinter) (r : regu) (c0 : cst) (h : R) : outcome cst :=    (* 229-254 *)
  obind (cvel_phy r c0 h) (fun '(dt, sc) =>
  let c := cset_st c0 (set_sc (c_st c0) sc) in
  let half := 0.5 * dt in
  obind (c_newt CI c) (fun newt =>
  obind (if I_ind I then c_ext CI c else Ok []) (fun ext =>
  let vi := if I_ind I then vladd ext newt else newt in
  if I_dep I then
    obind (ckick_real_vel CI vi c half) (fun c1 =>
    obind (arkick_pseu I CI r vi newt ext c1 dt) (fun c2 => ckick_real_vel CI vi c2 half))
  else
    let c1 := c_omega I r c newt half in
    let c2 := if I_ind I then c_bindE I r c1 ext half else c1 in
    obind (ckick_vel c2 vi dt) (fun c3 =>
    let c4 := if I_ind I then c_bindE I r c3 ext half else c3 in
    Ok (c_omega I r c4 newt half))))).

(** Newtonian forces evaluated along the chain (Force_Model.chain_calls). *)
(** interaction/newtonian.hpp on a chain system, called at archain.hpp:431. *)
Definition chain_newton (m : list R) (p cp : list vec) (idx : list nat) : outcome (list vec) :=
  let s := sys_of m p [] in
  obind (chain_calls s (chn_of cp [] idx)) (fun l =>
  Ok (tolist (length m) (add_acc (newton_pair (sm s)) l (fun _ => vzero)))).
(** The flags of Interactions<NewtonianGrav> on a chain system (archain.hpp:430-438). *)
Definition chain_newton_only : cinter := mkCI chain_newton (fun _ p _ _ => Ok p) (fun _ p _ _ _ _ => Ok p).

(** * Symplectic integrators, symplectic-integrator.hpp:200-363: sequences of system.drift(c*h) and
    system.kick(c*h). *)
Inductive op := D (c : R) | K (c : R).
Definition leapfrog_dkd : list op := [D 0.5; K 1; D 0.5].            (* 200-204 *)
Definition leapfrog_kdk : list op := [K 0.5; D 1; K 0.5].            (* 208-212 *)
Definition symplectic4 : list op :=                                  (* 219-227 *)
  [D 6.7560359597983000E-1; K 1.3512071919596600E0; D (-1.7560359597983000E-1); K (-1.7024143839193200E0);
   D (-1.7560359597983000E-1); K 1.3512071919596600E0; D 6.7560359597983000E-1].
Definition symplectic6 : list op :=   (* 234-251 *)
  [D 3.9225680523877998E-1; K 7.8451361047755996E-1; D 5.1004341191845848E-1; K 2.3557321335935699E-1;
   D (-4.7105338540975655E-1); K (-1.1776799841788701E0); D 6.8753168252518093E-2; K 1.3151863206839063E0;
   D 6.8753168252518093E-2; K (-1.1776799841788701E0); D (-4.7105338540975655E-1); K 2.3557321335935699E-1;
   D 5.1004341191845848E-1; K 7.8451361047755996E-1; D 3.9225680523877998E-1].
Definition symplectic8 : list op :=   (* 258-291 *)
  [D 5.21213104349955048E-1; K 1.04242620869991010E0; D 1.43131625920352512E0; K 1.82020630970713992E0;
   D 9.88973118915378424E-1; K 1.57739928123617007E-1; D 1.29888362714548355E0; K 2.44002732616735019E0;
   D 1.21642871598513458E0; K (-7.16989419708119989E-3); D (-1.22708085895116059E0); K (-2.44699182370524015E0);
   D (-2.03140778260310517E0); K (-1.61582374150096997E0); D (-1.69832618404521085E0); K (-1.78082862658945151E0);
   D (-1.69832618404521085E0); K (-1.61582374150096997E0); D (-2.03140778260310517E0); K (-2.44699182370524015E0);
   D (-1.22708085895116059E0); K (-7.16989419708119989E-3); D 1.21642871598513458E0; K 2.44002732616735019E0;
   D 1.29888362714548355E0; K 1.57739928123617007E-1; D 9.88973118915378424E-1; K 1.82020630970713992E0;
   D 1.43131625920352512E0; K 1.04242620869991010E0; D 5.21213104349955048E-1].
Definition symplectic10 : list op :=   (* 298-363 *)
  [D 3.0610967201933609e-01; K 6.1221934403867218e-01; D (-9.4012698954724694e-02); K (-8.0024474194812156e-01);
   D (-6.6002635995076209e-01); K (-5.1980797795340250e-01); D (-1.5240397828727220e-01); K 2.1500002137885812e-01;
   D (-1.1750569210727700e-01); K (-4.5001140559341213e-01); D 2.2250778443570857e-01; K 8.9502697446482926e-01;
   D 5.1288848042847668e-01; K 1.3074998639212410e-01; D 3.3095796002497074e-01; K 5.3116593365781739e-01;
   D (-6.0050191119721985e-02); K (-6.5126631589726136e-01); D (-7.6956706144236287e-01); K (-8.8786780698746448e-01);
   D (-7.6872229417056015e-02); K 7.3412334815335245e-01; D 4.2477286784491525e-01; K 1.1542238753647800e-01;
   D 4.3160892192959932e-01; K 7.4779545632272060e-01; D 5.5434862753225678e-02; K (-6.3692573081626924e-01);
   D (-1.9288621063874828e-01); K 2.5115330953877268e-01; D 3.3904387248169282e-01; K 4.2693443542461296e-01;
   D 3.3904387248169282e-01; K 2.5115330953877268e-01; D (-1.9288621063874828e-01); K (-6.3692573081626924e-01);
   D 5.5434862753225678e-02; K 7.4779545632272060e-01; D 4.3160892192959932e-01; K 1.1542238753647800e-01;
   D 4.2477286784491525e-01; K 7.3412334815335245e-01; D (-7.6872229417056015e-02); K (-8.8786780698746448e-01);
   D (-7.6956706144236287e-01); K (-6.5126631589726136e-01); D (-6.0050191119721985e-02); K 5.3116593365781739e-01;
   D 3.3095796002497074e-01; K 1.3074998639212410e-01; D 5.1288848042847668e-01; K 8.9502697446482926e-01;
   D 2.2250778443570857e-01; K (-4.5001140559341213e-01); D (-1.1750569210727700e-01); K 2.1500002137885812e-01;
   D (-1.5240397828727220e-01); K (-5.1980797795340250e-01); D (-6.6002635995076209e-01); K (-8.0024474194812156e-01);
   D (-9.4012698954724694e-02); K 6.1221934403867218e-01; D 3.0610967201933609e-01].
Section Run.
  Context {S : Type} (dr ki : S -> R -> S).
  (** One line of symplectic-integrator.hpp:200-363. *)
  Definition run_op (h : R) (s : S) (o : op) : S := match o with D c => dr s (c * h) | K c => ki s (c * h) end.
  (** The function bodies symplectic-integrator.hpp:200-363. *)
  Definition integrate (l : list op) (s : S) (h : R) : S := fold_left (run_op h) l s.
End Run.
Section RunO.
  Context {S : Type} (dr ki : S -> R -> outcome S).
  (** One line of symplectic-integrator.hpp:200-363 on a system whose calls can abort. *)
  Definition orun_op (h : R) (s : outcome S) (o : op) : outcome S :=
    obind s (fun s => match o with D c => dr s (c * h) | K c => ki s (c * h) end).
  (** The function bodies symplectic-integrator.hpp:200-363 on such a system. *)
  Definition ointegrate (l : list op) (s : S) (h : R) : outcome S := fold_left (orun_op h) l (Ok s).
End RunO.
