(** Model of the constructors of the particle systems and of a whole run of steps:
    /repo/src/particle-system/{base-system,chain-system,regu-system,archain}.hpp and
    Simulator::advance_one_step, /repo/src/simulator.hpp:430-434.
    A particle set is the list of its masses, positions and velocities (the container built from it is
    C47: the same values in the same order).  Without velocity-dependent forces the members aux_vel_ and
    chain_aux_vel_ are of an empty type; the model keeps a value there that nothing reads. *)
From Verif Require Export System_Model.
Open Scope R_scope.

(** A particle as every container constructor reads it, point-particles.hpp:206-219. *)
Record body := mkB { b_m : R; b_p : vec; b_v : vec }.

(** SimpleSystem(time, set), base-system.hpp:189-196; increment_ is value-initialised (zeros).
    SimpleSystem has no omega, binding energy or scale. *)
Definition simple_new (I : inter) (t : R) (set : list body) : st :=
  let m := map b_m set in let p := map b_p set in let v := map b_v set in
  mkSt m t p v v 0 0 1 (repeat 0 (variable_number I 1 (length m))) false.
(** RegularizedSystem(time, set), regu-system.hpp:222-232. *)
Definition regu_new (I : inter) (r : regu) (t : R) (set : list body) : st :=
  rnew I r (map b_m set) t (map b_p set) (map b_v set).

(** Chain::calc_chain_index(pos, index), chain.hpp:164-170, as called at chain-system.hpp:168, 219 and archain.hpp:202, 265:
    any sorted order of the pairs is possible (std::sort leaves ties open); [fuel] only makes the scan a total function. *)
Definition chain_index (pos : list vec) (o : outcome (list nat)) : Prop :=
  exists fuel r, calc_chain_index fuel pos r /\
    match r with Ok (Some i) => o = Ok i | Ok None => False | Abort => o = Abort | UB => o = UB end.

(** ChainSystem(time, set), chain-system.hpp:158-176, once the index is known. *)
Definition chain_build (I : inter) (t : R) (set : list body) (idx : list nat) : outcome cst :=
  let s := simple_new I t set in
  obind (to_chain (s_p s) (blank (npart s)) idx) (fun cp =>
  obind (to_chain (s_v s) (blank (npart s)) idx) (fun cv =>
  Ok (mkCst s cp cv cv idx))).
(** chain-system.hpp:158-176. *)
Definition chain_new (I : inter) (t : R) (set : list body) (o : outcome cst) : Prop :=
  exists i, chain_index (map b_p set) i /\ o = obind i (chain_build I t set).
(** ARchainSystem(time, set), archain.hpp:190-212, once the index is known: the first value of regu_ (194, without chain
    coordinates) is replaced at the end by the one computed along the chain (210-211). *)
Definition archain_build (I : inter) (r : regu) (t : R) (set : list body) (idx : list nat) : outcome cst :=
  let s := regu_new I r t set in
  obind (to_chain (s_p s) (blank (npart s)) idx) (fun cp =>
  obind (to_chain (s_v s) (blank (npart s)) idx) (fun cv =>
  let c := mkCst s cp cv cv idx in
  obind (c_pot c) (fun u =>
  Ok (mkCst (mkSt (s_m s) (s_t s) (s_p s) (s_v s) (s_w s) (- u) (- (u + kin s)) (match r with NoReg => 1 | _ => - u end)
                  (s_inc s) (s_sync s)) cp cv cv idx)))).
(** archain.hpp:190-212. *)
Definition archain_new (I : inter) (r : regu) (t : R) (set : list body) (o : outcome cst) : Prop :=
  exists i, chain_index (map b_p set) i /\ o = obind i (archain_build I r t set).

(** Simulator::advance_one_step, simulator.hpp:430-434, with an iterator that makes one step of a symplectic scheme (const-iterator.hpp:
    iterate returns the same step size) on a SimpleSystem (base-system.hpp:254-258; its post_iter_process is empty). *)
Definition simple_step (I : inter) (l : list op) (s : st) (h : R) : st := integrate drift (kick I) l (pre_iter I s) h.
(** simulator.hpp:430-434 on a RegularizedSystem (regu-system.hpp:286-290, 139). *)
Definition regu_step (I : inter) (r : regu) (l : list op) (s : st) (h : R) : st := integrate (rdrift r) (rkick I r) l (pre_iter I s) h.
(** post_iter_process, chain-system.hpp:218-227, archain.hpp:264-273, with the index computed there. *)
Definition reindex (c : cst) (o : outcome cst) : Prop :=
  exists i, chain_index (s_p (c_st c)) i /\ o = obind i (fun new_idx => post_iter new_idx c).
(** simulator.hpp:430-434 on a ChainSystem. *)
Definition chain_step (I : inter) (CI : cinter) (l : list op) (c : cst) (h : R) (o : outcome cst) : Prop :=
  match ointegrate cdrift (ckick I CI) l (cpre_iter I c) h with Ok c1 => reindex c1 o | Abort => o = Abort | UB => o = UB end.
(** simulator.hpp:430-434 on an ARchainSystem. *)
Definition archain_step (I : inter) (CI : cinter) (r : regu) (l : list op) (c : cst) (h : R) (o : outcome cst) : Prop :=
  match ointegrate (ardrift r) (arkick I CI r) l (cpre_iter I c) h with Ok c1 => reindex c1 o | Abort => o = Abort | UB => o = UB end.
(** The main loop, simulator.hpp:411-425, with the given step sizes: any sequence of outcomes it can produce. *)
Inductive run_steps (step : cst -> R -> outcome cst -> Prop) : outcome cst -> list R -> outcome cst -> Prop :=
| run_nil o : run_steps step o [] o
| run_cons c h hs o o' : step c h o -> run_steps step o hs o' -> run_steps step (Ok c) (h :: hs) o'
| run_abort h hs : run_steps step Abort (h :: hs) Abort
| run_ub h hs : run_steps step UB (h :: hs) UB.
