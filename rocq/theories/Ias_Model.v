(** Model of IAS15::calc_step_error (/repo/src/ode-iterator/IAS15.hpp:134-186) and of IAS15 with its own error
    checker and controller on the four particle systems (/repo/src/spaceHub.hpp:172). *)
From Verif Require Export Radau_Model Build_Model.
Open Scope R_scope.

(** What calc_step_error reads of the system: number(), whether it has a static member regu_type, ext_vel_dep,
    step_scale(), and pos(i), vel(i) or (chain systems) chain_pos(i), chain_vel(i): IAS15.hpp:141-160. *)
Record view := mkView { w_n : nat; w_regu : bool; w_dep : bool; w_scale : R; w_pos : list vec; w_vel : list vec }.
(** IAS15.hpp:158, 160: norm2(pos) * 1e-12 > norm2(vel) * dt2. *)
Definition slow_varying (dt : ext) (p v : vec) : bool := egt (Fin (norm2 p * 1e-12)) (emul (Fin (norm2 v)) (emul dt dt)).
(** IAS15.hpp:163: three chained assignments. *)
Definition mask3 (off i : nat) (mask : list bool) : outcome (list bool) :=
  obind (aset mask (off + 3 * i + 2) true) (fun m => obind (aset m (off + 3 * i + 1) true) (fun m => aset m (off + 3 * i) true)).
(** The body of the loop IAS15.hpp:155-170. *)
Definition mask_one (w : view) (dt : ext) (i : nat) (mask : list bool) : outcome (list bool) :=
  obind (aget (w_pos w) i) (fun p => obind (aget (w_vel w) i) (fun v =>
  if slow_varying dt p v then
    obind (mask3 pos_offset i mask) (fun m1 => obind (mask3 (vel_offset (w_n w)) i m1) (fun m2 =>
    if w_dep w then mask3 (aux_offset (w_n w)) i m2 else Ok m2))
  else Ok mask)).
(** IAS15.hpp:150-170. *)
Definition make_mask (w : view) (dt : ext) (size : nat) : outcome (list bool) :=
  obind (if w_regu w then Ok (repeat false size) else aset (repeat false size) 0 true) (for_up 0 (w_n w) (mask_one w dt)).
(** IAS15.hpp:172-178: max_diff and max_scale. *)
Definition max_loop (mask : list bool) (dyh b6 : list R) : outcome (R * R) :=
  for_up 0 (length dyh) (fun i '(md, ms) =>
    obind (aget mask i) (fun b => if b : bool then Ok (md, ms) else
    obind (aget b6 i) (fun d => obind (aget dyh i) (fun y => Ok (Rmax md (Rabs d), Rmax ms (Rabs y)))))) (0, 0).
(** calc_step_error, IAS15.hpp:134-186. *)
Definition step_error (w : view) (dyh b6 : list R) (h : R) : outcome R :=
  let dt := ediv (Fin h) (Fin (w_scale w)) in
  obind (make_mask w dt (length dyh)) (fun mask => obind (max_loop mask dyh b6) (fun '(md, ms) =>
  Ok (if Req_EM_T ms 0 then 0 else md / (ms * 5e-10)))).

(** SimpleSystem as calc_step_error sees it, base-system.hpp:62, 127-133. *)
Definition view_simple (I : inter) (s : st) : view := mkView (npart s) false (I_dep I) 1 (s_p s) (s_v s).
(** RegularizedSystem, regu-system.hpp:119, 128, 156-162. *)
Definition view_regu (I : inter) (s : st) : view := mkView (npart s) true (I_dep I) (s_sc s) (s_p s) (s_v s).
(** ChainSystem, chain-system.hpp:72, 100-106. *)
Definition view_chain (I : inter) (c : cst) : view := mkView (npart (c_st c)) false (I_dep I) 1 (c_cp c) (c_cv c).
(** ARchainSystem, archain.hpp:56, 77, 105-111. *)
Definition view_archain (I : inter) (c : cst) : view := mkView (npart (c_st c)) true (I_dep I) (s_sc (c_st c)) (c_cp c) (c_cv c).

(** Interactions::eval_acc on a chain system, called at chain-system.hpp:249. *)
Definition c_total (I : inter) (CI : cinter) (c : cst) : outcome (list vec) :=
  obind (c_tot_vi I CI c) (fun vi => if I_dep I then obind (c_dep_real CI c) (fun vd => Ok (vladd vi vd)) else Ok vi).
(** ChainSystem::evaluate_general_derivative, chain-system.hpp:244-256. *)
Definition chain_deriv (I : inter) (CI : cinter) (c : cst) : outcome (list R * cst) :=
  obind (c_total I CI c) (fun a => obind (chain_of (npart (c_st c)) (c_idx c) a) (fun ca =>
  Ok (1 :: coords (c_cv c) ++ coords ca ++ (if I_dep I then coords ca else []), c))).
(** Interactions::eval_extra_acc on a chain system, called at archain.hpp:307. *)
Definition c_extra (I : inter) (CI : cinter) (c : cst) : outcome (list vec) :=
  match I_dep I, I_ind I with
  | true, true => obind (c_dep_real CI c) (fun vd => obind (c_ext CI c) (fun vi => Ok (vladd vd vi)))
  | true, false => c_dep_real CI c
  | false, _ => c_ext CI c
  end.
(** ARchainSystem::evaluate_general_derivative, archain.hpp:295-327; scale_ is overwritten as in regu-system.hpp:509-538. *)
Definition archain_deriv (I : inter) (CI : cinter) (r : regu) (c : cst) : outcome (list R * cst) :=
  let s := c_st c in
  let pr := fst (pos_phy r s 1) in
  obind (cvel_phy r c 1) (fun '(vr, sc) =>
  obind (c_newt CI c) (fun newt =>
  obind (if I_ind I || I_dep I then obind (c_extra I CI c) (fun x => Ok (vladd x newt)) else Ok newt) (fun acc =>
  obind (chain_of (npart s) (c_idx c) acc) (fun ca =>
  Ok (pr :: scaled (c_cv c) pr ++ scaled ca vr ++ (if I_dep I then scaled ca vr else []) ++
      [calc_domega_dt r (s_m s) (s_v s) newt * vr; calc_dbindE_dt I r (s_m s) (s_v s) acc * vr],
      cset_st c (set_sc s sc)))))).

(** PC_err_checker_ = MaxRatioError with atol 0 and rtol 1e-16, IAS15.hpp:81-82, 123. *)
Definition ias_pcerr : list R -> list R -> ext := mr_error2 Rabs 0 1e-16.
(** step_ctrl_.next((15 - 1) / 2, error), IAS15.hpp:96; the value is finite for every error calc_step_error can return. *)
Definition ias_ratio (e : R) : R := match next ias_ctrl 7 (Err1 (Fin e)) with Ok (Fin r) => r | _ => 1 end.
(** step_ctrl_.limiter(ratio), IAS15.hpp:100. *)
Definition ias_lim (r : R) : R := match limiter ias_ctrl 0 (Fin r) with Ok (Fin x) => x | _ => 0 end.
(** step_ctrl_.limiter_min(), IAS15.hpp:98. *)
Definition ias_lmin : R := nth 0 (c_min ias_ctrl) 0.
(** simulator.hpp:430-434 with IAS15 (IAS15.hpp:86-115) on a SimpleSystem. *)
Definition ias_simple (I : inter) (fuel : nat) (A : ias) (s : st) (h : R) : option (outcome (ias * st * R)) :=
  ias_iterate (write I) (read I) (simple_deriv I) ias_pcerr (fun dyh b6 s h => step_error (view_simple I s) dyh b6 h) ias_ratio ias_lim ias_lmin fuel A (pre_iter I s) h.
(** simulator.hpp:430-434 with IAS15 (IAS15.hpp:86-115) on a RegularizedSystem. *)
Definition ias_regu (I : inter) (r : regu) (fuel : nat) (A : ias) (s : st) (h : R) : option (outcome (ias * st * R)) :=
  ias_iterate (rwrite I) (rread I) (regu_deriv I r) ias_pcerr (fun dyh b6 s h => step_error (view_regu I s) dyh b6 h) ias_ratio ias_lim ias_lmin fuel A (pre_iter I s) h.
(** simulator.hpp:430-432 with IAS15 (IAS15.hpp:86-115) on a ChainSystem; the re-indexing of line 433 is [reindex]. *)
Definition ias_chain (I : inter) (CI : cinter) (fuel : nat) (A : ias) (c : cst) (h : R) : option (outcome (ias * cst * R)) :=
  ias_iterate (cwrite I) (cread I) (chain_deriv I CI) ias_pcerr (fun dyh b6 c h => step_error (view_chain I c) dyh b6 h) ias_ratio ias_lim ias_lmin fuel A (cpre_iter I c) h.
(** simulator.hpp:430-432 with IAS15 (IAS15.hpp:86-115) on an ARchainSystem. *)
Definition ias_archain (I : inter) (CI : cinter) (r : regu) (fuel : nat) (A : ias) (c : cst) (h : R) : option (outcome (ias * cst * R)) :=
  ias_iterate (arwrite I) (arread I) (archain_deriv I CI r) ias_pcerr (fun dyh b6 c h => step_error (view_archain I c) dyh b6 h) ias_ratio ias_lim ias_lmin fuel A (cpre_iter I c) h.

(** * The methods built on Gauss-Radau, spaceHub.hpp:143, 172, 262-356: IAS15 (at most [fuel] corrector passes are looked at), or
    ConstOdeIterator (const-iterator.hpp:50-60), whose integrator member is [i_gr] here, the other two fields being unused. *)
Inductive rmode := Adaptive (fuel : nat) | Constant.
(** particles.iterate of the two iterators: IAS15.hpp:86-115, const-iterator.hpp:52-60 with Gauss-Radau.hpp:347-353. *)
Definition radau_iter {P} (wr : P -> list R) (rd : P -> list R -> outcome P) (deriv : P -> outcome (list R * P)) (vw : P -> view) (md : rmode) (A : ias) (p : P) (h : R) : option (outcome (ias * P * R)) :=
  match md with
  | Adaptive fuel => ias_iterate wr rd deriv ias_pcerr (fun dyh b6 p h => step_error (vw p) dyh b6 h) ias_ratio ias_lim ias_lmin fuel A p h
  | Constant => Some (obind (gr_integrate wr rd deriv (i_gr A) p h) (fun '(G, p') => Ok (mkIas G (i_last A) (i_warm A), p', h)))
  end.
(** Simulator::advance_one_step, simulator.hpp:430-434, on a SimpleSystem. *)
Definition radau_simple (I : inter) (md : rmode) (A : ias) (s : st) (h : R) := radau_iter (write I) (read I) (simple_deriv I) (view_simple I) md A (pre_iter I s) h.
(** simulator.hpp:430-434 on a RegularizedSystem. *)
Definition radau_regu (I : inter) (r : regu) (md : rmode) (A : ias) (s : st) (h : R) := radau_iter (rwrite I) (rread I) (regu_deriv I r) (view_regu I) md A (pre_iter I s) h.
(** simulator.hpp:433 with post_iter_process of chain-system.hpp:218-227, archain.hpp:264-273; a [None] has not returned. *)
Definition radau_then_reindex (x o : option (outcome (ias * cst * R))) : Prop :=
  match x with
  | Some (Ok (A', c1, h1)) => exists o1, reindex c1 o1 /\ o = Some (obind o1 (fun c2 => Ok (A', c2, h1)))
  | Some Abort => o = Some Abort
  | Some UB => o = Some UB
  | None => o = None
  end.
(** simulator.hpp:430-434 on a ChainSystem. *)
Definition radau_chain (I : inter) (CI : cinter) (md : rmode) (A : ias) (c : cst) (h : R) : option (outcome (ias * cst * R)) -> Prop :=
  radau_then_reindex (radau_iter (cwrite I) (cread I) (chain_deriv I CI) (view_chain I) md A (cpre_iter I c) h).
(** simulator.hpp:430-434 on an ARchainSystem. *)
Definition radau_archain (I : inter) (CI : cinter) (r : regu) (md : rmode) (A : ias) (c : cst) (h : R) : option (outcome (ias * cst * R)) -> Prop :=
  radau_then_reindex (radau_iter (arwrite I) (arread I) (archain_deriv I CI r) (view_archain I) md A (cpre_iter I c) h).
