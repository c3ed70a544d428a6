(** Model of the chain systems under the iterators, i.e. of the methods /repo/src/spaceHub.hpp offers
    that are built on ChainSystem and ARchainSystem.  The iterators are those of BS_Model, Ctrl_Model and Radau_Model. *)
From Verif Require Export BS_Model Ctrl_Model Build_Model.
From Verif Require Sim_Model.
Open Scope R_scope.

(** collect_increment, chain-system.hpp:94, archain.hpp:103. *)
Definition ccollect (c : cst) (f : bool) : cst := cset_st c (set_sync (c_st c) f).
(** clear_increment, chain-system.hpp:96, archain.hpp:96. *)
Definition cclear_increment (c : cst) : cst := cset_st c (clear_increment (c_st c)).
(** Bulirsch-Stoer.hpp:326-328 on a system whose drift and kick can abort: clear_increment, integrate_by_n_steps (382-404), increment(). *)
Definition crun (dr ki : cst -> R -> outcome cst) (kdk : bool) (c : cst) (h : R) (n : nat) : outcome (cst * list R) :=
  obind (ointegrate dr ki (nsteps_ops kdk n) (cclear_increment c) (h / INR n)) (fun c' => Ok (c', s_inc (c_st c'))).
(** Bulirsch-Stoer.hpp:326-328 on a ChainSystem (chain-system.hpp:184-207). *)
Definition chain_run (I : inter) (CI : cinter) := crun cdrift (ckick I CI).
(** Bulirsch-Stoer.hpp:326-328 on an ARchainSystem (archain.hpp:220-254). *)
Definition archain_run (I : inter) (CI : cinter) (r : regu) := crun (ardrift r) (arkick I CI r).

(** Simulator::advance_one_step, simulator.hpp:430-434, with a Bulirsch-Stoer iterator on a SimpleSystem (base-system.hpp:254-258; post_iter_process is empty). *)
Definition bs_simple (I : inter) (tries M : nat) (kdk : bool) err next lim (b : bs) (s : st) (h : R) : outcome (bs * st * R) :=
  iterate tries M kdk st (write I) (read I) set_sync (simple_run I kdk) err next lim b (pre_iter I s) h.
(** simulator.hpp:430-434 on a RegularizedSystem (regu-system.hpp:286-290, 139). *)
Definition bs_regu (I : inter) (r : regu) (tries M : nat) (kdk : bool) err next lim (b : bs) (s : st) (h : R) : outcome (bs * st * R) :=
  iterate tries M kdk st (rwrite I) (rread I) set_sync (regu_run I r kdk) err next lim b (pre_iter I s) h.
(** simulator.hpp:433 with post_iter_process of chain-system.hpp:218-227, archain.hpp:264-273 after the iterator returned [x]. *)
Definition then_reindex (x : outcome (bs * cst * R)) (o : outcome (bs * cst * R)) : Prop :=
  match x with
  | Ok (b', c1, h1) => exists o1, reindex c1 o1 /\ o = obind o1 (fun c2 => Ok (b', c2, h1))
  | Abort => o = Abort
  | UB => o = UB
  end.
(** simulator.hpp:430-434 with a Bulirsch-Stoer iterator on a ChainSystem. *)
Definition bs_chain (I : inter) (CI : cinter) (tries M : nat) (kdk : bool) err next lim (b : bs) (c : cst) (h : R) : outcome (bs * cst * R) -> Prop :=
  then_reindex (iterate tries M kdk cst (cwrite I) (cread I) ccollect (chain_run I CI kdk) err next lim b (cpre_iter I c) h).
(** simulator.hpp:430-434 with a Bulirsch-Stoer iterator on an ARchainSystem. *)
Definition bs_archain (I : inter) (CI : cinter) (r : regu) (tries M : nat) (kdk : bool) err next lim (b : bs) (c : cst) (h : R) : outcome (bs * cst * R) -> Prop :=
  then_reindex (iterate tries M kdk cst (arwrite I) (arread I) ccollect (archain_run I CI r kdk) err next lim b (cpre_iter I c) h).
(** simulator.hpp:430-434 with a SequentOdeIterator (sequent-iterator.hpp:105-160) on a SimpleSystem; [dual0] is what
    dual_steps_output_ holds from an earlier call. *)
Definition seq_simple (I : inter) (l : list op) err nxt (order max_iter : nat) (dual0 : list R) (s : st) (h : R) : outcome (st * ext) :=
  seq_iterate (write I) (read I) (fun s h => Ok (integrate drift (kick I) l s h)) err nxt order max_iter dual0 (pre_iter I s) h.
(** simulator.hpp:430-434 with a SequentOdeIterator on a RegularizedSystem. *)
Definition seq_regu (I : inter) (r : regu) (l : list op) err nxt (order max_iter : nat) (dual0 : list R) (s : st) (h : R) : outcome (st * ext) :=
  seq_iterate (rwrite I) (rread I) (fun s h => Ok (integrate (rdrift r) (rkick I r) l s h)) err nxt order max_iter dual0 (pre_iter I s) h.
(** simulator.hpp:433 with chain-system.hpp:218-227, archain.hpp:264-273. *)
Definition seq_then_reindex (x o : outcome (cst * ext)) : Prop :=
  match x with
  | Ok (c1, e) => exists o1, reindex c1 o1 /\ o = obind o1 (fun c2 => Ok (c2, e))
  | Abort => o = Abort
  | UB => o = UB
  end.
(** simulator.hpp:430-434 with a SequentOdeIterator on a ChainSystem. *)
Definition seq_chain (I : inter) (CI : cinter) (l : list op) err nxt (order max_iter : nat) (dual0 : list R) (c : cst) (h : R) : outcome (cst * ext) -> Prop :=
  seq_then_reindex (seq_iterate (cwrite I) (cread I) (ointegrate cdrift (ckick I CI) l) err nxt order max_iter dual0 (cpre_iter I c) h).
(** simulator.hpp:430-434 with a SequentOdeIterator on an ARchainSystem. *)
Definition seq_archain (I : inter) (CI : cinter) (r : regu) (l : list op) err nxt (order max_iter : nat) (dual0 : list R) (c : cst) (h : R) : outcome (cst * ext) -> Prop :=
  seq_then_reindex (seq_iterate (arwrite I) (arread I) (ointegrate (ardrift r) (arkick I CI r) l) err nxt order max_iter dual0 (cpre_iter I c) h).

(** The simulator (simulator.hpp:297-434) over a concrete particle system [X] and iterator [Y].  The world holds the system and the
    iterator, or the fact that the program has aborted or reached undefined behaviour, and the data [V] of the callbacks.
    [step] is advance_one_step (430-434) as above, [tols] set_atol/set_rtol (399-405). *)
Definition hub_sys {Y X V : Type} (view : X -> st) (scale dflt : X -> R) (tols : R -> R -> Y -> Y) (step : Y -> X -> R -> outcome (Y * X * R))
  : Sim_Model.system (outcome (Y * X) * V) :=
  let on (f : X -> R) (w : outcome (Y * X) * V) := match fst w with Ok (_, x) => f x | _ => 0 end in
  Sim_Model.mkSystem _ (on (fun x => s_t (view x))) (on scale) (on dflt)
    (fun a r w => (obind (fst w) (fun '(y, x) => Ok (tols a r y, x)), snd w)) (fun w => w)
    (fun h w => match fst w with
                | Ok (y, x) => match step y x h with Ok (y', x', h') => (h', (Ok (y', x'), snd w)) | Abort => (0, (Abort, snd w)) | UB => (0, (UB, snd w)) end
                | Abort => (0, (Abort, snd w))
                | UB => (0, (UB, snd w))
                end) (fun w => w).
