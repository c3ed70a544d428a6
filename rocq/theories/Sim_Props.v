(** C07-C10: [Simulator::run], for every particle system, integrator, callback and condition. *)
From Verif Require Import Base Sim_Model Sim_Proofs Sim_Proofs2 Sim_Proofs3.
From Coq Require Import Lra.

(** C07.  A returning run (with non-zero initial step scale) has performed, in order: every
    start callback once; [length hs] rounds, each consisting of every operation callback in
    registration order with the step [h] about to be taken, then exactly one integration step
    with that [h]; every operation once more; every stop callback once.  [faithful] says each
    event really executed that callback/step on the recorded state, [linked] that the states
    are threaded through without gaps.  (Evaluations of stop conditions are filtered out here,
    see C08.) *)
Theorem C07_callback_protocol : forall W (sys : system W) args hubble fuel w0 tr w',
  run sys args hubble fuel w0 = Returned tr w' -> step_scale sys w0 <> 0 ->
  linked (set_tols sys (atol args) (rtol args) w0) tr w' /\
  (forall e, In e tr -> faithful sys args e) /\
  exists (hs : list R) (hf : R),
    filter (fun p => negb (is_cond (fst p))) (map (fun e => (ek e, eh e)) tr) =
      calls KStart (length (start_opts args)) (first_step sys args w0) ++
      concat (map (fun h => calls KOp (length (opts args)) h ++ [(KStep, h)]) hs) ++
      calls KOp (length (opts args)) hf ++
      calls KStopOp (length (stop_opts args)) hf.
Proof. exact @run_protocol. Qed.
Print Assumptions C07_callback_protocol.

(** C07.  Which step sizes are used, for operations that leave time and step scale alone: the
    start callbacks see the configured step (or the default one if it is 0); every step taken
    is the previous proposal limited to what is left to the end time ([step_chain]), the
    operations before it see exactly that step, the next proposal is what the integrator
    returned, and the final operations see the last proposal. *)
Theorem C07_step_sequence : forall W (sys : system W) args hubble fuel w0 tr w',
  run sys args hubble fuel w0 = Returned tr w' -> step_scale sys w0 <> 0 ->
  Forall (fun f => forall h w, time sys (f h w) = time sys w /\ step_scale sys (f h w) = step_scale sys w) (opts args) ->
  exists hf,
    step_chain sys args hubble
      (if Req_EM_T (step_size args) 0 then default_step sys w0 else step_size args)
      (filter is_step tr) hf /\
    filter (fun p => negb (is_cond (fst p))) (map (fun e => (ek e, eh e)) tr) =
      calls KStart (length (start_opts args))
        (if Req_EM_T (step_size args) 0 then default_step sys w0 else step_size args) ++
      concat (map (fun e => calls KOp (length (opts args)) (eh e) ++ [(KStep, eh e)])
                  (filter is_step tr)) ++
      calls KOp (length (opts args)) hf ++ calls KStopOp (length (stop_opts args)) hf.
Proof. exact @run_chain. Qed.
Print Assumptions C07_step_sequence.

(** C07.  Zero step scale: nothing at all happens. *)
Theorem C07_zero_step_scale : forall W (sys : system W) args hubble fuel w,
  (stop_cond args <> [] \/ end_set args = true) ->
  step_scale sys w = 0 -> run sys args hubble fuel w = Returned [] w.
Proof. exact @run_zero_scale. Qed.
Print Assumptions C07_zero_step_scale.

(** C07.  The run aborts (before any callback) iff there is neither an end time nor a
    condition. *)
Theorem C07_abort_iff : forall W (sys : system W) args hubble fuel w,
  run sys args hubble fuel w = Aborted <-> (stop_cond args = [] /\ end_set args = false).
Proof. exact @run_aborts. Qed.
Print Assumptions C07_abort_iff.

(** C08.  Full structure of a returning run: in every round the state at its beginning is away
    from the end time ([far]) and all conditions, evaluated in registration order, returned
    false; the loop was left in a state [wf] where either the end time was reached (and no
    condition was evaluated) or some condition, evaluated in order after false ones, returned
    true (and no later one was evaluated). *)
Theorem C08_stop_rule : forall W (sys : system W) args hubble fuel w0 tr w',
  run sys args hubble fuel w0 = Returned tr w' -> step_scale sys w0 <> 0 ->
  (stop_cond args <> [] \/ end_set args = true) /\
  linked (set_tols sys (atol args) (rtol args) w0) tr w' /\
  (forall e, In e tr -> faithful sys args e) /\
  exists tstart rounds wf fin tops tstops hf,
    tr = tstart ++ concat rounds ++ fin ++ tops ++ tstops /\
    map kh tstart = calls KStart (length (start_opts args)) (first_step sys args w0) /\
    Forall (is_round sys args hubble) rounds /\ is_final sys args hubble wf fin /\
    linked (set_tols sys (atol args) (rtol args) w0) (tstart ++ concat rounds) wf /\
    map kh tops = calls KOp (length (opts args)) hf /\
    map kh tstops = calls KStopOp (length (stop_opts args)) hf.
Proof. exact @run_structure. Qed.
Print Assumptions C08_stop_rule.

(** C08.  With operations and conditions that do not modify the system: no step is ever taken
    from a state that has reached the end time within the tolerance ([reached]: relative
    distance; exact equality when the end time is 0), or in which some condition holds. *)
Theorem C08_no_step_when_stopped : forall W (sys : system W) args hubble fuel w0 tr w',
  run sys args hubble fuel w0 = Returned tr w' -> step_scale sys w0 <> 0 ->
  Forall (fun f => forall h w, f h w = w) (opts args) ->
  Forall (fun c => forall h w, snd (c h w) = w) (stop_cond args) ->
  forall e, In e tr -> ek e = KStep ->
   ~ reached (time sys (before e)) (if end_set args then end_time args else hubble) (time_rtol args) /\
   exists hc, forall c, In c (stop_cond args) -> fst (c hc (before e)) = false.
Proof. exact @run_no_step_reached. Qed.
Print Assumptions C08_no_step_when_stopped.

(** C08.  And a run returns only in a state where the end time is reached or some condition
    holds. *)
Theorem C08_returns_only_when_stopped : forall W (sys : system W) args hubble fuel w0 tr w',
  run sys args hubble fuel w0 = Returned tr w' -> step_scale sys w0 <> 0 ->
  Forall (fun f => forall h w, f h w = w) (opts args) ->
  Forall (fun f => forall h w, f h w = w) (stop_opts args) ->
  Forall (fun c => forall h w, snd (c h w) = w) (stop_cond args) ->
  reached (time sys w') (if end_set args then end_time args else hubble) (time_rtol args) \/
  exists h c, In c (stop_cond args) /\ fst (c h w') = true.
Proof. exact @run_why. Qed.
Print Assumptions C08_returns_only_when_stopped.

(** C09.  Constant-step iterator, unit step scale, no stop conditions: for every [n] with
    [end - start <= n h] the run returns after at most [n] steps, within the tolerance of the
    end time; no state in the run lies beyond the end time and every step increases time. *)
Theorem C09_end_time_reached : forall W (sys : system W) args hubble,
  const_step sys args -> forall n w, end_set args = true ->
  end_time args <> 0 -> 0 <= time_rtol args -> 0 < step_size args ->
  time sys w < end_time args -> end_time args - time sys w <= INR n * step_size args ->
  exists tr w', run sys args hubble (S n) w = Returned tr w' /\
    (steps tr <= n)%nat /\
    Rabs (time sys w' - end_time args) <= time_rtol args * Rabs (end_time args) /\
    (forall e, In e tr -> time sys (before e) <= end_time args /\
        time sys (after e) <= end_time args /\
        (ek e = KStep -> time sys (before e) < time sys (after e))).
Proof. exact @run_const. Qed.
Print Assumptions C09_end_time_reached.

(** C09.  Any integrator, with any stop conditions and a positive, possibly varying step scale,
    whose steps of size h advance time by at most h/scale and by at least [dmin] or all of it
    (so rejected and shortened steps are included): the run returns after at most [n] steps
    where [n dmin] covers the interval, never passes the end time, time grows in every step,
    and without stop conditions the end time is reached within the tolerance. *)
Theorem C09_adaptive_end_time : forall W (sys : system W) args hubble dmin,
  adaptive sys args dmin -> forall n w, end_set args = true ->
  end_time args <> 0 -> 0 <= time_rtol args -> 0 < step_size args ->
  dmin <= step_size args / step_scale sys w ->
  time sys w <= end_time args -> end_time args - time sys w <= INR n * dmin ->
  exists tr w', run sys args hubble (S n) w = Returned tr w' /\
    (steps tr <= n)%nat /\ time sys w' <= end_time args /\
    (stop_cond args = [] ->
     Rabs (time sys w' - end_time args) <= time_rtol args * Rabs (end_time args)) /\
    (forall e, In e tr -> time sys (before e) <= end_time args /\
        time sys (after e) <= end_time args /\
        (ek e = KStep -> time sys (before e) < time sys (after e))).
Proof. exact @run_adaptive. Qed.
Print Assumptions C09_adaptive_end_time.

(** C10.  Start at least one step beyond the end: the run never returns. *)
Theorem C10_start_beyond_end_diverges : forall W (sys : system W) args hubble,
  const_step sys args -> forall fuel w, end_set args = true ->
  0 < end_time args -> 0 < step_size args -> end_time args + step_size args <= time sys w ->
  time_rtol args * end_time args < time sys w - end_time args ->
  run sys args hubble fuel w = Running.
Proof. exact @run_diverges. Qed.
Print Assumptions C10_start_beyond_end_diverges.

(** A concrete system (the world is the time itself) meeting all hypotheses. *)
Definition clock : system R :=
  mkSystem R (fun t => t) (fun _ => 1) (fun _ => 1) (fun _ _ t => t) (fun t => t)
           (fun h t => (h, t + h)) (fun t => t).
Definition clock_args (h e : R) : run_args R := mkArgs R h e true 0 0 0 [fun _ t => t] [] [] [].
Example clock_const h e : const_step clock (clock_args h e).
Proof. constructor; simpl; auto; intros; destruct H; subst; auto; contradiction. Qed.
Example C09_case : exists tr w', run clock (clock_args 2 5) 0 4 0 = Returned tr w' /\ (steps tr <= 3)%nat.
Proof.
  destruct (run_const clock (clock_args 2 5) 0 (clock_const 2 5) 3 0) as (tr & w' & A & B & _);
    simpl; auto; try lra. exists tr, w'; auto.
Qed.
Example C10_case : forall fuel, run clock (clock_args 2 5) 0 fuel 8 = Running.
Proof. intros fuel. apply run_diverges; simpl; try lra; auto. apply clock_const. Qed.
(** An integrator that proposes growing steps but shortens them to 1, with step scale 2 and a
    stop condition, is [adaptive]. *)
Definition grower : system R :=
  mkSystem R (fun t => t) (fun _ => 2) (fun _ => 1) (fun _ _ t => t) (fun t => t)
           (fun h t => (Rmax (2 * h) 2, t + Rmin (h / 2) 1)) (fun t => t).
Definition grower_args : run_args R :=
  mkArgs R 2 5 true 0 0 0 [fun _ t => t] [] [] [fun _ t => (if Rlt_dec 4 t then true else false, t)].
Example grower_adaptive : adaptive grower grower_args 1.
Proof.
  assert (K : forall f : R -> R -> R, In f [fun _ t => t] ->
     forall h w, f h w = w /\ 2 = 2) by (intros f [<-|[]]; auto).
  constructor; simpl.
  - lra.
  - intros h w Hh. unfold advance; simpl.
    unfold Rmin, Rmax; destruct (Rle_dec 1 (h / 2)), (Rle_dec (h / 2) 1), (Rle_dec (2 * h) 2); lra.
  - intros; lra.
  - apply Forall_forall. exact K.
  - constructor.
  - constructor.
  - auto.
  - repeat constructor; auto.
Qed.
Example C09_adaptive_case : exists tr w', run grower grower_args 0 6 0 = Returned tr w' /\ w' <= 5.
Proof.
  destruct (run_adaptive grower grower_args 0 1 grower_adaptive 5 0) as (tr & w' & A & B & C & _);
    simpl in *; auto; try lra. exists tr, w'; auto.
Qed.
(** A run that ends through a stop condition after one step. *)
Definition cond_args : run_args R :=
  mkArgs R 2 0 false 0 0 0 [fun _ t => t] [] [] [fun _ t => (if Rlt_dec 1 t then true else false, t)].
Example C08_case : exists tr w', run clock cond_args 100 5 0 = Returned tr w' /\ steps tr = 1%nat /\
  step_scale clock 0 <> 0.
Proof.
  unfold run, cond_args; simpl.
  destruct (Req_EM_T 1 0); [lra|].
  unfold first_step; simpl. destruct (Req_EM_T 2 0); [lra|].
  unfold the_end; simpl.
  assert (F0 : far 0 100 0 = true).
  { unfold far. destruct (Req_EM_T 100 0); [lra|]. destruct (Rlt_dec _ _) as [|N]; auto. exfalso; apply N.
    replace ((0 - 100) / 100) with (-1) by lra. rewrite Rabs_left; lra. }
  assert (F2 : far 2 100 0 = true).
  { unfold far. destruct (Req_EM_T 100 0); [lra|]. destruct (Rlt_dec _ _) as [|N]; auto. exfalso; apply N.
    replace ((2 - 100) / 100) with (-0.98) by lra. rewrite Rabs_left; lra. }
  rewrite F0. destruct (Rlt_dec 1 0); [lra|]. simpl.
  unfold chosen, the_end; simpl.
  destruct (Rle_dec (Rabs 2) (Rabs ((100 - 0) * 1))) as [_|N].
  2:{ exfalso; apply N. rewrite !Rabs_pos_eq; lra. }
  replace (0 + 2) with 2 by lra. rewrite F2. destruct (Rlt_dec 1 2); [|lra].
  eexists _, _. split; [reflexivity|]. split; [reflexivity|lra].
Qed.
