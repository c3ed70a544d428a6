(** C70: the data of registered callbacks.  Operations, start and stop-point callbacks are called in place and
    remember; stop conditions are copied for every check and forget. *)
From Verif Require Import Base Sim_Model Sim_Proofs Sim_Proofs2 Sim_Proofs3 Own_Model Own_Spec Own_Proofs.
From Coq Require Import Lra.
Open Scope R_scope.

(** For every particle system, integrator, set of registered objects and returning run: whenever the i-th stop
    condition is evaluated, its answer and its effect are those of the object as it was registered (its data is the
    one of registration, however often it was evaluated before), and after the run the stored conditions are
    unchanged. *)
Theorem C70_conditions_forget : forall W (sys : system W) cfg hubble fuel w a tr w',
  own_run sys cfg hubble fuel w a = Returned tr w' -> step_scale sys w <> 0 ->
  k_cond (snd w') = k_cond a /\
  forall e i b, In e tr -> ek e = KCond i b ->
    exists c d, nth_error (k_cond a) i = Some c /\ body c (value c) (eh e) (fst (before e)) = (b, fst (after e), d).
Proof. exact own_conditions. Qed.
Print Assumptions C70_conditions_forget.

(** The i-th operation is called once per integration step and once more at the end; its calls form one history: the
    first finds the object as registered (or as an earlier run with the same arguments left it), each later one as
    the previous call left it, and the last state stays in the run arguments.  The same for start and stop-point
    callbacks. *)
Theorem C70_operations_remember : forall W (sys : system W) cfg hubble fuel w a tr w',
  own_run sys cfg hubble fuel w a = Returned tr w' -> step_scale sys w <> 0 ->
  (forall i c, nth_error (k_opts a) i = Some c ->
     exists c', successive c (only (KOp i) tr) c' /\ nth_error (k_opts (snd w')) i = Some c' /\
                length (only (KOp i) tr) = S (length (only KStep tr))) /\
  (forall i c, nth_error (k_start a) i = Some c ->
     exists c', successive c (only (KStart i) tr) c' /\ nth_error (k_start (snd w')) i = Some c') /\
  (forall i c, nth_error (k_stop a) i = Some c ->
     exists c', successive c (only (KStopOp i) tr) c' /\ nth_error (k_stop (snd w')) i = Some c').
Proof.
  intros W sys cfg hubble fuel w a tr w' H S.
  assert (Q : length (only KStep tr) = steps tr) by (rewrite cnt_only, steps_cnt; reflexivity).
  rewrite Q. exact (own_successive W sys cfg hubble fuel w a tr w' H S).
Qed.
Print Assumptions C70_operations_remember.

(** An operation registered as StepSlice(op, n), n >= 1: in a run of k steps it is called k + 1 times and runs op
    exactly on the calls 0, n, 2n, ... of the run. *)
Theorem C70_step_slice_operation : forall W (sys : system W) cfg hubble fuel w a tr w' i n g,
  own_run sys cfg hubble fuel w a = Returned tr w' -> step_scale sys w <> 0 -> (0 < n)%nat ->
  nth_error (k_opts a) i = Some (step_sliced tt n g) ->
  length (only (KOp i) tr) = S (length (only KStep tr)) /\
  forall j e, nth_error (only (KOp i) tr) j = Some e ->
    fst (after e) = if (j mod n =? 0)%nat then snd (g (eh e) (fst (before e))) else fst (before e).
Proof.
  intros W sys cfg hubble fuel w a tr w' i n g H S Hn N.
  destruct (C70_operations_remember _ _ _ _ _ _ _ _ _ H S) as (O & _). destruct (O i _ N) as (c' & A & _ & B).
  split; auto. intros j e J. destruct (successive_step n g Hn _ 0%nat c' A) as (_ & D). exact (D j e J).
Qed.
Print Assumptions C70_step_slice_operation.

(** An operation registered as a TimeSlice: over the whole run it runs op exactly at the calls at which a single
    TimeSlice object fed with those times fires (C12 describes them). *)
Theorem C70_time_slice_operation : forall W (sys : system W) cfg hubble fuel w a tr w' i s g,
  own_run sys cfg hubble fuel w a = Returned tr w' -> step_scale sys w <> 0 ->
  nth_error (k_opts a) i = Some (time_sliced (time sys) tt s g) ->
  exists fired : list bool, length fired = length (only (KOp i) tr) /\
    map snd (filter (fun p => fst p) (combine fired (map (fun e => time sys (fst (before e))) (only (KOp i) tr)))) =
      fst (ts_calls s (map (fun e => time sys (fst (before e))) (only (KOp i) tr))) /\
    forall j e b, nth_error (only (KOp i) tr) j = Some e -> nth_error fired j = Some b ->
      fst (after e) = if b then snd (g (eh e) (fst (before e))) else fst (before e).
Proof.
  intros W sys cfg hubble fuel w a tr w' i s g H S N.
  destruct (C70_operations_remember _ _ _ _ _ _ _ _ _ H S) as (O & _). destruct (O i _ N) as (c' & A & _).
  exact (successive_time (time sys) g _ s c' A).
Qed.
Print Assumptions C70_time_slice_operation.

(** A stop condition registered as StepSlice(cond, n) is cond itself: every check evaluates it. *)
Theorem C70_step_slice_condition : forall W (sys : system W) cfg hubble fuel w a tr w' i n g,
  own_run sys cfg hubble fuel w a = Returned tr w' -> step_scale sys w <> 0 -> (0 < n)%nat ->
  nth_error (k_cond a) i = Some (step_sliced false n g) ->
  forall e b, In e tr -> ek e = KCond i b -> g (eh e) (fst (before e)) = (b, fst (after e)).
Proof.
  intros W sys cfg hubble fuel w a tr w' i n g H S Hn N e b He K.
  destruct (C70_conditions_forget _ _ _ _ _ _ _ _ _ H S) as (_ & C0). destruct (C0 e i b He K) as (c & d & N2 & B).
  rewrite N in N2. injection N2 as <-. cbn in B. rewrite Nat.mod_0_l in B by lia. cbn in B.
  destruct (g (eh e) (fst (before e))) as [b1 w1]. congruence.
Qed.
Print Assumptions C70_step_slice_condition.

(** A stop condition registered as a TimeSlice is evaluated at every check with start <= time <= end, however often
    it was evaluated before, and answers false outside. *)
Theorem C70_time_slice_condition : forall W (sys : system W) cfg hubble fuel w a tr w' i start stop n g,
  own_run sys cfg hubble fuel w a = Returned tr w' -> step_scale sys w <> 0 ->
  nth_error (k_cond a) i = Some (time_sliced (time sys) false (ts_make start stop n) g) ->
  forall e b, In e tr -> ek e = KCond i b ->
    (start <= time sys (fst (before e)) <= stop -> g (eh e) (fst (before e)) = (b, fst (after e))) /\
    (~ start <= time sys (fst (before e)) <= stop -> b = false /\ fst (after e) = fst (before e)).
Proof.
  intros W sys cfg hubble fuel w a tr w' i start stop n g H S N e b He K.
  destruct (C70_conditions_forget _ _ _ _ _ _ _ _ _ H S) as (_ & C0). destruct (C0 e i b He K) as (c & d & N2 & B).
  rewrite N in N2. injection N2 as <-. cbn in B. unfold ts_call, ts_make in B. cbn in B.
  destruct (Rle_dec start (time sys (fst (before e)))) as [A1|A1].
  - destruct (Rle_dec (time sys (fst (before e))) stop) as [A2|A2].
    + destruct (g (eh e) (fst (before e))) as [b1 w1]. split; [congruence|intros Q; exfalso; apply Q; auto].
    + split; [intros Q; exfalso; apply A2, Q|]. split; congruence.
  - split; [intros Q; exfalso; apply A1, Q|]. split; congruence.
Qed.
Print Assumptions C70_time_slice_condition.

(** Registration: of a sequence of add_operation, add_stop_point_operation, add_start_point_operation and add_stop_condition calls,
    each list holds exactly the objects registered with its function, in the order of the calls; the i-th one is the object the
    theorems above speak about. *)
Inductive registration (W : Type) := ROperation (f : callable W unit) | RStopPoint (f : callable W unit) | RStartPoint (f : callable W unit) | RCondition (f : callable W bool).
Arguments ROperation {W}. Arguments RStopPoint {W}. Arguments RStartPoint {W}. Arguments RCondition {W}.
Definition register {W} (a : stored W) (r : registration W) : stored W :=
  match r with ROperation f => add_operation a f | RStopPoint f => add_stop_point a f | RStartPoint f => add_start_point a f | RCondition f => add_condition a f end.
Theorem C70_registration : forall W (l : list (registration W)),
  let a := fold_left register l no_callbacks in
  k_opts a = flat_map (fun r => match r with ROperation f => [f] | _ => [] end) l /\
  k_stop a = flat_map (fun r => match r with RStopPoint f => [f] | _ => [] end) l /\
  k_start a = flat_map (fun r => match r with RStartPoint f => [f] | _ => [] end) l /\
  k_cond a = flat_map (fun r => match r with RCondition f => [f] | _ => [] end) l.
Proof.
  intros W l. cbv zeta. induction l as [|r l IH] using rev_ind; [repeat split|]. rewrite fold_left_app, !flat_map_app. destruct IH as (A & B & D & E).
  destruct r; cbn [fold_left register add_operation add_stop_point add_start_point add_condition k_opts k_stop k_start k_cond flat_map app]; rewrite A, B, D, E, ?app_nil_r; auto.
Qed.
Print Assumptions C70_registration.
(** The settings: the system gets the absolute and the relative tolerance before the first callback, start callbacks see the
    configured step (or the default one if it is 0), and without conditions and further callbacks the run ends at the configured
    end time within the configured tolerance. *)
Theorem C70_settings : forall W (sys : system W) cfg hubble fuel w a tr w',
  own_run sys cfg hubble fuel w a = Returned tr w' -> step_scale sys w <> 0 ->
  linked (set_tols sys (f_atol cfg) (f_rtol cfg) w, a) tr w' /\
  (forall e i, In e tr -> ek e = KStart i -> eh e = if Req_EM_T (f_step cfg) 0 then default_step sys w else f_step cfg) /\
  (k_cond a = [] -> f_set cfg = true) /\
  (k_cond a = [] -> k_opts a = [] -> k_stop a = [] -> reached (time sys (fst w')) (f_end cfg) (f_ttol cfg)).
Proof.
  intros W sys cfg hubble fuel w a tr w' H S. unfold own_run in H.
  pose proof (run_structure _ _ _ _ _ _ _ H S) as (C & L & F & ts & rounds & wf & fin & tops & tstops & hf & E & K1 & K2 & K3 & K4 & K5 & K6).
  split; [exact L|]. split.
  - intros e i He Ke. assert (X : In (kh e) (filter (fun p => negb (is_cond (fst p))) (map kh tr))).
    { apply filter_In. split; [apply in_map; auto|]. unfold kh. rewrite Ke. reflexivity. }
    destruct (run_protocol _ _ _ _ _ _ _ H S) as (_ & _ & hs & hl & P). fold (@kh (W * stored W)) in P. change (map (fun e => (ek e, eh e)) tr) with (map kh tr) in P. rewrite P in X.
    assert (N : forall mk n h0 (kk : kind) hh, In (kk, hh) (calls mk n h0) -> exists j, kk = mk j /\ hh = h0).
    { clear. intros mk n h0 kk hh. unfold calls. intros X. apply in_map_iff in X. destruct X as (j & X & _). exists j. split; congruence. }
    unfold kh in X. rewrite Ke in X. rewrite !in_app_iff in X. destruct X as [X|[X|[X|X]]].
    + apply N in X. destruct X as (j & _ & X). exact X.
    + exfalso. apply in_concat in X. destruct X as (l & X1 & X2). apply in_map_iff in X1. destruct X1 as (h0 & <- & _). apply in_app_iff in X2. destruct X2 as [X2|[X2|[]]]; [apply N in X2; destruct X2 as (j & X2 & _); discriminate|discriminate].
    + apply N in X. destruct X as (j & X & _). discriminate.
    + apply N in X. destruct X as (j & X & _). discriminate.
  - assert (C1 : k_cond a = [] -> f_set cfg = true) by (intros Q; destruct C as [C|C]; [cbn in C; rewrite Q in C; cbn in C; congruence|exact C]).
    split; [exact C1|]. intros Q1 Q2 Q3.
    destruct (run_why _ _ _ _ _ _ _ H S) as [R1|(h0 & c & R1 & _)]; [cbn; rewrite Q2; constructor|cbn; rewrite Q3; constructor|cbn; rewrite Q1; constructor| |cbn in R1; rewrite Q1 in R1; destruct R1].
    cbn in R1. rewrite (C1 Q1) in R1. exact R1.
Qed.
Print Assumptions C70_settings.

(** * A concrete run: the world is the time, constant step 2, one operation that counts nothing but is sliced by 2,
      and the condition "time > 1" sliced by 2. *)
Definition tick : system R :=
  mkSystem R (fun t => t) (fun _ => 1) (fun _ => 1) (fun _ _ t => t) (fun t => t) (fun h t => (h, t + h)) (fun t => t).
Definition late (_ : R) (t : R) : bool * R := (if Rlt_dec 1 t then true else false, t).
Definition demo : stored R := add_condition (add_operation no_callbacks (step_sliced tt 2 (fun _ t => (tt, t)))) (step_sliced false 2 late).
Definition demo_cfg : config := Config 2 0 false 0 0 0.
#[local] Arguments far : simpl never.
#[local] Arguments chosen : simpl never.
#[local] Arguments the_end : simpl never.
Lemma demo_run : exists tr w', own_run tick demo_cfg 100 2 0 demo = Returned tr w' /\
  map ek tr = [KCond 0 false; KOp 0; KStep; KCond 0 true; KOp 0] /\ fst w' = 2 /\ step_scale tick 0 <> 0.
Proof.
  unfold own_run, run. cbn [args_of stop_cond end_set demo_cfg f_set demo add_condition add_operation no_callbacks k_cond k_opts
    app length seq map step_scale widen tick fst]. 
  destruct (Req_EM_T 1 0); [lra|].
  assert (F0 : far 0 100 0 = true).
  { unfold far. destruct (Req_EM_T 100 0); [lra|]. destruct (Rlt_dec _ _) as [|N]; auto. exfalso; apply N.
    replace ((0 - 100) / 100) with (-1) by lra. rewrite Rabs_left; lra. }
  assert (F2 : far 2 100 0 = true).
  { unfold far. destruct (Req_EM_T 100 0); [lra|]. destruct (Rlt_dec _ _) as [|N]; auto. exfalso; apply N.
    replace ((2 - 100) / 100) with (-0.98) by lra. rewrite Rabs_left; lra. }
  simpl. unfold the_end at 1; simpl. rewrite F0. unfold cond_at, invoke, step_sliced, late; simpl.
  destruct (Rlt_dec 1 0); [lra|]. simpl. unfold chosen, the_end, first_step; simpl.
  destruct (Req_EM_T 2 0); [lra|].
  destruct (Rle_dec (Rabs 2) (Rabs ((100 - 0) * 1))) as [_|N].
  2:{ exfalso; apply N. rewrite !Rabs_pos_eq; lra. }
  simpl.
  replace (0 + 2) with 2 by lra. rewrite F2. destruct (Rlt_dec 1 2); [|lra]. simpl.
  eexists _, _. split; [reflexivity|]. split; [reflexivity|]. simpl. split; lra.
Qed.
(** Read as "a condition sliced by n is evaluated on every n-th check only" the registration of a sliced condition
    would do the opposite here: the second check (number 1) of a condition sliced by 2 ends the run. *)
Theorem C70_sliced_condition_every_nth_refuted :
  ~ (forall W (sys : system W) cfg hubble fuel w a tr w' n g, (0 < n)%nat ->
       own_run sys cfg hubble fuel w a = Returned tr w' -> step_scale sys w <> 0 ->
       nth_error (k_cond a) 0 = Some (step_sliced false n g) ->
       forall j b, nth_error (map ek (filter (fun e => is_cond (ek e)) tr)) j = Some (KCond 0 b) ->
         (j mod n <> 0)%nat -> b = false).
Proof.
  intros Q. destruct demo_run as (tr & w' & A & B & _ & C0).
  assert (D : map ek (filter (fun e => is_cond (ek e)) tr) = [KCond 0 false; KCond 0 true]).
  { clear - B. assert (G : forall l : list (event (R * stored R)), map ek (filter (fun e => is_cond (ek e)) l) = filter is_cond (map ek l)).
    { induction l as [|e l IH]; simpl; auto. destruct (is_cond (ek e)); simpl; now rewrite IH. }
    rewrite G, B. reflexivity. }
  specialize (Q R tick demo_cfg 100 2%nat 0 demo tr w' 2%nat late ltac:(lia) A C0 eq_refl 1%nat true).
  rewrite D in Q. specialize (Q eq_refl ltac:(discriminate)). discriminate.
Qed.
Print Assumptions C70_sliced_condition_every_nth_refuted.
(** The hypotheses of the theorems above are met by that run. *)
Example C70_case : exists tr w', own_run tick demo_cfg 100 2 0 demo = Returned tr w' /\
  nth_error (k_opts demo) 0 = Some (step_sliced tt 2 (fun _ t => (tt, t))) /\
  nth_error (k_cond demo) 0 = Some (step_sliced false 2 late) /\ length (only (KOp 0) tr) = 2%nat.
Proof.
  destruct demo_run as (tr & w' & A & B & _ & S). exists tr, w'. split; auto. split; [reflexivity|]. split; [reflexivity|].
  destruct (C70_step_slice_operation _ _ _ _ _ _ _ _ _ 0%nat 2%nat _ A S ltac:(lia) eq_refl) as (L & _).
  rewrite L. f_equal. unfold only.
  assert (G : forall l : list (event (R * stored R)), length (filter (fun e => same_kind (ek e) KStep) l) = length (filter (fun k => same_kind k KStep) (map ek l))).
  { induction l as [|e l IH]; simpl; auto. destruct (same_kind (ek e) KStep); simpl; auto. }
  rewrite G, B. reflexivity.
Qed.
