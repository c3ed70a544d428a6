(** C11-C14: output callbacks. *)
From Verif Require Import Base Slice_Model Slice_Proofs.
From Coq Require Import Lra.

(** C11.  For every interval n >= 1 and number of calls m, call k (from 0) runs the operation
    iff n divides k. *)
Theorem C11_step_slice_fires : forall n m, (0 < n)%nat ->
  exists l, ss_calls m (ss_make n) = Ok l /\ length l = m /\
  forall k, (k < m)%nat -> (nth_error l k = Some true <-> Nat.divide n k).
Proof. exact step_slice_fires. Qed.
Print Assumptions C11_step_slice_fires.

(** C11.  After m calls it has fired ceil(m/n) times. *)
Theorem C11_step_slice_count : forall n m, (0 < n)%nat ->
  exists l, ss_calls m (ss_make n) = Ok l /\
  length (filter (fun b => b) l) = ((m + n - 1) / n)%nat.
Proof. exact step_slice_count. Qed.
Print Assumptions C11_step_slice_count.

(** C11.  Interval 0 is undefined behaviour at the first call. *)
Theorem C11_interval_zero_undefined : ss_calls 1 (ss_make 0) = UB.
Proof. exact step_slice_zero. Qed.
Print Assumptions C11_interval_zero_undefined.

(** C11.  reset_slice_params(n) restarts the count: among the calls after the last reset, with n >= 1, exactly those with a number (from 0, counted
    from that reset) divisible by n run the operation, whatever the calls and resets before. *)
Theorem C11_reset : forall os n m s0, (0 < n)%nat -> (exists l0, ss_hist os s0 = Ok l0) ->
  exists l0 l, ss_hist (os ++ Some n :: repeat None m) s0 = Ok (l0 ++ l) /\ ss_hist os s0 = Ok l0 /\ length l = m /\
  forall k, (k < m)%nat -> (nth_error l k = Some true <-> Nat.divide n k).
Proof.
  intros os n m s0 Hn. assert (B : forall m s, ss_hist (repeat None m) s = ss_calls m s).
  { clear. induction m as [|m IH]; intros s; cbn [repeat ss_hist ss_calls]; auto. destruct (ss_call s) as [[b s']| |]; cbn [obind snd]; auto. rewrite IH. reflexivity. }
  revert s0. induction os as [|[k|] os IH]; intros s0 (l0 & H).
  - destruct (C11_step_slice_fires n m Hn) as (l & E & L & F). exists [], l. cbn [app ss_hist]. rewrite B. split; [exact E|]. split; [reflexivity|]. split; auto.
  - cbn [app ss_hist] in *. apply IH. eauto.
  - cbn [app ss_hist] in *. destruct (ss_call s0) as [[b s1]| |]; cbn [obind snd fst] in *; try discriminate.
    destruct (ss_hist os s1) as [l1| |] eqn:E1; cbn [obind] in H; try discriminate. injection H as <-.
    destruct (IH s1 (ex_intro _ l1 E1)) as (l0' & l & E & E' & R). rewrite E1 in E'. injection E' as <-. exists (b :: l1), l. rewrite E. cbn [obind app]. split; auto.
Qed.
Print Assumptions C11_reset.
Example C11_reset_case : ss_hist [None; None; Some 2%nat; None; None; None; Some 3%nat; None; None] (ss_make 2) = Ok [true; false; true; false; true; true; false].
Proof. reflexivity. Qed.
Example C11_case : ss_calls 7 (ss_make 3) = Ok [true; false; false; true; false; false; true].
Proof. reflexivity. Qed.

(** C12.  For every list of call times, the i-th firing is at a time t with
    start + i*interval <= t <= end. *)
Theorem C12_time_slice_times : forall st en n ts l s', (0 < n)%nat ->
  ts_calls (ts_make st en n) ts = (l, s') ->
  forall i t, nth_error l i = Some t -> st + INR i * ((en - st) / INR n) <= t <= en.
Proof. intros st en n ts l s' _. apply time_slice_fires. Qed.
Print Assumptions C12_time_slice_times.

(** C12.  At most n+1 firings, for every list of call times. *)
Theorem C12_time_slice_bound : forall st en n ts l s', st < en -> (0 < n)%nat ->
  ts_calls (ts_make st en n) ts = (l, s') -> (length l <= n + 1)%nat.
Proof. exact time_slice_bound. Qed.
Print Assumptions C12_time_slice_bound.

(** C12.  After any history with k firings, a call at time t fires iff the k-th slot is at or
    before t and t <= end (so slots are served one per call, possibly late). *)
Theorem C12_time_slice_rule : forall st en n ts l s t, (0 < n)%nat -> ts_calls (ts_make st en n) ts = (l, s) ->
  (fst (ts_call s t) = true <-> (st + INR (length l) * ((en - st) / INR n) <= t /\ t <= en)).
Proof. intros st en n ts l s t _. apply time_slice_rule. Qed.
Print Assumptions C12_time_slice_rule.

(** C12.  After reset_slice_params the slice keeps nothing of its past: whatever was served before, the i-th firing after the reset is at a time
    between the i-th new slot and the new end, and there are at most n+1 of them. *)
Theorem C12_reset : forall s st en n ts l s', st < en -> (0 < n)%nat -> ts_calls (ts_reset s st en n) ts = (l, s') ->
  (length l <= n + 1)%nat /\ forall i t, nth_error l i = Some t -> st + INR i * ((en - st) / INR n) <= t <= en.
Proof.
  intros s st en n ts l s' Hl Hn H. split; [exact (C12_time_slice_bound st en n ts l s' Hl Hn H)|exact (C12_time_slice_times st en n ts l s' Hn H)].
Qed.
Print Assumptions C12_reset.
(** The bound n+1 is attained, and a coarse step serves only one slot per call. *)
Example C12_case : fst (ts_calls (ts_make 0 2 2) [0; 1; 2; 2]) = [0; 1; 2] /\
                   fst (ts_calls (ts_make 0 2 2) [2; 2]) = [2; 2].
Proof.
  unfold ts_make; simpl ((2 - 0) / INR 2). replace ((2 - 0) / (1 + 1)) with 1 by field.
  split; cbn [ts_calls]; unfold ts_call;
  repeat (simpl; match goal with |- context [Rle_dec ?a ?b] => destruct (Rle_dec a b); try lra end); reflexivity.
Qed.

(** C13.  Whenever a firing call returns, the next slot lies strictly after the time served. *)
Theorem C13_next_slot_after : forall fuel s t s',
  ls_call fuel s t = Some (true, s') -> t < ls_next s'.
Proof. exact log_next_after. Qed.
Print Assumptions C13_next_slot_after.

(** C13.  Interval longer than one time unit: after every history every call returns, and the
    operation runs at most n times. *)
Theorem C13_long_interval : forall st en n, 1 < en - st -> (0 < n)%nat ->
  forall ts l s, ls_runs (ls_make st en n) ts l s ->
  (length l <= n)%nat /\ forall t, exists fuel b s', ls_call fuel s t = Some (b, s').
Proof. exact log_slice_good. Qed.
Print Assumptions C13_long_interval.

(** C13.  Ratio at most one: a call at or after the pending slot never returns; in particular
    for every interval of length exactly 1 the call at the end time never returns. *)
Theorem C13_hang : forall s t, 0 < ls_q s <= 1 -> ls_start s < ls_next s ->
  ls_next s <= t <= ls_end s -> forall fuel, ls_call fuel s t = None.
Proof. exact log_call_hangs. Qed.
Print Assumptions C13_hang.
Theorem C13_always_returns_refuted : forall st n, (0 < n)%nat -> forall fuel,
  ls_call fuel (ls_make st (st + 1) n) (st + 1) = None.
Proof. exact log_hang_at_end. Qed.
Print Assumptions C13_always_returns_refuted.

(** C13.  Interval shorter than 1 with at least two slots: the operation never runs. *)
Theorem C13_short_interval_never_fires : forall st en n, 0 < en - st < 1 -> (2 <= n)%nat ->
  forall ts l s, ls_runs (ls_make st en n) ts l s -> l = [].
Proof. exact log_never_fires. Qed.
Print Assumptions C13_short_interval_never_fires.

(** C13.  reset_slice_params does not move the origin of the slots: after
    [reset(10,110,2)] (slots 20, 110) on a slice created with start 0, the slot after 20 is
    200, beyond the end. *)
Theorem C13_reset_refuted : exists fuel t s', t = 20 /\
  ls_call fuel (ls_reset (ls_make 0 100 1) 10 110 2) t = Some (true, s') /\ ls_next s' = 200.
Proof. exact log_reset_stale. Qed.
Print Assumptions C13_reset_refuted.

Example C13_case : exists s, ls_runs (ls_make 0 100 2) [10] [10] s.
Proof.
  assert (E : Rpower (100 - 0) (1 / INR 2) = 10).
  { replace (100 - 0) with (10 * 10) by ring. simpl (INR 2). unfold Rpower. rewrite ln_mult by lra.
    replace (1 / (1 + 1) * (ln 10 + ln 10)) with (ln 10) by field. apply exp_ln; lra. }
  eexists. eapply (lsr_cons _ _ 1 true _ [] []); [|constructor].
  unfold ls_make. cbv zeta. rewrite E. unfold ls_call. cbn [ls_next ls_end ls_start ls_q ls_advance].
  repeat match goal with |- context [Rle_dec ?a ?b] => destruct (Rle_dec a b); try lra end. reflexivity.
Qed.

(** C14.  For every history of calls and copies of a DefaultWriter (nothing else streamed into
    it): the file is empty, or the header once followed by one row per call in call order. *)
Theorem C14_header_once : forall os s, forallb no_raw os = true -> dw_run dw_new os = Some s ->
  dw_file s = match rows_of os with [] => [] | rs => Header :: map Row rs end.
Proof. exact writer_header_once. Qed.
Print Assumptions C14_header_once.

(** C14.  Text streamed into the writer before its first call suppresses the header for good. *)
Theorem C14_header_always_refuted : forall r os s, dw_run dw_new (DwRaw r :: os) = Some s ->
  ~ In Header (dw_file s).
Proof. exact writer_raw_suppresses. Qed.
Print Assumptions C14_header_always_refuted.

(** C14.  Whatever the writers and simulations, every error ever reported (by any writer) is
    relative to the energy [E] of the very first call. *)
Theorem C14_energy_reference_shared : forall w t E cs,
  ew_run None ((w, t, E) :: cs) =
  map (fun c => (fst (fst c), snd (fst c), Rabs ((snd c - E) / E))) ((w, t, E) :: cs).
Proof. exact energy_reference. Qed.
Print Assumptions C14_energy_reference_shared.

Example C14_case : exists s, dw_run dw_new [DwCopy 0; DwCall 1 5; DwCall 0 6; DwCall 1 7] = Some s /\
  dw_file s = [Header; Row 5; Row 6; Row 7].
Proof. eexists; split; reflexivity. Qed.
(** A second simulation whose own energy error is zero reports error 1. *)
Example C14_second_writer : ew_run None [(0%nat, 0, -1); (1%nat, 0, -2)] = [(0%nat, 0, 0); (1%nat, 0, 1)].
Proof.
  simpl. unfold energy_error.
  replace ((-1 - -1) / -1) with 0 by field. replace ((-2 - -1) / -1) with 1 by field.
  rewrite Rabs_R0, Rabs_R1. reflexivity.
Qed.
