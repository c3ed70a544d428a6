(** Property C84: the Bulirsch-Stoer iterator built with BS_SUBSTEP_PARALLEL. *)
From Coq Require Import ZArith Lia.
From Verif Require Import System_Spec BS_Spec System_Proofs2 Par_Spec Par_Proofs3.
Open Scope R_scope.

(** Whatever the two threads' interleaving, no access is out of bounds, there is no data race, the number of steps is bounded, and once both have
    returned every row 0 .. rank + 1 of the table is the one a single thread computes; the other rows are untouched. *)
Theorem C84_every_interleaving I r M kdk h rank ext s sched o : sized I -> (rank + 1 <= M)%nat -> length ext = (M + 1)%nat ->
  (well_sized I 1 s -> psched M st (read I) (simple_run I kdk) (write I s) h (pstart st ext (set_sync s true) rank) sched = Some o ->
     good_schedule M rank (serial_row drift (kick I) kdk s h) ext sched o) /\
  (well_sized I 3 s -> psched M st (rread I) (regu_run I r kdk) (rwrite I s) h (pstart st ext (set_sync s true) rank) sched = Some o ->
     good_schedule M rank (serial_row (rdrift r) (rkick I r) kdk s h) ext sched o).
Proof. intros HI Hr Hl. split; intros W H; [eapply s_ok|eapply r_ok]; eauto; lia. Qed.
(** Every interleaving can be continued until both threads have returned (neither waits for the other). *)
Theorem C84_can_finish I r M kdk h rank ext s sched c : sized I -> (rank + 1 <= M)%nat -> length ext = (M + 1)%nat ->
  (well_sized I 1 s -> psched M st (read I) (simple_run I kdk) (write I s) h (pstart st ext (set_sync s true) rank) sched = Some (Ok c) ->
     exists rest c', psched M st (read I) (simple_run I kdk) (write I s) h (pstart st ext (set_sync s true) rank) (sched ++ rest) = Some (Ok c') /\ finished st c') /\
  (well_sized I 3 s -> psched M st (rread I) (regu_run I r kdk) (rwrite I s) h (pstart st ext (set_sync s true) rank) sched = Some (Ok c) ->
     exists rest c', psched M st (rread I) (regu_run I r kdk) (rwrite I s) h (pstart st ext (set_sync s true) rank) (sched ++ rest) = Some (Ok c') /\ finished st c').
Proof. intros HI Hr Hl. split; intros W H; [eapply s_any|eapply r_any]; eauto; lia. Qed.
(** The first call of the parallel iterator ends like the sequential one under every choice of interleavings, one per attempt. *)
Theorem C84_first_call_agrees I r tries M kdk err next lim sch b s h o : (2 <= M)%nat -> sized I -> sizes M b -> (b_rank b + 1 <= M)%nat ->
  (well_sized I 1 s -> piterate tries M kdk st (write I) (read I) set_sync (simple_run I kdk) err next lim sch b s h = Some o ->
     same_call (write I) (iterate tries M kdk st (write I) (read I) set_sync (simple_run I kdk) err next lim b s h) o) /\
  (well_sized I 3 s -> piterate tries M kdk st (rwrite I) (rread I) set_sync (regu_run I r kdk) err next lim sch b s h = Some o ->
     same_call (rwrite I) (iterate tries M kdk st (rwrite I) (rread I) set_sync (regu_run I r kdk) err next lim b s h) o).
Proof. intros HM HI HS Hr. split; intros W H; [eapply s_iter|eapply r_iter]; eauto. Qed.
(** Such interleavings exist, for every first call. *)
Theorem C84_first_call_exists I r tries M kdk err next lim s h : (2 <= M)%nat -> sized I ->
  (well_sized I 1 s -> exists sch o, piterate tries M kdk st (write I) (read I) set_sync (simple_run I kdk) err next lim sch (bs_init M) s h = Some o) /\
  (well_sized I 3 s -> exists sch o, piterate tries M kdk st (rwrite I) (rread I) set_sync (regu_run I r kdk) err next lim sch (bs_init M) s h = Some o).
Proof.
  intros HM HI. assert (HS : sizes M (bs_init M)) by (unfold sizes, bs_init; cbn [b_ext b_ideal b_cpl]; rewrite !repeat_length; auto).
  split; intros W; [eapply s_exists|eapply r_exists]; eauto; cbn [b_rank bs_init]; lia.
Qed.
(** Every later call is undefined: the lambda is a static local that refers to the step length variable of the first call. *)
Theorem C84_later_calls_refuted o os : calls prog0 (o :: os) = Ok o :: map (fun _ => UB) os.
Proof.
  assert (K : forall os n, calls (mkProg (Some (0%nat, o)) [] (S n)) os = map (fun _ => UB) os).
  { induction os0 as [|x t IH]; intros n; [reflexivity|]. cbn [calls map]. unfold enter, use_lambda, leave. cbn [g_lambda g_alive g_calls existsb Nat.eqb tl orb]. f_equal. apply IH. }
  cbn [calls]. unfold enter at 1, use_lambda at 1, prog0. cbn [g_lambda g_alive g_calls existsb Nat.eqb orb]. f_equal.
  unfold leave, enter. cbn [g_lambda g_alive g_calls tl]. apply K.
Qed.
(** A call that overlaps the first one, on another object, fills the first object's table instead of its own. *)
Theorem C84_overlapping_call_refuted o1 o2 : o1 <> o2 -> use_lambda (enter (enter prog0 o1) o2) = Ok o1.
Proof. intros _. reflexivity. Qed.

(** Two bodies; rank 1, so the other thread fills rows 1 and the caller rows 2 and 0, in either order. *)
Definition two : st := mkSt [1; 2] 0 [mkV 1 0 0; mkV 0 0 0] [mkV 0 1 0; mkV 0 0 0] [] 0 0 0 (repeat 0 13) false.
Example C84_example_sized : sized newton_only /\ well_sized newton_only 1 two.
Proof. split; [apply newton_sized|repeat split; discriminate]. Qed.
Example C84_example_orders M kdk h : (2 <= M)%nat -> exists sched sched' c c',
  psched M st (read newton_only) (simple_run newton_only kdk) (write newton_only two) h (pstart st (repeat [] (M + 1)) (set_sync two true) 1) (true :: sched) = Some (Ok c) /\ finished st c /\
  psched M st (read newton_only) (simple_run newton_only kdk) (write newton_only two) h (pstart st (repeat [] (M + 1)) (set_sync two true) 1) (false :: sched') = Some (Ok c') /\ finished st c' /\
  k_ext st c = k_ext st c'.
Proof.
  intros HM. destruct C84_example_sized as (HI & W).
  assert (Hl : length (repeat ([] : list R) (M + 1)) = (M + 1)%nat) by apply repeat_length.
  assert (F : forall w : bool, exists c, psched M st (read newton_only) (simple_run newton_only kdk) (write newton_only two) h (pstart st (repeat [] (M + 1)) (set_sync two true) 1) [w] = Some (Ok c)).
  { intros []; eexists; reflexivity. }
  destruct (F true) as (c0 & E0). destruct (F false) as (c1 & E1).
  destruct (proj1 (C84_can_finish newton_only LogH M kdk h 1 _ two [true] c0 HI ltac:(lia) Hl) W E0) as (s1 & d0 & D0 & F0).
  destruct (proj1 (C84_can_finish newton_only LogH M kdk h 1 _ two [false] c1 HI ltac:(lia) Hl) W E1) as (s2 & d1 & D1 & F1).
  exists s1, s2, d0, d1. split; [exact D0|]. split; [exact F0|]. split; [exact D1|]. split; [exact F1|].
  destruct (proj1 (C84_every_interleaving newton_only LogH M kdk h 1 _ two _ _ HI ltac:(lia) Hl) W D0) as (x & X1 & _ & _ & X2). injection X1 as <-.
  destruct (proj1 (C84_every_interleaving newton_only LogH M kdk h 1 _ two _ _ HI ltac:(lia) Hl) W D1) as (y & Y1 & _ & _ & Y2). injection Y1 as <-.
  destruct (X2 F0) as (XL & XR). destruct (Y2 F1) as (YL & YR). apply (nth_ext _ _ [] []); [congruence|]. intros j _. rewrite XR, YR. reflexivity.
Qed.
Print Assumptions C84_every_interleaving. Print Assumptions C84_can_finish. Print Assumptions C84_first_call_agrees. Print Assumptions C84_first_call_exists.
Print Assumptions C84_later_calls_refuted. Print Assumptions C84_overlapping_call_refuted.
