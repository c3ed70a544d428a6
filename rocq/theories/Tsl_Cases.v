(** Histories that meet the hypotheses of C102. *)
From Verif Require Import Tsl_Model Tsl_Spec Tsl_Proofs Tsl_Proofs2 Tsl_Props.
From Coq Require Import List Arith Lia.
Import ListNotations.
(** One step, field by field. *)
Lemma did N s w p s' : reachable N s -> w < N -> wk s w = p -> wstep N s w p s' -> exists s2, reachable N s2 /\ gq s2 = gq s' /\ lq s2 = lq s' /\ thieves s2 = thieves s' /\ actives s2 = actives s' /\ done s2 = done s' /\ wk s2 = wk s' /\ tok s2 = tok s' /\ ex s2 = ex s'.
Proof. intros R L <- H. exists s'. split; [eapply r_work; eauto|]. repeat split. Qed.
(** A worker that finds nothing goes to sleep, nobody else being awake. *)
Lemma sleeps N s w : reachable N s -> w < N -> wk s w = Start -> gq s = 0 -> thieves s = 0 -> actives s = 0 -> done s = false ->
  exists s', reachable N s' /\ gq s' = 0 /\ lq s' = lq s /\ thieves s' = 0 /\ actives s' = 0 /\ done s' = false /\ (forall v, wk s' v = if v =? w then Sleep else wk s v) /\ (forall v, tok s' v = if v =? w then false else tok s v) /\ ex s' = ex s.
Proof.
  intros R L E G T A D.
  destruct (did N s w Start _ R L E (s_enter N s w)) as (s1 & R1 & G1 & Q1 & T1 & A1 & D1 & W1 & B1 & E1). cbn [gq lq thieves actives done wk tok ex] in *.
  assert (V1 : wk s1 w = Th) by (rewrite W1; apply set_same).
  destruct (did N s1 w Th _ R1 L V1 (s_giveup N s1 w)) as (s2 & R2 & G2 & Q2 & T2 & A2 & D2 & W2 & B2 & E2). cbn [gq lq thieves actives done wk tok ex] in *.
  assert (V2 : wk s2 w = Prep) by (rewrite W2; apply set_same).
  assert (Z2 : tok s2 w = false) by (rewrite B2; apply set_same).
  destruct (did N s2 w Prep _ R2 L V2 (s_empty N s2 w ltac:(congruence))) as (s3 & R3 & G3 & Q3 & T3 & A3 & D3 & W3 & B3 & E3). cbn [gq lq thieves actives done wk tok ex] in *.
  assert (V3 : wk s3 w = Chk) by (rewrite W3; apply set_same).
  destruct (did N s3 w Chk _ R3 L V3 (s_on N s3 w ltac:(congruence))) as (s4 & R4 & G4 & Q4 & T4 & A4 & D4 & W4 & B4 & E4). cbn [gq lq thieves actives done wk tok ex] in *.
  assert (V4 : wk s4 w = Chk2) by (rewrite W4; apply set_same).
  destruct (did N s4 w Chk2 _ R4 L V4 (s_sub N s4 w)) as (s5 & R5 & G5 & Q5 & T5 & A5 & D5 & W5 & B5 & E5). cbn [gq lq thieves actives done wk tok ex] in *.
  replace (thieves s4) with 1 in * by congruence. cbn [Nat.eqb Nat.sub] in *.
  assert (V5 : wk s5 w = Last) by (rewrite W5; apply set_same).
  destruct (did N s5 w Last _ R5 L V5 (s_last N s5 w)) as (s6 & R6 & G6 & Q6 & T6 & A6 & D6 & W6 & B6 & E6). cbn [gq lq thieves actives done wk tok ex] in *.
  replace (actives s5) with 0 in * by congruence. cbn [Nat.eqb] in *.
  assert (V6 : wk s6 w = LastQ) by (rewrite W6; apply set_same).
  destruct (did N s6 w LastQ _ R6 L V6 (s_none N s6 w)) as (s7 & R7 & G7 & Q7 & T7 & A7 & D7 & W7 & B7 & E7). cbn [gq lq thieves actives done wk tok ex] in *.
  assert (V7 : wk s7 w = Com) by (rewrite W7; apply set_same).
  destruct (did N s7 w Com _ R7 L V7 (s_sleep N s7 w ltac:(congruence))) as (s8 & R8 & G8 & Q8 & T8 & A8 & D8 & W8 & B8 & E8). cbn [gq lq thieves actives done wk tok ex] in *.
  exists s8. split; auto. repeat split; try congruence; try lia; intros v.
  - destruct (Nat.eqb_spec v w) as [->|Nv]; [rewrite W8; apply set_same|]. rewrite W8, set_other, W7, set_other, W6, set_other, W5, set_other, W4, set_other, W3, set_other, W2, set_other, W1, set_other; auto.
  - rewrite B8, B7, B6, B5, B4, B3, B2, B1. reflexivity.
Qed.
Lemma both : exists s, reachable 2 s /\ gq s = 0 /\ thieves s = 0 /\ actives s = 0 /\ done s = false /\ wk s 0 = Sleep /\ wk s 1 = Sleep /\ tok s 0 = false /\ tok s 1 = false /\ quiet s.
Proof.
  destruct (sleeps 2 init 0 (r_init 2)) as (s1 & R1 & G1 & Q1 & T1 & A1 & D1 & K1 & O1 & E1); auto.
  destruct (sleeps 2 s1 1 R1) as (s2 & R2 & G2 & Q2 & T2 & A2 & D2 & K2 & O2 & E2); auto; [now rewrite K1|].
  exists s2. rewrite !K2, !O2, !K1, !O1. repeat split; auto. intros k. now rewrite E2, E1.
Qed.
(** Two workers sleep: C102_rest. *)
Example c102_rest : exists s, reachable 2 s /\ quiet s /\ forall w, w < 2 -> asleep s w.
Proof. destruct both as (s & R & G & T & A & D & K0 & K1 & O0 & O1 & Q). exists s. repeat split; auto; destruct w as [|[|w]]; auto; lia. Qed.
(** A task has been scheduled and one of them woken: C102_served. *)
Lemma woken : exists s, reachable 2 s /\ gq s = 1 /\ thieves s = 0 /\ actives s = 0 /\ done s = false /\ wk s 0 = Sleep /\ wk s 1 = Sleep /\ tok s 0 = true /\ tok s 1 = false /\ quiet s.
Proof.
  destruct both as (s & R & G & T & A & D & K0 & K1 & O0 & O1 & Q). eexists. split.
  - eapply (r_ext 2 _ 0); [eapply (r_ext 2 _ 0); [eapply (r_ext 2 _ 0); [eapply (r_ext 2 _ 0); [eapply (r_ext 2 _ 0); [exact R|rewrite (Q 0); apply (e_call 2 s 0 1); lia]|]|]|]|].
    + cbn [ex]. rewrite set_same. apply e_push.
    + cbn [ex]. rewrite set_same. apply e_1.
    + cbn [ex]. rewrite set_same. apply e_one. eapply (o_some 2 _ 0); cbn [wk tok]; [lia|now rewrite K0|exact O0].
    + cbn [ex]. rewrite set_same. apply e_ret.
  - cbn [gq thieves actives done wk tok ex]. rewrite G, set_same, set_other by lia. repeat split; auto. intros k. cbn [ex]. destruct (Nat.eq_dec k 0) as [->|N]; [apply set_same|rewrite !set_other by auto; apply Q].
Qed.
Example c102_served : exists s, reachable 2 s /\ quiet s /\ done s = false /\ gq s <> 0 /\ asleep s 1.
Proof. destruct woken as (s & R & G & T & A & D & K0 & K1 & O0 & O1 & Q). exists s. repeat split; auto; lia. Qed.
(** Of three workers one executes a task and has pushed a successor, one was woken and looks for tasks, one sleeps: C102_thief and C102_own_queue. *)
Example c102_thief : exists s, reachable 3 s /\ done s = false /\ working (wk s 0) /\ lq s 0 <> 0 /\ wk s 1 = Th /\ asleep s 2.
Proof.
  destruct (sleeps 3 init 1 (r_init 3)) as (s1 & R1 & G1 & Q1 & T1 & A1 & D1 & K1 & O1 & E1); auto.
  destruct (sleeps 3 s1 2 R1) as (s2 & R2 & G2 & Q2 & T2 & A2 & D2 & K2 & O2 & E2); auto; [now rewrite K1|].
  assert (X : exists s, reachable 3 s /\ gq s = 1 /\ thieves s = 0 /\ actives s = 0 /\ done s = false /\ wk s = wk s2 /\ tok s = set (tok s2) 1 true).
  { eexists. split.
    - eapply (r_ext 3 _ 0); [eapply (r_ext 3 _ 0); [eapply (r_ext 3 _ 0); [eapply (r_ext 3 _ 0); [exact R2|rewrite E2, E1; apply (e_call 3 s2 0 1); lia]|]|]|].
      + cbn [ex]. rewrite set_same. apply e_push.
      + cbn [ex]. rewrite set_same. apply e_1.
      + cbn [ex]. rewrite set_same. apply e_one. eapply (o_some 3 _ 1); cbn [wk tok]; [lia|rewrite K2, K1; reflexivity|rewrite O2, O1; reflexivity].
    - cbn [gq thieves actives done wk tok ex]. rewrite G2. repeat split; auto. }
  destruct X as (s3 & R3 & G3 & T3 & A3 & D3 & W3 & B3). assert (L0 : 0 < 3) by lia. assert (L1 : 1 < 3) by lia.
  assert (V1 : wk s3 1 = Sleep) by (rewrite W3, K2, K1; reflexivity). assert (V0 : wk s3 0 = Start) by (rewrite W3, K2, K1; reflexivity). assert (V2 : wk s3 2 = Sleep) by (rewrite W3, K2; reflexivity). assert (Z2 : tok s3 2 = false) by (rewrite B3, set_other, O2 by lia; reflexivity).
  destruct (did 3 s3 1 _ _ R3 L1 V1 (s_wake 3 s3 1 ltac:(rewrite B3; apply set_same))) as (s4 & R4 & G4 & Q4 & T4 & A4 & D4 & W4 & B4 & E4). cbn [gq lq thieves actives done wk tok ex] in *.
  destruct (did 3 s4 1 Start _ R4 L1 ltac:(rewrite W4; apply set_same) (s_enter 3 s4 1)) as (s5 & R5 & G5 & Q5 & T5 & A5 & D5 & W5 & B5 & E5). cbn [gq lq thieves actives done wk tok ex] in *.
  destruct (did 3 s5 0 Start _ R5 L0 ltac:(rewrite W5, set_other, W4, set_other by lia; exact V0) (s_enter 3 s5 0)) as (s6 & R6 & G6 & Q6 & T6 & A6 & D6 & W6 & B6 & E6). cbn [gq lq thieves actives done wk tok ex] in *.
  destruct (did 3 s6 0 Th _ R6 L0 ltac:(rewrite W6; apply set_same) (s_global 3 s6 0 0 ltac:(congruence))) as (s7 & R7 & G7 & Q7 & T7 & A7 & D7 & W7 & B7 & E7). cbn [gq lq thieves actives done wk tok ex] in *.
  destruct (did 3 s7 0 Got _ R7 L0 ltac:(rewrite W7; apply set_same) (s_got 3 s7 0)) as (s8 & R8 & G8 & Q8 & T8 & A8 & D8 & W8 & B8 & E8). cbn [gq lq thieves actives done wk tok ex] in *.
  assert (Y7 : thieves s7 = 2) by congruence. rewrite Y7 in W8, T8. cbn [Nat.eqb] in W8.
  destruct (did 3 s8 0 Act0 _ R8 L0 ltac:(rewrite W8; apply set_same) (s_act0 3 s8 0)) as (s9 & R9 & G9 & Q9 & T9 & A9 & D9 & W9 & B9 & E9). cbn [gq lq thieves actives done wk tok ex] in *.
  assert (Y8 : actives s8 = 0) by congruence. rewrite Y8 in W9, A9. cbn [Nat.eqb] in W9.
  destruct (did 3 s9 0 Act1 _ R9 L0 ltac:(rewrite W9; apply set_same) (s_act1 3 s9 0)) as (s10 & R10 & G10 & Q10 & T10 & A10 & D10 & W10 & B10 & E10). cbn [gq lq thieves actives done wk tok ex] in *.
  assert (Y9 : thieves s9 = 1) by (rewrite T9, T8; reflexivity). rewrite Y9 in W10. cbn [Nat.eqb] in W10.
  destruct (did 3 s10 0 Run _ R10 L0 ltac:(rewrite W10; apply set_same) (s_push 3 s10 0)) as (s11 & R11 & G11 & Q11 & T11 & A11 & D11 & W11 & B11 & E11). cbn [gq lq thieves actives done wk tok ex] in *.
  exists s11. split; auto. split; [congruence|]. unfold asleep. rewrite W11, W10, set_same, Q11, set_same. split; [exact Logic.I|]. split; [discriminate|]. rewrite !set_other, W9, !set_other, W8, !set_other, W7, !set_other, W6, !set_other, W5, set_same by lia. split; auto. rewrite set_other, W4, set_other by lia. split; auto. rewrite B11, B10, B9, B8, B7, B6, B5, B4, set_other by lia. exact Z2.
Qed.
(** The destructor has set _done and notified; the workers have yet to leave: C102_shutdown and C102_join. *)
Example c102_shutdown : exists s, reachable 2 s /\ quiet s /\ done s = true /\ gq s = 0 /\ wk s 0 = Sleep /\ tok s 0 = true /\ wk s 1 = Sleep.
Proof.
  destruct both as (s & R & G & T & A & D & K0 & K1 & O0 & O1 & Q). eexists. split.
  - eapply (r_ext 2 _ 0); [eapply (r_ext 2 _ 0); [exact R|rewrite (Q 0); apply e_done]|]. cbn [ex]. rewrite set_same. apply e_all.
  - cbn [gq done wk tok ex]. unfold all. cbn [wk tok]. rewrite K0. repeat split; auto. intros k. cbn [ex]. destruct (Nat.eq_dec k 0) as [->|N]; [apply set_same|rewrite !set_other by auto; apply Q].
Qed.
(** Three tasks are scheduled while two workers sleep: C102_submitted. *)
Example c102_submitted : exists s s0 s', reachable 2 s /\ estep 2 s 0 Idle s0 /\ ex s0 0 = Psh 3 3 /\ calling 2 0 s0 s' /\ ex s' 0 = Idle /\ gq s' = 3.
Proof.
  destruct both as (s & R & G & _). exists s.
  pose proof (e_call 2 s 0 3 ltac:(lia)) as E. match type of E with estep _ _ _ _ ?x => set (s0 := x) in *; exists s0 end.
  destruct (C102_call_returns 2 s0 0) as (s' & C & I). exists s'. assert (P : ex s0 0 = Psh 3 3) by apply set_same.
  repeat split; auto. destruct (C102_submitted 2 s 0 3 s0 s' E P C I) as (Q & _). lia.
Qed.
(** One worker, one other thread: a task is scheduled and taken, and the worker goes to sleep: C102_conserved, C102_all_taken. *)
Ltac wgo H c := eapply (t_work 1 1 _ _ _ 0) in H; [|lia|apply c; try reflexivity]; cbn in H.
Ltac ego H c := eapply (t_ext 1 1 _ _ _ 0) in H; [|lia|apply c; try lia]; cbn in H.
Example c102_all_taken : exists s, tally 1 1 1 1 s /\ quiet s /\ forall w, w < 1 -> asleep s w.
Proof.
  pose proof (t_init 1 1) as H.
  ego H (e_call 1 init 0 1). ego H e_push. ego H e_1. ego H e_one; [|apply o_none; intros [|w] L; [discriminate|lia]]. ego H e_ret.
  wgo H s_enter. wgo H s_global. wgo H s_got. wgo H s_ntf1; [|apply o_none; intros [|w] L; [discriminate|lia]]. wgo H s_act0. wgo H s_act1. wgo H s_ntf2; [|apply o_none; intros [|w] L; [discriminate|lia]].
  wgo H s_leave. wgo H s_dec. wgo H s_enter. wgo H s_giveup. wgo H s_empty. wgo H s_on. wgo H s_sub. wgo H s_last. wgo H s_none. wgo H s_sleep.
  eexists. split; [exact H|]. split; [intros [|k]; reflexivity|intros [|w] L; [split; reflexivity|lia]].
Qed.
