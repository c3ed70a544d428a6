(** C100: a graph that meets the hypotheses, and what happens with cycles. *)
From Verif Require Import Tgr_Model Tgr_Spec Tgr_Proofs Tgr_Proofs4 Tgr_Props.
From Coq Require Import List Arith Lia Bool.
Import ListNotations.
Definition diamond : graph := mkG 4 [(0, 1); (0, 2); (1, 3); (2, 3)].
Example diamond_ok : well_formed diamond /\ acyclic diamond.
Proof. split; [intros u v I; cbn in I; cbn; repeat (destruct I as [[= <- <-]|I]; [lia|]); contradiction|]. exists (fun v => v). intros u v I. cbn in I. repeat (destruct I as [[= <- <-]|I]; [lia|]). contradiction. Qed.
(** Two threads enter run_n(f, 3) and one of them has submitted its run. *)
Definition two : st := mkS (fun _ => 0) 0 [] [] SetUp 0 1 0 2 1 [] [].
Example two_reachable W stop : reachable W diamond stop two.
Proof.
  eapply r_user; [eapply r_user; [eapply r_user; [apply r_init|apply u_enter]|apply u_enter]|]. pose proof (u_push diamond (mkS (fun _ => 0) 0 [] [] Off 0 0 0 2 2 [] [])) as X. cbn in X. apply X; [lia|discriminate].
Qed.
(** With two workers it gets done: three passes, each of them complete and in order, then the callback, and the future is ready. *)
Example diamond_runs : exists s rs r, reachable 2 diamond (fun _ => run_n 3) s /\ length rs = 2 /\ Forall (pass diamond) (r :: rs) /\ body (log s) = run_log 0 rs r /\ In (Ready 0) (log s).
Proof.
  destruct diamond_ok as (WF & AC). destruct (C100_runs_complete 2 diamond (fun _ => run_n 3) WF AC (fun _ => 3) two) as (k & s & _ & R & _ & _ & H & F); [lia|intros c; split; [lia|reflexivity]|apply two_reachable|]. cbn [sub two] in *.
  destruct (C100_run_n diamond (fun _ => run_n 3) 0 3 (body (log s)) eq_refl ltac:(lia) H) as (h0 & rs & r & H0 & L & P & E). exists s, rs, r. split; auto. split; [lia|]. split; auto. split; [|apply F; lia]. rewrite E. replace h0 with (@nil event); [reflexivity|]. clear -H0.
  inversion H0. reflexivity.
Qed.
(** A graph without a source: the run is accepted, nothing is ever run and wait_for_all never returns. *)
Definition ring : graph := mkG 2 [(0, 1); (1, 0)].
Definition hung : st := mkS (num_dependents ring) 0 [] [] (Push []) 0 1 1 1 0 [] [].
Theorem C100_no_source_hangs_refuted W stop : reachable W ring stop hung /\ num hung = 1 /\ forall s', ~ internal W ring stop hung s'.
Proof.
  split; [|split; [reflexivity|]].
  - pose (s1 := mkS (fun _ => 0) 0 [] [] Off 0 0 0 1 1 [] []). pose (s2 := mkS (fun _ => 0) 0 [] [] SetUp 0 1 0 1 0 [] []). assert (R1 : reachable W ring stop s1) by (eapply r_user; [apply r_init|apply u_enter]).
    assert (R2 : reachable W ring stop s2). { eapply r_user; [exact R1|]. pose proof (u_push ring s1) as X. cbn in X. apply X; [lia|discriminate]. }
    eapply r_internal; [exact R2|]. exact (i_setup W ring stop s2 eq_refl).
  - intros s' H. inversion H as [q1 q2 u E|a c u p s0 E|E|v l E|E|E|E|E|E|E|o1 o2 c E|o1 o2 c E]; subst; try discriminate E; cbn in E; [destruct q1|destruct a|destruct o1|destruct o1]; discriminate.
Qed.
(** A graph with a cycle behind a source: the counters inside the cycle are not recovered between passes, so in the second pass a task starts although one of its predecessors has never finished. *)
Definition tail : graph := mkG 2 [(0, 1); (1, 1)].
Section Cycle.
Let stop (c k : nat) : bool := run_n 2 k.
Let jA := num_dependents tail.
Let jB := upd jA 0 0.
Let jC := upd jB 1 1.
Let jD := upd jC 0 0.
Let jE := upd jD 1 0.
Let L1 : list event := [Start 0; Finish 0].
Let L2 : list event := L1 ++ [Asked 0 false].
Definition odd : st := mkS jE 1 [] [(1, Busy)] (Push []) 0 1 2 1 0 [] (((L2 ++ [Start 0]) ++ [Finish 0]) ++ [Start 1]).
Ltac go X := eapply r_internal; [exact X|].
Theorem C100_cycle_order_refuted : reachable 1 tail stop odd /\ In (1, 1) (edges tail) /\ In (Start 1) (log odd) /\ ~ In (Finish 1) (log odd).
Proof.
  split; [|split; [cbn; auto|split; [cbn; auto 10|cbn; intros H; repeat (destruct H as [H|H]; [discriminate|]); contradiction]]].
  pose (s1 := mkS (fun _ => 0) 0 [] [] Off 0 0 0 1 1 [] []). assert (R1 : reachable 1 tail stop s1) by (eapply r_user; [apply r_init|apply u_enter]).
  pose (s2 := mkS (fun _ => 0) 0 [] [] SetUp 0 1 0 1 0 [] []). assert (R2 : reachable 1 tail stop s2). { eapply r_user; [exact R1|]. pose proof (u_push tail s1) as X. cbn in X. apply X; [lia|discriminate]. }
  pose (s3 := mkS jA 1 [] [] (Push [0]) 0 1 1 1 0 [] []). assert (R3 : reachable 1 tail stop s3) by (go R2; exact (i_setup 1 tail stop s2 eq_refl)).
  pose (s4 := mkS jA 1 [0] [] (Push []) 0 1 1 1 0 [] []). assert (R4 : reachable 1 tail stop s4) by (go R3; exact (i_push 1 tail stop s3 0 [] eq_refl)).
  pose (s5 := mkS jA 1 [] [(0, Got)] (Push []) 0 1 1 1 0 [] []). assert (R5 : reachable 1 tail stop s5) by (go R4; exact (i_take 1 tail stop s4 [] [] 0 eq_refl ltac:(cbn; lia))).
  pose (s6 := mkS jA 1 [] [(0, Busy)] (Push []) 0 1 1 1 0 [] [Start 0]). assert (R6 : reachable 1 tail stop s6) by (go R5; exact (i_work 1 tail stop s5 [] [] 0 Got s6 eq_refl (w_start tail s5 [] [] 0))).
  pose (s7 := mkS jA 1 [] [(0, Worked)] (Push []) 0 1 1 1 0 [] L1). assert (R7 : reachable 1 tail stop s7) by (go R6; exact (i_work 1 tail stop s6 [] [] 0 Busy s7 eq_refl (w_finish tail s6 [] [] 0))).
  pose (s8 := mkS jB 1 [] [(0, Out 0)] (Push []) 0 1 1 1 0 [] L1). assert (R8 : reachable 1 tail stop s8) by (go R7; exact (i_work 1 tail stop s7 [] [] 0 Worked s8 eq_refl (w_reset tail s7 [] [] 0))).
  pose (s9 := mkS jC 1 [] [(0, Out 1)] (Push []) 0 1 1 1 0 [] L1). assert (R9 : reachable 1 tail stop s9) by (go R8; exact (i_work 1 tail stop s8 [] [] 0 (Out 0) s9 eq_refl (w_dec tail s8 [] [] 0 0 1 eq_refl))).
  pose (t1 := mkS jC 0 [] [] Ask 0 1 1 1 0 [] L1). assert (T1 : reachable 1 tail stop t1) by (go R9; exact (i_work 1 tail stop s9 [] [] 0 (Out 1) t1 eq_refl (w_down tail s9 [] [] 0))).
  pose (t2 := mkS jC 1 [] [] (Push [0]) 0 1 2 1 0 [] L2). assert (T2 : reachable 1 tail stop t2) by (go T1; exact (i_again 1 tail stop t1 eq_refl eq_refl)).
  pose (t3 := mkS jC 1 [0] [] (Push []) 0 1 2 1 0 [] L2). assert (T3 : reachable 1 tail stop t3) by (go T2; exact (i_push 1 tail stop t2 0 [] eq_refl)).
  pose (t4 := mkS jC 1 [] [(0, Got)] (Push []) 0 1 2 1 0 [] L2). assert (T4 : reachable 1 tail stop t4) by (go T3; exact (i_take 1 tail stop t3 [] [] 0 eq_refl ltac:(cbn; lia))).
  pose (t5 := mkS jC 1 [] [(0, Busy)] (Push []) 0 1 2 1 0 [] (L2 ++ [Start 0])). assert (T5 : reachable 1 tail stop t5) by (go T4; exact (i_work 1 tail stop t4 [] [] 0 Got t5 eq_refl (w_start tail t4 [] [] 0))).
  pose (t6 := mkS jC 1 [] [(0, Worked)] (Push []) 0 1 2 1 0 [] ((L2 ++ [Start 0]) ++ [Finish 0])). assert (T6 : reachable 1 tail stop t6) by (go T5; exact (i_work 1 tail stop t5 [] [] 0 Busy t6 eq_refl (w_finish tail t5 [] [] 0))).
  pose (t7 := mkS jD 1 [] [(0, Out 0)] (Push []) 0 1 2 1 0 [] ((L2 ++ [Start 0]) ++ [Finish 0])). assert (T7 : reachable 1 tail stop t7) by (go T6; exact (i_work 1 tail stop t6 [] [] 0 Worked t7 eq_refl (w_reset tail t6 [] [] 0))).
  pose (t8 := mkS jE 1 [] [(0, Hit 0)] (Push []) 0 1 2 1 0 [] ((L2 ++ [Start 0]) ++ [Finish 0])). assert (T8 : reachable 1 tail stop t8) by (go T7; exact (i_work 1 tail stop t7 [] [] 0 (Out 0) t8 eq_refl (w_dec tail t7 [] [] 0 0 1 eq_refl))).
  pose (t9 := mkS jE 2 [] [(0, Give 0)] (Push []) 0 1 2 1 0 [] ((L2 ++ [Start 0]) ++ [Finish 0])). assert (T9 : reachable 1 tail stop t9) by (go T8; exact (i_work 1 tail stop t8 [] [] 0 (Hit 0) t9 eq_refl (w_add tail t8 [] [] 0 0))).
  pose (u1 := mkS jE 2 [1] [(0, Out 1)] (Push []) 0 1 2 1 0 [] ((L2 ++ [Start 0]) ++ [Finish 0])). assert (U1 : reachable 1 tail stop u1) by (go T9; exact (i_work 1 tail stop t9 [] [] 0 (Give 0) u1 eq_refl (w_push tail t9 [] [] 0 0 1 eq_refl))).
  pose (u2 := mkS jE 1 [1] [] (Push []) 0 1 2 1 0 [] ((L2 ++ [Start 0]) ++ [Finish 0])). assert (U2 : reachable 1 tail stop u2) by (go U1; exact (i_work 1 tail stop u1 [] [] 0 (Out 1) u2 eq_refl (w_down tail u1 [] [] 0))).
  pose (u3 := mkS jE 1 [] [(1, Got)] (Push []) 0 1 2 1 0 [] ((L2 ++ [Start 0]) ++ [Finish 0])). assert (U3 : reachable 1 tail stop u3) by (go U2; exact (i_take 1 tail stop u2 [] [] 1 eq_refl ltac:(cbn; lia))).
  go U3. exact (i_work 1 tail stop u3 [] [] 1 Got odd eq_refl (w_start tail u3 [] [] 1)).
Qed.
End Cycle.
Print Assumptions C100_no_source_hangs_refuted.
Print Assumptions C100_cycle_order_refuted.
