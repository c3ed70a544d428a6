(** C100: running a task graph. *)
From Verif Require Import Tgr_Model Tgr_Spec Tgr_Proofs Tgr_Proofs2 Tgr_Proofs3 Tgr_Proofs4.
From Coq Require Import List Arith Lia Bool.
Import ListNotations.
Section P.
Variable W : nat.
Variable g : graph.
Variable stop : nat -> nat -> bool.
Hypothesis WF : well_formed g.
Hypothesis AC : acyclic g.
Notation history := (history g stop). Notation reachable := (reachable W g stop).
(** Whatever the interleaving, what has happened so far is complete runs one after the other, then some complete passes of the next run, then the beginning of one more pass. *)
Theorem C100_passes s : reachable s -> exists c k h r, history c k h /\ sound g r /\
  (body (log s) = h ++ r \/ (pass g r /\ stop c (S k) = true /\ body (log s) = h ++ r ++ [Asked c true])).
Proof.
  intros R. destruct (reach_inv W g stop WF AC (fun _ => 0) s R) as (ph & I). pose proof (i_shape _ _ _ _ I) as Sh. unfold shape in Sh. assert (E : sound g []) by (intros pre e post X; destruct pre; discriminate).
  destruct (drv s).
  - destruct Sh as (_ & _ & H). exists (cur s), 0, (body (log s)), []. rewrite app_nil_r. auto.
  - destruct Sh as (_ & _ & H). exists (cur s), 0, (body (log s)), []. rewrite app_nil_r. auto.
  - destruct Sh as (_ & _ & _ & k & h & r & _ & El & H & T & _). exists (cur s), k, h, r. auto.
  - destruct Sh as (_ & _ & _ & k & h & r & _ & El & H & P). exists (cur s), k, h, r. split; auto. split; [apply P|auto].
  - destruct Sh as (_ & _ & k & h & r & El & H & P & Sp). exists (cur s), k, h, r. split; auto. split; [apply P|auto].
  - destruct Sh as (_ & _ & H). exists (S (cur s)), 0, (body (log s)), []. rewrite app_nil_r. auto.
  - destruct Sh as (_ & _ & H). exists (cur s), 0, (body (log s)), []. rewrite app_nil_r. auto.
Qed.
(** In a complete pass every task starts once and finishes once, after it has started and after all its predecessors have finished. *)
Theorem C100_once_per_pass r v : pass g r -> v < size g -> exists a b c, r = a ++ Start v :: b ++ Finish v :: c /\ ~ In (Start v) (a ++ b ++ c) /\ ~ In (Finish v) (a ++ b ++ c) /\ forall u, In (u, v) (edges g) -> In (Finish u) a.
Proof.
  intros (So & F) Hv. destruct (in_split _ _ (F v Hv)) as (p & q & E). destruct (So p (Finish v) q E) as (A & B). destruct (in_split _ _ A) as (a & b & Ep). subst p. exists a, b, q.
  assert (E' : r = a ++ Start v :: b ++ Finish v :: q) by (rewrite E, <- app_assoc; reflexivity). split; [exact E'|]. destruct (So a (Start v) _ E') as (_ & C & P). split; [|split; [|exact P]].
  - intros J. rewrite !in_app_iff in J. destruct J as [J|[J|J]]; [contradiction| |].
    + destruct (in_split _ _ J) as (b1 & b2 & Eb). subst b. destruct (So (a ++ Start v :: b1) (Start v) (b2 ++ Finish v :: q)) as (_ & X & _); [rewrite E', <- ?app_assoc; cbn [app]; rewrite <- ?app_assoc; cbn [app]; rewrite <- ?app_assoc; reflexivity|]. apply X, in_elt.
    + destruct (in_split _ _ J) as (b1 & b2 & Eb). subst q. destruct (So (a ++ Start v :: b ++ Finish v :: b1) (Start v) b2) as (_ & X & _); [rewrite E', <- ?app_assoc; cbn [app]; rewrite <- ?app_assoc; cbn [app]; rewrite <- ?app_assoc; reflexivity|]. apply X, in_elt.
  - intros J. rewrite !in_app_iff in J. rewrite in_app_iff in B. cbn [In] in B. destruct J as [J|[J|J]]; [tauto|tauto|].
    destruct (in_split _ _ J) as (b1 & b2 & Eb). subst q. destruct (So ((a ++ Start v :: b) ++ Finish v :: b1) (Finish v) b2) as (_ & X); [rewrite E, <- !app_assoc; reflexivity|]. apply X, in_elt.
Qed.
Lemma grows s s' : internal W g stop s s' \/ user g s s' -> log s' = log s \/ exists e, log s' = log s ++ [e].
Proof.
  intros [H|H]; [|destruct H; cbn [log]; auto]. destruct H; cbn [log]; eauto. match goal with H : work _ _ _ _ _ _ _ |- _ => destruct (work_frame _ _ _ _ _ _ _ H) as (_ & _ & _ & _ & _ & _ & (es & E & L & _) & _) end. rewrite E. destruct es as [|e [|? ?]]; [left; apply app_nil_r|eauto|cbn in L; lia].
Qed.
Lemma prefix s : reachable s -> forall pre post, log s = pre ++ post -> exists s0, reachable s0 /\ log s0 = pre.
Proof.
  induction 1 as [|s s' R IH St|s s' R IH St]; intros pre post E.
  - cbn in E. symmetry in E. apply app_eq_nil in E. destruct E as (-> & _). exists init. split; [constructor|reflexivity].
  - destruct post as [|e post _] using rev_ind; [rewrite app_nil_r in E; exists s'; split; auto; econstructor; eauto|]. rewrite app_assoc in E. destruct (grows s s' (or_introl St)) as [G|(e' & G)]; rewrite G in E; [rewrite <- app_assoc in E; eauto|]. apply app_inj_tail in E. destruct E as (E & _). eauto.
  - destruct post as [|e post _] using rev_ind; [rewrite app_nil_r in E; exists s'; split; auto; eapply r_user; eauto|]. rewrite app_assoc in E. destruct (grows s s' (or_intror St)) as [G|(e' & G)]; rewrite G in E; [rewrite <- app_assoc in E; eauto|]. apply app_inj_tail in E. destruct E as (E & _). eauto.
Qed.
Lemma history_cut c k h : history c k h -> forall d, d < c -> exists h1 h2, h = h1 ++ h2 /\ history (S d) 0 h1.
Proof.
  induction 1 as [|c k l r H IH P Q|c k l r H IH P Q]; intros d Hd; [lia| |].
  - destruct (IH d Hd) as (h1 & h2 & -> & X). exists h1, (h2 ++ r ++ [Asked c false]). rewrite <- app_assoc. auto.
  - destruct (Nat.eq_dec d c) as [->|].
    + exists (l ++ r ++ [Asked c true; Called c]), []. rewrite app_nil_r. split; auto. econstructor; eauto.
    + destruct (IH d) as (h1 & h2 & -> & X); [lia|]. exists h1, (h2 ++ r ++ [Asked c true; Called c]). rewrite <- app_assoc. auto.
Qed.
Lemma sound_no_call r c : sound g r -> ~ In (Called c) r.
Proof. intros So J. destruct (in_split _ _ J) as (p & q & E). exact (So p _ q E). Qed.
Lemma history_only c k h : history c k h -> forall d, In (Called d) h -> d < c.
Proof.
  induction 1 as [|c k l r H IH P Q|c k l r H IH P Q]; intros d J; [contradiction| |]; apply in_app_or in J; destruct J as [J|J]; try (specialize (IH d J); lia); apply in_app_or in J; (destruct J as [J|J]; [exfalso; exact (sound_no_call r d (proj1 P) J)|]); cbn in J.
  - destruct J as [J|[]]; discriminate.
  - destruct J as [J|[[= <-]|[]]]; [discriminate|lia].
Qed.
(** A future becomes ready once, after the callback of its run. *)
Theorem C100_future_once s pre c post : reachable s -> log s = pre ++ Ready c :: post -> In (Called c) pre /\ ~ In (Ready c) (pre ++ post).
Proof.
  intros R E. destruct (reach_inv W g stop WF AC (fun _ => 0) s R) as (ph & I). pose proof (i_rok _ _ _ _ I) as O. destruct (O _ _ _ E) as (A & B). split; auto. intros J. apply in_app_or in J. destruct J as [J|J]; auto.
  destruct (in_split _ _ J) as (p & q & Eq). subst post. destruct (O (pre ++ Ready c :: p) c q) as (_ & X); [rewrite E, <- app_assoc; reflexivity|]. apply X, in_elt.
Qed.
(** By then the whole of run c, and all runs submitted before it, are over. *)
Theorem C100_future_after_run s pre c post : reachable s -> log s = pre ++ Ready c :: post -> exists h1 h2, body pre = h1 ++ h2 /\ history (S c) 0 h1.
Proof.
  intros R E. destruct (C100_future_once s pre c post R E) as (A & _). destruct (prefix s R pre _ E) as (s0 & R0 & E0). destruct (C100_passes s0 R0) as (c' & k & h & r & H & So & B). rewrite E0 in B.
  assert (J : In (Called c) (body pre)) by (unfold body; apply filter_In; split; auto). assert (J' : In (Called c) h).
  { destruct B as [B|(_ & _ & B)]; rewrite B in J; apply in_app_or in J; destruct J as [J|J]; auto; exfalso; [exact (sound_no_call r c So J)|]. apply in_app_or in J. destruct J as [J|[J|[]]]; [exact (sound_no_call r c So J)|discriminate]. }
  destruct (history_cut _ _ _ H c (history_only _ _ _ H c J')) as (h1 & h2 & Eh & X). subst h. destruct B as [B|(_ & _ & B)]; rewrite B, <- app_assoc; eauto.
Qed.
(** wait_for_all returns (the count of open runs is zero) only when every submitted run is over, every future is ready and no worker is busy. *)
Theorem C100_wait_for_all s : reachable s -> num s = 0 -> queue s = [] /\ act s = [] /\ history (sub s) 0 (body (log s)) /\ forall c, c < sub s -> In (Ready c) (log s).
Proof.
  intros R Z. destruct (reach_inv W g stop WF AC (fun _ => 0) s R) as (ph & I). pose proof (i_num _ _ _ _ I) as Nm. pose proof (i_shape _ _ _ _ I) as Sh. pose proof (i_cur _ _ _ _ I) as Ic. unfold shape in Sh. assert (Ec : sub s = cur s) by lia. assert (Eo : owe s = []) by (apply length_zero_iff_nil; lia).
  assert (X : queue s = [] /\ act s = [] /\ history (sub s) 0 (body (log s))). { destruct (drv s); try (destruct Sh as (_ & ? & _); lia); [|destruct Sh as (_ & _ & ? & _); lia]. rewrite Ec. destruct Sh as ((Q & A) & _ & H). auto. }
  destruct X as (Q & A & H). split; auto. split; auto. split; auto. intros c Hc. destruct (i_all _ _ _ _ I c) as [J|J]; [lia|auto|]. rewrite Eo in J. contradiction.
Qed.
(** No counter is decremented at zero, the counter of a node never exceeds its number of incoming edges, and the one decrement of the count of open runs that wakes nobody (executor.hpp:1063) never brings it to zero. *)
Theorem C100_counters s : reachable s ->
  (forall u i v, In (u, Out i) (act s) -> nth_error (succs g u) i = Some v -> 1 <= jc s v <= num_dependents g v) /\
  (forall u, In (u, Out (length (succs g u))) (act s) -> 1 <= tj s) /\
  (forall c, In (c, true) (owe s) -> 1 <= num s) /\ (drv s = Tgr_Model.Dec -> 2 <= num s) /\ (0 < pend s -> 1 <= num s).
Proof.
  intros R. destruct (reach_inv W g stop WF AC (fun _ => 0) s R) as (ph & I). pose proof (i_num _ _ _ _ I) as Nm. pose proof (i_shape _ _ _ _ I) as Sh. unfold shape in Sh.
  assert (L : act s <> [] -> exists l, live g ph l s /\ 1 <= tj s). { intros A. destruct (drv s); try (destruct Sh as ((_ & Q) & _); congruence). destruct Sh as (X & Y & _). eauto. }
  split; [|split; [|split; [|split]]].
  - intros u i v J E. destruct L as (l & X & _); [intros Z; rewrite Z in J; contradiction|]. destruct (nth_node g WF _ _ _ E) as (U & Hv). apply (l_a _ _ _ _ X) in J. destruct J as (_ & Pu). pose proof (l_one _ _ _ _ X v Hv) as O. pose proof (l_jc _ _ _ _ X v Hv) as Jv.
    pose proof (D_upd g ph u (Act (Hit i)) v U) as Du. rewrite Pu in Du. unfold dec in Du. cbn [prog] in Du. rewrite (dec_next g u i v v E), Nat.eqb_refl in Du. pose proof (D_le g WF (pupd ph u (Act (Hit i))) v) as Dl. destruct (Nat.eqb_spec (D g ph v) (num_dependents g v)); [lia|].
    assert (Iv : ph v = Idle) by (destruct (ph v); auto; cbn [b] in O; lia). rewrite Iv in Jv. cbn [fresh] in Jv. lia.
  - intros u J. destruct L as (l & _ & X); [intros Z; rewrite Z in J; contradiction|exact X].
  - intros c J. destruct (owe s); [contradiction|]. cbn [length] in Nm. lia.
  - intros E. rewrite E in Nm, Sh. cbn [bdec] in Nm. destruct Sh as (_ & ? & _). lia.
  - lia.
Qed.
(** As long as a submitted run is not over, the executor can go on, whatever the state it is in. *)
Theorem C100_no_deadlock s : 1 <= W -> reachable s -> pend s < num s -> exists s', internal W g stop s s'.
Proof.
  intros HW R Lt. destruct (reach_inv W g stop WF AC (fun _ => 0) s R) as (ph & I). pose proof (i_num _ _ _ _ I) as Nm. pose proof (i_shape _ _ _ _ I) as Sh. unfold shape in Sh.
  destruct (owe s) as [|(c, x) o] eqn:Eo; [|destruct x; eexists; [apply (i_paid _ _ _ _ [] o c)|apply (i_ready _ _ _ _ [] o c)]; exact Eo]. cbn [length] in Nm. destruct (drv s) as [| |l| | | |] eqn:Ed.
  - destruct Sh as (_ & ? & _). cbn [bdec] in Nm. lia.
  - eexists. apply i_setup. exact Ed.
  - destruct l as [|v l]; [|eexists; eapply i_push; exact Ed]. destruct Sh as (L & Tj & _). destruct (act s) as [|(u, p) a] eqn:Ea.
    + destruct (queue s) as [|v q] eqn:Eq.
      * exfalso. pose proof (all_gone g WF ph s AC L Eq Ea) as Ag. pose proof (l_tj _ _ _ _ L) as T. rewrite Eq, Ea in T. cbn [length] in T. assert (Z : Gv g ph = 0) by (apply sum_const; intros w Hw; apply inV in Hw; now rewrite (Ag w Hw)). lia.
      * eexists. apply (i_take _ _ _ _ [] q v); [exact Eq|]. rewrite Ea. cbn. lia.
    + assert (E : act s = [] ++ (u, p) :: a) by exact Ea. destruct (act_here g ph _ s [] u p a L E) as (U & Pu). pose proof (l_in _ _ _ _ L u U) as Iu. rewrite Pu in Iu.
      assert (X : exists s', work g s [] a u p s'). { destruct p as [| | |i|i|i]; cbn [inside] in Iu.
        - eexists. apply w_start. - eexists. apply w_finish. - eexists. apply w_reset.
        - destruct (nth_error (succs g u) i) as [v|] eqn:En; [eexists; eapply w_dec; exact En|]. apply nth_error_None in En. assert (Ei : i = length (succs g u)) by lia. subst i. eexists. apply w_down.
        - eexists. apply w_add.
        - destruct (nth_error (succs g u) i) as [v|] eqn:En; [eexists; eapply w_push; exact En|]. apply nth_error_None in En. lia. }
      destruct X as (s' & X). exists s'. eapply i_work; [exact E|exact X].
  - destruct (stop (cur s) (calls s)) eqn:Es; eexists; [apply i_stop|apply i_again]; eauto.
  - eexists. apply i_call. exact Ed.
  - destruct (Nat.lt_ge_cases 1 (sub s - cur s)); eexists; [apply i_next|apply i_last]; auto.
  - eexists. apply i_dec. exact Ed.
Qed.
(** If every predicate says stop at some call, the executor cannot go on for ever by itself. *)
Theorem C100_terminates last s : (forall c, 1 <= last c /\ stop c (last c) = true) -> reachable s -> exists m, forall k s', steps W g stop k s s' -> k <= m.
Proof.
  intros HL R. assert (X : exists ph, inv g stop ph s /\ within stop last s).
  { induction R as [|s s' R (ph & I & X) St|s s' R (ph & I & X) St].
    - destruct (reach_inv W g stop WF AC last init (r_init _ _ _)) as (ph & I). exists ph. split; auto. split; [exact HL|exact Logic.I].
    - destruct (internal_step W g stop WF AC last ph s s' I St) as (ph' & I' & Q). exists ph'. split; auto. apply Q, X.
    - exists ph. split; [eapply user_step; eauto|]. destruct St; auto. destruct X as (X0 & X). split; auto. cbn [drv calls cur]. destruct (_ =? 1); auto. }
  destruct X as (ph & I & X). exists (M g last ph s). intros k s' H. clear R. revert ph I X. induction H as [s|k s s1 s2 St _ IH]; intros ph I X; [lia|]. destruct (internal_step W g stop WF AC last ph s s1 I St) as (ph' & I' & Q). destruct (Q X) as (Q1 & Q2). specialize (IH ph' I' Q2). lia.
Qed.
Lemma steps_reach k s s' : steps W g stop k s s' -> reachable s -> reachable s'.
Proof. induction 1; auto. intros R. apply IHsteps. econstructor; eauto. Qed.
Lemma steps_user k s s' : steps W g stop k s s' -> pend s' = pend s /\ sub s' = sub s.
Proof. induction 1 as [|k s s' s'' St _ (A & B)]; auto. rewrite A, B. destruct St; auto. match goal with H : work _ _ _ _ _ _ _ |- _ => destruct (work_frame _ _ _ _ _ _ _ H) as (_ & ? & _ & _ & ? & _) end. auto. Qed.
(** So, with at least one worker, every submitted run gets done. *)
Theorem C100_runs_complete last s : 1 <= W -> (forall c, 1 <= last c /\ stop c (last c) = true) -> reachable s -> exists k s', steps W g stop k s s' /\ reachable s' /\ num s' = pend s /\ sub s' = sub s /\ history (sub s) 0 (body (log s')) /\ forall c, c < sub s -> In (Ready c) (log s').
Proof.
  intros HW HL R. destruct (C100_terminates last s HL R) as (m & B). assert (E : exists k s', steps W g stop k s s' /\ ~ pend s' < num s').
  { assert (X : forall j k s1, steps W g stop k s s1 -> m - k <= j -> exists k s', steps W g stop k s s' /\ ~ pend s' < num s').
    { induction j as [|j IH]; intros k s1 H Le; destruct (Nat.lt_ge_cases (pend s1) (num s1)) as [L|L]; try (exists k, s1; split; auto; lia).
      - destruct (C100_no_deadlock s1 HW (steps_reach _ _ _ H R) L) as (s2 & St). assert (Y : steps W g stop (S k) s s2). { clear -H St. induction H; [econstructor; [exact St|constructor]|econstructor; eauto]. } specialize (B _ _ Y). lia.
      - destruct (C100_no_deadlock s1 HW (steps_reach _ _ _ H R) L) as (s2 & St). assert (Y : steps W g stop (S k) s s2). { clear -H St. induction H; [econstructor; [exact St|constructor]|econstructor; eauto]. } apply (IH (S k) s2 Y). specialize (B _ _ Y). lia. }
    apply (X m 0 s); [constructor|lia]. }
  destruct E as (k & s' & H & Nl). exists k, s'. pose proof (steps_reach _ _ _ H R) as R'. destruct (steps_user _ _ _ H) as (Ep & Es). split; auto. split; auto. destruct (reach_inv W g stop WF AC (fun _ => 0) s' R') as (ph & I). pose proof (i_num _ _ _ _ I) as Nm. pose proof (i_cur _ _ _ _ I) as Ic. pose proof (i_shape _ _ _ _ I) as Sh. unfold shape in Sh.
  assert (Ec : sub s' = cur s') by lia. assert (Eo : owe s' = []) by (apply length_zero_iff_nil; lia). split; [lia|]. split; [exact Es|]. split.
  - destruct (drv s'); try (destruct Sh as (_ & ? & _); lia); [|destruct Sh as (_ & _ & ? & _); lia]. rewrite <- Es, Ec. apply Sh.
  - intros c Hc. destruct (i_all _ _ _ _ I c) as [J|J]; [lia|auto|]. rewrite Eo in J. contradiction.
Qed.
(** run_n(f, N) makes N passes. *)
Theorem C100_run_n c N h : stop c = run_n N -> 1 <= N -> history (S c) 0 h -> exists h0 rs r, history c 0 h0 /\ S (length rs) = N /\ Forall (pass g) (r :: rs) /\ h = h0 ++ run_log c rs r.
Proof.
  intros E HN H. assert (X : forall k l, history c k l -> exists h0 rs, history c 0 h0 /\ length rs = k /\ Forall (pass g) rs /\ l = h0 ++ concat (map (fun p => p ++ [Asked c false]) rs) /\ (k = 0 \/ k < N)).
  { intros k l Hl. remember c as c0 eqn:Ec in Hl. induction Hl as [|c1 k l r Hl IH P Q|c1 k l r Hl IH P Q].
    - exists [], []. subst c. repeat split; auto. constructor.
    - subst c1. destruct (IH eq_refl) as (h0 & rs & A & B & C & D & F). exists h0, (rs ++ [r]). split; auto. split; [rewrite app_length, B; cbn; lia|]. split; [apply Forall_app; auto|]. split; [rewrite map_app, concat_app, D, <- app_assoc; cbn; rewrite app_nil_r; reflexivity|]. right. rewrite E in Q. unfold run_n in Q. apply Nat.eqb_neq in Q. lia.
    - exists (l ++ r ++ [Asked c1 true; Called c1]), []. split; [subst c; econstructor; eauto|]. split; auto. split; [constructor|]. split; [cbn; now rewrite app_nil_r|auto]. }
  remember (S c) as d eqn:Ed. remember 0 as z eqn:Ez. destruct H as [|c1 k l r Hl P Q|c1 k l r Hl P Q]; [discriminate|discriminate|]. injection Ed as ->. destruct (X k l Hl) as (h0 & rs & A & B & C & F & _). exists h0, rs, r. split; [exact A|]. split; [rewrite B; rewrite E in Q; unfold run_n in Q; apply Nat.eqb_eq in Q; lia|]. split; [constructor; auto|]. unfold run_log. rewrite F, <- app_assoc. reflexivity.
Qed.
End P.
Print Assumptions C100_passes.
Print Assumptions C100_once_per_pass.
Print Assumptions C100_future_once.
Print Assumptions C100_future_after_run.
Print Assumptions C100_wait_for_all.
Print Assumptions C100_counters.
Print Assumptions C100_no_deadlock.
Print Assumptions C100_terminates.
Print Assumptions C100_runs_complete.
Print Assumptions C100_run_n.
