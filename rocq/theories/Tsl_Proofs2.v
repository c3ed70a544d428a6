(** Lemmas for C102: a worker that is awake finds the task. *)
From Verif Require Import Tsl_Model Tsl_Spec Tsl_Proofs.
From Coq Require Import List Arith Lia Bool.
Import ListNotations.
Definition finds (N : nat) (s : st) (w : nat) : Prop := exists s', alone N w s s' /\ holds (wk s' w).
Lemma f_step N s w p s1 : wk s w = p -> wstep N s w p s1 -> finds N s1 w -> finds N s w.
Proof. intros <- H (s' & A & B). exists s'. split; auto. eapply a_step; eauto. Qed.
Lemma f_here N s w : holds (wk s w) -> finds N s w.
Proof. intros H. exists s. split; auto. constructor. Qed.
Ltac here := apply f_here; cbn [wk]; rewrite set_same; exact Logic.I.
Ltac next := cbn [wk tok gq done]; rewrite ?set_same; auto.
Lemma f_th N s w : wk s w = Th -> gq s <> 0 -> finds N s w.
Proof. intros E G. destruct (gq s) as [|g] eqn:Q; [lia|]. eapply f_step; [exact E|apply s_global; exact Q|here]. Qed.
Lemma f_start N s w : wk s w = Start -> gq s <> 0 -> finds N s w.
Proof. intros E G. eapply f_step; [exact E|apply s_enter|]. apply f_th; next. Qed.
Lemma f_steal N s w : wk s w = Steal -> gq s <> 0 -> finds N s w.
Proof. intros E G. destruct (gq s) as [|g] eqn:Q; [lia|]. eapply f_step; [exact E|apply s_steal; exact Q|here]. Qed.
Lemma f_canc1 N s w : wk s w = Canc1 -> gq s <> 0 -> finds N s w.
Proof. intros E G. eapply f_step; [exact E|apply s_canc1|]. apply f_steal; next. Qed.
Lemma f_prep N s w : wk s w = Prep -> gq s <> 0 -> finds N s w.
Proof. intros E G. eapply f_step; [exact E|apply s_more; exact G|]. apply f_canc1; next. Qed.
Lemma f_canc0 N s w : wk s w = Canc0 -> gq s <> 0 -> finds N s w.
Proof. intros E G. eapply f_step; [exact E|apply s_canc0|]. apply f_start; next. Qed.
Lemma f_leave N s w : wk s w = Leave -> gq s <> 0 -> finds N s w.
Proof. intros E G. eapply f_step; [exact E|apply s_dec|]. apply f_start; next. Qed.
Lemma f_com N s w : wk s w = Com -> tok s w = true -> gq s <> 0 -> finds N s w.
Proof. intros E T G. eapply f_step; [exact E|apply s_com; exact T|]. apply f_start; next. Qed.
Lemma f_sleep N s w : wk s w = Sleep -> tok s w = true -> gq s <> 0 -> finds N s w.
Proof. intros E T G. eapply f_step; [exact E|apply s_wake; exact T|]. apply f_start; next. Qed.
Lemma f_lastq N s w : wk s w = LastQ -> tok s w = true -> gq s <> 0 -> finds N s w.
Proof. intros E T G. eapply f_step; [exact E|apply s_none|]. apply f_com; next. Qed.
Lemma f_last N s w : wk s w = Last -> tok s w = true -> gq s <> 0 -> finds N s w.
Proof. intros E T G. eapply f_step; [exact E|apply s_last|]. destruct (actives s =? 0); [apply f_lastq|apply f_canc0]; next. Qed.
Lemma f_chk2 N s w : wk s w = Chk2 -> tok s w = true -> gq s <> 0 -> finds N s w.
Proof. intros E T G. eapply f_step; [exact E|apply s_sub|]. destruct (thieves s =? 1); [apply f_last|apply f_com]; next. Qed.
Lemma f_chk N s w : wk s w = Chk -> tok s w = true -> done s = false -> gq s <> 0 -> finds N s w.
Proof. intros E T D G. eapply f_step; [exact E|apply s_on; exact D|]. apply f_chk2; next. Qed.
Lemma alive_finds N s w : inv N s -> w < N -> done s = false -> gq s <> 0 -> alive s w -> finds N s w.
Proof.
  intros I L D G A. assert (Y := i_end _ _ I w L). unfold alive in A. destruct (wk s w) eqn:E; cbn [past ended] in *; try (apply f_here; rewrite E; exact Logic.I); try (specialize (Y eq_refl); congruence).
  - now apply f_start.
  - now apply f_th.
  - now apply f_leave.
  - now apply f_prep.
  - now apply f_canc1.
  - now apply f_steal.
  - apply f_chk; auto.
  - apply f_chk2; auto.
  - apply f_last; auto.
  - apply f_lastq; auto.
  - now apply f_canc0.
  - apply f_com; auto.
  - apply f_sleep; auto.
Qed.
Lemma quiet_busy s : quiet s -> ~ exists k, busy (ex s k).
Proof. intros Q (k & B & _). apply B. apply Q. Qed.
Lemma served N s : N <> 0 -> reachable N s -> quiet s -> done s = false -> gq s <> 0 -> exists w s', w < N /\ alone N w s s' /\ holds (wk s' w).
Proof.
  intros Nz R Q D G. destruct (tasks N s Nz R G) as [B|(w & L & A)]; [now destruct (quiet_busy s Q)|]. destruct (alive_finds N s w (reach_inv _ _ R) L D G A) as (s' & A' & H). eauto.
Qed.
Lemma rest N s : N <> 0 -> reachable N s -> quiet s -> (forall w, w < N -> asleep s w) -> gq s = 0 /\ (forall w, w < N -> lq s w = 0) /\ thieves s = 0 /\ actives s = 0.
Proof.
  intros Nz R Q A. pose proof (reach_inv _ _ R) as I. repeat split.
  - destruct (Nat.eq_dec (gq s) 0) as [|G]; auto. destruct (tasks N s Nz R G) as [B|(w & L & Al)]; [now destruct (quiet_busy s Q)|]. destruct (A w L) as (E & T). unfold alive in Al. rewrite E, T in Al. specialize (Al eq_refl). discriminate.
  - intros w L. destruct (Nat.eq_dec (lq s w) 0) as [|G]; auto. apply (i_lq _ _ I w L) in G. destruct (A w L). congruence.
  - rewrite (i_th _ _ I). apply cnt_none. intros w L. destruct (A w L) as (E & _). now rewrite E.
  - rewrite (i_ac _ _ I). apply cnt_none. intros w L. destruct (A w L) as (E & _). now rewrite E.
Qed.
Lemma thief N s v w : reachable N s -> done s = false -> v < N -> w < N -> working (wk s v) -> asleep s w -> exists u, u < N /\ looking s u.
Proof.
  intros R D Lv Lw W (E & T). pose proof (reach_inv _ _ R) as I. assert (A : actives s <> 0).
  { rewrite (i_ac _ _ I). assert (X : ac (wk s v) = true) by (destruct (wk s v); auto; destruct W). pose proof (cnt_pos N ac (wk s) v Lv X). lia. }
  destruct (covers N s R D A) as [Th0|[(u & L & H)|Dm]].
  - rewrite (i_th _ _ I) in Th0. apply cnt_ex in Th0 as (u & L & X). exists u. split; auto. assert (Y := i_end _ _ I u L). unfold looking. destruct (wk s u); auto; try discriminate; specialize (Y eq_refl); congruence.
  - exists u. split; auto. unfold looking. destruct H as [H|(H & H')]; destruct (wk s u); auto; discriminate.
  - destruct (Dm w Lw). split; auto. now rewrite E.
Qed.
Lemma shutdown N s w : reachable N s -> quiet s -> done s = true -> w < N -> ~ asleep s w.
Proof. intros R Q D L (E & T). destruct (stops N s R D) as [(k & B)|A]; [rewrite (Q k) in B; discriminate|]. rewrite A in T; auto; [discriminate|now rewrite E]. Qed.
(** With _done set and no task left, a worker that runs alone leaves. *)
Definition leaves (N : nat) (s : st) (w : nat) : Prop := exists s', alone N w s s' /\ wk s' w = Exit.
Lemma l_step N s w p s1 : wk s w = p -> wstep N s w p s1 -> leaves N s1 w -> leaves N s w.
Proof. intros <- H (s' & A & B). exists s'. split; auto. eapply a_step; eauto. Qed.
Lemma l_chk N s w : wk s w = Chk \/ wk s w = DCanc \/ wk s w = DNtf \/ wk s w = DDec \/ wk s w = Exit -> done s = true -> leaves N s w.
Proof.
  assert (X0 : forall s, wk s w = Exit -> leaves N s w) by (intros s0 E; exists s0; split; auto; constructor).
  assert (X1 : forall s, wk s w = DDec -> leaves N s w) by (intros s0 E; eapply l_step; [exact E|apply s_exit|]; apply X0; next).
  assert (X2 : forall s, wk s w = DNtf -> leaves N s w) by (intros s0 E; eapply l_step; [exact E|apply s_dntf|]; apply X1; next).
  assert (X3 : forall s, wk s w = DCanc -> leaves N s w) by (intros s0 E; eapply l_step; [exact E|apply s_dcanc|]; apply X2; next).
  intros [E|[E|[E|[E|E]]]] D; auto. eapply l_step; [exact E|apply s_off; exact D|]. apply X3; next.
Qed.
Lemma l_prep N s w : wk s w = Prep -> done s = true -> gq s = 0 -> leaves N s w.
Proof. intros E D G. eapply l_step; [exact E|apply s_empty; exact G|]. apply l_chk; next. Qed.
Lemma l_th N s w : wk s w = Th -> done s = true -> gq s = 0 -> leaves N s w.
Proof. intros E D G. eapply l_step; [exact E|apply s_giveup|]. apply l_prep; next. Qed.
Lemma l_start N s w : wk s w = Start -> done s = true -> gq s = 0 -> leaves N s w.
Proof. intros E D G. eapply l_step; [exact E|apply s_enter|]. apply l_th; next. Qed.
Lemma l_steal N s w : wk s w = Steal \/ wk s w = Canc1 -> done s = true -> gq s = 0 -> leaves N s w.
Proof. assert (X : forall s, wk s w = Steal -> done s = true -> gq s = 0 -> leaves N s w) by (intros s0 E D G; eapply l_step; [exact E|apply s_miss|]; apply l_th; next). intros [E|E] D G; auto. eapply l_step; [exact E|apply s_canc1|]. apply X; next. Qed.
Lemma l_run N s w : wk s w = Run -> done s = true -> gq s = 0 -> lq s w = 0 -> leaves N s w.
Proof. intros E D G Q. eapply l_step; [exact E|apply s_leave; exact Q|]. eapply l_step; [next|apply s_dec|]. apply l_start; next. Qed.
Lemma l_com N s w : wk s w = Com -> tok s w = true -> done s = true -> gq s = 0 -> leaves N s w.
Proof. intros E T D G. eapply l_step; [exact E|apply s_com; exact T|]. apply l_start; next. Qed.
Lemma l_canc0 N s w : wk s w = Canc0 -> done s = true -> gq s = 0 -> leaves N s w.
Proof. intros E D G. eapply l_step; [exact E|apply s_canc0|]. apply l_start; next. Qed.
Lemma l_last N s w : wk s w = Last \/ wk s w = LastQ -> tok s w = true -> done s = true -> gq s = 0 -> leaves N s w.
Proof.
  assert (X : forall s, wk s w = LastQ -> tok s w = true -> done s = true -> gq s = 0 -> leaves N s w) by (intros s0 E T D G; eapply l_step; [exact E|apply s_none|]; apply l_com; next).
  intros [E|E] T D G; auto. eapply l_step; [exact E|apply s_last|]. destruct (actives s =? 0); [apply X|apply l_canc0]; next.
Qed.
Lemma l_act N s w : wk s w = Got \/ wk s w = Ntf1 \/ wk s w = Act0 \/ wk s w = Act1 \/ wk s w = Ntf2 -> done s = true -> gq s = 0 -> lq s w = 0 -> leaves N s w.
Proof.
  assert (O : forall s, exists t, one N s t).
  { intros s0. assert (Dec : forall n, (exists u, u < n /\ waiting (wk s0 u) = true /\ tok s0 u = false) \/ forall u, u < n -> waiting (wk s0 u) = true -> tok s0 u = true).
    { induction n as [|n [(u & A & B)|A]]; [right; lia|left; exists u; auto|]. destruct (waiting (wk s0 n)) eqn:W, (tok s0 n) eqn:T; try (left; exists n; auto; fail); right; intros u Hu Wu; (destruct (Nat.eq_dec u n) as [->|Q]; [congruence|apply A; auto; lia]). }
    destruct (Dec N) as [(u & A & B & C)|A]; [eexists; eapply o_some; eauto|eexists; apply o_none; auto]. }
  assert (X4 : forall s, wk s w = Ntf2 -> done s = true -> gq s = 0 -> lq s w = 0 -> leaves N s w) by (intros s0 E D G Q; destruct (O s0) as (t & Ht); eapply l_step; [exact E|eapply s_ntf2; exact Ht|]; apply l_run; next).
  assert (X3 : forall s, wk s w = Act1 -> done s = true -> gq s = 0 -> lq s w = 0 -> leaves N s w) by (intros s0 E D G Q; eapply l_step; [exact E|apply s_act1|]; destruct (thieves s0 =? 0); [apply X4|apply l_run]; next).
  assert (X2 : forall s, wk s w = Act0 -> done s = true -> gq s = 0 -> lq s w = 0 -> leaves N s w) by (intros s0 E D G Q; eapply l_step; [exact E|apply s_act0|]; destruct (actives s0 =? 0); [apply X3|apply l_run]; next).
  assert (X1 : forall s, wk s w = Ntf1 -> done s = true -> gq s = 0 -> lq s w = 0 -> leaves N s w) by (intros s0 E D G Q; destruct (O s0) as (t & Ht); eapply l_step; [exact E|eapply s_ntf1; exact Ht|]; apply X2; next).
  intros [E|[E|[E|[E|E]]]] D G Q; auto. eapply l_step; [exact E|apply s_got|]. destruct (thieves s =? 1); [apply X1|apply X2]; next.
Qed.
Lemma join N s w : reachable N s -> quiet s -> done s = true -> gq s = 0 -> w < N -> lq s w = 0 -> exists s', alone N w s s' /\ wk s' w = Exit.
Proof.
  intros R Q D G L Q0. destruct (stops N s R D) as [(k & B)|A]; [rewrite (Q k) in B; discriminate|]. specialize (A w L). fold (leaves N s w).
  destruct (wk s w) eqn:E; cbn [past2] in A; try (specialize (A eq_refl)); try (apply l_chk; auto; tauto); try (apply l_act; auto; tauto); try (apply l_steal; auto; fail).
  - now apply l_start.
  - now apply l_th.
  - now apply l_run.
  - eapply l_step; [exact E|apply s_dec|]. apply l_start; next.
  - now apply l_prep.
  - eapply l_step; [exact E|apply s_sub|]. destruct (thieves s =? 1); [apply l_last; next; now left|apply l_com; next].
  - apply l_last; auto.
  - apply l_last; auto.
  - now apply l_canc0.
  - now apply l_com.
  - eapply l_step; [exact E|apply s_wake; exact A|]. apply l_start; next.
Qed.
