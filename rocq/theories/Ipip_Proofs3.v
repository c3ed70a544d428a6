From Verif Require Import Base Ipip_Model Ipip_Proofs Ipip_Proofs2.
(** * From a live, unused pipe the destructor can always run to its end. *)
Lemma run_cat ls : forall s s1 ls2 s2, run s ls = Some s1 -> run s1 ls2 = Some s2 -> run s (ls ++ ls2) = Some s2.
Proof. induction ls as [|l t IH]; intros s s1 ls2 s2 H G; simpl in *; [congruence|]. destruct (step s l); [eauto|discriminate]. Qed.
Lemma run_keep (P : pipe -> Prop) : (forall s l s', P s -> step s l = Some s' -> P s') -> forall ls s s', P s -> run s ls = Some s' -> P s'.
Proof. intros K. induction ls as [|l t IH]; intros s s' H G; simpl in G; [congruence|]. destruct (step s l) eqn:E; [|discriminate]. eauto. Qed.
Definition hold_left (w : lpc) : nat :=
  match w with LdPred => 103 | LdBreak => 102 | LdFill i => 101 - i | LdEoqHold => 1 | _ => 0 end.
Lemma free_lock n : forall s, hold_left (loader s) < n -> life s = LDAcquire -> stop s = Some false -> lholds (loader s) = 1 ->
  exists ls s', run s ls = Some s' /\ lholds (loader s') = 0 /\ life s' = LDAcquire /\ stop s' = Some false /\ readers s' = readers s /\ uninit_read s' = uninit_read s.
Proof.
  induction n as [|n IH]; intros s W L St H; [lia|].
  assert (K : forall s1, step s (LLoader false) = Some s1 -> life s1 = LDAcquire -> stop s1 = Some false -> readers s1 = readers s ->
    uninit_read s1 = uninit_read s -> (lholds (loader s1) = 0 \/ (lholds (loader s1) = 1 /\ hold_left (loader s1) < n)) ->
    exists ls s', run s ls = Some s' /\ lholds (loader s') = 0 /\ life s' = LDAcquire /\ stop s' = Some false /\ readers s' = readers s /\ uninit_read s' = uninit_read s).
  { intros s1 E L1 S1 R1 U1 [F|(F & G)].
    - exists [LLoader false], s1. cbn [run]. rewrite E. auto 10.
    - destruct (IH s1 G L1 S1 F) as (ls & s2 & R & A & B & C & D & U). exists (LLoader false :: ls), s2. cbn [run]. rewrite E.
      repeat split; auto; congruence. }
  destruct (loader s) eqn:Hw; simpl in H; try discriminate; cbn [hold_left] in W.
  - destruct (is_nil (queue s)) eqn:Q.
    + eapply K; [cbn [step]; unfold loader_step, read_stop; rewrite Hw, St, Q; reflexivity| | | | |]; auto. right. cbn [loader lholds hold_left upd_ld]. split; auto; lia.
    + eapply K; [cbn [step]; unfold loader_step, read_stop; rewrite Hw, St, Q; reflexivity| | | | |]; auto.
  - eapply K; [cbn [step]; unfold loader_step, read_stop; rewrite Hw, St; reflexivity| | | | |]; auto. right. cbn [loader lholds hold_left upd_ld]. split; auto; lia.
  - destruct ((i <? batch) && negb (eofbit (fstr s))) eqn:Q.
    + destruct (extract (fstr s)) as (v & f) eqn:X.
      eapply K; [cbn [step]; unfold loader_step; rewrite Hw, Q, X; reflexivity| | | | |]; auto. right. cbn [loader lholds hold_left upd_ld]. split; auto.
      apply andb_prop in Q as [Q _]. apply Nat.ltb_lt in Q. change batch with 100 in Q. lia.
    + eapply K; [cbn [step]; unfold loader_step; rewrite Hw, Q; reflexivity| | | | |]; auto.
  - eapply K; [cbn [step]; unfold loader_step; rewrite Hw; reflexivity| | | | |]; auto.
Qed.
Lemma cnt_idle rs : (forall p k, nth_error rs p = Some k -> k = RIdle) -> cnt rholds rs = 0.
Proof. intros H. induction rs as [|h t IH]; auto. unfold cnt in *; simpl. rewrite (H 0 h eq_refl); simpl. apply IH. intros p k Hp. apply (H (S p)); auto. Qed.
Lemma ipip_destroyable nr f s : reachable nr f s -> uninit_read s = false -> life s = LAlive ->
  (forall p k, nth_error (readers s) p = Some k -> k = RIdle) ->
  exists s1 ls s', step s LLife = Some s1 /\ run s1 ls = Some s' /\ life s' = LDead.
Proof.
  intros R Hu L Hi. destruct (reach_good _ _ _ R) as (_ & M & C). specialize (C Hu).
  assert (St : stop s = Some false).
  { pose proof (c_stop _ C) as Q. rewrite L in Q. simpl in Q. destruct (stop s) as [[|]|] eqn:E; try discriminate; auto.
    apply (c_stopinit _ C) in E. congruence. }
  assert (F : forallb is_idle (readers s) = true).
  { apply forallb_forall. intros k Hk. apply In_nth_error in Hk as (p & Hp). rewrite (Hi p k Hp). reflexivity. }
  set (s1 := upd_life s (stop s) (eoq s) LDAcquire (locked s) (overwritten s)).
  assert (E1 : step s LLife = Some s1) by (cbn [step]; unfold life_step; rewrite L, F; reflexivity).
  exists s1. assert (M1 : Mutex s1) by exact (mutex_step _ _ _ M E1). assert (C1 : Ctl s1) by exact (ctl_step _ _ _ M C E1 Hu).
  assert (X : exists ls s2, run s1 ls = Some s2 /\ lholds (loader s2) = 0 /\ life s2 = LDAcquire /\ stop s2 = Some false /\ readers s2 = readers s /\ uninit_read s2 = false).
  { destruct (lholds (loader s1)) as [|[|k]] eqn:Hl.
    - exists [], s1. cbn [run]. repeat split; auto.
    - destruct (free_lock (S (hold_left (loader s1))) s1) as (ls & s2 & A & B & D & G & H & U); auto.
      exists ls, s2. repeat split; auto. rewrite U. exact Hu.
    - destruct (loader s1); discriminate. }
  destruct X as (ls & s2 & R2 & F2 & L2 & S2 & Q2 & U2).
  assert (MC : Mutex s2 /\ Ctl s2).
  { clear F2 L2 S2 Q2. assert (KK : forall la a b, Mutex a -> Ctl a -> run a la = Some b -> uninit_read b = false -> Mutex b /\ Ctl b).
    { induction la as [|l t IH]; intros a b Ma Ca Ra Ub; cbn [run] in Ra; [injection Ra as <-; auto|].
      destruct (step a l) as [a1|] eqn:Ea; [|discriminate]. apply (IH a1); auto; [eapply mutex_step; eauto|].
      eapply ctl_step; eauto. destruct (uninit_read a1) eqn:Ux; auto. exfalso.
      assert (Y : uninit_read b = true); [|congruence]. clear - Ra Ux.
      refine (run_keep (fun z => uninit_read z = true) _ t a1 b Ux Ra). clear. intros z l z' Hz E.
      destruct (uninit_read z') eqn:Y; auto. apply (uninit_mono _ _ _ E) in Y. congruence. }
    eapply KK; eauto. }
  destruct MC as (M2 & C2).
  assert (Lk : locked s2 = false).
  { unfold Mutex in M2. rewrite F2, L2 in M2. rewrite cnt_idle in M2 by (rewrite Q2; auto). simpl in M2. destruct (locked s2); auto; discriminate. }
  set (s3 := upd_life s2 (stop s2) (eoq s2) LDHold true (overwritten s2)).
  assert (E3 : step s2 LLife = Some s3) by (cbn [step]; unfold life_step; rewrite L2, Lk; reflexivity).
  set (s4 := upd_life s3 (Some true) (Some true) LDNotifyIo false (overwritten s3)).
  assert (E4 : step s3 LLife = Some s4) by reflexivity.
  assert (M3 : Mutex s3) by exact (mutex_step _ _ _ M2 E3). assert (C3 : Ctl s3) by exact (ctl_step _ _ _ M2 C2 E3 U2).
  assert (M4 : Mutex s4) by exact (mutex_step _ _ _ M3 E4). assert (C4 : Ctl s4) by exact (ctl_step _ _ _ M3 C3 E4 U2).
  destruct (shut_finish (S (weight s4)) s4) as (l5 & s5 & R5 & D5); auto.
  exists (ls ++ LLife :: LLife :: l5), s5. split; auto. split; auto. eapply run_cat; eauto. cbn [run]. rewrite E3, E4. exact R5.
Qed.
