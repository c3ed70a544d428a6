(** Lemmas for C101: every step keeps the invariant. *)
From Verif Require Import Enc_Model Enc_Spec Enc_Proofs.
From Coq Require Import List Arith Lia Bool.
Import ListNotations.
Lemma tk_skip s w x t : ws s w = x -> ticket x = Some t -> t < ep (wd s) -> forall u, ticket (ws s w) = Some u -> u < ep (wd s).
Proof. intros -> E L u E'. congruence. Qed.
(** Whoever is on the stack afterwards was there or has just been pushed. *)
Definition from (l l' : list nat) (s : st) : Prop := forall w, In w l' -> In w l \/ exists t, ws s w = Cas t (wd s).
Ltac prv O Ex := apply private; auto; try discriminate; try (apply O; discriminate); try (left; now rewrite Ex); try exact Logic.I; try (right; split; auto; eapply tk_skip; eauto; reflexivity).
Lemma wait_inv l own s w s' : inv l own s -> wstep s w (ws s w) s' -> exists l', inv l' own s' /\ from l l' s.
Proof.
  intros I H. assert (F : from l l s) by (intros v J; now left).
  assert (O : ws s w <> Park -> out l own w) by (intros N; eapply out_awake; eauto). pose proof (i_sw _ _ _ I w) as Sw.
  remember (ws s w) as x eqn:Ex. symmetry in Ex. destruct H.
  - exists l. split; auto. now apply prep.
  - exists l. split; auto. prv O Ex; [cbn [snapw sig]; now rewrite set_same|]. intros v Nv. now rewrite set_other.
  - exists l. split; auto. prv O Ex.
  - exists l. auto.
  - exists l. split; auto. prv O Ex.
  - exists l. split; auto. prv O Ex. cbn [snapw sig] in *. auto.
  - exists l. split; auto. prv O Ex; [|eauto]. cbn [snapw sig next] in *. rewrite set_same. tauto.
  - subst x. exists (w :: l). split; [eapply push; eauto|]. intros v [<-|J]; [right; eauto|now left].
  - exists l. split; auto. prv O Ex. cbn [snapw sig] in *. tauto.
  - exists l. split; auto. prv O Ex. eapply out_sig; eauto.
  - exists l. auto.
  - exists l. split; auto. prv O Ex.
  - exists l. split; auto. prv O Ex.
  - subst x. exists l. split; auto. cbn [snapw] in Sw. assert (Lt : t < ep (wd s) + wc (wd s)) by (apply (i_lt _ _ _ I w); now rewrite Ex).
    assert (I2 := tick l own s (Undo w) I ltac:(lia) (fun v => eq_refl) eq_refl).
    apply (private _ _ _ w Away (sig s) (next s)) in I2; auto; try discriminate; [apply O; discriminate| |exact Logic.I]. cbn [wd ep ws]. right. split; auto. intros u. rewrite Ex. cbn [ticket]. intros [= <-]. lia.
  - exists l. split; auto. prv O Ex.
Qed.
Lemma own_rest l own s k : inv l own s -> owns (next s) (ns s k) [] -> (forall o, ns s k <> Unp o) -> (forall o, ns s k <> Null o) -> (forall v o, ns s k <> Sig v o) -> own k = [].
Proof. intros I O N1 N2 N3. pose proof (i_own _ _ _ I k) as X. destruct (ns s k); cbn [owns] in *; auto; [destruct (N2 w)|destruct (N1 o)|destruct (N3 w nx)]; reflexivity. Qed.
Lemma note_inv l own s k s' : inv l own s -> nstep s k (ns s k) s' -> exists l' own', inv l' own' s' /\ from l l' s.
Proof.
  intros I H. assert (F : from l l s) by (intros v J; now left).
  pose proof (i_sn _ _ _ I k) as Sn. pose proof (i_own _ _ _ I k) as Ok.
  remember (ns s k) as x eqn:Ex. symmetry in Ex. destruct H.
  - exists l, own. split; auto. apply noter; auto; exact Logic.I.
  - exists l, own. split; auto. apply noter; auto; exact Logic.I.
  - exists l, own. split; auto. apply noter; auto. destruct all; [exact Logic.I|]. cbn [snapn]. split; auto.
  - exists l, own. split; auto. apply noter; auto; exact Logic.I.
  - exists l, own. split; auto. apply noter; auto; exact Logic.I.
  - subst x. exists [], (set own k l). split; [|intros w []]. apply all_off; auto.
  - subst x. exists l, own. split; auto. assert (I2 := tick l own s One I H (fun v => eq_refl) eq_refl). apply (noter _ _ _ k Rest (One :: log s)) in I2; auto; exact Logic.I.
  - exists l, own. split; auto. apply noter; auto. cbn [snapn] in *. destruct Sn as (A & B). repeat split; auto. intros Q v Ev. destruct (B Q v H Ev) as [Y|Y]; auto. right. split; auto. congruence.
  - subst x. destruct (pop l own s k w nx I Ex H0) as (l' & -> & I'). exists l', (set own k [w]). split; auto. intros v J. left. now right.
  - exists l, own. split; auto. now apply clear.
  - exists l, own. split; auto. apply noter; auto; try exact Logic.I. cbn [owns] in *. destruct (own k); auto. now destruct Ok.
  - exists l, own. split; auto. apply noter; auto; try exact Logic.I. cbn [owns] in *. apply chain_head with (w := w) in Ok; auto.
  - destruct (signal l own s k w nx I Ex) as (l' & _ & I'). exists l, (set own k l'). auto.
Qed.
Lemma reach_inv e s : reachable e s -> exists l own, inv l own s.
Proof.
  induction 1 as [|s w s' R (l & own & I) H|s k s' R (l & own & I) H]; [exists [], (fun _ => []); apply init_inv|destruct (wait_inv _ _ _ _ _ I H) as (l' & I' & _)|destruct (note_inv _ _ _ _ _ I H) as (l' & own' & I' & _)]; eauto.
Qed.
(** The header's protocol only restricts the histories. *)
Lemma client_reach e p s : client e p s -> reachable e s.
Proof.
  induction 1; try (now constructor).
  - apply (r_note e s k); auto. rewrite H0. constructor.
  - apply (r_wait e s w); auto. now rewrite H0.
  - apply (r_wait e s w); auto. rewrite H0. constructor.
  - eapply r_wait; eauto.
  - eapply r_note; eauto.
Qed.
(** Quiet: nobody is being signalled. *)
Lemma quiet_own l own s w : inv l own s -> no_notify s -> blocked s w -> In w l.
Proof. intros I N (P & S0). destruct (i_cov _ _ _ I w P S0) as [J|(k & J)]; auto. pose proof (i_own _ _ _ I k) as O. rewrite (N k) in O. cbn [owns] in O. rewrite O in J. destruct J. Qed.
Lemma notify_all e s w : reachable e s -> no_notify s -> blocked s w -> told (log s) w = false.
Proof. intros R N B. destruct (reach_inv _ _ R) as (l & own & I). apply (i_told _ _ _ I). left. eapply quiet_own; eauto. Qed.
Lemma notify_one e s L : reachable e s -> no_notify s -> NoDup L -> (forall w, In w L -> blocked s w) -> length L <= owed (log s).
Proof. intros R N D B. destruct (reach_inv _ _ R) as (l & own & I). rewrite (i_owed _ _ _ I). pose proof (NoDup_incl_length D (fun w J => quiet_own _ _ _ w I N (B w J))). lia. Qed.
Lemma exact e s : reachable e s -> no_notify s -> (forall w, ws s w = Away \/ ws s w = Park) -> exists L, NoDup L /\ (forall w, In w L <-> blocked s w) /\ length L = owed (log s).
Proof.
  intros R N B. destruct (reach_inv _ _ R) as (l & own & I). exists l. split; [apply I|split].
  - intros w. split; [apply (i_park _ _ _ I)|eapply quiet_own; eauto].
  - rewrite (i_owed _ _ _ I). destruct (wc (wd s)) as [|c] eqn:W; auto. destruct (i_all _ _ _ I (ep (wd s))) as (v & E); [lia|]. destruct (B v) as [Q|Q]; rewrite Q in E; discriminate.
Qed.
(** The events are sound: nobody is found only if nobody is owed a notification, and somebody is if one is used up. *)
Definition sound (lg : list event) : Prop := forall l1 e l2, lg = l1 ++ e :: l2 -> match e with Nobody => owed l2 = 0 | One | Undo _ => owed l2 <> 0 | _ => True end.
Lemma sound_cons e lg : sound lg -> match e with Nobody => owed lg = 0 | One | Undo _ => owed lg <> 0 | _ => True end -> sound (e :: lg).
Proof. intros S0 H [|a l1] b l2; cbn [app]; intros [= -> ->]; auto. exact (S0 l1 b l2 eq_refl). Qed.
Lemma sounds e s : reachable e s -> sound (log s).
Proof.
  induction 1 as [|s w s' R IH H|s k s' R IH H].
  - intros [|a l1] b l2; discriminate.
  - destruct (reach_inv _ _ R) as (l & own & I). pose proof (i_sw _ _ _ I w) as Sw. remember (ws s w) as x eqn:Ex. symmetry in Ex. destruct H; cbn [log]; auto; apply sound_cons; auto.
    subst x. rewrite (i_owed _ _ _ I). cbn [snapw] in Sw. assert (Lt : t < ep (wd s) + wc (wd s)) by (apply (i_lt _ _ _ I w); now rewrite Ex). lia.
  - destruct (reach_inv _ _ R) as (l & own & I). remember (ns s k) as x eqn:Ex. symmetry in Ex. destruct H; cbn [log]; auto; apply sound_cons; auto; rewrite (i_owed _ _ _ I).
    + unfold empty in H. pose proof (i_chain _ _ _ I) as C. destruct (stk (wd s)); [discriminate|]. apply Nat.eqb_eq in H. destruct l; [cbn [length]; lia|]. destruct C; discriminate.
    + subst x. lia.
    + subst x. pose proof (i_chain _ _ _ I) as C. destruct l; [cbn [chain] in C; congruence|cbn [length]; lia].
Qed.
(** The asserts of lines 123 and 152. *)
Lemma asserts e s w t : reachable e s -> ws s w = Com t \/ ws s w = Can t -> t = ep (wd s) -> wc (wd s) <> 0.
Proof. intros R E ->. destruct (reach_inv _ _ R) as (l & own & I). assert (ep (wd s) < ep (wd s) + wc (wd s)); [|lia]. apply (i_lt _ _ _ I w). destruct E as [-> | ->]; reflexivity. Qed.
Lemma a_one w s s1 s2 x : ws s w = x -> wstep s w x s1 -> alone w s1 s2 -> alone w s s2.
Proof. intros <-. apply a_step. Qed.
Lemma run_com s v t : ws s v = Com t -> t <= ep (wd s) -> exists s', alone v s s' /\ outside (ws s' v).
Proof.
  intros E L. destruct (Nat.eq_dec t (ep (wd s))) as [Q|Q].
  - eexists. split; [eapply a_one; [exact E|apply w_turn; auto|]; eapply a_one; [cbn [ws]; apply set_same|apply w_store|]; eapply a_one; [cbn [ws]; apply set_same|apply w_cas; reflexivity|]; apply a_nil|]. cbn [ws]. rewrite set_same. now right.
  - eexists. split; [eapply a_one; [exact E|apply w_skip; lia|]; apply a_nil|]. cbn [ws]. rewrite set_same. now left.
Qed.
Lemma run_can s v t : ws s v = Can t -> t <= ep (wd s) -> exists s', alone v s s' /\ outside (ws s' v).
Proof.
  intros E L. destruct (Nat.eq_dec t (ep (wd s))) as [Q|Q].
  - eexists. split; [eapply a_one; [exact E|apply w_cturn; auto|]; eapply a_one; [cbn [ws]; apply set_same|apply w_ccas; reflexivity|]; apply a_nil|]. cbn [ws]. rewrite set_same. now left.
  - eexists. split; [eapply a_one; [exact E|apply w_cskip; lia|]; apply a_nil|]. cbn [ws]. rewrite set_same. now left.
Qed.
(** The waiter whose turn it is returns or sleeps when it runs alone. *)
Lemma run_turn s v t : ticket (ws s v) = Some t -> t <= ep (wd s) -> (forall u, ws s v <> Pre u) -> exists s', alone v s s' /\ outside (ws s' v).
Proof.
  intros E L N. destruct (ws s v) eqn:W; cbn [ticket] in E; try discriminate; injection E as ->.
  - now destruct (N t).
  - eapply run_com; eauto.
  - destruct (run_com (mkS (wd s) (next (mkS (wd s) (set (next s) v (stk x)) (sig s) (set (ws s) v (Cas t x)) (ns s) (log s))) (sig s) (set (set (ws s) v (Cas t x)) v (Com t)) (ns s) (log s)) v t) as (s' & A & B); [cbn [ws]; apply set_same|exact L|]. exists s'. split; auto.
    eapply a_one; [exact W|apply w_store|]. eapply a_one; [cbn [ws]; apply set_same|apply w_fail|]. exact A.
  - destruct (run_com (mkS (wd s) (next s) (sig s) (set (ws s) v (Com t)) (ns s) (log s)) v t) as (s' & A & B); [cbn [ws]; apply set_same|exact L|]. exists s'. split; auto. eapply a_one; [exact W|apply w_fail|exact A].
  - eapply run_can; eauto.
  - destruct (run_can (mkS (wd s) (next s) (sig s) (set (ws s) v (Can t)) (ns s) (log s)) v t) as (s' & A & B); [cbn [ws]; apply set_same|exact L|]. exists s'. split; auto. eapply a_one; [exact W|apply w_cfail|exact A].
Qed.
Lemma live e s w : reachable e s -> (forall v t, ws s v <> Pre t) -> ~ outside (ws s w) -> exists v s', ~ outside (ws s v) /\ alone v s s' /\ outside (ws s' v).
Proof.
  intros R N O. destruct (reach_inv _ _ R) as (l & own & I).
  assert (T : exists t, ticket (ws s w) = Some t) by (unfold outside in O; destruct (ws s w); cbn [ticket]; eauto; tauto). destruct T as (t & T).
  destruct (le_lt_dec t (ep (wd s))) as [L|L].
  - destruct (run_turn s w t T L (N w)) as (s' & A & B). exists w, s'. auto.
  - destruct (i_all _ _ _ I (ep (wd s))) as (v & E); [pose proof (i_lt _ _ _ I w t T); lia|]. destruct (run_turn s v _ E (le_n _) (N v)) as (s' & A & B). exists v, s'. repeat split; auto. intros [Q|Q]; rewrite Q in E; discriminate.
Qed.
Lemma an_one k s s1 s2 x : ns s k = x -> nstep s k x s1 -> alonen k s1 s2 -> alonen k s s2.
Proof. intros <-. apply an_step. Qed.
Lemma serve_sig k w n : forall s v o l, length l <= n -> ns s k = Sig v o -> chain (next s) o l -> In w (v :: l) -> exists s', alonen k s s' /\ sig s' w = true.
Proof.
  induction n as [|n IH]; intros s v o l L E C J.
  - destruct l; [|cbn [length] in L; lia]. destruct J as [<-|[]]. eexists. split; [eapply an_one; [exact E|apply n_sig|apply an_nil]|]. cbn [sig]. apply set_same.
  - destruct (Nat.eq_dec v w) as [->|Nv]; [eexists; split; [eapply an_one; [exact E|apply n_sig|apply an_nil]|]; cbn [sig]; apply set_same|].
    destruct J as [J|J]; [congruence|]. destruct l as [|u l]; [destruct J|]. cbn [chain] in C. destruct C as (-> & C). cbn [length] in L.
    destruct (IH (mkS (wd s) (next s) (set (sig s) v true) (ws s) (set (set (ns s) k (Unp (Some u))) k (Sig u (next s u))) (log s)) u (next s u) l) as (s' & A & B); [lia|cbn [ns]; apply set_same|exact C|exact J|].
    exists s'. split; auto. eapply an_one; [exact E|apply n_sig|]. eapply an_one; [cbn [ns]; apply set_same|apply n_walk|]. exact A.
Qed.
Lemma serve_unp k w s o l : ns s k = Unp o -> chain (next s) o l -> In w l -> exists s', alonen k s s' /\ sig s' w = true.
Proof.
  intros E C J. destruct l as [|u l]; [destruct J|]. cbn [chain] in C. destruct C as (-> & C).
  destruct (serve_sig k w (length l) (mkS (wd s) (next s) (sig s) (ws s) (set (ns s) k (Sig u (next s u))) (log s)) u (next s u) l) as (s' & A & B); auto; [cbn [ns]; apply set_same|].
  exists s'. split; auto. eapply an_one; [exact E|apply n_walk|exact A].
Qed.
Lemma owned l own s w : inv l own s -> blocked s w -> ~ In w l -> exists k s', alonen k s s' /\ sig s' w = true.
Proof.
  intros I (P & S0) T. destruct (i_cov _ _ _ I w P S0) as [J|(k & J)]; [contradiction|].
  exists k. pose proof (i_own _ _ _ I k) as O. destruct (ns s k) as [| | | |v|o|v o] eqn:E; cbn [owns] in O; try (rewrite O in J; destruct J; fail).
  - rewrite O in J. destruct J as [->|[]]. destruct (serve_unp k w (mkS (wd s) (set (next s) w None) (sig s) (ws s) (set (ns s) k (Unp (Some w))) (log s)) (Some w) [w]) as (s' & A & B); [cbn [ns]; apply set_same|cbn [next chain]; now rewrite set_same|now left|]. exists s'. split; auto. eapply an_one; [exact E|apply n_null|exact A].
  - eapply serve_unp; eauto.
  - destruct O as (l' & Ol & C). rewrite Ol in J. eapply serve_sig; eauto.
Qed.
Lemma served e s w : reachable e s -> blocked s w -> told (log s) w = true -> exists k s', alonen k s s' /\ sig s' w = true.
Proof. intros R B T. destruct (reach_inv _ _ R) as (l & own & I). eapply owned; eauto. intros J. rewrite (i_told _ _ _ I w) in T; [discriminate|now left]. Qed.
(** The header's protocol. *)
Definition late (x : wst) : option nat := match x with Com t | Str t _ | Cas t _ => Some t | _ => None end.
Definition busy (s : st) : Prop := exists k, ns s k = Load true \/ exists x, ns s k = Have true x.
Definition cinv (p : bool) (s : st) : Prop := exists l own, inv l own s /\ (p = true -> forall w, In w l \/ (exists t, late (ws s w) = Some t /\ ep (wd s) <= t) -> busy s).
Lemma wait_late s w s' v t : wstep s w (ws s w) s' -> (forall u, ws s w <> Pre u) -> late (ws s' v) = Some t -> ep (wd s') <= t -> late (ws s v) = Some t /\ ep (wd s) <= t.
Proof.
  intros H N E L. remember (ws s w) as x eqn:Ex. symmetry in Ex. destruct H; cbn [ws wd ep] in *; try (now destruct (N t0)); auto;
  try (destruct (Nat.eq_dec v w) as [->|Nv]; [rewrite set_same in E; cbn [late] in E; try discriminate; injection E as <-; rewrite Ex; cbn [late]; split; auto; subst; lia|rewrite set_other in E by auto; split; auto; subst; lia]).
Qed.
Lemma wait_ns s w x s' : wstep s w x s' -> ns s' = ns s.
Proof. now destruct 1. Qed.
Lemma note_late s k x s' : nstep s k x s' -> ws s' = ws s /\ ep (wd s) <= ep (wd s').
Proof. destruct 1; cbn [ws wd ep]; subst; split; auto; lia. Qed.
Lemma late_ticket x t : late x = Some t -> ticket x = Some t.
Proof. destruct x; cbn [late ticket]; congruence. Qed.
Lemma client_inv e p s : client e p s -> cinv p s.
Proof.
  induction 1 as [|p s k C IH E|s w t s' C IH E H|p s w t C IH E|p s w s' C IH N H|p s k s' C IH N H].
  - exists [], (fun _ => []). split; [apply init_inv|discriminate].
  - destruct IH as (l & own & I & _). exists l, own. split.
    + apply noter; auto; [|exact Logic.I]. pose proof (i_own _ _ _ I k) as O. rewrite E in O. exact O.
    + intros _ w _. exists k. left. cbn [ns]. apply set_same.
  - destruct IH as (l & own & I & _). assert (H' : wstep s w (ws s w) s') by now rewrite E. destruct (wait_inv _ _ _ _ _ I H') as (l' & I' & _). exists l', own. split; auto. discriminate.
  - destruct IH as (l & own & I & B). destruct (wait_inv _ _ _ w (mkS (wd s) (next s) (sig s) (set (ws s) w (Can t)) (ns s) (log s)) I) as (l' & I' & F); [rewrite E; constructor|]. exists l', own. split; auto. intros Q v J. apply (B Q v). cbn [ws wd] in J. destruct J as [J|(u & E1 & L)].
    + destruct (F v J) as [J'|(u & E')]; auto. right. exists u. rewrite E'. split; auto. pose proof (i_sw _ _ _ I v) as X. rewrite E' in X. cbn [snapw] in X. lia.
    + right. exists u. destruct (Nat.eq_dec v w) as [->|Nv]; [rewrite set_same in E1; discriminate|rewrite set_other in E1; auto].
  - destruct IH as (l & own & I & B). destruct (wait_inv _ _ _ _ _ I H) as (l' & I' & F). exists l', own. split; auto. intros Q v J.
    assert (X : busy s). { apply (B Q v). destruct J as [J|(u & E1 & L)]; [|right; exists u; eapply wait_late; eauto]. destruct (F v J) as [J'|(u & E')]; auto. right. exists u. rewrite E'. split; auto. pose proof (i_sw _ _ _ I v) as X. rewrite E' in X. cbn [snapw] in X. lia. }
    unfold busy. now rewrite (wait_ns _ _ _ _ H).
  - destruct IH as (l & own & I & B). destruct (note_inv _ _ _ _ _ I H) as (l' & own' & I' & F). exists l', own'. split; auto. intros Q v J.
    assert (X : busy s). { apply (B Q v). destruct (note_late _ _ _ _ H) as (Hw & He). destruct J as [J|(u & E1 & L)]; [|right; exists u; rewrite Hw in E1; split; auto; lia]. destruct (F v J) as [J'|(u & E')]; auto. right. exists u. rewrite E'. split; auto. pose proof (i_sw _ _ _ I v) as X. rewrite E' in X. cbn [snapw] in X. lia. }
    assert (Em : stk (wd s') = None -> wc (wd s') = 0 -> False). { intros S0 W0. destruct J as [J|(u & E1 & L)]; [pose proof (i_chain _ _ _ I') as Ch; destruct l'; [destruct J|destruct Ch; congruence]|]. apply late_ticket in E1. apply (i_lt _ _ _ I') in E1. lia. }
    destruct X as (j & X). destruct (Nat.eq_dec j k) as [->|Nj].
    + remember (ns s k) as y eqn:Ey. symmetry in Ey. destruct H; cbn [wd stk wc] in Em; try (destruct X as [X|(? & X)]; discriminate); cbn [ns].
      * destruct Em; unfold empty in H; destruct (stk (wd s)); try discriminate; auto. now apply Nat.eqb_eq.
      * destruct X as [[= ->]|(? & X)]; [|discriminate]. exists k. right. cbn [ns]. rewrite set_same. eauto.
      * destruct X as [X|(? & [= -> _])]; [discriminate|]. exists k. left. cbn [ns]. now rewrite set_same.
      * now destruct Em.
    + exists j. enough (Q' : ns s' j = ns s j) by now rewrite Q'. destruct H; cbn [ns]; now rewrite set_other.
Qed.
Lemma no_lost e s w : client e true s -> blocked s w -> ~ no_notify s.
Proof. intros C B N. destruct (client_inv _ _ _ C) as (l & own & I & H). destruct (H eq_refl w) as (k & [K|(x & K)]); [left; eapply quiet_own; eauto|rewrite (N k) in K; discriminate|rewrite (N k) in K; discriminate]. Qed.
(** The counter never exceeds the number of waiters in use. *)
Lemma tickets l own s n : inv l own s -> n <= wc (wd s) -> exists L, NoDup L /\ length L = n /\ forall w, In w L -> exists t, ticket (ws s w) = Some t /\ ep (wd s) <= t < ep (wd s) + n.
Proof.
  intros I. induction n as [|n IH]; intros H; [exists []; repeat split; [constructor|intros w []]|]. destruct IH as (L & D & Len & J); [lia|]. destruct (i_all _ _ _ I (ep (wd s) + n)) as (v & E); [lia|].
  exists (v :: L). repeat split; [constructor; auto|cbn [length]; lia|].
  - intros K. destruct (J v K) as (t & E' & R). rewrite E in E'. injection E' as <-. lia.
  - intros w [<-|K]; [exists (ep (wd s) + n); split; auto; lia|]. destruct (J w K) as (t & E' & R). exists t. split; auto; lia.
Qed.
Lemma few e s N : reachable e s -> (forall w, N <= w -> ws s w = Away) -> wc (wd s) <= N /\ forall i, stk (wd s) = Some i -> i < N.
Proof.
  intros R U. destruct (reach_inv _ _ R) as (l & own & I). split.
  - destruct (tickets l own s (wc (wd s)) I (le_n _)) as (L & D & <- & J). rewrite <- (seq_length N 0). apply NoDup_incl_length; auto. intros w K. apply in_seq. destruct (le_lt_dec N w) as [Q|Q]; [|lia]. destruct (J w K) as (t & E & _). rewrite (U w Q) in E. discriminate.
  - intros i E. destruct (chain_head _ _ _ i (i_chain _ _ _ I) E) as (l' & -> & _). destruct (i_park _ _ _ I i) as (P & _); [now left|]. destruct (le_lt_dec N i) as [Q|Q]; auto. rewrite (U i Q) in P. discriminate.
Qed.
(** A waiter never is more than the counter ahead of the epoch. *)
Lemma ahead e s w t : reachable e s -> ticket (ws s w) = Some t -> t < ep (wd s) + wc (wd s).
Proof. intros R. destruct (reach_inv _ _ R) as (l & own & I). apply (i_lt _ _ _ I). Qed.
(** Any number of rounds of prepare_wait and cancel_wait by another waiter. *)
Lemma round e s : reachable e s -> ws s 1 = Away -> wc (wd s) = 0 -> exists s', reachable e s' /\ ws s' 1 = Away /\ ws s' 0 = ws s 0 /\ wc (wd s') = 0 /\ stk (wd s') = stk (wd s) /\ ep (wd s') = S (ep (wd s)) /\ owed (log s') = owed (log s).
Proof.
  intros R A W. eexists. split.
  - eapply (r_wait e _ 1); [eapply (r_wait e _ 1); [eapply (r_wait e _ 1); [eapply (r_wait e _ 1); [exact R|rewrite A; apply w_prep]|]|]|].
    + cbn [ws]. rewrite set_same. apply w_cancel.
    + cbn [ws]. rewrite set_same. apply w_cturn. cbn [wd ep]. lia.
    + cbn [ws]. rewrite set_same. apply w_ccas. reflexivity.
  - cbn [ws wd ep wc stk log owed]. rewrite set_same. repeat split; auto; try lia.
Qed.
Lemma rounds e n s : reachable e s -> ws s 1 = Away -> wc (wd s) = 0 -> exists s', reachable e s' /\ ws s' 1 = Away /\ ws s' 0 = ws s 0 /\ wc (wd s') = 0 /\ stk (wd s') = stk (wd s) /\ ep (wd s') = ep (wd s) + n /\ owed (log s') = owed (log s).
Proof.
  intros R A W. induction n as [|n (s1 & R1 & A1 & Z1 & W1 & K1 & E1 & O1)]; [exists s; repeat split; auto; lia|].
  destruct (round e s1 R1 A1 W1) as (s2 & R2 & A2 & Z2 & W2 & K2 & E2 & O2). exists s2. repeat split; auto; try congruence. lia.
Qed.
(** Waiter 0 has prepared and been notified, n + 1 epochs ago, and goes to sleep. *)
Lemma behind e n : exists s, reachable e s /\ ws s 0 = Com e /\ wc (wd s) = 0 /\ stk (wd s) = None /\ ep (wd s) = e + S n /\ owed (log s) = 0.
Proof.
  assert (X : exists s, reachable e s /\ ws s 0 = Com e /\ ws s 1 = Away /\ wc (wd s) = 0 /\ stk (wd s) = None /\ ep (wd s) = S e /\ owed (log s) = 0).
  { eexists. split.
    - eapply (r_wait e _ 0); [eapply (r_note e _ 0); [eapply (r_note e _ 0); [eapply (r_note e _ 0); [eapply (r_wait e _ 0); [apply r_init|apply w_prep]|apply (n_call _ _ false)]|]|]|].
      + cbn [ns]. rewrite set_same. apply n_load. reflexivity.
      + cbn [ns]. rewrite set_same. apply n_pre; [discriminate|reflexivity].
      + cbn [ws]. rewrite set_same. apply w_commit.
    - cbn [ws wd ep wc stk log owed init]. rewrite set_same. rewrite !set_other by lia. rewrite Nat.add_0_r. repeat split; auto. }
  destruct X as (s & R & Z & A & W & K & E & O). destruct (rounds e n s R A W) as (s' & R' & A' & Z' & W' & K' & E' & O'). exists s'. repeat split; auto; try congruence. lia.
Qed.
