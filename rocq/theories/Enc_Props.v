(** C101: tf::Notifier never loses a wake-up. *)
From Verif Require Import Enc_Model Enc_Spec Encw_Model Encw_Spec Enc_Proofs Enc_Proofs2 Enc_Proofs3 Encw_Proofs.
From Coq Require Import List Arith ZArith Lia.
Import ListNotations.
(** Once no notify is under way, nobody sleeps who had prepared to wait before some notify(true) took effect: it covers the sleeping, those about to sleep and those that have not decided yet. *)
Theorem C101_notify_all e s w : reachable e s -> no_notify s -> blocked s w -> told (log s) w = false.
Proof. apply notify_all. Qed.
(** And at most as many sleep as prepared, less those that took it back and those notified one by one: a notify(false) never is spent on nobody. *)
Theorem C101_notify_one e s L : reachable e s -> no_notify s -> NoDup L -> (forall w, In w L -> blocked s w) -> length L <= owed (log s).
Proof. apply notify_one. Qed.
(** When nobody is inside a call, exactly that many sleep: no notification is lost and none wakes two. *)
Theorem C101_exact e s : reachable e s -> no_notify s -> (forall w, outside (ws s w)) -> exists L, NoDup L /\ (forall w, In w L <-> blocked s w) /\ length L = owed (log s).
Proof. apply exact. Qed.
(** A notify that finds nobody is right, whenever it happens; one that is used up, and a cancel that takes effect, were owed. *)
Theorem C101_events e s l1 a l2 : reachable e s -> log s = l1 ++ a :: l2 -> match a with Nobody => owed l2 = 0 | One | Undo _ => owed l2 <> 0 | Prep _ | All => True end.
Proof. intros R E. pose proof (sounds e s R l1 a l2 E) as S0. destruct a; auto. Qed.
(** A sleeping waiter that a notify(true) covers is signalled by one of the threads in notify even if only that thread runs. *)
Theorem C101_served e s w : reachable e s -> blocked s w -> told (log s) w = true -> exists k s', alonen k s s' /\ sig s' w = true.
Proof. apply served. Qed.
(** The protocol of the header: with the predicate true and every notify returned, nobody sleeps. *)
Theorem C101_no_lost_wakeup e s w : client e true s -> no_notify s -> ~ blocked s w.
Proof. intros C N B. exact (no_lost e s w C B N). Qed.
(** The protocol is one way to use the class. *)
Theorem C101_client e p s : client e p s -> reachable e s.
Proof. apply client_reach. Qed.
(** The waiters that wait for their turn do not wait for each other: if all have decided, one of them returns or sleeps when it runs alone. *)
Theorem C101_turns e s w : reachable e s -> (forall v t, ws s v <> Pre t) -> ~ outside (ws s w) -> exists v s', ~ outside (ws s v) /\ alone v s s' /\ outside (ws s' v).
Proof. apply live. Qed.
(** The notifier behaves as an event count in one piece: a set of waiters to which prepare_wait adds and from which cancel_wait takes the caller, notify(false) one member if there is one and notify(true) all; a call returns as notified only if the waiter is not in the set; a sleeper outside the set is signalled as soon as one notifying thread runs. *)
Theorem C101_refines e : exists sim : st -> (nat -> Prop) -> Prop, sim (init e) (fun _ => False) /\
  (forall s A w s', sim s A -> wstep s w (ws s w) s' -> exists A', astep A (wact s w s') A' /\ sim s' A') /\ (forall s A k s', sim s A -> nstep s k (ns s k) s' -> exists A', astep A (nact s s') A' /\ sim s' A') /\
  (forall s A w, sim s A -> A w -> ws s w <> Away) /\ (forall s A w, sim s A -> ~ A w -> blocked s w -> exists k s', alonen k s s' /\ sig s' w = true).
Proof. exists sim. split; [apply init_sim|]. split; [exact wait_sim|]. split; [exact note_sim|]. split; [exact sim_in|exact sim_out]. Qed.
(** The assertions of commit_wait and cancel_wait hold. *)
Theorem C101_asserts e s w t : reachable e s -> ws s w = Com t \/ ws s w = Can t -> t = ep (wd s) -> wc (wd s) <> 0.
Proof. apply asserts. Qed.
(** The bit arithmetic on the 64-bit word computes these fields, for a notifier of N waiters (as the constructor asserts, N < 65535): a waiter's turn is judged rightly as long as it is less than 2^31 epochs behind. *)
Theorem C101_word e s N : reachable e s -> (forall w, N <= w -> ws s w = Away) -> (Z.of_nat N < 65535)%Z ->
  let x := wd s in
  b_prepare (enc x) = enc (mkW (ep x) (S (wc x)) (stk x)) /\ b_epoch (enc x) = tick64 (ep x + wc x) /\
  (forall w t, ws s w = Com t \/ ws s w = Can t -> (Z.of_nat (ep x) - Z.of_nat t < 2 ^ 31)%Z -> b_diff (enc x) (tick64 t) = ((Z.of_nat (ep x) - Z.of_nat t) * 2 ^ 32)%Z) /\
  b_some (enc x) = negb (wc x =? 0) /\ b_top (enc x) = option_map Z.of_nat (stk x) /\ b_empty (enc x) = empty x /\ b_waiters (enc x) = Z.of_nat (wc x) /\
  (wc x <> 0 -> forall i, i < N -> b_commit (enc x) (Z.of_nat i) = enc (mkW (S (ep x)) (wc x - 1) (Some i))) /\
  (wc x <> 0 -> b_cancel (enc x) = enc (mkW (S (ep x)) (wc x - 1) (stk x))) /\ (wc x <> 0 -> b_one (enc x) = enc (mkW (S (ep x)) (wc x - 1) (stk x))) /\
  b_all (enc x) = enc (mkW (ep x + wc x) 0 None) /\ (forall nx, (forall i, nx = Some i -> i < N) -> b_pop (enc x) (option_map Z.of_nat nx) = enc (mkW (ep x) 0 nx)).
Proof.
  intros R U HN x. destruct (few e s N R U) as (Hw & Hs). fold x in Hw, Hs. assert (F : fits x) by (split; [lia|intros i E; apply Hs in E; lia]).
  split; [apply word_prepare; auto; lia|]. split; [now apply word_epoch|]. split.
  { intros w t E L. apply word_diff; auto. split; auto. assert (T : ticket (ws s w) = Some t) by (destruct E as [-> | ->]; reflexivity). apply (ahead e s w t R) in T. fold x in T. lia. }
  split; [now apply word_some|]. split; [now apply word_top|]. split; [now apply word_empty|]. split; [now apply word_waiters|]. split; [intros Nz i Hi; apply word_commit; auto; lia|].
  split; [intros Nz; now apply word_cancel|]. split; [intros Nz; now apply word_one|]. split; [now apply word_all|]. intros nx Hx. apply word_pop; auto. intros i E. apply Hx in E. lia.
Qed.
(** The constructor makes such a word, for the epoch C101's histories may start with. *)
Theorem C101_constructor n : (0 <= n < 65535)%Z -> b_init n = enc (wd (init (Z.to_nat (2 ^ 32 - 1 - 2 * n)))).
Proof. apply word_init. Qed.
(** Beyond that lag the claim fails: a waiter that has been notified, and is 2^31 epochs behind, finds it is not its turn yet, and spins. *)
Theorem C101_epoch_wrap_refuted : ~ forall e s w t, reachable e s -> ws s w = Com t -> t < ep (wd s) -> (0 < b_diff (enc (wd s)) (tick64 t))%Z.
Proof.
  intros H. destruct (behind 0 (Z.to_nat (2 ^ 31 - 1))) as (s & R & Z0 & W & K & E & O). assert (E' : Z.of_nat (ep (wd s)) = (Z.of_nat 0 + 2 ^ 31)%Z) by (rewrite E; rewrite Nat.add_0_l, Nat2Z.inj_succ, Z2Nat.id; lia).
  specialize (H 0 s 0 0 R Z0 ltac:(lia)). assert (F : fits (wd s)) by (split; [rewrite W; reflexivity|intros i Q; congruence]). pose proof (word_wrap (wd s) 0 F E'). lia.
Qed.
Print Assumptions C101_notify_all.
Print Assumptions C101_notify_one.
Print Assumptions C101_exact.
Print Assumptions C101_events.
Print Assumptions C101_served.
Print Assumptions C101_no_lost_wakeup.
Print Assumptions C101_client.
Print Assumptions C101_turns.
Print Assumptions C101_refines.
Print Assumptions C101_asserts.
Print Assumptions C101_word.
Print Assumptions C101_constructor.
Print Assumptions C101_epoch_wrap_refuted.
