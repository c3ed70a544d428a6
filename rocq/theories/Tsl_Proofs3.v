(** Calls of the executor by other threads: what they push, and that they return. *)
From Verif Require Import Tsl_Model Tsl_Spec Tsl_Proofs Tsl_Proofs2.
From Coq Require Import List Arith Lia Bool.
Definition left_ (e : ext) : nat := match e with Psh _ r => r | _ => 0 end.
Lemma calling_pushes N k s s' : calling N k s s' -> ex s' k = Idle -> gq s' = gq s + left_ (ex s k) /\ lq s' = lq s /\ done s' = done s.
Proof.
  intros H. induction H as [s|s s1 s2 NI E H IH]; intros I; [rewrite I; cbn; auto|]. destruct (IH I) as (G & L & D). clear IH.
  inversion E; subst; cbn [gq lq done ex] in *; rewrite ?set_same in *; try congruence; cbn [left_] in *; try (destruct (N <=? n); cbn [left_] in *); repeat split; auto; try lia.
Qed.
Lemma submitted N s k n s0 s' : estep N s k Idle s0 -> ex s0 k = Psh n n -> calling N k s0 s' -> ex s' k = Idle ->
  gq s' = gq s + n /\ lq s' = lq s /\ done s' = done s.
Proof.
  intros E P H I. destruct (calling_pushes N k s0 s' H I) as (G & L & D). rewrite P in G; cbn [left_] in G.
  inversion E; subst; cbn [gq lq done ex] in *; rewrite ?set_same in *; try discriminate. auto.
Qed.
Lemma some_one N s : exists t, one N s t.
Proof.
  assert (H : forall m, (exists w, w < m /\ waiting (wk s w) = true /\ tok s w = false) \/ forall w, w < m -> waiting (wk s w) = true -> tok s w = true).
  { induction m as [|m [(w & L & H)|H]]; [right; intros; lia|left; exists w; split; auto|].
    destruct (waiting (wk s m)) eqn:W; [destruct (tok s m) eqn:T|].
    - right. intros w L HW. destruct (Nat.eq_dec w m); [subst; auto|apply H; auto; lia].
    - left. exists m. auto.
    - right. intros w L HW. destruct (Nat.eq_dec w m); [subst; congruence|apply H; auto; lia]. }
  destruct (H N) as [(w & L & W & T)|O]; eexists; [apply (o_some N s w); auto|apply o_none; auto].
Qed.
Lemma nt_returns N k j : forall s, ex s k = Nt j -> exists s', calling N k s s' /\ ex s' k = Idle.
Proof.
  induction j as [|j IH]; intros s E.
  - eexists. split; [eapply c_step; [congruence|rewrite E; apply e_ret|apply c_nil]|]. cbn. apply set_same.
  - destruct (some_one N s) as (t & T). edestruct IH as (s' & C & I); [|exists s'; split; [|exact I]; eapply c_step; [congruence|rewrite E; apply e_one; exact T|exact C]]. cbn. apply set_same.
Qed.
Lemma all_returns N k s : ex s k = NAll -> exists s', calling N k s s' /\ ex s' k = Idle.
Proof. intros E. eexists. split; [eapply c_step; [congruence|rewrite E; apply e_all|apply c_nil]|]. cbn. apply set_same. Qed.
Lemma push_returns N k n r : forall s, ex s k = Psh n r -> exists s', calling N k s s' /\ ex s' k = Idle.
Proof.
  induction r as [|r IH]; intros s E.
  - assert (Q : exists s', calling N k (mkS (gq s) (lq s) (thieves s) (actives s) (done s) (wk s) (tok s) (set (ex s) k (if N <=? n then NAll else Nt n))) s' /\ ex s' k = Idle).
    { destruct (N <=? n); [apply all_returns|eapply nt_returns]; cbn; apply set_same. }
    destruct Q as (s' & C & I). exists s'. split; [|exact I]. eapply c_step; [congruence|rewrite E; apply e_n|exact C].
  - edestruct IH as (s' & C & I); [|exists s'; split; [|exact I]; eapply c_step; [congruence|rewrite E; apply e_push|exact C]]. cbn. apply set_same.
Qed.
Lemma call_returns N s k : exists s', calling N k s s' /\ ex s' k = Idle.
Proof.
  destruct (ex s k) as [|n r|j|] eqn:E; [exists s; split; [apply c_nil|auto]|eapply push_returns; eauto|eapply nt_returns; eauto|apply all_returns; auto].
Qed.
Lemma queued_out N q w x : N <= w -> queued N (set q w x) = queued N q.
Proof. induction N as [|N IH]; intros H; cbn; auto. rewrite IH, set_other by lia. auto. Qed.
Lemma queued_set N q w x : w < N -> queued N (set q w x) + q w = queued N q + x.
Proof.
  induction N as [|N IH]; intros H; [lia|]. cbn. destruct (Nat.eq_dec w N) as [->|D].
  - rewrite queued_out, set_same by lia. lia.
  - rewrite set_other by lia. specialize (IH ltac:(lia)). lia.
Qed.
Definition pending (K : nat) (s : st) : nat := queued K (fun k => left_ (ex s k)).
Lemma queued_ext N q r : (forall i, i < N -> q i = r i) -> queued N q = queued N r.
Proof. induction N as [|N IH]; cbn; intros H; auto. rewrite IH, (H N); auto. Qed.
Lemma queued_left K (e : nat -> ext) k x : k < K -> queued K (fun j => left_ (set e k x j)) + left_ (e k) = queued K (fun j => left_ (e j)) + left_ x.
Proof.
  intros H. rewrite (queued_ext K _ (set (fun j => left_ (e j)) k (left_ x))).
  - apply (queued_set K (fun j => left_ (e j)) k (left_ x) H).
  - intros i _. unfold set. destruct (i =? k); auto.
Qed.
Lemma tally_inv N K a b s : tally N K a b s -> a = b + gq s + queued N (lq s) + pending K s.
Proof.
  intros H. induction H as [|a b s w s' H IH L E|a b s k s' H IH L E].
  - unfold pending. cbn. assert (Q : forall n, queued n (fun _ => 0) = 0) by (induction n; cbn; lia). rewrite !Q. auto.
  - unfold spawned, taken, pending in *. remember (wk s w) as p eqn:P. destruct E; cbn [gq lq ex wk] in *; rewrite ?set_same; rewrite <- ?P; try (rewrite set_other by auto);
      try (match goal with |- context [queued N (set ?q ?v ?x)] => pose proof (queued_set N q v x ltac:(assumption)) end);
      repeat match goal with |- context [if ?x <? ?y then _ else _] => destruct (Nat.ltb_spec x y) | |- context [if ?x then _ else _] => destruct x end; try lia.
  - unfold pending in *. remember (ex s k) as e eqn:P. destruct E; cbn [gq lq ex] in *; rewrite ?set_same;
      match goal with |- context [queued K (fun j => left_ (set ?e ?k ?x j))] => pose proof (queued_left K e k x L) as Q end; rewrite <- P in Q; cbn [left_ scheduled] in *; try (destruct (N <=? n); cbn [left_ scheduled] in *); lia.
Qed.
Lemma tally_reachable N K a b s : tally N K a b s -> reachable N s /\ forall k, K <= k -> ex s k = Idle.
Proof.
  intros H. induction H as [|a b s w s' H [R I] L E|a b s k s' H [R I] L E].
  - split; [apply r_init|auto].
  - split; [eapply r_work; eauto|]. intros k Hk. rewrite <- (I k Hk). destruct E; reflexivity.
  - split; [eapply r_ext; eauto|]. intros j Hj. rewrite <- (I j Hj). destruct E; cbn; apply set_other; lia.
Qed.
Lemma conserved N K a b s : tally N K a b s -> quiet s -> a = b + gq s + queued N (lq s).
Proof.
  intros T Q. rewrite (tally_inv N K a b s T). enough (pending K s = 0) by lia. unfold pending. rewrite (queued_ext K _ (fun _ => 0)).
  - clear. induction K; cbn; lia.
  - intros i _. rewrite (Q i). auto.
Qed.
Lemma all_taken N K a b s : N <> 0 -> tally N K a b s -> quiet s -> (forall w, w < N -> asleep s w) -> a = b.
Proof.
  intros Z T Q S. destruct (rest N s Z (proj1 (tally_reachable N K a b s T)) Q S) as (G & L & _). rewrite (conserved N K a b s T Q), G.
  enough (queued N (lq s) = 0) by lia. rewrite (queued_ext N _ (fun _ => 0)) by auto. clear. induction N; cbn; lia.
Qed.
