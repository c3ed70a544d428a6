(** Histories that meet the hypotheses of C101. *)
From Verif Require Import Enc_Model Enc_Spec Encw_Model Encw_Spec Enc_Proofs Enc_Proofs2 Enc_Props.
From Coq Require Import List Arith ZArith Lia.
Import ListNotations.
(** A waiter that found the predicate false goes to sleep, nobody else being inside a call. *)
Lemma sleeps e s w : client e false s -> ws s w = Away -> wc (wd s) = 0 ->
  exists s', client e false s' /\ wd s' = mkW (S (ep (wd s))) 0 (Some w) /\ next s' = set (next s) w (stk (wd s)) /\ sig s' = set (sig s) w false /\ (forall v, ws s' v = if v =? w then Park else ws s v) /\ ns s' = ns s /\ log s' = Prep w :: log s.
Proof.
  intros C A W. eexists. split.
  - eapply (c_wait e false _ w); [eapply (c_wait e false _ w); [eapply (c_wait e false _ w); [eapply (c_commit e _ w (ep (wd s) + wc (wd s))); [eapply (c_wait e false _ w); [exact C| |rewrite A; apply w_prep]| |apply w_commit]| |]| |]| |].
    + intros t. congruence.
    + cbn [ws]. now rewrite set_same.
    + intros t. cbn [ws]. rewrite set_same. discriminate.
    + cbn [ws]. rewrite set_same. apply w_turn. cbn [wd ep]. lia.
    + intros t. cbn [ws]. rewrite set_same. discriminate.
    + cbn [ws]. rewrite set_same. apply w_store.
    + intros t. cbn [ws]. rewrite set_same. discriminate.
    + cbn [ws]. rewrite set_same. apply w_cas. reflexivity.
  - cbn [wd next sig ws ns log ep wc stk]. rewrite W. repeat split; auto. intros v. unfold set. now destruct (v =? w).
Qed.
Lemma two : exists s, client 7 false s /\ wd s = mkW 9 0 (Some 1) /\ next s 1 = Some 0 /\ next s 0 = None /\ blocked s 0 /\ blocked s 1 /\ (forall w, outside (ws s w)) /\ no_notify s /\ log s = [Prep 1; Prep 0].
Proof.
  destruct (sleeps 7 (init 7) 0 (c_init 7) eq_refl eq_refl) as (s1 & C1 & W1 & X1 & G1 & S1 & K1 & L1).
  destruct (sleeps 7 s1 1 C1) as (s2 & C2 & W2 & X2 & G2 & S2 & K2 & L2); [now rewrite S1|now rewrite W1|].
  exists s2. split; auto. rewrite W2, W1, X2, X1, L2, L1, W1. split; [reflexivity|]. split; [reflexivity|]. split; [reflexivity|]. unfold blocked. rewrite !S2, !S1, G2, G1. split; [now split|]. split; [now split|]. split; [|split; [|reflexivity]].
  - intros w. rewrite S2, S1. destruct (w =? 1); [now right|]. destruct (w =? 0); [now right|now left].
  - intros k. rewrite K2, K1. reflexivity.
Qed.
(** Two sleep and nobody is inside a call: C101_notify_all, C101_notify_one, C101_exact and C101_word speak of such a state. *)
Example c101_two : exists s, reachable 7 s /\ no_notify s /\ (forall w, outside (ws s w)) /\ blocked s 0 /\ blocked s 1 /\ owed (log s) = 2.
Proof. destruct two as (s & C & W & X1 & X0 & B0 & B1 & O & N & L). exists s. rewrite L. split; [eapply client_reach; eauto|]. auto. Qed.
(** notify(true) has taken effect and has not signalled them yet: C101_served. *)
Example c101_told : exists s, reachable 7 s /\ blocked s 0 /\ blocked s 1 /\ told (log s) 0 = true.
Proof.
  destruct two as (s & C & W & X1 & X0 & B0 & B1 & O & N & L). eexists. split.
  - eapply (r_note 7 _ 0); [eapply (r_note 7 _ 0); [eapply (r_note 7 _ 0); [eapply client_reach; exact C|rewrite (N 0); apply (n_call _ _ true)]|]|].
    + cbn [ns]. rewrite set_same. apply n_load. cbn [wd]. now rewrite W.
    + cbn [ns]. rewrite set_same. apply n_all. reflexivity.
  - cbn [log told]. repeat split; auto; apply B0 || apply B1.
Qed.
(** One step of notifying thread 0, field by field. *)
Lemma noted e s x s' : client e true s -> ns s 0 = x -> x <> Rest -> nstep s 0 x s' -> exists s2, client e true s2 /\ wd s2 = wd s' /\ next s2 = next s' /\ sig s2 = sig s' /\ ws s2 = ws s' /\ ns s2 0 = ns s' 0 /\ (forall k, k <> 0 -> ns s2 k = ns s k) /\ log s2 = log s'.
Proof.
  intros C E N H. exists s'. subst x. split; [eapply c_note; eauto|]. repeat split; auto. intros k Q. destruct H; cbn [ns]; now rewrite set_other.
Qed.
(** The predicate is set and notify(true) has returned: C101_no_lost_wakeup. Here it woke both. *)
Example c101_client : exists s, client 7 true s /\ no_notify s /\ sig s 0 = true /\ sig s 1 = true /\ ws s 0 = Park /\ told (log s) 1 = true.
Proof.
  destruct two as (s & C & W & X1 & X0 & B0 & B1 & O & N & L).
  assert (C0 := c_set 7 false s 0 C (N 0)). set (s0 := mkS (wd s) (next s) (sig s) (ws s) (set (ns s) 0 (Load true)) (log s)) in C0.
  assert (F : wd s0 = wd s /\ next s0 = next s /\ sig s0 = sig s /\ ws s0 = ws s /\ ns s0 0 = Load true /\ (forall k, k <> 0 -> ns s0 k = Rest)) by (repeat split; auto; intros k Q; unfold s0; cbn [ns]; rewrite set_other by auto; apply N).
  destruct F as (W0 & Y0 & G0 & V0 & K0 & R0). clearbody s0.
  destruct (noted 7 s0 _ _ C0 K0 ltac:(discriminate) (n_load s0 0 true ltac:(rewrite W0, W; reflexivity))) as (s1 & C1 & W1 & Y1 & G1 & V1 & K1 & R1 & _). cbn [wd next sig ws ns] in *. rewrite set_same in K1.
  destruct (noted 7 s1 _ _ C1 K1 ltac:(discriminate) (n_all s1 0 (wd s0) W1)) as (s2 & C2 & W2 & Y2 & G2 & V2 & K2 & R2 & L2). cbn [wd next sig ws ns] in *. rewrite set_same, W0, W in K2. cbn [stk log] in *.
  destruct (noted 7 s2 _ _ C2 K2 ltac:(discriminate) (n_walk s2 0 1)) as (s3 & C3 & W3 & Y3 & G3 & V3 & K3 & R3 & L3). cbn [wd next sig ws ns log] in *. rewrite set_same, Y2, Y1, Y0, X1 in K3.
  destruct (noted 7 s3 _ _ C3 K3 ltac:(discriminate) (n_sig s3 0 1 _)) as (s4 & C4 & W4 & Y4 & G4 & V4 & K4 & R4 & L4). cbn [wd next sig ws ns log] in *. rewrite set_same in K4.
  destruct (noted 7 s4 _ _ C4 K4 ltac:(discriminate) (n_walk s4 0 0)) as (s5 & C5 & W5 & Y5 & G5 & V5 & K5 & R5 & L5). cbn [wd next sig ws ns log] in *. rewrite set_same, Y4, Y3, Y2, Y1, Y0, X0 in K5.
  destruct (noted 7 s5 _ _ C5 K5 ltac:(discriminate) (n_sig s5 0 0 _)) as (s6 & C6 & W6 & Y6 & G6 & V6 & K6 & R6 & L6). cbn [wd next sig ws ns log] in *. rewrite set_same in K6.
  destruct (noted 7 s6 _ _ C6 K6 ltac:(discriminate) (n_done s6 0)) as (s7 & C7 & W7 & Y7 & G7 & V7 & K7 & R7 & L7). cbn [wd next sig ws ns log] in *. rewrite set_same in K7.
  exists s7. split; auto. split; [intros k; destruct (Nat.eq_dec k 0) as [->|Q]; auto; rewrite R7, R6, R5, R4, R3, R2, R1 by auto; auto|].
  rewrite G7, G6, G5, G4, V7, V6, V5, V4, V3, V2, V1, V0, L7, L6, L5, L4, L3, L2. repeat split. apply B0.
Qed.
(** Two waiters have prepared and decided; the second has to wait for the first: C101_turns and C101_asserts. *)
Example c101_turn : exists s, reachable 7 s /\ (forall v t, ws s v <> Pre t) /\ ws s 0 = Com 7 /\ ws s 1 = Can 8 /\ ep (wd s) = 7 /\ ~ outside (ws s 1).
Proof.
  eexists. split.
  - eapply (r_wait 7 _ 1); [eapply (r_wait 7 _ 0); [eapply (r_wait 7 _ 1); [eapply (r_wait 7 _ 0); [apply r_init|apply w_prep]|apply w_prep]|]|].
    + cbn. apply w_commit.
    + cbn. apply w_cancel.
  - cbn. split; [|repeat split; auto; intros [Q|Q]; discriminate]. intros v t. unfold set. destruct (v =? 1); [discriminate|]. destruct (v =? 0); discriminate.
Qed.
(** The word of a fresh notifier for four workers, and after one of them has prepared. *)
Example c101_word : b_init 4 = 18446744035054911487%Z /\ b_prepare (b_init 4) = 18446744035054977023%Z.
Proof. split; reflexivity. Qed.
