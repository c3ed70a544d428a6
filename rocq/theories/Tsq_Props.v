(** C98: the work-stealing queue under every interleaving of one owner and any number of thieves: linearisable to a double-ended queue, every item is handed out once, calls finish in a bounded number of their own steps. *)
From Verif Require Import Tsq_Model Tsq_Spec Tsq_Proofs Tsq_Proofs2.
From Coq Require Import Lia.
Open Scope Z_scope.
Section Props.
Context {A : Type}.
Variable junk : A.
(** Every history is a history of the sequential queue with each operation at one instant between its call and its return; once no call is under way, the queue holds what the slots between _top and _bottom hold. *)
Theorem C98_linearizable c h s : power_of_two c -> runs junk c h s -> exists l st q, linear h l st /\ deques [] l q /\ (quiet s -> (forall w, st w = Outside) /\ q = items s).
Proof.
  intros P R. destruct (runs_sim junk c h s P R) as (l & st & L & E & D & _). exists l, st, (content s). split; [exact L|]. split; [exact D|]. intros (Q1 & Q2). split.
  - intros [k|]; rewrite E; cbn [ph]; [rewrite Q2|unfold own_ph; rewrite Q1]; reflexivity.
  - unfold content, items, range, eb. rewrite Q1, map_map. reflexivity.
Qed.
(** Nothing is lost, duplicated or invented: at every moment what has been handed out is part, with multiplicities, of what was pushed; once no call is under way, the rest is in the queue. *)
Theorem C98_each_item_once c h s : power_of_two c -> runs junk c h s -> exists rest, Permutation (pushed h) (taken h ++ rest) /\ (quiet s -> rest = items s).
Proof.
  intros P R. destruct (runs_sim junk c h s P R) as (l & st & L & E & D & B). exists (held s ++ content s). split; [exact B|]. intros (Q1 & Q2).
  unfold held. cbn [ph]. unfold own_ph, content, items, range, eb. rewrite Q1, map_map. reflexivity.
Qed.
(** size and empty between calls. *)
Theorem C98_size c h s : power_of_two c -> runs junk c h s -> quiet s -> size s = Z.of_nat (length (items s)) /\ (empty s = true <-> items s = []) /\ 0 <= size s <= capacity s.
Proof.
  intros P R (Q1 & Q2). destruct (runs_inv junk c h s P R) as [H1 H2 H3 H4 H5 H6]. unfold eb in *. rewrite Q1 in *.
  assert (Es : size s = bottom s - top s). { unfold size. rewrite Z.geb_leb. destruct (Z.leb_spec (top s) (bottom s)); lia. }
  assert (El : length (items s) = Z.to_nat (bottom s - top s)) by (unfold items; rewrite map_length, seq_length; reflexivity).
  split; [rewrite El; lia|]. split; [|unfold capacity; lia]. unfold empty. split.
  - intros B. apply Z.leb_le in B. apply length_zero_iff_nil. rewrite El. lia.
  - intros B. rewrite B in El. cbn in El. apply Z.leb_le. lia.
Qed.
(** The capacity is the initial one times a power of two, and every slot index is inside its array. *)
Lemma caps_double c h s : runs junk c h s -> forall j, exists k, 0 <= k /\ cap (heap s j) = c * 2 ^ k.
Proof.
  intros R. induction R as [|h s e s' R IH H]; [intros j; exists 0; cbn; lia|]. assert (Fr : forall o, forall j, exists k, 0 <= k /\ cap (heap (set_owner s o) j) = c * 2 ^ k) by (intros o; exact IH).
  destruct H as [s o Ho|s Ho|s k Hk|s s' e H|s s' e k H]; try exact IH.
  - unfold own_step in H. destruct (owner s) as [|o|o b|o b t|o b a|o b a|o b| |b|b a|b a|b a t|b t x|b r]; try discriminate H; try (injection H as <- <-; exact IH).
    + destruct (_ <? _); injection H as <- <-; [|exact IH]. intros j. cbn. destruct (Nat.eqb j (next s)); [|apply IH]. rewrite resize_cap. destruct (IH (cur s)) as (k & K & E). exists (k + 1). split; [lia|]. rewrite E, Z.pow_add_r by lia. lia.
    + injection H as <- <-. intros j. cbn. destruct (Nat.eqb j a); [cbn [cap a_push]|]; apply IH.
    + destruct (_ <=? _); injection H as <- <-; exact IH.
    + destruct (_ =? _); injection H as <- <-; exact IH.
    + destruct (_ =? _); injection H as <- <-; exact IH.
  - unfold thief_step in H. destruct (thieves s k); try discriminate H; try (destruct (_ <? _)); try (destruct (_ =? _)); injection H as <- <-; exact IH.
Qed.
Theorem C98_capacity c h s : power_of_two c -> runs junk c h s -> (exists k, 0 <= k /\ capacity s = c * 2 ^ k) /\ forall j i, 0 <= Z.land i (cap (heap s j) - 1) < cap (heap s j).
Proof.
  intros P R. split; [exact (caps_double c h s R (cur s))|]. intros j i. destruct (runs_inv junk c h s P R) as [H1 H2 H3 H4 H5 H6]. rewrite land_mod by apply H2. apply Z.mod_pos_bound. apply pow2_pos, H2.
Qed.
(** A call returns after at most seven steps of its own thread, whatever the others do and however often they are scheduled. *)
Definition own_rank (o : own A) : nat := match o with OIdle => 0 | Pu1 _ => 6 | Pu2 _ _ => 5 | Pu3 _ _ _ => 4 | Pu4 _ _ _ => 3 | Pu5 _ _ _ => 2 | Pu6 _ _ => 1 | Po1 => 7 | Po2 _ => 6 | Po3 _ _ => 5 | Po4 _ _ => 4 | Po5 _ _ _ => 3 | Po6 _ _ _ => 2 | Po7 _ _ => 1 end.
Definition thief_rank (p : thief A) : nat := match p with SIdle => 0 | St1 => 5 | St2 _ => 4 | St3 _ => 3 | St4 _ _ => 2 | St5 _ _ => 1 end.
Lemma own_ranks s : owner s <> OIdle -> exists s' e, own_step junk s = Some (s', e) /\ ((own_rank (owner s') < own_rank (owner s))%nat /\ owner s' <> OIdle \/ exists o, e = [Ret None o]).
Proof.
  intros N. unfold own_step. destruct (owner s) as [|o|o b|o b t|o b a|o b a|o b| |b|b a|b a|b a t|b t x|b r]; [congruence|..];
    repeat match goal with |- context [if ?b then _ else _] => destruct b end; do 2 eexists; (split; [reflexivity|]); cbn [owner set_owner own_rank]; first [left; split; [lia|congruence]|right; eauto].
Qed.
Lemma thief_ranks (s : state A) k : thieves s k <> SIdle -> exists s' e, thief_step s k = Some (s', e) /\ ((thief_rank (thieves s' k) < thief_rank (thieves s k))%nat /\ thieves s' k <> SIdle \/ exists o, e = [Ret (Some k) o]).
Proof.
  intros N. unfold thief_step. destruct (thieves s k) as [| |t|t|t a|t x]; [congruence|..];
    repeat match goal with |- context [if ?b then _ else _] => destruct b end; do 2 eexists; (split; [reflexivity|]); cbn [thieves set_thief]; rewrite ?Nat.eqb_refl; cbn [thief_rank]; first [left; split; [lia|congruence]|right; eauto].
Qed.
Lemma thief_keeps_owner (s s' : state A) e k : thief_step s k = Some (s', e) -> owner s' = owner s.
Proof. unfold thief_step. destruct (thieves s k); try discriminate; repeat match goal with |- context [if ?b then _ else _] => destruct b end; intros H; injection H as <- <-; reflexivity. Qed.
Lemma own_keeps_thief s s' e k : own_step junk s = Some (s', e) -> thieves s' k = thieves s k.
Proof. unfold own_step. destruct (owner s); try discriminate; repeat match goal with |- context [if ?b then _ else _] => destruct b end; intros H; injection H as <- <-; reflexivity. Qed.
Lemma thief_keeps_thief (s s' : state A) e k j : j <> k -> thief_step s j = Some (s', e) -> thieves s' k = thieves s k.
Proof.
  intros N. unfold thief_step. destruct (thieves s j); try discriminate; repeat match goal with |- context [if ?b then _ else _] => destruct b end; intros H; injection H as <- <-; cbn [thieves set_thief set_top]; destruct (Nat.eqb_spec k j); congruence.
Qed.
Definition who_dec : forall v w : option nat, {v = w} + {v <> w}.
Proof. decide equality. apply Nat.eq_dec. Defined.
Theorem C98_owner_wait_free sched : forall s, owner s <> OIdle -> (7 <= count_occ who_dec sched None)%nat -> exists o, In (Ret None o) (snd (exec junk s sched)).
Proof.
  intros s N H. assert (H' : (own_rank (owner s) <= count_occ who_dec sched None)%nat) by (destruct (owner s); cbn in *; lia). clear H. revert s N H'.
  induction sched as [|w r IH]; intros s N H; [cbn in H; destruct (owner s); cbn in H; [congruence|lia..]|]. cbn [count_occ] in H. destruct (who_dec w None) as [-> |W].
  - destruct (own_ranks s N) as (s' & e & E & D). cbn [exec]. rewrite E. destruct (exec junk s' r) as (s'', e') eqn:X. cbn [snd]. destruct D as [(D1 & D2)|(o & ->)]; [|exists o; left; reflexivity].
    destruct (IH s' D2) as (o & Ho); [lia|]. rewrite X in Ho. exists o. apply in_or_app. right. exact Ho.
  - destruct w as [k|]; [|congruence]. cbn [exec]. destruct (thief_step s k) as [(s', e)|] eqn:E; [|apply IH; auto]. pose proof (thief_keeps_owner _ _ _ _ E) as K. destruct (exec junk s' r) as (s'', e') eqn:X. cbn [snd].
    destruct (IH s') as (o & Ho); [rewrite K; exact N|rewrite K; exact H|]. rewrite X in Ho. exists o. apply in_or_app. right. exact Ho.
Qed.
Theorem C98_thief_wait_free sched k : forall s : state A, thieves s k <> SIdle -> (5 <= count_occ who_dec sched (Some k))%nat -> exists o, In (Ret (Some k) o) (snd (exec junk s sched)).
Proof.
  intros s N H. assert (H' : (thief_rank (thieves s k) <= count_occ who_dec sched (Some k))%nat) by (destruct (thieves s k); cbn in *; lia). clear H. revert s N H'.
  induction sched as [|w r IH]; intros s N H; [cbn in H; destruct (thieves s k); cbn in H; [congruence|lia..]|]. cbn [count_occ] in H. destruct (who_dec w (Some k)) as [-> |W].
  - destruct (thief_ranks s k N) as (s' & e & E & D). cbn [exec]. rewrite E. destruct (exec junk s' r) as (s'', e') eqn:X. cbn [snd]. destruct D as [(D1 & D2)|(o & ->)]; [|exists o; left; reflexivity].
    destruct (IH s' D2) as (o & Ho); [lia|]. rewrite X in Ho. exists o. apply in_or_app. right. exact Ho.
  - cbn [exec]. destruct w as [j|].
    + destruct (thief_step s j) as [(s', e)|] eqn:E; [|apply IH; auto]. assert (K : thieves s' k = thieves s k) by (apply (thief_keeps_thief s s' e k j); congruence). destruct (exec junk s' r) as (s'', e') eqn:X. cbn [snd].
      destruct (IH s') as (o & Ho); [rewrite K; exact N|rewrite K; exact H|]. rewrite X in Ho. exists o. apply in_or_app. right. exact Ho.
    + destruct (own_step junk s) as [(s', e)|] eqn:E; [|apply IH; auto]. pose proof (own_keeps_thief s s' e k E) as K. destruct (exec junk s' r) as (s'', e') eqn:X. cbn [snd].
      destruct (IH s') as (o & Ho); [rewrite K; exact N|rewrite K; exact H|]. rewrite X in Ho. exists o. apply in_or_app. right. exact Ho.
Qed.
(** A steal that runs alone takes the oldest item, if there is one. *)
Theorem C98_steal_alone c h s k x q : power_of_two c -> runs junk c h s -> quiet s -> items s = x :: q -> snd (exec junk (set_thief s k St1) [Some k; Some k; Some k; Some k; Some k]) = [Ret (Some k) (Steal (Some x))].
Proof.
  intros P R (Q1 & Q2) E. assert (Hx : top s < bottom s /\ a_pop (heap s (cur s)) (top s) = x).
  { unfold items in E. destruct (Z.to_nat (bottom s - top s)) eqn:Z; [discriminate E|]. cbn [seq map] in E. injection E as E _. rewrite Z.add_0_r in E. split; [lia|exact E]. }
  destruct Hx as (L & Hx). unfold exec, thief_step. repeat (cbn [thieves set_thief top bottom cur heap set_top]; rewrite ?Nat.eqb_refl, ?(proj2 (Z.ltb_lt _ _) L), ?Z.eqb_refl). cbn [snd app]. rewrite Hx. reflexivity.
Qed.
End Props.
(** A run: with capacity 1 the owner pushes 5; a thief reads _top, _bottom and the array; the owner pushes 6, which doubles the array; the thief steals 5 out of the old array while the owner pops 6. *)
Definition h0 : nat -> arr nat := fun _ => mkA 1 (fun _ => 0%nat).
Definition h1 : nat -> arr nat := fun j => if Nat.eqb j 0 then a_push (h0 0%nat) 0 5%nat else h0 j.
Definition h2 : nat -> arr nat := fun j => if Nat.eqb j 1 then resize 0%nat (h1 0%nat) 1 0 else h1 j.
Definition h3 : nat -> arr nat := fun j => if Nat.eqb j 1 then a_push (h2 1%nat) 1 6%nat else h2 j.
Definition t0 : nat -> thief nat := fun _ => SIdle.
Definition t1 : nat -> thief nat := fun j => if Nat.eqb j 3 then St1 else t0 j.
Definition t2 : nat -> thief nat := fun j => if Nat.eqb j 3 then St2 0 else t1 j.
Definition t3 : nat -> thief nat := fun j => if Nat.eqb j 3 then St3 0 else t2 j.
Definition t4 : nat -> thief nat := fun j => if Nat.eqb j 3 then St4 0 0%nat else t3 j.
Definition t5 : nat -> thief nat := fun j => if Nat.eqb j 3 then St5 0 5%nat else t4 j.
Definition t6 : nat -> thief nat := fun j => if Nat.eqb j 3 then SIdle else t5 j.
Definition the_history := [Call None (KPush 5%nat); Ret None (Push 5%nat); Call (Some 3%nat) KSteal; Call None (KPush 6%nat); Ret None (Push 6%nat); Call None KPop; Ret None (Pop (Some 6%nat)); Ret (Some 3%nat) (Steal (Some 5%nat))].
Example C98_case : power_of_two 1 /\ exists s, runs 0%nat 1 the_history s /\ owner s = OIdle /\ capacity s = 2 /\ size s = 0 /\ pushed the_history = [5; 6]%nat /\ taken the_history = [6; 5]%nat.
Proof.
  split; [exists 0; split; [lia|reflexivity]|].
  pose proof (r_start nat 0%nat 1) as R0.
  assert (R1 : runs 0%nat 1 [Call None (KPush 5%nat)] (mkS 0 0 0%nat h0 1%nat (Pu1 5%nat) t0)) by exact (r_step nat 0%nat 1 _ (fresh 0%nat 1) [Call None (KPush 5%nat)] (mkS 0 0 0%nat h0 1%nat (Pu1 5%nat) t0) R0 (call_push nat 0%nat (fresh 0%nat 1) _ eq_refl)).
  assert (R2 : runs 0%nat 1 [Call None (KPush 5%nat)] (mkS 0 0 0%nat h0 1%nat (Pu2 5%nat 0) t0)) by exact (r_step nat 0%nat 1 _ (mkS 0 0 0%nat h0 1%nat (Pu1 5%nat) t0) [] (mkS 0 0 0%nat h0 1%nat (Pu2 5%nat 0) t0) R1 (own_runs nat 0%nat (mkS 0 0 0%nat h0 1%nat (Pu1 5%nat) t0) (mkS 0 0 0%nat h0 1%nat (Pu2 5%nat 0) t0) [] eq_refl)).
  assert (R3 : runs 0%nat 1 [Call None (KPush 5%nat)] (mkS 0 0 0%nat h0 1%nat (Pu3 5%nat 0 0) t0)) by exact (r_step nat 0%nat 1 _ (mkS 0 0 0%nat h0 1%nat (Pu2 5%nat 0) t0) [] (mkS 0 0 0%nat h0 1%nat (Pu3 5%nat 0 0) t0) R2 (own_runs nat 0%nat (mkS 0 0 0%nat h0 1%nat (Pu2 5%nat 0) t0) (mkS 0 0 0%nat h0 1%nat (Pu3 5%nat 0 0) t0) [] eq_refl)).
  assert (R4 : runs 0%nat 1 [Call None (KPush 5%nat)] (mkS 0 0 0%nat h0 1%nat (Pu5 5%nat 0 0%nat) t0)) by exact (r_step nat 0%nat 1 _ (mkS 0 0 0%nat h0 1%nat (Pu3 5%nat 0 0) t0) [] (mkS 0 0 0%nat h0 1%nat (Pu5 5%nat 0 0%nat) t0) R3 (own_runs nat 0%nat (mkS 0 0 0%nat h0 1%nat (Pu3 5%nat 0 0) t0) (mkS 0 0 0%nat h0 1%nat (Pu5 5%nat 0 0%nat) t0) [] eq_refl)).
  assert (R5 : runs 0%nat 1 [Call None (KPush 5%nat)] (mkS 0 0 0%nat h1 1%nat (Pu6 5%nat 0) t0)) by exact (r_step nat 0%nat 1 _ (mkS 0 0 0%nat h0 1%nat (Pu5 5%nat 0 0%nat) t0) [] (mkS 0 0 0%nat h1 1%nat (Pu6 5%nat 0) t0) R4 (own_runs nat 0%nat (mkS 0 0 0%nat h0 1%nat (Pu5 5%nat 0 0%nat) t0) (mkS 0 0 0%nat h1 1%nat (Pu6 5%nat 0) t0) [] eq_refl)).
  assert (R6 : runs 0%nat 1 [Call None (KPush 5%nat); Ret None (Push 5%nat)] (mkS 0 1 0%nat h1 1%nat (OIdle) t0)) by exact (r_step nat 0%nat 1 _ (mkS 0 0 0%nat h1 1%nat (Pu6 5%nat 0) t0) [Ret None (Push 5%nat)] (mkS 0 1 0%nat h1 1%nat (OIdle) t0) R5 (own_runs nat 0%nat (mkS 0 0 0%nat h1 1%nat (Pu6 5%nat 0) t0) (mkS 0 1 0%nat h1 1%nat (OIdle) t0) [Ret None (Push 5%nat)] eq_refl)).
  assert (R7 : runs 0%nat 1 [Call None (KPush 5%nat); Ret None (Push 5%nat); Call (Some 3%nat) KSteal] (mkS 0 1 0%nat h1 1%nat (OIdle) t1)) by exact (r_step nat 0%nat 1 _ (mkS 0 1 0%nat h1 1%nat (OIdle) t0) [Call (Some 3%nat) KSteal] (mkS 0 1 0%nat h1 1%nat (OIdle) t1) R6 (call_steal nat 0%nat (mkS 0 1 0%nat h1 1%nat (OIdle) t0) _ eq_refl)).
  assert (R8 : runs 0%nat 1 [Call None (KPush 5%nat); Ret None (Push 5%nat); Call (Some 3%nat) KSteal] (mkS 0 1 0%nat h1 1%nat (OIdle) t2)) by exact (r_step nat 0%nat 1 _ (mkS 0 1 0%nat h1 1%nat (OIdle) t1) [] (mkS 0 1 0%nat h1 1%nat (OIdle) t2) R7 (thief_runs nat 0%nat (mkS 0 1 0%nat h1 1%nat (OIdle) t1) (mkS 0 1 0%nat h1 1%nat (OIdle) t2) [] 3%nat eq_refl)).
  assert (R9 : runs 0%nat 1 [Call None (KPush 5%nat); Ret None (Push 5%nat); Call (Some 3%nat) KSteal] (mkS 0 1 0%nat h1 1%nat (OIdle) t3)) by exact (r_step nat 0%nat 1 _ (mkS 0 1 0%nat h1 1%nat (OIdle) t2) [] (mkS 0 1 0%nat h1 1%nat (OIdle) t3) R8 (thief_runs nat 0%nat (mkS 0 1 0%nat h1 1%nat (OIdle) t2) (mkS 0 1 0%nat h1 1%nat (OIdle) t3) [] 3%nat eq_refl)).
  assert (R10 : runs 0%nat 1 [Call None (KPush 5%nat); Ret None (Push 5%nat); Call (Some 3%nat) KSteal] (mkS 0 1 0%nat h1 1%nat (OIdle) t4)) by exact (r_step nat 0%nat 1 _ (mkS 0 1 0%nat h1 1%nat (OIdle) t3) [] (mkS 0 1 0%nat h1 1%nat (OIdle) t4) R9 (thief_runs nat 0%nat (mkS 0 1 0%nat h1 1%nat (OIdle) t3) (mkS 0 1 0%nat h1 1%nat (OIdle) t4) [] 3%nat eq_refl)).
  assert (R11 : runs 0%nat 1 [Call None (KPush 5%nat); Ret None (Push 5%nat); Call (Some 3%nat) KSteal; Call None (KPush 6%nat)] (mkS 0 1 0%nat h1 1%nat (Pu1 6%nat) t4)) by exact (r_step nat 0%nat 1 _ (mkS 0 1 0%nat h1 1%nat (OIdle) t4) [Call None (KPush 6%nat)] (mkS 0 1 0%nat h1 1%nat (Pu1 6%nat) t4) R10 (call_push nat 0%nat (mkS 0 1 0%nat h1 1%nat (OIdle) t4) _ eq_refl)).
  assert (R12 : runs 0%nat 1 [Call None (KPush 5%nat); Ret None (Push 5%nat); Call (Some 3%nat) KSteal; Call None (KPush 6%nat)] (mkS 0 1 0%nat h1 1%nat (Pu2 6%nat 1) t4)) by exact (r_step nat 0%nat 1 _ (mkS 0 1 0%nat h1 1%nat (Pu1 6%nat) t4) [] (mkS 0 1 0%nat h1 1%nat (Pu2 6%nat 1) t4) R11 (own_runs nat 0%nat (mkS 0 1 0%nat h1 1%nat (Pu1 6%nat) t4) (mkS 0 1 0%nat h1 1%nat (Pu2 6%nat 1) t4) [] eq_refl)).
  assert (R13 : runs 0%nat 1 [Call None (KPush 5%nat); Ret None (Push 5%nat); Call (Some 3%nat) KSteal; Call None (KPush 6%nat)] (mkS 0 1 0%nat h1 1%nat (Pu3 6%nat 1 0) t4)) by exact (r_step nat 0%nat 1 _ (mkS 0 1 0%nat h1 1%nat (Pu2 6%nat 1) t4) [] (mkS 0 1 0%nat h1 1%nat (Pu3 6%nat 1 0) t4) R12 (own_runs nat 0%nat (mkS 0 1 0%nat h1 1%nat (Pu2 6%nat 1) t4) (mkS 0 1 0%nat h1 1%nat (Pu3 6%nat 1 0) t4) [] eq_refl)).
  assert (R14 : runs 0%nat 1 [Call None (KPush 5%nat); Ret None (Push 5%nat); Call (Some 3%nat) KSteal; Call None (KPush 6%nat)] (mkS 0 1 0%nat h2 2%nat (Pu4 6%nat 1 1%nat) t4)) by exact (r_step nat 0%nat 1 _ (mkS 0 1 0%nat h1 1%nat (Pu3 6%nat 1 0) t4) [] (mkS 0 1 0%nat h2 2%nat (Pu4 6%nat 1 1%nat) t4) R13 (own_runs nat 0%nat (mkS 0 1 0%nat h1 1%nat (Pu3 6%nat 1 0) t4) (mkS 0 1 0%nat h2 2%nat (Pu4 6%nat 1 1%nat) t4) [] eq_refl)).
  assert (R15 : runs 0%nat 1 [Call None (KPush 5%nat); Ret None (Push 5%nat); Call (Some 3%nat) KSteal; Call None (KPush 6%nat)] (mkS 0 1 1%nat h2 2%nat (Pu5 6%nat 1 1%nat) t4)) by exact (r_step nat 0%nat 1 _ (mkS 0 1 0%nat h2 2%nat (Pu4 6%nat 1 1%nat) t4) [] (mkS 0 1 1%nat h2 2%nat (Pu5 6%nat 1 1%nat) t4) R14 (own_runs nat 0%nat (mkS 0 1 0%nat h2 2%nat (Pu4 6%nat 1 1%nat) t4) (mkS 0 1 1%nat h2 2%nat (Pu5 6%nat 1 1%nat) t4) [] eq_refl)).
  assert (R16 : runs 0%nat 1 [Call None (KPush 5%nat); Ret None (Push 5%nat); Call (Some 3%nat) KSteal; Call None (KPush 6%nat)] (mkS 0 1 1%nat h3 2%nat (Pu6 6%nat 1) t4)) by exact (r_step nat 0%nat 1 _ (mkS 0 1 1%nat h2 2%nat (Pu5 6%nat 1 1%nat) t4) [] (mkS 0 1 1%nat h3 2%nat (Pu6 6%nat 1) t4) R15 (own_runs nat 0%nat (mkS 0 1 1%nat h2 2%nat (Pu5 6%nat 1 1%nat) t4) (mkS 0 1 1%nat h3 2%nat (Pu6 6%nat 1) t4) [] eq_refl)).
  assert (R17 : runs 0%nat 1 [Call None (KPush 5%nat); Ret None (Push 5%nat); Call (Some 3%nat) KSteal; Call None (KPush 6%nat); Ret None (Push 6%nat)] (mkS 0 2 1%nat h3 2%nat (OIdle) t4)) by exact (r_step nat 0%nat 1 _ (mkS 0 1 1%nat h3 2%nat (Pu6 6%nat 1) t4) [Ret None (Push 6%nat)] (mkS 0 2 1%nat h3 2%nat (OIdle) t4) R16 (own_runs nat 0%nat (mkS 0 1 1%nat h3 2%nat (Pu6 6%nat 1) t4) (mkS 0 2 1%nat h3 2%nat (OIdle) t4) [Ret None (Push 6%nat)] eq_refl)).
  assert (R18 : runs 0%nat 1 [Call None (KPush 5%nat); Ret None (Push 5%nat); Call (Some 3%nat) KSteal; Call None (KPush 6%nat); Ret None (Push 6%nat); Call None KPop] (mkS 0 2 1%nat h3 2%nat (Po1) t4)) by exact (r_step nat 0%nat 1 _ (mkS 0 2 1%nat h3 2%nat (OIdle) t4) [Call None KPop] (mkS 0 2 1%nat h3 2%nat (Po1) t4) R17 (call_pop nat 0%nat (mkS 0 2 1%nat h3 2%nat (OIdle) t4) eq_refl)).
  assert (R19 : runs 0%nat 1 [Call None (KPush 5%nat); Ret None (Push 5%nat); Call (Some 3%nat) KSteal; Call None (KPush 6%nat); Ret None (Push 6%nat); Call None KPop] (mkS 0 2 1%nat h3 2%nat (Po2 1) t4)) by exact (r_step nat 0%nat 1 _ (mkS 0 2 1%nat h3 2%nat (Po1) t4) [] (mkS 0 2 1%nat h3 2%nat (Po2 1) t4) R18 (own_runs nat 0%nat (mkS 0 2 1%nat h3 2%nat (Po1) t4) (mkS 0 2 1%nat h3 2%nat (Po2 1) t4) [] eq_refl)).
  assert (R20 : runs 0%nat 1 [Call None (KPush 5%nat); Ret None (Push 5%nat); Call (Some 3%nat) KSteal; Call None (KPush 6%nat); Ret None (Push 6%nat); Call None KPop] (mkS 0 2 1%nat h3 2%nat (Po3 1 1%nat) t4)) by exact (r_step nat 0%nat 1 _ (mkS 0 2 1%nat h3 2%nat (Po2 1) t4) [] (mkS 0 2 1%nat h3 2%nat (Po3 1 1%nat) t4) R19 (own_runs nat 0%nat (mkS 0 2 1%nat h3 2%nat (Po2 1) t4) (mkS 0 2 1%nat h3 2%nat (Po3 1 1%nat) t4) [] eq_refl)).
  assert (R21 : runs 0%nat 1 [Call None (KPush 5%nat); Ret None (Push 5%nat); Call (Some 3%nat) KSteal; Call None (KPush 6%nat); Ret None (Push 6%nat); Call None KPop] (mkS 0 1 1%nat h3 2%nat (Po4 1 1%nat) t4)) by exact (r_step nat 0%nat 1 _ (mkS 0 2 1%nat h3 2%nat (Po3 1 1%nat) t4) [] (mkS 0 1 1%nat h3 2%nat (Po4 1 1%nat) t4) R20 (own_runs nat 0%nat (mkS 0 2 1%nat h3 2%nat (Po3 1 1%nat) t4) (mkS 0 1 1%nat h3 2%nat (Po4 1 1%nat) t4) [] eq_refl)).
  assert (R22 : runs 0%nat 1 [Call None (KPush 5%nat); Ret None (Push 5%nat); Call (Some 3%nat) KSteal; Call None (KPush 6%nat); Ret None (Push 6%nat); Call None KPop] (mkS 0 1 1%nat h3 2%nat (Po4 1 1%nat) t5)) by exact (r_step nat 0%nat 1 _ (mkS 0 1 1%nat h3 2%nat (Po4 1 1%nat) t4) [] (mkS 0 1 1%nat h3 2%nat (Po4 1 1%nat) t5) R21 (thief_runs nat 0%nat (mkS 0 1 1%nat h3 2%nat (Po4 1 1%nat) t4) (mkS 0 1 1%nat h3 2%nat (Po4 1 1%nat) t5) [] 3%nat eq_refl)).
  assert (R23 : runs 0%nat 1 [Call None (KPush 5%nat); Ret None (Push 5%nat); Call (Some 3%nat) KSteal; Call None (KPush 6%nat); Ret None (Push 6%nat); Call None KPop] (mkS 0 1 1%nat h3 2%nat (Po5 1 1%nat 0) t5)) by exact (r_step nat 0%nat 1 _ (mkS 0 1 1%nat h3 2%nat (Po4 1 1%nat) t5) [] (mkS 0 1 1%nat h3 2%nat (Po5 1 1%nat 0) t5) R22 (own_runs nat 0%nat (mkS 0 1 1%nat h3 2%nat (Po4 1 1%nat) t5) (mkS 0 1 1%nat h3 2%nat (Po5 1 1%nat 0) t5) [] eq_refl)).
  assert (R24 : runs 0%nat 1 [Call None (KPush 5%nat); Ret None (Push 5%nat); Call (Some 3%nat) KSteal; Call None (KPush 6%nat); Ret None (Push 6%nat); Call None KPop; Ret None (Pop (Some 6%nat))] (mkS 0 1 1%nat h3 2%nat (OIdle) t5)) by exact (r_step nat 0%nat 1 _ (mkS 0 1 1%nat h3 2%nat (Po5 1 1%nat 0) t5) [Ret None (Pop (Some 6%nat))] (mkS 0 1 1%nat h3 2%nat (OIdle) t5) R23 (own_runs nat 0%nat (mkS 0 1 1%nat h3 2%nat (Po5 1 1%nat 0) t5) (mkS 0 1 1%nat h3 2%nat (OIdle) t5) [Ret None (Pop (Some 6%nat))] eq_refl)).
  assert (R25 : runs 0%nat 1 [Call None (KPush 5%nat); Ret None (Push 5%nat); Call (Some 3%nat) KSteal; Call None (KPush 6%nat); Ret None (Push 6%nat); Call None KPop; Ret None (Pop (Some 6%nat)); Ret (Some 3%nat) (Steal (Some 5%nat))] (mkS 1 1 1%nat h3 2%nat (OIdle) t6)) by exact (r_step nat 0%nat 1 _ (mkS 0 1 1%nat h3 2%nat (OIdle) t5) [Ret (Some 3%nat) (Steal (Some 5%nat))] (mkS 1 1 1%nat h3 2%nat (OIdle) t6) R24 (thief_runs nat 0%nat (mkS 0 1 1%nat h3 2%nat (OIdle) t5) (mkS 1 1 1%nat h3 2%nat (OIdle) t6) [Ret (Some 3%nat) (Steal (Some 5%nat))] 3%nat eq_refl)).
  eexists. split; [exact R25|]. repeat split; reflexivity.
Qed.
Print Assumptions C98_linearizable.
Print Assumptions C98_each_item_once.
Print Assumptions C98_size.
Print Assumptions C98_capacity.
Print Assumptions C98_owner_wait_free.
Print Assumptions C98_thief_wait_free.
Print Assumptions C98_steal_alone.
