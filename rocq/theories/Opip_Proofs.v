From Verif Require Import Base Opip_Model.

Definition inflight (w : wpc) : list nat := match w with WWrite d => [d] | _ => [] end.

(** Order and completeness of the data flow: holds in every state, even after an
    uninitialised read. *)
Definition Flow (s : pipe) : Prop := pushed s = file s ++ inflight (writer s) ++ queue s.

(** Control invariant when no uninitialised read has happened. *)
Record Ctl (s : pipe) : Prop := {
  ctl_init : stop s = None -> life s = LCtor;
  ctl_stop : stop s = Some true <-> (life s = LDNotify \/ life s = LDJoin \/ life s = LDead);
  ctl_check : writer s = WCheck -> stop s = Some true \/ queue s <> [];
  ctl_drain : writer s = WDrain \/ writer s = WEnd -> stop s = Some true;
  ctl_end : writer s = WEnd -> queue s = [];
  ctl_idle : (exists p k, nth_error (prods s) p = Some k /\ k <> PIdle) -> life s = LAlive;
  ctl_sleep : writer s = WAsleep ->
     (stop s <> Some true /\ queue s = []) \/ life s = LDNotify \/
     (exists p, nth_error (prods s) p = Some PNotify);
  ctl_dead : life s = LDead -> writer s = WEnd;
  ctl_pop : ub_pop s = false
}.

(** Mutual exclusion. *)
Definition wholds (w : wpc) : nat := match w with WTest | WCheck => 1 | _ => 0 end.
Definition pholds (p : ppc) : nat := match p with PHold _ => 1 | _ => 0 end.
Definition lholds (l : lpc) : nat := match l with LDHold => 1 | _ => 0 end.
Definition cnt {A} (f : A -> nat) (l : list A) : nat := list_sum (map f l).
Definition b2n (b : bool) : nat := if b then 1 else 0.
Definition Mutex (s : pipe) : Prop :=
  wholds (writer s) + cnt pholds (prods s) + lholds (life s) = b2n (locked s).

Lemma cnt_set {A} (f : A -> nat) l i x y :
  nth_error l i = Some y -> cnt f (list_set l i x) + f y = cnt f l + f x.
Proof.
  unfold cnt. revert i; induction l as [|h t IH]; intros [|i] H; simpl in *; try discriminate.
  - injection H as ->. lia.
  - apply IH in H. lia.
Qed.
Lemma cnt_ge {A} (f : A -> nat) l i y : nth_error l i = Some y -> f y <= cnt f l.
Proof.
  unfold cnt. revert i; induction l as [|h t IH]; intros [|i] H; simpl in *; try discriminate.
  - injection H as ->. lia.
  - apply IH in H. lia.
Qed.
Lemma cnt_repeat0 {A} (f : A -> nat) x n : f x = 0 -> cnt f (repeat x n) = 0.
Proof. intros H. unfold cnt. induction n; simpl; lia. Qed.

Ltac inv H := injection H as H; subst.
Ltac some H := injection H as <-.


Lemma flow_step s l s' : Flow s -> step s l = Some s' -> Flow s'.
Proof.
  unfold Flow. intros F. destruct l as [g| |p x|p|]; simpl.
  - unfold writer_step, read_stop. destruct (writer s) eqn:Hw; simpl in F.
    + destruct (locked s); [discriminate|]. intros H; some H. simpl. auto.
    + destruct (stop s) as [b|]; intros H; destruct (_ || _) in H; some H; simpl; auto.
    + discriminate.
    + destruct (stop s) as [b|]; [destruct b|destruct g]; try (intros H; some H; simpl; auto; fail);
        destruct (queue s) eqn:Hq; intros H; some H; simpl; rewrite ?Hw; simpl; auto.
    + intros H; some H. simpl. rewrite F, <- app_assoc. reflexivity.
    + destruct (queue s) eqn:Hq; intros H; some H; simpl; rewrite F; auto.
      * rewrite Hq; auto.
      * rewrite <- app_assoc; reflexivity.
    + discriminate.
  - destruct (writer s) eqn:Hw; try discriminate. intros H; some H. simpl in *. auto.
  - destruct (life s); try discriminate. destruct (nth_error _ p) as [k|]; [|discriminate].
    destruct k; try discriminate. intros H; some H. simpl in *. auto.
  - unfold prod_step. destruct (nth_error _ p) as [k|]; [|discriminate]. destruct k; try discriminate.
    + destruct (locked s); [discriminate|]. intros H; some H. simpl in *. auto.
    + intros H; some H. simpl in *. rewrite F, <- !app_assoc. reflexivity.
    + intros H; some H. simpl in *. destruct (writer s); simpl in *; auto.
  - unfold life_step. destruct (life s); try discriminate.
    + intros H; some H. auto.
    + destruct (forallb _ _); [|discriminate]. intros H; some H. auto.
    + destruct (locked s); [discriminate|]. intros H; some H. auto.
    + intros H; some H. auto.
    + intros H; some H. simpl in *. destruct (writer s); simpl in *; auto.
    + destruct (writer s) eqn:Hw; try discriminate. intros H; some H. simpl in *. rewrite Hw; auto.
Qed.

Ltac held M := match type of M with context [b2n (locked ?s)] =>
  let Hl := fresh "Hl" in assert (Hl : locked s = true) by (destruct (locked s); simpl in *; auto; lia);
  rewrite Hl in M; simpl in M end.

Lemma mutex_step s l s' : Mutex s -> step s l = Some s' -> Mutex s'.
Proof.
  unfold Mutex. intros M. destruct l as [g| |p x|p|]; simpl.
  - unfold writer_step, read_stop. destruct (writer s) eqn:Hw; simpl in M.
    + destruct (locked s) eqn:Hl; [discriminate|]. intros H; some H. simpl in *. lia.
    + held M.
      destruct (stop s) as [b|]; intros H; destruct (_ || _) in H; some H; simpl in *; lia.
    + discriminate.
    + held M.
      destruct (stop s) as [b|]; [destruct b|destruct g]; try (intros H; some H; simpl in *; lia);
        destruct (queue s); intros H; some H; simpl in *; rewrite ?Hw, ?Hl; simpl; lia.
    + intros H; some H. simpl in *. lia.
    + destruct (queue s); intros H; some H; simpl in *; lia.
    + discriminate.
  - destruct (writer s) eqn:Hw; try discriminate. intros H; some H. simpl in *. auto.
  - destruct (life s) eqn:Hlf; try discriminate. destruct (nth_error _ p) as [k|] eqn:Hp; [|discriminate].
    destruct k; try discriminate. intros H; some H. simpl in *. rewrite Hlf; simpl.
    pose proof (cnt_set pholds _ _ (PAcquire x) _ Hp). simpl in *. lia.
  - unfold prod_step. destruct (nth_error _ p) as [k|] eqn:Hp; [|discriminate].
    pose proof (cnt_ge pholds _ _ _ Hp).
    destruct k; try discriminate.
    + destruct (locked s) eqn:Hl; [discriminate|]. intros H'; some H'. simpl in *.
      pose proof (cnt_set pholds _ _ (PHold x) _ Hp). simpl in *. lia.
    + simpl in H. held M. intros H'; some H'. simpl in *.
      pose proof (cnt_set pholds _ _ PNotify _ Hp). simpl in *. lia.
    + intros H'; some H'. simpl in *.
      pose proof (cnt_set pholds _ _ PIdle _ Hp).
      destruct (writer s); simpl in *; lia.
  - unfold life_step. destruct (life s) eqn:Hlf; try discriminate; simpl in M.
    + intros H; some H. simpl. lia.
    + destruct (forallb _ _); [|discriminate]. intros H; some H. simpl. lia.
    + destruct (locked s) eqn:Hl; [discriminate|]. intros H; some H. simpl in *. lia.
    + held M. intros H; some H. simpl. lia.
    + intros H; some H. simpl in *. destruct (writer s); simpl in *; lia.
    + destruct (writer s) eqn:Hw; try discriminate. intros H; some H. simpl in *. rewrite Hw; auto.
Qed.

Lemma uninit_mono s l s' : step s l = Some s' -> uninit_read s' = false -> uninit_read s = false.
Proof.
  destruct l as [g| |p x|p|]; simpl.
  - unfold writer_step, read_stop. destruct (writer s).
    + destruct (locked s); [discriminate|]. intros H; some H; auto.
    + destruct (stop s) as [b|]; intros H; destruct (_ || _) in H; some H; simpl; auto; discriminate.
    + discriminate.
    + destruct (stop s) as [b|]; [destruct b|destruct g];
        try (intros H; some H; simpl; auto; discriminate);
        destruct (queue s); intros H; some H; simpl; auto; discriminate.
    + intros H; some H; auto.
    + destruct (queue s); intros H; some H; auto.
    + discriminate.
  - destruct (writer s); try discriminate. intros H; some H; auto.
  - destruct (life s); try discriminate. destruct (nth_error _ p) as [k|]; [|discriminate].
    destruct k; try discriminate. intros H; some H; auto.
  - unfold prod_step. destruct (nth_error _ p) as [k|]; [|discriminate]. destruct k; try discriminate.
    + destruct (locked s); [discriminate|]. intros H; some H; auto.
    + intros H; some H; auto.
    + intros H; some H; auto.
  - unfold life_step. destruct (life s); try discriminate.
    + intros H; some H; auto.
    + destruct (forallb _ _); [|discriminate]. intros H; some H; auto.
    + destruct (locked s); [discriminate|]. intros H; some H; auto.
    + intros H; some H; auto.
    + intros H; some H; auto.
    + destruct (writer s); try discriminate. intros H; some H; auto.
Qed.

(** Writer-only change. *)
Lemma ctl_writer s w lk : Ctl s ->
  (w = WCheck -> stop s = Some true \/ queue s <> []) ->
  (w = WDrain \/ w = WEnd -> stop s = Some true) ->
  (w = WEnd -> queue s = []) ->
  (w = WAsleep -> (stop s <> Some true /\ queue s = []) \/ life s = LDNotify \/
     (exists p, nth_error (prods s) p = Some PNotify)) ->
  (life s = LDead -> w = WEnd) ->
  Ctl (upd_w s w lk).
Proof. intros C H1 H2 H3 H4 H5. destruct C; constructor; simpl; auto. Qed.

Lemma all_idle ps : forallb is_idle ps = true -> forall p k, nth_error ps p = Some k -> k = PIdle.
Proof.
  intros H p k Hp. rewrite forallb_forall in H. apply nth_error_In in Hp. apply H in Hp.
  destruct k; simpl in Hp; congruence.
Qed.

Lemma ctl_step s l s' : Mutex s -> Ctl s -> step s l = Some s' -> uninit_read s' = false -> Ctl s'.
Proof.
  intros M C. destruct l as [g| |p x|p|]; simpl.
  - unfold writer_step, read_stop. destruct (writer s) eqn:Hw.
    + destruct (locked s); [discriminate|]. intros H _; some H.
      apply ctl_writer; auto; try discriminate; try (intros [?|?]; discriminate).
      intros Hd. rewrite (ctl_dead _ C Hd) in Hw; discriminate.
    + assert (Hnd : life s <> LDead) by (intros Hd; rewrite (ctl_dead _ C Hd) in Hw; discriminate).
      destruct (stop s) as [b|] eqn:Hst.
      2:{ intros H; destruct (_ || _) in H; some H; simpl; discriminate. }
      destruct (b || negb (is_nil (queue s))) eqn:E; intros H _; some H.
      * apply ctl_writer; auto; try discriminate; try (intros [?|?]; discriminate); try congruence.
        intros _. destruct b; [left; auto|]. right. destruct (queue s); simpl in E; congruence.
      * apply orb_false_iff in E as [-> E]. apply negb_false_iff in E.
        apply ctl_writer; auto; try discriminate; try (intros [?|?]; discriminate); try congruence.
        intros _. left. rewrite Hst. split; [discriminate|]. destruct (queue s); simpl in E; congruence.
    + discriminate.
    + assert (Hnd : life s <> LDead) by (intros Hd; rewrite (ctl_dead _ C Hd) in Hw; discriminate).
      destruct (stop s) as [b|] eqn:Hst.
      * destruct b.
        -- intros H _; some H. apply ctl_writer; auto; try discriminate; try congruence.
        -- destruct (ctl_check _ C Hw) as [?|Hq]; [congruence|].
           destruct (queue s) as [|d q] eqn:Eq; [congruence|]. intros H _; some H.
           destruct C; constructor; simpl; auto; try discriminate; try congruence;
             try (intros [?|?]; discriminate).
      * destruct g; [intros H; some H; simpl; discriminate|].
        destruct (queue s); intros H; some H; simpl; discriminate.
    + intros H _; some H. destruct C; constructor; simpl; auto; try discriminate.
      * intros [?|?]; discriminate.
      * intros Hd; rewrite (ctl_dead0 Hd) in Hw; discriminate.
    + destruct (queue s) as [|d q] eqn:Hq; intros H _; some H.
      * apply ctl_writer; auto; try discriminate. intros _. apply (ctl_drain _ C); auto.
      * destruct C; constructor; simpl; auto; try discriminate.
        intros Hd; rewrite (ctl_dead0 Hd) in Hw; discriminate.
    + discriminate.
  - destruct (writer s) eqn:Hw; try discriminate. intros H _; some H.
    apply ctl_writer; auto; try discriminate; try (intros [?|?]; discriminate).
    intros Hd. rewrite (ctl_dead _ C Hd) in Hw; discriminate.
  - destruct (life s) eqn:Hlf; try discriminate. destruct (nth_error _ p) as [k|] eqn:Hp; [|discriminate].
    destruct k; try discriminate. intros H _; some H.
    destruct C; constructor; simpl; auto; try congruence.
    intros Hs. destruct (ctl_sleep0 Hs) as [?|[?|(q & Hq)]]; auto.
    right; right; exists q. destruct (Nat.eq_dec p q) as [->|]; [congruence|].
    rewrite nth_error_list_set_neq; auto.
  - unfold prod_step. destruct (nth_error _ p) as [k|] eqn:Hp; [|discriminate].
    assert (Hlf : k <> PIdle -> life s = LAlive).
    { intros Hk. apply (ctl_idle _ C). exists p, k; auto. }
    destruct k; try discriminate; specialize (Hlf ltac:(discriminate)).
    + destruct (locked s); [discriminate|]. intros H _; some H.
      destruct C; constructor; simpl; auto; try congruence.
      intros Hs. destruct (ctl_sleep0 Hs) as [?|[?|(q & Hq)]]; auto.
      right; right; exists q. destruct (Nat.eq_dec p q) as [->|]; [congruence|].
      rewrite nth_error_list_set_neq; auto.
    + intros H _; some H. pose proof (cnt_ge pholds _ _ _ Hp) as Hc. simpl in Hc.
      assert (Hst : stop s <> Some true).
      { rewrite (ctl_stop _ C), Hlf. intros [?|[?|?]]; discriminate. }
      destruct C; constructor; simpl; auto; try congruence.
      * intros Hwc. right. destruct (queue s); discriminate.
      * intros He. exfalso. apply Hst, ctl_drain0; auto.
      * intros _. right; right. exists p. apply nth_error_list_set_eq.
        apply nth_error_Some; congruence.
    + intros H _; some H.
      set (s1 := upd_p s p PIdle (locked s)).
      destruct C; constructor; simpl; auto; try congruence;
        destruct (writer s) eqn:Hw; simpl; try discriminate; auto;
        try (intros [?|?]; discriminate); try congruence.
  - unfold life_step. destruct (life s) eqn:Hlf; try discriminate.
    + intros H _; some H. assert (Hst : stop s <> Some true).
      { rewrite (ctl_stop _ C), Hlf. intros [?|[?|?]]; discriminate. }
      destruct C; constructor; simpl; auto; try congruence.
      * split; [discriminate|]. intros [?|[?|?]]; discriminate.
      * intros Hc. destruct (ctl_check0 Hc); [congruence|auto].
      * intros Hd. exfalso; apply Hst; auto.
      * intros Hs. destruct (ctl_sleep0 Hs) as [[? ?]|[?|?]]; auto; try congruence.
        left; split; auto; discriminate.
    + destruct (forallb _ _) eqn:Hf; [|discriminate]. intros H _; some H.
      assert (Hst : stop s <> Some true).
      { rewrite (ctl_stop _ C), Hlf. intros [?|[?|?]]; discriminate. }
      destruct C; constructor; simpl; auto; try congruence.
      * intros Hn. apply ctl_init0 in Hn. congruence.
      * split; [intros; congruence|intros [?|[?|?]]; discriminate].
      * intros (p & k & Hp & Hk). exfalso. apply Hk. eapply all_idle; eauto.
      * intros Hs. destruct (ctl_sleep0 Hs) as [?|[?|?]]; auto; try congruence.
    + destruct (locked s); [discriminate|]. intros H _; some H.
      assert (Hst : stop s <> Some true).
      { rewrite (ctl_stop _ C), Hlf. intros [?|[?|?]]; discriminate. }
      destruct C; constructor; simpl; auto; try congruence.
      * intros Hn. apply ctl_init0 in Hn. congruence.
      * split; [intros; congruence|intros [?|[?|?]]; discriminate].
      * intros Hx. apply ctl_idle0 in Hx. congruence.
      * intros Hs. destruct (ctl_sleep0 Hs) as [?|[?|?]]; auto; try congruence.
    + intros H _; some H. destruct C; constructor; simpl; auto; try congruence.
      * split; auto.
      * intros Hx. apply ctl_idle0 in Hx. congruence.
    + intros H _; some H.
      assert (Hst : stop s = Some true) by (apply (ctl_stop _ C); auto).
      destruct C; constructor; simpl; auto; try congruence;
        try (split; auto; fail); try (intros Hx; apply ctl_idle0 in Hx; congruence);
        destruct (writer s) eqn:Hw; simpl; try discriminate; auto.
    + destruct (writer s) eqn:Hw; try discriminate. intros H _; some H.
      assert (Hst : stop s = Some true) by (apply (ctl_stop _ C); auto).
      destruct C; constructor; simpl; auto; try congruence.
      * split; auto.
      * intros Hx; apply ctl_idle0 in Hx; congruence.
Qed.

Lemma init_flow np : Flow (init np). Proof. reflexivity. Qed.
Lemma init_mutex np : Mutex (init np).
Proof. unfold Mutex; simpl. rewrite cnt_repeat0; auto. Qed.
Lemma init_ctl np : Ctl (init np).
Proof.
  constructor; simpl; auto; try discriminate.
  - split; [discriminate|intros [?|[?|?]]; discriminate].
  - intros [?|?]; discriminate.
  - intros (p & k & Hp & Hk). apply nth_error_In, repeat_spec in Hp. congruence.
Qed.

Lemma run_good ls : forall s s', Flow s -> Mutex s -> (uninit_read s = false -> Ctl s) ->
  run s ls = Some s' -> Flow s' /\ Mutex s' /\ (uninit_read s' = false -> Ctl s').
Proof.
  induction ls as [|l ls IH]; simpl; intros s s' F M C H; [injection H as <-; auto|].
  destruct (step s l) as [s1|] eqn:E; [|discriminate].
  eapply IH; [| | |exact H].
  - eapply flow_step; eauto.
  - eapply mutex_step; eauto.
  - intros Hu. eapply ctl_step; eauto. apply C. eapply uninit_mono; eauto.
Qed.

Lemma reach_good np s : reachable np s ->
  Flow s /\ Mutex s /\ (uninit_read s = false -> Ctl s).
Proof.
  intros [ls H]. eapply run_good; eauto using init_flow, init_mutex, init_ctl.
Qed.

(** * Statements *)
Lemma opip_prefix np s : reachable np s -> exists rest, pushed s = file s ++ rest.
Proof. intros R. destruct (reach_good _ _ R) as [F _]. eexists; exact F. Qed.

Lemma opip_complete np s : reachable np s -> uninit_read s = false ->
  (life s = LDead -> file s = pushed s) /\ ub_pop s = false.
Proof.
  intros R Hu. destruct (reach_good _ _ R) as (F & M & C). specialize (C Hu).
  split; [|apply C]. intros Hd. pose proof (ctl_dead _ C Hd) as Hw.
  rewrite F, Hw, (ctl_end _ C Hw). simpl. rewrite app_nil_r. reflexivity.
Qed.


(** * Shutdown terminates *)
Definition spurious (l : label) : bool := match l with LSpurious => true | _ => false end.

(** The destructor has been entered and has not returned. *)
Definition shutting (s : pipe) : Prop :=
  life s = LDAcquire \/ life s = LDHold \/ life s = LDNotify \/ life s = LDJoin.

Definition wweight (w : wpc) : nat :=
  match w with
  | WAsleep => 0 | WAcquire => 4 | WTest => 3 | WCheck => 2 | WWrite _ => 5
  | WDrain => 1 | WEnd => 0 end.
Definition lweight (l : lpc) : nat :=
  match l with LDAcquire => 8 | LDHold => 7 | LDNotify => 6 | LDJoin => 1 | _ => 0 end.
Definition weight (s : pipe) : nat := 5 * length (queue s) + wweight (writer s) + lweight (life s).

Lemma shutting_step s l s' : Ctl s -> shutting s -> spurious l = false -> step s l = Some s' ->
  (shutting s' \/ life s' = LDead) /\ weight s' < weight s /\ uninit_read s' = uninit_read s.
Proof.
  intros C Sh Hl.
  assert (Hni : forall p k, nth_error (prods s) p = Some k -> k = PIdle).
  { intros p k Hp. destruct k; auto; exfalso;
    (assert (E : life s = LAlive) by (apply (ctl_idle _ C); eexists _, _; split; [exact Hp|discriminate]));
    unfold shutting in Sh; rewrite E in Sh; intuition discriminate. }
  assert (Hninit : stop s <> None).
  { intros E. apply (ctl_init _ C) in E. unfold shutting in Sh; rewrite E in Sh; intuition discriminate. }
  unfold weight, shutting in *. destruct l as [g| |p x|p|]; simpl in Hl; try discriminate; simpl.
  - unfold writer_step, read_stop. destruct (writer s) eqn:Hw.
    + destruct (locked s); [discriminate|]. intros H; some H; simpl. repeat split; auto; lia.
    + destruct (stop s) as [b|] eqn:Hst; [|congruence].
      destruct (_ || _); intros H; some H; simpl; repeat split; auto; lia.
    + discriminate.
    + destruct (stop s) as [b|] eqn:Hst; [|congruence]. destruct b.
      * intros H; some H; simpl; repeat split; auto; lia.
      * destruct (ctl_check _ C Hw) as [?|Hq]; [congruence|].
        destruct (queue s) as [|d q] eqn:Eq; [congruence|]. intros H; some H; simpl.
        repeat split; auto; lia.
    + intros H; some H; simpl. repeat split; auto; lia.
    + destruct (queue s) as [|d q] eqn:Eq; intros H; some H; simpl; rewrite ?Eq; simpl;
        repeat split; auto; lia.
    + discriminate.
  - destruct (life s) eqn:Hlf; try discriminate.
    exfalso; intuition discriminate.
  - unfold prod_step. destruct (nth_error _ p) as [k|] eqn:Hp; [|discriminate].
    rewrite (Hni _ _ Hp). discriminate.
  - unfold life_step. destruct (life s) eqn:Hlf; try discriminate; try (exfalso; intuition discriminate).
    + destruct (locked s); [discriminate|]. intros H; some H; simpl; repeat split; auto; lia.
    + intros H; some H; simpl; repeat split; auto; lia.
    + intros H; some H; simpl. repeat split; auto. destruct (writer s); simpl; lia.
    + destruct (writer s) eqn:Hw; try discriminate.
      intros H; some H; simpl. rewrite Hw. repeat split; auto; simpl; lia.
Qed.

Lemma shutting_progress s : Mutex s -> Ctl s -> shutting s ->
  exists l s', spurious l = false /\ step s l = Some s'.
Proof.
  intros M C Sh.
  assert (Hni : forall p k, nth_error (prods s) p = Some k -> k = PIdle).
  { intros p k Hp. destruct k; auto; exfalso;
    (assert (E : life s = LAlive) by (apply (ctl_idle _ C); eexists _, _; split; [exact Hp|discriminate]));
    unfold shutting in Sh; rewrite E in Sh; intuition discriminate. }
  assert (Hc : cnt pholds (prods s) = 0).
  { clear - Hni. induction (prods s) as [|h t IH]; auto. unfold cnt in *; simpl.
    rewrite (Hni 0 h eq_refl); simpl. apply IH. intros p k Hp. apply (Hni (S p)); auto. }
  unfold Mutex in M. rewrite Hc in M.
  destruct Sh as [Hlf|[Hlf|[Hlf|Hlf]]].
  - destruct (locked s) eqn:Hl.
    + rewrite Hlf in M; simpl in M.
      exists (LWriter false). unfold step, writer_step, read_stop.
      destruct (writer s) eqn:Hw; simpl in M; try lia.
      * destruct (stop s) as [b|]; destruct (_ || _); eexists; split; reflexivity.
      * destruct (stop s) as [b|]; [destruct b|]; try destruct (queue s);
          eexists; split; reflexivity.
    + exists LLife. simpl; unfold life_step. rewrite Hlf, Hl. eexists; split; reflexivity.
  - exists LLife. simpl; unfold life_step. rewrite Hlf. eexists; split; reflexivity.
  - exists LLife. simpl; unfold life_step. rewrite Hlf. eexists; split; reflexivity.
  - assert (Hst : stop s = Some true) by (apply (ctl_stop _ C); auto).
    destruct (writer s) eqn:Hw.
    + rewrite Hlf in M; simpl in M. destruct (locked s) eqn:Hl; [simpl in M; lia|].
      exists (LWriter false). simpl; unfold writer_step. rewrite Hw, Hl. eexists; split; reflexivity.
    + exists (LWriter false). simpl; unfold writer_step, read_stop. rewrite Hw, Hst.
      eexists; split; reflexivity.
    + exfalso. destruct (ctl_sleep _ C Hw) as [[? _]|[?|(p & Hp)]]; try congruence.
      apply Hni in Hp. discriminate.
    + exists (LWriter false). simpl; unfold writer_step, read_stop. rewrite Hw, Hst.
      eexists; split; reflexivity.
    + exists (LWriter false). simpl; unfold writer_step. rewrite Hw. eexists; split; reflexivity.
    + exists (LWriter false). simpl; unfold writer_step. rewrite Hw.
      destruct (queue s); eexists; split; reflexivity.
    + exists LLife. simpl; unfold life_step. rewrite Hlf, Hw. eexists; split; reflexivity.
Qed.

Lemma run_app s l1 : forall l2, run s (l1 ++ l2) =
  match run s l1 with Some s1 => run s1 l2 | None => None end.
Proof.
  revert s; induction l1 as [|l l1 IH]; intros s l2; simpl; auto.
  destruct (step s l); auto.
Qed.

Lemma shutting_finish n : forall s, weight s < n -> Mutex s -> Ctl s -> uninit_read s = false ->
  shutting s -> exists ls s', run s ls = Some s' /\ life s' = LDead.
Proof.
  induction n as [|n IH]; intros s Hw M C Hu Sh; [lia|].
  destruct (shutting_progress _ M C Sh) as (l & s1 & Hl & Hs).
  destruct (shutting_step _ _ _ C Sh Hl Hs) as (Sh1 & Hlt & Hu1).
  rewrite Hu in Hu1.
  destruct Sh1 as [Sh1|Hd].
  - destruct (IH s1) as (ls & s2 & Hr & Hd); auto; try lia.
    + eapply mutex_step; eauto.
    + eapply ctl_step; eauto.
    + exists (l :: ls), s2. simpl. rewrite Hs. auto.
  - exists [l], s1. simpl. rewrite Hs. auto.
Qed.

Lemma opip_shutdown np s : reachable np s -> uninit_read s = false -> shutting s ->
  (forall l s', spurious l = false -> step s l = Some s' -> weight s' < weight s) /\
  (exists l s', spurious l = false /\ step s l = Some s') /\
  (exists ls s', run s ls = Some s' /\ life s' = LDead).
Proof.
  intros R Hu Sh. destruct (reach_good _ _ R) as (F & M & C). specialize (C Hu).
  repeat split.
  - intros l s' Hl Hs. eapply shutting_step; eauto.
  - apply shutting_progress; auto.
  - eapply shutting_finish; eauto.
Qed.

(** * No lost wake-up while the pipe is alive *)
Lemma opip_no_lost_wakeup np s : reachable np s -> uninit_read s = false ->
  writer s = WAsleep -> queue s <> [] ->
  life s = LDNotify \/ exists p, nth_error (prods s) p = Some PNotify.
Proof.
  intros R Hu Hw Hq. destruct (reach_good _ _ R) as (F & M & C). specialize (C Hu).
  destruct (ctl_sleep _ C Hw) as [[_ ?]|[?|?]]; auto. congruence.
Qed.

(** * The uninitialised flag *)
Lemma opip_lost : exists s, reachable 1 s /\ life s = LDead /\ pushed s = [7] /\ file s = [].
Proof.
  eexists; split.
  - exists [LWriter true; LWriter true; LWriter true; LWriter true; LLife;
            LPush 0 7; LProd 0; LProd 0; LProd 0; LLife; LLife; LLife; LLife; LLife].
    vm_compute; reflexivity.
  - repeat split.
Qed.

(** Generally: once the writer has ended while the pipe is alive nothing is written any more. *)
Lemma opip_lost_forever ls : forall s s', writer s = WEnd -> run s ls = Some s' ->
  writer s' = WEnd /\ file s' = file s.
Proof.
  induction ls as [|l ls IH]; simpl; intros s s' Hw H; [injection H as <-; auto|].
  destruct (step s l) as [s1|] eqn:E; [|discriminate].
  assert (A : writer s1 = WEnd /\ file s1 = file s).
  { revert E. destruct l as [g| |p x|p|]; simpl.
    - unfold writer_step. rewrite Hw. discriminate.
    - rewrite Hw. discriminate.
    - destruct (life s); try discriminate. destruct (nth_error _ p) as [k|]; [|discriminate].
      destruct k; try discriminate. intros H'; some H'; auto.
    - unfold prod_step. destruct (nth_error _ p) as [k|]; [|discriminate]. destruct k; try discriminate.
      + destruct (locked s); [discriminate|]. intros H'; some H'; auto.
      + intros H'; some H'; auto.
      + intros H'; some H'; simpl; rewrite Hw; auto.
    - unfold life_step. destruct (life s); try discriminate.
      + intros H'; some H'; auto.
      + destruct (forallb _ _); [|discriminate]. intros H'; some H'; auto.
      + destruct (locked s); [discriminate|]. intros H'; some H'; auto.
      + intros H'; some H'; auto.
      + intros H'; some H'; simpl; rewrite Hw; auto.
      + rewrite Hw. intros H'; some H'; auto. }
  destruct A as [A1 A2]. destruct (IH _ _ A1 H) as [B1 B2]. split; congruence.
Qed.
