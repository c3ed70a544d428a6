From Verif Require Import Base Pool_Model.

(** * Counting with list_set *)
Definition cnt {A} (f : A -> nat) (l : list A) : nat := list_sum (map f l).

Lemma cnt_set {A} (f : A -> nat) l i x y :
  nth_error l i = Some y -> cnt f (list_set l i x) + f y = cnt f l + f x.
Proof.
  unfold cnt. revert i; induction l as [|h t IH]; intros [|i] H; simpl in *; try discriminate.
  - injection H as ->. lia.
  - apply IH in H. lia.
Qed.

Lemma cnt_ge {A} (f : A -> nat) l i y : nth_error l i = Some y -> f y <= cnt f l.
Proof.
  unfold cnt. revert i; induction l as [|h t IH]; intros [|i] H; simpl in *; try discriminate.
  - injection H as ->. lia.
  - apply IH in H. lia.
Qed.

Definition wholds (w : wpc) : nat :=
  match w with WTest | WSleepy | WPost => 1 | _ => 0 end.
Definition cholds (c : cpc) : nat := match c with CHold _ => 1 | _ => 0 end.
Definition holders (s : pool) : nat := cnt wholds (workers s) + cnt cholds (clients s).

Definition b2n (b : bool) : nat := if b then 1 else 0.

(** * The safety invariant *)
Record Inv (nw : nat) (s : pool) : Prop := {
  inv_fifo : accepted s = started s ++ queue s;
  inv_bound : length (queue s) <= S (max_tasks s);
  inv_lock : holders s = b2n (locked s);
  inv_sleepy : forall i, nth_error (workers s) i = Some WSleepy -> queue s = [];
  inv_post : forall i, nth_error (workers s) i = Some WPost -> stop s = true \/ queue s <> [];
  inv_ub : ub s = false;
  inv_dtor : stop s = true <-> dtor s <> DNone;
  inv_nw : length (workers s) = nw;
  inv_wake : 0 < nw -> stop s = false -> queue s <> [] ->
     (exists c, nth_error (clients s) c = Some CNotify) \/
     (exists i w, nth_error (workers s) i = Some w /\ w <> WAsleep)
}.

Lemma cnt_repeat0 {A} (f : A -> nat) x n : f x = 0 -> cnt f (repeat x n) = 0.
Proof. intros H. unfold cnt. induction n; simpl; lia. Qed.

Lemma init_inv maxt nw nc : Inv nw (init maxt nw nc).
Proof.
  constructor; simpl; auto; try lia.
  - unfold holders; simpl. rewrite !cnt_repeat0; auto.
  - intros i H; apply nth_error_In in H. apply repeat_spec in H; discriminate.
  - split; [discriminate|congruence].
  - apply repeat_length.
  - congruence.
Qed.

(** A thread other than the holder does not hold the lock. *)
Lemma worker_excl s i w c t :
  holders s <= 1 -> nth_error (clients s) c = Some (CHold t) ->
  nth_error (workers s) i = Some w -> wholds w = 0.
Proof.
  unfold holders; intros H Hc Hw.
  apply (cnt_ge cholds) in Hc; apply (cnt_ge wholds) in Hw; simpl in Hc. lia.
Qed.

Lemma cnt_two {A} (f : A -> nat) l i j y z :
  i <> j -> nth_error l i = Some y -> nth_error l j = Some z -> f y + f z <= cnt f l.
Proof.
  unfold cnt. revert i j; induction l as [|h t IH]; intros [|i] [|j] Hn Hi Hj; simpl in *;
    try discriminate; try congruence.
  - injection Hi as ->. apply (cnt_ge f) in Hj; unfold cnt in Hj. lia.
  - injection Hj as ->. apply (cnt_ge f) in Hi; unfold cnt in Hi. lia.
  - specialize (IH i j ltac:(congruence) Hi Hj). lia.
Qed.

Lemma worker_excl2 s i j w w' :
  holders s <= 1 -> i <> j -> nth_error (workers s) i = Some w -> wholds w = 1 ->
  nth_error (workers s) j = Some w' -> wholds w' = 0.
Proof.
  unfold holders; intros H Hn Hi Hw Hj.
  pose proof (cnt_two wholds _ _ _ _ _ Hn Hi Hj). lia.
Qed.

Lemma b2n_le b : b2n b <= 1. Proof. destruct b; simpl; lia. Qed.


(** Changing worker [i] (and the lock flag) without touching the queue. *)
Lemma inv_set_worker nw s i w0 w lk :
  Inv nw s -> nth_error (workers s) i = Some w0 ->
  b2n lk + wholds w0 = b2n (locked s) + wholds w ->
  (w = WSleepy -> queue s = []) ->
  (w = WPost -> stop s = true \/ queue s <> []) ->
  (w = WAsleep -> queue s = []) ->
  Inv nw (set_worker s i w lk).
Proof.
  intros I Hi Hlk Hs Hp Ha. destruct I; constructor; simpl; auto.
  - unfold holders in *; simpl. pose proof (cnt_set wholds _ _ w _ Hi). lia.
  - intros j Hj. rewrite (nth_error_list_set _ _ _ _ _ Hi) in Hj.
    destruct (Nat.eqb_spec i j); [|eauto]. apply Hs; congruence.
  - intros j Hj. rewrite (nth_error_list_set _ _ _ _ _ Hi) in Hj.
    destruct (Nat.eqb_spec i j); [|eauto]. apply Hp; congruence.
  - rewrite list_set_length; auto.
  - intros Hn Hst Hq. destruct (inv_wake0 Hn Hst Hq) as [Hc|(j & w' & Hj & Hw')]; [left; auto|].
    right. destruct (Nat.eq_dec i j) as [->|Hne].
    + exists j, w. split.
      * apply nth_error_list_set_eq. apply nth_error_Some; congruence.
      * intros E. apply Hq. auto.
    + exists j, w'. rewrite nth_error_list_set_neq; auto.
Qed.

(** Changing client [c] (and the lock flag) without touching the queue. *)
Lemma inv_set_client nw s c k0 k lk :
  Inv nw s -> nth_error (clients s) c = Some k0 ->
  b2n lk + cholds k0 = b2n (locked s) + cholds k ->
  (k0 = CNotify -> k <> CNotify -> 0 < nw -> exists i w, nth_error (workers s) i = Some w /\ w <> WAsleep) ->
  Inv nw (set_client s c k lk).
Proof.
  intros I Hi Hlk Hk. destruct I; constructor; simpl; auto.
  - unfold holders in *; simpl. pose proof (cnt_set cholds _ _ k _ Hi). lia.
  - intros Hn Hst Hq. destruct (inv_wake0 Hn Hst Hq) as [(d & Hd)|Hw]; [|right; auto].
    destruct (Nat.eq_dec c d) as [->|Hne].
    + assert (k0 = CNotify) by congruence.
      destruct k; try (right; apply Hk; auto; discriminate).
      left; exists d. apply nth_error_list_set_eq. apply nth_error_Some; congruence.
    + left; exists d. rewrite nth_error_list_set_neq; auto.
Qed.

Lemma worker_step_inv nw s i s' : Inv nw s -> worker_step s i = Some s' -> Inv nw s'.
Proof.
  intros I. unfold worker_step.
  destruct (nth_error (workers s) i) as [w|] eqn:Hi; [|discriminate].
  assert (HL : holders s <= 1) by (rewrite (inv_lock _ _ I); apply b2n_le).
  destruct w; try discriminate.
  - destruct (locked s) eqn:Hl; [discriminate|]. intros H; injection H as <-.
    eapply inv_set_worker; eauto; try discriminate. rewrite Hl; reflexivity.
  - assert (Hl : locked s = true).
    { pose proof (inv_lock _ _ I). pose proof (cnt_ge wholds _ _ _ Hi). unfold holders in *.
      simpl in *. destruct (locked s); auto. simpl in *; lia. }
    destruct (stop s) eqn:Hst; simpl.
    + intros H; injection H as <-. eapply inv_set_worker; eauto; try discriminate.
      rewrite Hl; reflexivity.
    + destruct (queue s) eqn:Hq; intros H; injection H as <-;
        eapply inv_set_worker; eauto; try discriminate; try (rewrite Hl; reflexivity).
      intros _. right. congruence.
  - intros H; injection H as <-.
    assert (Hl : locked s = true).
    { pose proof (inv_lock _ _ I). pose proof (cnt_ge wholds _ _ _ Hi). unfold holders in *.
      simpl in *. destruct (locked s); auto. simpl in *; lia. }
    eapply inv_set_worker; eauto; try discriminate.
    + rewrite Hl; reflexivity.
    + intros _. eapply inv_sleepy; eauto.
  - assert (Hl : locked s = true).
    { pose proof (inv_lock _ _ I). pose proof (cnt_ge wholds _ _ _ Hi). unfold holders in *.
      simpl in *. destruct (locked s); auto. simpl in *; lia. }
    destruct (stop s) eqn:Hst.
    + intros H; injection H as <-. eapply inv_set_worker; eauto; try discriminate.
      rewrite Hl; reflexivity.
    + destruct (inv_post _ _ I _ Hi) as [H|Hq]; [congruence|].
      destruct (queue s) as [|t q] eqn:Eq; [congruence|].
      intros H; injection H as <-. destruct I; constructor; simpl; auto.
      * rewrite inv_fifo0, Eq, <- app_assoc. reflexivity.
      * rewrite Eq in inv_bound0; simpl in *; lia.
      * unfold holders in *; simpl. pose proof (cnt_set wholds _ _ (WRunning t) _ Hi).
        simpl in *. rewrite Hl in inv_lock0. simpl in *. lia.
      * intros j Hj. rewrite (nth_error_list_set _ _ _ _ _ Hi) in Hj.
        destruct (Nat.eqb_spec i j); [discriminate|].
        assert (wholds WSleepy = 0) by (eapply worker_excl2 with (i:=i) (j:=j); eauto; reflexivity).
        discriminate.
      * intros j Hj. rewrite (nth_error_list_set _ _ _ _ _ Hi) in Hj.
        destruct (Nat.eqb_spec i j); [discriminate|].
        assert (wholds WPost = 0) by (eapply worker_excl2 with (i:=i) (j:=j); eauto; reflexivity).
        discriminate.
      * rewrite Hst in inv_dtor0; auto.
      * rewrite list_set_length; auto.
      * intros _ _ _. right. exists i, (WRunning t). split; [|discriminate].
        apply nth_error_list_set_eq. apply nth_error_Some; congruence.
  - intros H; injection H as <-. eapply inv_set_worker; eauto; discriminate.
Qed.

Lemma existsb_asleep_false ws : existsb is_asleep ws = false -> 0 < length ws ->
  exists i w, nth_error ws i = Some w /\ w <> WAsleep.
Proof.
  destruct ws as [|w ws]; simpl; [lia|]. intros H _. exists 0, w. split; [reflexivity|].
  intros ->; discriminate.
Qed.

Lemma client_step_inv nw s c w s' : Inv nw s -> client_step s c w = Some s' -> Inv nw s'.
Proof.
  intros I. unfold client_step.
  destruct (nth_error (clients s) c) as [k|] eqn:Hc; [|discriminate].
  assert (HL : holders s <= 1) by (rewrite (inv_lock _ _ I); apply b2n_le).
  destruct k; try discriminate.
  - destruct (locked s) eqn:Hl; [discriminate|]. intros H; injection H as <-.
    eapply inv_set_client; eauto; try discriminate. rewrite Hl; reflexivity.
  - assert (Hl : locked s = true).
    { pose proof (inv_lock _ _ I). pose proof (cnt_ge cholds _ _ _ Hc). unfold holders in *.
      simpl in *. destruct (locked s); auto. simpl in *; lia. }
    destruct (stop s || (max_tasks s <? length (queue s))) eqn:Hcond.
    + intros H; injection H as <-. eapply inv_set_client; eauto; try discriminate.
      rewrite Hl; reflexivity.
    + apply orb_false_iff in Hcond as [Hst Hlen]. apply Nat.ltb_ge in Hlen.
      intros H; injection H as <-.
      assert (Hex : forall i w, nth_error (workers s) i = Some w -> wholds w = 0)
        by (intros; eapply worker_excl; eauto).
      destruct I; constructor; simpl; auto.
      * rewrite inv_fifo0, app_assoc. reflexivity.
      * rewrite app_length; simpl; lia.
      * unfold holders in *; simpl. pose proof (cnt_set cholds _ _ CNotify _ Hc).
        rewrite Hl in inv_lock0. simpl in *. lia.
      * intros j Hj. apply Hex in Hj; discriminate.
      * intros j Hj. right. destruct (queue s); discriminate.
      * intros _ _ _. left. exists c. apply nth_error_list_set_eq. apply nth_error_Some; congruence.
  - destruct w as [i|].
    + destruct (nth_error (workers s) i) as [wi|] eqn:Hi; [|discriminate].
      destruct wi; try discriminate. intros H; injection H as <-.
      assert (I1 : Inv nw (set_worker s i WAcquire (locked s)))
        by (eapply inv_set_worker; eauto; discriminate).
      eapply inv_set_client with (k0 := CNotify); eauto; simpl.
      intros _ _ _. exists i, WAcquire. split; [|discriminate].
      apply nth_error_list_set_eq. apply nth_error_Some; congruence.
    + destruct (existsb is_asleep (workers s)) eqn:He; [discriminate|].
      intros H; injection H as <-. eapply inv_set_client; eauto.
      intros _ _ Hn. apply existsb_asleep_false; auto. rewrite (inv_nw _ _ I); auto.
Qed.

Lemma cnt_wake ws : cnt wholds (map wake ws) = cnt wholds ws.
Proof.
  unfold cnt. induction ws as [|w ws IH]; simpl; [reflexivity|].
  rewrite IH. destruct w; reflexivity.
Qed.

Lemma dtor_step_inv nw s s' : Inv nw s -> dtor_step s = Some s' -> Inv nw s'.
Proof.
  intros I. unfold dtor_step. destruct (dtor s) eqn:Hd; intros H.
  - injection H as <-. destruct I; constructor; simpl; auto.
    + split; [discriminate|auto].
    + discriminate.
  - injection H as <-. assert (Hst : stop s = true) by (apply (inv_dtor _ _ I); congruence).
    destruct I; constructor; simpl; auto.
    + unfold holders in *; simpl. rewrite cnt_wake; auto.
    + intros i Hi. rewrite nth_error_map in Hi.
      destruct (nth_error (workers s) i) as [w|] eqn:E; [|discriminate].
      destruct w; try discriminate. eauto.
    + split; [discriminate|auto].
    + rewrite map_length; auto.
    + congruence.
  - destruct (forallb is_done (workers s)); [|discriminate]. injection H as <-.
    assert (Hst : stop s = true) by (apply (inv_dtor _ _ I); congruence).
    destruct I; constructor; simpl; auto.
    split; [discriminate|auto].
  - discriminate.
Qed.

Lemma step_inv nw s l s' : Inv nw s -> step s l = Some s' -> Inv nw s'.
Proof.
  intros I. destruct l as [i|i|c t|c w|]; simpl.
  - apply worker_step_inv; auto.
  - destruct (nth_error (workers s) i) as [w|] eqn:Hi; [|discriminate].
    destruct w; try discriminate. intros H; injection H as <-.
    eapply inv_set_worker; eauto; discriminate.
  - destruct (nth_error (clients s) c) as [k|] eqn:Hc; [|discriminate].
    destruct k; try discriminate; intros H; injection H as <-;
      eapply inv_set_client; eauto; discriminate.
  - apply client_step_inv; auto.
  - apply dtor_step_inv; auto.
Qed.

Lemma run_inv nw ls : forall s s', Inv nw s -> run s ls = Some s' -> Inv nw s'.
Proof.
  induction ls as [|l ls IH]; simpl; intros s s' I H; [congruence|].
  destruct (step s l) as [s1|] eqn:E; [|discriminate].
  eapply IH; [|eauto]. eapply step_inv; eauto.
Qed.

Lemma reachable_inv maxt nw nc s : reachable maxt nw nc s -> Inv nw s.
Proof. intros [ls H]. eapply run_inv; eauto. apply init_inv. Qed.

Lemma run_app ls1 : forall s ls2, run s (ls1 ++ ls2) =
  match run s ls1 with Some s1 => run s1 ls2 | None => None end.
Proof.
  induction ls1 as [|l ls1 IH]; simpl; intros s ls2; [reflexivity|].
  destruct (step s l); auto.
Qed.

Lemma step_max s l s' : step s l = Some s' -> max_tasks s' = max_tasks s.
Proof.
  destruct l as [i|i|c t|c w|]; simpl.
  - unfold worker_step. destruct (nth_error _ i) as [w|]; [|discriminate].
    destruct w; try discriminate.
    + destruct (locked s); [discriminate|]. intros H; injection H as <-; auto.
    + destruct (_ && _); intros H; injection H as <-; auto.
    + intros H; injection H as <-; auto.
    + destruct (stop s); [|destruct (queue s)]; intros H; injection H as <-; auto.
    + intros H; injection H as <-; auto.
  - destruct (nth_error _ i) as [w|]; [|discriminate]. destruct w; try discriminate.
    intros H; injection H as <-; auto.
  - destruct (nth_error _ c) as [w|]; [|discriminate]. destruct w; try discriminate;
    intros H; injection H as <-; auto.
  - unfold client_step. destruct (nth_error _ c) as [k|]; [|discriminate].
    destruct k; try discriminate.
    + destruct (locked s); [discriminate|]. intros H; injection H as <-; auto.
    + destruct (_ || _); intros H; injection H as <-; auto.
    + destruct w as [i|].
      * destruct (nth_error _ i) as [wi|]; [|discriminate]. destruct wi; try discriminate.
        intros H; injection H as <-; auto.
      * destruct (existsb _ _); [discriminate|]. intros H; injection H as <-; auto.
  - unfold dtor_step. destruct (dtor s); try discriminate.
    + intros H; injection H as <-; auto.
    + intros H; injection H as <-; auto.
    + destruct (forallb _ _); [|discriminate]. intros H; injection H as <-; auto.
Qed.

Lemma run_max ls : forall s s', run s ls = Some s' -> max_tasks s' = max_tasks s.
Proof.
  induction ls as [|l ls IH]; simpl; intros s s' H; [congruence|].
  destruct (step s l) as [s1|] eqn:E; [|discriminate].
  rewrite (IH _ _ H). eapply step_max; eauto.
Qed.

(** * C02 statement *)
Lemma pool_fifo maxt nw nc s : reachable maxt nw nc s ->
  accepted s = started s ++ queue s /\ length (queue s) <= S maxt /\ ub s = false.
Proof.
  intros R. pose proof (reachable_inv _ _ _ _ R) as I. destruct R as [ls H].
  apply run_max in H. simpl in H. split; [apply I|split; [|apply I]].
  rewrite <- H. apply I.
Qed.

Lemma pool_commit_rule s c t w s' :
  nth_error (clients s) c = Some (CHold t) -> step s (LClient c w) = Some s' ->
  if stop s || (max_tasks s <? length (queue s))
  then nth_error (clients s') c = Some CThrown /\ queue s' = queue s /\ accepted s' = accepted s
  else nth_error (clients s') c = Some CNotify /\ queue s' = queue s ++ [t] /\
       accepted s' = accepted s ++ [t].
Proof.
  intros Hc. simpl. unfold client_step. rewrite Hc.
  assert (Hlt : c < length (clients s)) by (apply nth_error_Some; congruence).
  destruct (_ || _); intros H; injection H as <-; simpl; auto using @nth_error_list_set_eq.
Qed.

(** Every step that changes the histories does so as the owner says. *)
Lemma pool_no_lost_wakeup maxt nw nc s : 0 < nw -> reachable maxt nw nc s ->
  stop s = false -> queue s <> [] ->
  (exists c, nth_error (clients s) c = Some CNotify) \/
  (exists i w, nth_error (workers s) i = Some w /\ w <> WAsleep).
Proof. intros Hn R. apply (inv_wake _ _ (reachable_inv _ _ _ _ R) Hn). Qed.

(** * C03: shutdown *)
Lemma stop_step s l s' : stop s = true -> step s l = Some s' ->
  stop s' = true /\ started s' = started s /\ queue s' = queue s /\ accepted s' = accepted s.
Proof.
  intros Hst. destruct l as [i|i|c t|c w|]; simpl.
  - unfold worker_step. destruct (nth_error _ i) as [w|]; [|discriminate].
    destruct w; try discriminate.
    + destruct (locked s); [discriminate|]. intros H; injection H as <-; auto.
    + destruct (_ && _); intros H; injection H as <-; auto.
    + intros H; injection H as <-; auto.
    + rewrite Hst. intros H; injection H as <-; auto.
    + intros H; injection H as <-; auto.
  - destruct (nth_error _ i) as [w|]; [|discriminate]. destruct w; try discriminate.
    intros H; injection H as <-; auto.
  - destruct (nth_error _ c) as [w|]; [|discriminate]. destruct w; try discriminate;
    intros H; injection H as <-; auto.
  - unfold client_step. destruct (nth_error _ c) as [k|]; [|discriminate].
    destruct k; try discriminate.
    + destruct (locked s); [discriminate|]. intros H; injection H as <-; auto.
    + rewrite Hst; simpl. intros H; injection H as <-; auto.
    + destruct w as [i|].
      * destruct (nth_error _ i) as [wi|]; [|discriminate]. destruct wi; try discriminate.
        intros H; injection H as <-; auto.
      * destruct (existsb _ _); [discriminate|]. intros H; injection H as <-; auto.
  - unfold dtor_step. destruct (dtor s); try discriminate.
    + intros H; injection H as <-; auto.
    + intros H; injection H as <-; auto.
    + destruct (forallb _ _); [|discriminate]. intros H; injection H as <-; auto.
Qed.

Lemma stop_run ls : forall s s', stop s = true -> run s ls = Some s' ->
  stop s' = true /\ started s' = started s /\ queue s' = queue s /\ accepted s' = accepted s.
Proof.
  induction ls as [|l ls IH]; simpl; intros s s' Hst H; [injection H as <-; auto|].
  destruct (step s l) as [s1|] eqn:E; [|discriminate].
  destruct (stop_step _ _ _ Hst E) as (H1 & H2 & H3 & H4).
  destruct (IH _ _ H1 H) as (K1 & K2 & K3 & K4). repeat split; congruence.
Qed.

(** The stuck shape: worker 0 sleeps, flag raised and notified, nobody will notify again. *)
Definition stuck (s : pool) : Prop :=
  stop s = true /\ dtor s = DJoining /\ nth_error (workers s) 0 = Some WAsleep /\
  (forall c, nth_error (clients s) c <> Some CNotify).

Definition spurious (l : label) : bool := match l with LSpurious _ => true | _ => false end.

Lemma stuck_step s l s' : stuck s -> spurious l = false -> step s l = Some s' -> stuck s'.
Proof.
  intros (Hst & Hd & Hw & Hc) Hl. destruct l as [i|i|c t|c w|]; simpl; try discriminate.
  - unfold worker_step. destruct (nth_error _ i) as [w|] eqn:Hi; [|discriminate].
    assert (Hset : forall x, w <> WAsleep -> nth_error (list_set (workers s) i x) 0 = Some WAsleep).
    { intros x Hne. rewrite nth_error_list_set_neq; auto. intros ->. congruence. }
    destruct w; try discriminate.
    + destruct (locked s); [discriminate|]. intros H; injection H as <-.
      repeat split; simpl; auto. apply Hset; discriminate.
    + destruct (_ && _); intros H; injection H as <-; repeat split; simpl; auto; apply Hset; discriminate.
    + intros H; injection H as <-. repeat split; simpl; auto. apply Hset; discriminate.
    + rewrite Hst. intros H; injection H as <-. repeat split; simpl; auto. apply Hset; discriminate.
    + intros H; injection H as <-. repeat split; simpl; auto. apply Hset; discriminate.
  - destruct (nth_error _ c) as [k|] eqn:Hk; [|discriminate].
    assert (H' : forall k', k' <> CNotify -> forall d, nth_error (list_set (clients s) c k') d <> Some CNotify).
    { intros k' Hn d. rewrite (nth_error_list_set _ _ _ _ _ Hk). destruct (Nat.eqb_spec c d); [congruence|auto]. }
    destruct k; try discriminate; intros H; injection H as <-; repeat split; simpl; auto;
      apply H'; discriminate.
  - unfold client_step. destruct (nth_error _ c) as [k|] eqn:Hk; [|discriminate].
    assert (H' : forall k', k' <> CNotify -> forall d, nth_error (list_set (clients s) c k') d <> Some CNotify).
    { intros k' Hn d. rewrite (nth_error_list_set _ _ _ _ _ Hk). destruct (Nat.eqb_spec c d); [congruence|auto]. }
    destruct k; try discriminate.
    + destruct (locked s); [discriminate|]. intros H; injection H as <-.
      repeat split; simpl; auto. apply H'; discriminate.
    + rewrite Hst; simpl. intros H; injection H as <-. repeat split; simpl; auto. apply H'; discriminate.
    + exfalso. eapply Hc; eauto.
  - unfold dtor_step. rewrite Hd.
    assert (forallb is_done (workers s) = false) as ->; [|discriminate].
    destruct (workers s) as [|w ws]; simpl in *; [discriminate|]. injection Hw as ->. reflexivity.
Qed.

Lemma stuck_run ls : forall s s', stuck s -> forallb (fun l => negb (spurious l)) ls = true ->
  run s ls = Some s' -> stuck s'.
Proof.
  induction ls as [|l ls IH]; simpl; intros s s' Hs Hl H; [congruence|].
  apply andb_true_iff in Hl as [Hl Hls]. apply negb_true_iff in Hl.
  destruct (step s l) as [s1|] eqn:E; [|discriminate].
  eapply IH; [|eauto|eauto]. eapply stuck_step; eauto.
Qed.

Lemma pool_destructor_stuck maxt nw nc : exists s,
  reachable maxt (S nw) nc s /\
  forall ls s', forallb (fun l => negb (spurious l)) ls = true -> run s ls = Some s' ->
    dtor s' = DJoining.
Proof.
  set (sched := [LWorker 0; LWorker 0; LDtor; LDtor; LWorker 0]).
  assert (E : exists s, run (init maxt (S nw) nc) sched = Some s /\ stuck s).
  { unfold sched, init. simpl. eexists; split; [reflexivity|].
    repeat split; simpl; auto. intros c H. apply nth_error_In, repeat_spec in H. discriminate. }
  destruct E as (s & Hr & Hs). exists s. split; [exists sched; exact Hr|].
  intros ls s' Hl H. exact (proj1 (proj2 (stuck_run _ _ _ Hs Hl H))).
Qed.

(** Discarded tasks. *)
Lemma pool_discards : exists s, reachable 1000 1 1 s /\ dtor s = DFinished /\
  accepted s = [5] /\ started s = [].
Proof.
  eexists. split.
  - exists [LCall 0 5; LClient 0 None; LClient 0 None; LClient 0 None; LDtor; LDtor;
            LWorker 0; LWorker 0; LWorker 0; LDtor].
    vm_compute. reflexivity.
  - auto.
Qed.

(** * Clean shutdown *)
Definition clean (s : pool) : Prop :=
  stop s = true /\ (dtor s = DJoining \/ dtor s = DFinished) /\
  (forall i, nth_error (workers s) i <> Some WAsleep /\ nth_error (workers s) i <> Some WSleepy).

Definition is_call (l : label) : bool := match l with LCall _ _ => true | _ => false end.

Definition wweight (w : wpc) : nat :=
  match w with WRunning _ => 4 | WAcquire => 3 | WTest => 2 | WPost => 1 | _ => 0 end.
Definition cweight (c : cpc) : nat :=
  match c with CAcquire _ => 3 | CHold _ => 2 | CNotify => 1 | _ => 0 end.
Definition weight (s : pool) : nat :=
  cnt wweight (workers s) + cnt cweight (clients s) +
  match dtor s with DJoining => 1 | _ => 0 end.

Lemma clean_set_worker s i w0 w lk : clean s -> nth_error (workers s) i = Some w0 ->
  w <> WAsleep -> w <> WSleepy -> clean (set_worker s i w lk).
Proof.
  intros (H1 & H2 & H3) Hi Ha Hb. repeat split; simpl; auto;
  rewrite (nth_error_list_set _ _ _ _ _ Hi); destruct (Nat.eqb_spec i i0); try congruence; apply H3.
Qed.

Lemma clean_step s l s' : clean s -> step s l = Some s' ->
  clean s' /\ (is_call l = false -> weight s' < weight s).
Proof.
  intros C. pose proof C as (Hst & Hd & Hw). destruct l as [i|i|c t|c w|]; simpl.
  - unfold worker_step. destruct (nth_error _ i) as [w|] eqn:Hi; [|discriminate].
    assert (HW : forall x lk, wweight x < wweight w -> weight (set_worker s i x lk) < weight s).
    { intros x lk Hx. unfold weight; simpl. pose proof (cnt_set wweight _ _ x _ Hi). lia. }
    destruct w; try discriminate.
    + destruct (locked s); [discriminate|]. intros H; injection H as <-.
      split; [eapply clean_set_worker; eauto; discriminate|intros _; apply HW; simpl; lia].
    + rewrite Hst; simpl. intros H; injection H as <-.
      split; [eapply clean_set_worker; eauto; discriminate|intros _; apply HW; simpl; lia].
    + exfalso; destruct (Hw i) as [HwA HwB]; congruence.
    + rewrite Hst. intros H; injection H as <-.
      split; [eapply clean_set_worker; eauto; discriminate|intros _; apply HW; simpl; lia].
    + intros H; injection H as <-.
      split; [eapply clean_set_worker; eauto; discriminate|intros _; apply HW; simpl; lia].
  - destruct (nth_error _ i) as [w|] eqn:Hi; [|discriminate]. destruct w; try discriminate.
    exfalso; destruct (Hw i) as [HwA HwB]; congruence.
  - destruct (nth_error _ c) as [w|]; [|discriminate]. destruct w; try discriminate;
    intros H; injection H as <-; split; auto; discriminate.
  - unfold client_step. destruct (nth_error _ c) as [k|] eqn:Hk; [|discriminate].
    assert (HW : forall x lk, cweight x < cweight k -> weight (set_client s c x lk) < weight s).
    { intros x lk Hx. unfold weight; simpl. pose proof (cnt_set cweight _ _ x _ Hk). lia. }
    destruct k; try discriminate.
    + destruct (locked s); [discriminate|]. intros H; injection H as <-.
      split; [auto|intros _; apply HW; simpl; lia].
    + rewrite Hst; simpl. intros H; injection H as <-. split; [auto|intros _; apply HW; simpl; lia].
    + destruct w as [i|].
      * destruct (nth_error _ i) as [wi|] eqn:Hi; [|discriminate]. destruct wi; try discriminate.
        exfalso; destruct (Hw i) as [HwA HwB]; congruence.
      * destruct (existsb _ _); [discriminate|]. intros H; injection H as <-.
        split; [auto|intros _; apply HW; simpl; lia].
  - unfold dtor_step. destruct Hd as [Hd|Hd]; rewrite Hd; try discriminate.
    destruct (forallb _ _); [|discriminate]. intros H; injection H as <-.
    split; [repeat split; simpl; auto; apply Hw|].
    intros _. unfold weight; simpl. rewrite Hd. lia.
Qed.

Lemma forallb_done_false ws : forallb is_done ws = false ->
  exists i w, nth_error ws i = Some w /\ w <> WDone.
Proof.
  induction ws as [|w ws IH]; simpl; [discriminate|].
  destruct w; simpl; intros H;
    try (eexists 0, _; split; [reflexivity|discriminate]).
  destruct (IH H) as (i & w & Hi & Hn). exists (S i), w; auto.
Qed.

Lemma cnt_pos {A} (f : A -> nat) l : 0 < cnt f l -> exists i y, nth_error l i = Some y /\ 0 < f y.
Proof.
  unfold cnt. induction l as [|h t IH]; simpl; [lia|]. intros H.
  destruct (f h) eqn:E.
  - destruct (IH H) as (i & y & Hi & Hy). exists (S i), y; auto.
  - exists 0, h; simpl; split; auto; lia.
Qed.

Lemma clean_progress nw s : Inv nw s -> clean s -> dtor s <> DFinished ->
  exists l s', is_call l = false /\ spurious l = false /\ step s l = Some s'.
Proof.
  intros I (Hst & Hd & Hw) Hnf. destruct Hd as [Hd|Hd]; [|congruence].
  destruct (forallb is_done (workers s)) eqn:Hf.
  { exists LDtor. eexists. repeat split. simpl. unfold dtor_step. rewrite Hd, Hf. reflexivity. }
  destruct (locked s) eqn:Hl.
  - (* the holder can move *)
    pose proof (inv_lock _ _ I) as HL. rewrite Hl in HL. unfold holders in HL; simpl in HL.
    assert (0 < cnt wholds (workers s) \/ 0 < cnt cholds (clients s)) as [H|H] by lia.
    + apply cnt_pos in H as (i & w & Hi & Hh).
      exists (LWorker i). simpl. unfold worker_step. rewrite Hi.
      destruct w; simpl in Hh; try lia.
      * destruct (_ && _); eexists; repeat split; reflexivity.
      * eexists; repeat split; reflexivity.
      * rewrite Hst. eexists; repeat split; reflexivity.
    + apply cnt_pos in H as (c & k & Hi & Hh). destruct k; simpl in Hh; try lia.
      exists (LClient c None). simpl. unfold client_step. rewrite Hi.
      destruct (_ || _); eexists; repeat split; reflexivity.
  - apply forallb_done_false in Hf as (i & w & Hi & Hn).
    exists (LWorker i). simpl. unfold worker_step. rewrite Hi, Hl.
    destruct (Hw i) as [Ha Hs].
    destruct w; try congruence; try (eexists; repeat split; reflexivity).
    + destruct (_ && _); eexists; repeat split; reflexivity.
    + rewrite Hst. eexists; repeat split; reflexivity.
Qed.

Lemma clean_finish nw : forall n s, weight s <= n -> Inv nw s -> clean s ->
  exists ls s', forallb (fun l => negb (is_call l) && negb (spurious l)) ls = true /\
    run s ls = Some s' /\ dtor s' = DFinished.
Proof.
  induction n as [|n IH]; intros s Hn I C.
  - destruct (dtor s) eqn:Hd.
    4: exists [], s; auto.
    + destruct C as (_ & [?|?] & _); congruence.
    + destruct C as (_ & [?|?] & _); congruence.
    + unfold weight in Hn. rewrite Hd in Hn. lia.
  - assert (Hdec : dtor s = DFinished \/ dtor s <> DFinished)
      by (destruct (dtor s); auto; right; discriminate).
    destruct Hdec as [Hd|Hd]; [exists [], s; auto|].
    destruct (clean_progress nw s I C Hd) as (l & s1 & Hl1 & Hl2 & Hs1).
    destruct (clean_step _ _ _ C Hs1) as [C1 Hdec].
    specialize (Hdec Hl1).
    destruct (IH s1 ltac:(lia) (step_inv _ _ _ _ I Hs1) C1) as (ls & s' & Hls & Hr & Hf).
    exists (l :: ls), s'. simpl. rewrite Hl1, Hl2, Hs1. simpl. auto.
Qed.

(** notify_all executed while nobody is between test and sleep *)
Lemma notify_clean s s' : stop s = true -> dtor s = DStopped ->
  (forall i, nth_error (workers s) i <> Some WSleepy) ->
  step s LDtor = Some s' -> clean s'.
Proof.
  intros Hst Hd Hn. simpl. unfold dtor_step. rewrite Hd. intros H; injection H as <-.
  split; [exact Hst|]. split; [left; reflexivity|]. simpl. intros i.
  rewrite nth_error_map. specialize (Hn i).
  destruct (nth_error (workers s) i) as [w|]; simpl; [|split; discriminate].
  destruct w; simpl; split; congruence.
Qed.

Lemma clean_run ls : forall s s', clean s -> run s ls = Some s' -> clean s'.
Proof.
  induction ls as [|l ls IH]; simpl; intros s s' Hs H; [congruence|].
  destruct (step s l) as [s1|] eqn:E; [|discriminate].
  eapply IH; [|exact H]. exact (proj1 (clean_step _ _ _ Hs E)).
Qed.

Lemma pool_clean_shutdown maxt nw nc s s1 : reachable maxt nw nc s ->
  dtor s = DStopped -> (forall i, nth_error (workers s) i <> Some WSleepy) ->
  step s LDtor = Some s1 ->
  forall ls s2, run s1 ls = Some s2 ->
    (forall i, nth_error (workers s2) i <> Some WAsleep) /\
    (forall l s3, is_call l = false -> step s2 l = Some s3 -> weight s3 < weight s2) /\
    exists ls' s', run s2 ls' = Some s' /\ dtor s' = DFinished.
Proof.
  intros R Hd Hn Hs1 ls s2 Hr. pose proof (reachable_inv _ _ _ _ R) as I.
  assert (Hst : stop s = true) by (apply (inv_dtor _ _ I); congruence).
  pose proof (notify_clean _ _ Hst Hd Hn Hs1) as C1.
  pose proof (clean_run _ _ _ C1 Hr) as C2.
  assert (I2 : Inv nw s2) by (eapply run_inv; [eapply step_inv; eauto|eauto]).
  split; [|split].
  - intros i. apply C2.
  - intros l s3 Hl H. exact (proj2 (clean_step _ _ _ C2 H) Hl).
  - destruct (clean_finish nw _ s2 (le_n _) I2 C2) as (ls' & s' & _ & H & H'). eauto.
Qed.

(** started is duplicate-free when the committed tasks are distinct *)
Lemma pool_at_most_once maxt nw nc s : reachable maxt nw nc s ->
  NoDup (accepted s) -> NoDup (started s) /\ (forall t, In t (started s) -> ~ In t (queue s)).
Proof.
  intros R Hnd. destruct (pool_fifo _ _ _ _ R) as [E _]. rewrite E in Hnd.
  clear E. induction (started s) as [|x l IH]; simpl in *; [split; [constructor|tauto]|].
  inversion Hnd as [|y l' Hx Hl]; subst. destruct (IH Hl) as [H1 H2].
  split.
  - constructor; auto. intros Hin; apply Hx, in_or_app; auto.
  - intros t [<-|Ht] Hq; [apply Hx, in_or_app; auto|eapply H2; eauto].
Qed.
