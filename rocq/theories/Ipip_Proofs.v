From Verif Require Import Base Ipip_Model.
Ltac some H := injection H as <-.

(** * Stream *)
(** [pending f]: the values further extractions will give until eofbit is set, for a
    well-formed, not failed stream. *)
Fixpoint good_toks (l : list (option nat)) : Prop :=
  match l with [] => True | Some _ :: t => good_toks t | None :: _ => False end.

Definition pending (f : stream) : list (option nat) :=
  if eofbit f then [] else toks f ++ (if trailing f || is_nil (toks f) then [None] else []).

Definition good (f : stream) : Prop :=
  good_toks (toks f) /\ (failbit f = true -> eofbit f = true) /\ (eofbit f = true -> toks f = []).

Lemma extract_good f v f' : good f -> eofbit f = false -> extract f = (v, f') ->
  good f' /\ pending f = v :: pending f'.
Proof.
  intros (G & Hf & He) E. unfold extract, pending. rewrite E.
  destruct (failbit f) eqn:F; [specialize (Hf eq_refl); congruence|].
  destruct (toks f) as [|[x|] t] eqn:T; simpl in G; [| |contradiction]; intros H; injection H as <- <-.
  - split; [split; [exact I|split; auto]|]. simpl.
    rewrite orb_true_r. reflexivity.
  - simpl. destruct t as [|o t].
    + simpl. destruct (trailing f); simpl; repeat split; auto; try discriminate; try congruence.
    + simpl. rewrite !orb_false_r. repeat split; auto; try discriminate.
Qed.

Lemma good_open recs tr : good (open_file (map Some recs) tr).
Proof.
  repeat split; simpl; auto; try discriminate.
  induction recs; simpl; auto.
Qed.
Lemma pending_open recs tr : pending (open_file (map Some recs) tr) = all_reads recs tr.
Proof. unfold pending, all_reads; simpl. destruct recs; reflexivity. Qed.

(** * Mutual exclusion *)
Definition lholds (w : lpc) : nat :=
  match w with LdPred | LdBreak | LdFill _ | LdEoqHold => 1 | _ => 0 end.
Definition rholds (p : rpc) : nat := match p with RTest | RCheck => 1 | _ => 0 end.
Definition dholds (l : life_pc) : nat := match l with LDHold => 1 | _ => 0 end.
Definition cnt {A} (f : A -> nat) (l : list A) : nat := list_sum (map f l).
Definition b2n (b : bool) : nat := if b then 1 else 0.
Definition Mutex (s : pipe) : Prop :=
  lholds (loader s) + cnt rholds (readers s) + dholds (life s) = b2n (locked s).

Lemma cnt_set {A} (f : A -> nat) l i x y :
  nth_error l i = Some y -> cnt f (list_set l i x) + f y = cnt f l + f x.
Proof.
  unfold cnt. revert i; induction l as [|h t IH]; intros [|i] H; simpl in *; try discriminate.
  - injection H as ->. lia.
  - apply IH in H. lia.
Qed.
Lemma cnt_ge {A} (f : A -> nat) l i y : nth_error l i = Some y -> f y <= cnt f l.
Proof.
  unfold cnt. revert i; induction l as [|h t IH]; intros [|i] H; simpl in *; try discriminate.
  - injection H as ->. lia.
  - apply IH in H. lia.
Qed.
Lemma cnt_repeat0 {A} (f : A -> nat) x n : f x = 0 -> cnt f (repeat x n) = 0.
Proof. intros H. unfold cnt. induction n; simpl; lia. Qed.
Lemma cnt_wake l : cnt rholds (map wake_r l) = cnt rholds l.
Proof. unfold cnt. induction l as [|[]]; simpl; auto. Qed.
Lemma lholds_wake l : lholds (wake_l l) = lholds l.
Proof. destruct l; auto. Qed.

Ltac held M := match type of M with context [b2n (locked ?s)] =>
  let Hl := fresh "Hl" in assert (Hl : locked s = true) by (destruct (locked s); simpl in *; auto; lia);
  rewrite Hl in M; simpl in M end.

Lemma mutex_step s l s' : Mutex s -> step s l = Some s' -> Mutex s'.
Proof.
  unfold Mutex. intros M. destruct l as [g| |r|r|r|]; simpl.
  - unfold loader_step, read_stop. destruct (loader s) eqn:Hw; simpl in M.
    + intros H; some H. simpl. destruct (eofbit _); simpl; lia.
    + destruct (locked s) eqn:Hl; [discriminate|]. intros H; some H. simpl in *. lia.
    + held M. destruct (stop s) as [b|]; intros H; destruct (_ || _) in H; some H; simpl in *; lia.
    + discriminate.
    + held M. destruct (stop s) as [[]|]; [| |destruct g]; intros H; some H; simpl in *; lia.
    + held M. destruct (_ && _).
      * destruct (extract _) as [v f]. intros H; some H. simpl. rewrite Hl; simpl; lia.
      * intros H; some H. simpl in *. lia.
    + intros H; some H. simpl. rewrite cnt_wake. lia.
    + destruct (locked s) eqn:Hl; [discriminate|]. intros H; some H. simpl in *. lia.
    + held M. intros H; some H. simpl in *. lia.
    + intros H; some H. simpl. rewrite cnt_wake. lia.
    + discriminate.
  - destruct (loader s) eqn:Hw; try discriminate. intros H; some H. simpl in *. auto.
  - destruct (nth_error _ r) as [k|] eqn:Hp; [|discriminate].
    destruct k; try discriminate. intros H; some H. simpl in *.
    pose proof (cnt_set rholds _ _ RAcquire _ Hp). simpl in *. lia.
  - destruct (life s) eqn:Hlf; try discriminate. destruct (nth_error _ r) as [k|] eqn:Hp; [|discriminate].
    destruct k; try discriminate. intros H; some H. simpl in *. rewrite Hlf; simpl.
    pose proof (cnt_set rholds _ _ RAcquire _ Hp). simpl in *. lia.
  - unfold reader_step. destruct (nth_error _ r) as [k|] eqn:Hp; [|discriminate].
    pose proof (cnt_ge rholds _ _ _ Hp) as G.
    destruct k; try discriminate.
    + destruct (locked s) eqn:Hl; [discriminate|]. intros H'; some H'. simpl in *.
      pose proof (cnt_set rholds _ _ RTest _ Hp). simpl in *. lia.
    + simpl in G. held M. destruct (_ || _); intros H'; some H'; simpl in *.
      * pose proof (cnt_set rholds _ _ RCheck _ Hp). simpl in *. lia.
      * pose proof (cnt_set rholds _ _ RAsleep _ Hp). simpl in *. lia.
    + simpl in G. held M. pose proof (cnt_set rholds _ _ RIdle _ Hp) as Q. simpl in Q.
      destruct (queue s) as [|v q]; intros H'; some H'; simpl in *; [lia|].
      destruct (is_nil q); rewrite ?lholds_wake; lia.
  - unfold life_step. destruct (life s) eqn:Hlf; try discriminate; simpl in M.
    + intros H; some H. simpl. lia.
    + intros H; some H. simpl. lia.
    + destruct (forallb _ _); [|discriminate]. intros H; some H. simpl. lia.
    + destruct (locked s) eqn:Hl; [discriminate|]. intros H; some H. simpl in *. lia.
    + held M. intros H; some H. simpl. lia.
    + intros H; some H. simpl in *. rewrite cnt_wake. lia.
    + intros H; some H. simpl in *. rewrite lholds_wake. lia.
    + destruct (loader s) eqn:Hw; try discriminate. intros H; some H. simpl in *. rewrite Hw; auto.
Qed.

(** * Data flow (all schedules, even with uninitialised reads) *)
Definition Flow (s : pipe) : Prop := loaded s = delivered s ++ queue s.
Definition Src (E : list (option nat)) (s : pipe) : Prop :=
  good (fstr s) /\ E = loaded s ++ pending (fstr s).

Ltac stepcases :=
  repeat (match goal with
  | |- context [match stop ?s with _ => _ end] => destruct (stop s) eqn:?
  | |- context [match ?x with _ => _ end] => destruct x eqn:?; try discriminate
  end; cbn beta iota).

Lemma flow_step s l s' : Flow s -> step s l = Some s' -> Flow s'.
Proof.
  unfold Flow. intros F.
  destruct l as [g| |r|r|r|]; simpl; unfold loader_step, read_stop, reader_step, life_step.
  1:{ destruct (loader s); try discriminate; try (stepcases; intros H; some H; simpl; auto; fail).
      destruct (_ && _) eqn:B; [|intros H; some H; simpl; auto].
      destruct (extract (fstr s)) as [v f] eqn:X. intros H; some H; simpl.
      rewrite F, <- app_assoc. reflexivity. }
  4:{ destruct (nth_error _ r) as [[]|]; try discriminate; try (stepcases; intros H; some H; simpl; auto; fail).
      destruct (queue s) as [|v q]; intros H; some H; simpl; auto.
      rewrite F, <- app_assoc. reflexivity. }
  all: stepcases; intros H; some H; simpl; auto.
Qed.

Lemma src_step E s l s' : Src E s -> step s l = Some s' -> Src E s'.
Proof.
  unfold Src. intros [G HE].
  destruct l as [g| |r|r|r|]; simpl; unfold loader_step, read_stop, reader_step, life_step.
  1:{ destruct (loader s); try discriminate; try (stepcases; intros H; some H; simpl; auto; fail).
      destruct (_ && _) eqn:B; [|intros H; some H; simpl; auto].
      apply andb_true_iff in B as [_ B]. apply negb_true_iff in B.
      destruct (extract (fstr s)) as [v f] eqn:X. intros H; some H; simpl.
      destruct (extract_good _ _ _ G B X) as [G' P]. split; auto.
      rewrite HE, P, <- app_assoc. reflexivity. }
  all: stepcases; intros H; some H; simpl; auto.
Qed.

Lemma uninit_mono s l s' : step s l = Some s' -> uninit_read s' = false -> uninit_read s = false.
Proof.
  destruct l as [g| |r|r|r|]; simpl; unfold loader_step, read_stop, reader_step, life_step;
    stepcases; intros H; some H; simpl; auto; discriminate.
Qed.
Lemma overw_mono s l s' : step s l = Some s' -> overwritten s' = false -> overwritten s = false.
Proof.
  destruct l as [g| |r|r|r|]; simpl; unfold loader_step, read_stop, reader_step, life_step;
    stepcases; intros H; some H; simpl; auto; try discriminate.
  intros H. apply orb_false_iff in H. tauto.
Qed.

(** * Control invariant without uninitialised reads *)
Definition stopped_life (l : life_pc) : bool :=
  match l with LDNotifyIo | LDNotifyLoad | LDJoin | LDead => true | _ => false end.
Definition waking_life (l : life_pc) : bool :=
  match l with LDNotifyIo | LDNotifyLoad => true | _ => false end.
Definition finishing (w : lpc) : bool :=
  match w with LdEoqAcq | LdEoqHold | LdNotify2 | LdEnd => true | _ => false end.
Definition finished (w : lpc) : bool := match w with LdNotify2 | LdEnd => true | _ => false end.
Definition filling (w : lpc) : bool :=
  match w with LdFill _ | LdNotify | LdNotify2 => true | _ => false end.

Record Ctl (s : pipe) : Prop := {
  c_stopinit : stop s = None -> life s = LCtor0;
  c_stop : bval (stop s) = stopped_life (life s);
  c_fin : finishing (loader s) = true -> bval (stop s) = true \/ eofbit (fstr s) = true;
  c_eoqset : bval (eoq s) = true -> bval (stop s) = true \/ finished (loader s) = true;
  c_eoq : finished (loader s) = true -> overwritten s = false -> bval (eoq s) = true;
  c_idle : forall p k, nth_error (readers s) p = Some k -> k <> RIdle -> life s = LAlive;
  c_rcheck : forall p, nth_error (readers s) p = Some RCheck -> bval (eoq s) = true \/ queue s <> [];
  c_rsleep : forall p, nth_error (readers s) p = Some RAsleep ->
     (queue s = [] /\ bval (eoq s) = false) \/ filling (loader s) = true;
  c_ended : ended s = true -> eofbit (fstr s) = true /\ queue s = [] /\ finished (loader s) = true;
  c_lsleep : loader s = LdAsleep ->
     (queue s <> [] /\ bval (stop s) = false) \/ waking_life (life s) = true;
  c_dead : life s = LDead -> loader s = LdEnd
}.

Lemma nth_map_wake rs p k : nth_error (map wake_r rs) p = Some k ->
  k <> RAsleep /\ exists k0, nth_error rs p = Some k0 /\ k = wake_r k0.
Proof.
  rewrite nth_error_map. destruct (nth_error rs p) as [k0|]; simpl; [|discriminate].
  intros H; injection H as <-. split; [destruct k0; discriminate|eauto].
Qed.

Lemma nth_set_inv {A} (l : list A) r x y p k : nth_error l r = Some y ->
  nth_error (list_set l r x) p = Some k -> (p = r /\ k = x) \/ (p <> r /\ nth_error l p = Some k).
Proof.
  intros H. rewrite (nth_error_list_set _ _ _ _ _ H). destruct (Nat.eqb_spec r p); intros E.
  - left. split; congruence.
  - right. split; auto.
Qed.

(** Change of the loader's program counter only. *)
Lemma ctl_loader s w lk : Ctl s ->
  (finishing w = true -> bval (stop s) = true \/ eofbit (fstr s) = true) ->
  (bval (eoq s) = true -> finished (loader s) = true -> finished w = true) ->
  (finished w = true -> overwritten s = false -> bval (eoq s) = true) ->
  (filling (loader s) = true -> filling w = true \/ forall p, nth_error (readers s) p <> Some RAsleep) ->
  (ended s = true -> finished (loader s) = true -> finished w = true) ->
  (w = LdAsleep -> (queue s <> [] /\ bval (stop s) = false) \/ waking_life (life s) = true) ->
  (life s = LDead -> w = LdEnd) ->
  Ctl (upd_ld s w lk).
Proof.
  intros C H1 H2 H3 H4 H5 H6 H7. destruct C; constructor; simpl; auto.
  - intros E. destruct (c_eoqset0 E); auto.
  - intros p Hp. destruct (c_rsleep0 p Hp) as [?|Hf]; auto.
    destruct (H4 Hf) as [?|Hn]; auto. exfalso; eapply Hn; eauto.
  - intros E. destruct (c_ended0 E) as (? & ? & ?); auto.
Qed.

Lemma ctl_wakeall s lk : Ctl s -> Ctl (upd_rs s (map wake_r (readers s)) lk).
Proof.
  intros C; destruct C; constructor; simpl; auto.
  - intros p k Hp Hk. apply nth_map_wake in Hp as (_ & k0 & Hp & ->).
    apply (c_idle0 p k0); auto. destruct k0; auto; discriminate.
  - intros p Hp. apply nth_map_wake in Hp as (_ & k0 & Hp & Hk).
    apply (c_rcheck0 p). destruct k0; try discriminate; auto.
  - intros p Hp. apply nth_map_wake in Hp as (Hn & _). congruence.
Qed.

(** Change of one reader only. *)
Lemma ctl_reader s r k0 k lk : Ctl s -> nth_error (readers s) r = Some k0 ->
  (k <> RIdle -> life s = LAlive) ->
  (k = RCheck -> bval (eoq s) = true \/ queue s <> []) ->
  (k = RAsleep -> queue s = [] /\ bval (eoq s) = false) ->
  Ctl (upd_rs s (list_set (readers s) r k) lk).
Proof.
  intros C Hr H1 H2 H3. destruct C; constructor; simpl; auto.
  - intros p k1 Hp Hk. apply (nth_set_inv _ _ _ _ _ _ Hr) in Hp as [[-> ->]|[Hn Hp]]; eauto.
  - intros p Hp. apply (nth_set_inv _ _ _ _ _ _ Hr) in Hp as [[-> E]|[Hn Hp]]; eauto.
  - intros p Hp. apply (nth_set_inv _ _ _ _ _ _ Hr) in Hp as [[-> E]|[Hn Hp]]; eauto.
Qed.

Lemma loader_ctl s g s' : Mutex s -> Ctl s -> loader_step s g = Some s' ->
  uninit_read s' = false -> Ctl s'.
Proof.
  intros M C.
  assert (Hdead : loader s <> LdEnd -> life s = LDead -> False).
  { intros H1 H2. apply H1, (c_dead _ C H2). }
  unfold loader_step, read_stop. destruct (loader s) eqn:Hw;
    try specialize (Hdead ltac:(discriminate)).
  - intros H _; some H. destruct (eofbit (fstr s)) eqn:E; apply ctl_loader; rewrite ?Hw; simpl;
      auto; try discriminate; tauto.
  - destruct (locked s); [discriminate|]. intros H _; some H.
    apply ctl_loader; rewrite ?Hw; simpl; auto; try discriminate; tauto.
  - destruct (stop s) as [b|] eqn:Hst.
    2:{ intros H; destruct (_ || _) in H; some H; simpl; discriminate. }
    destruct (b || is_nil (queue s)) eqn:E; intros H _; some H; apply ctl_loader; rewrite ?Hw; simpl;
      auto; try discriminate; try tauto.
    intros _. left. rewrite Hst. apply orb_false_iff in E as [-> E]. split; auto.
    destruct (queue s); simpl in E; congruence.
  - discriminate.
  - destruct (stop s) as [b|] eqn:Hst.
    2:{ destruct g; intros H; some H; simpl; discriminate. }
    destruct b; intros H _; some H; apply ctl_loader; rewrite ?Hw, ?Hst; simpl;
      auto; try discriminate; try tauto.
  - destruct ((i <? batch) && negb (eofbit (fstr s))) eqn:B.
    + destruct (extract (fstr s)) as [v f] eqn:X. intros H _; some H.
      destruct C; constructor; simpl; auto; try rewrite Hw in *; simpl in *; auto; try discriminate.
      * intros p Hp. right. destruct (queue s); discriminate.
      * intros He. destruct (c_ended0 He) as (_ & _ & ?). discriminate.
      * tauto.
    + intros H _; some H. apply ctl_loader; rewrite ?Hw; simpl; auto; try discriminate; try tauto.
  - intros H _; some H.
    assert (C' : Ctl (upd_rs s (map wake_r (readers s)) (locked s))) by (apply ctl_wakeall; auto).
    apply ctl_loader; simpl; rewrite ?Hw; simpl; auto; try discriminate; try tauto.
    intros _. right. intros p Hp. apply nth_map_wake in Hp as [? _]. congruence.
  - destruct (locked s); [discriminate|]. intros H _; some H.
    pose proof (c_fin _ C) as Hfin. rewrite Hw in Hfin.
    apply ctl_loader; rewrite ?Hw; simpl; auto; try discriminate; tauto.
  - intros H _; some H.
    destruct C; constructor; simpl; auto; try rewrite Hw in *; simpl in *; auto; try discriminate.
    + intros He. destruct (c_ended0 He) as (_ & _ & ?). discriminate.
    + tauto.
  - intros H _; some H.
    assert (C' : Ctl (upd_rs s (map wake_r (readers s)) (locked s))) by (apply ctl_wakeall; auto).
    pose proof (c_fin _ C) as Hfin. rewrite Hw in Hfin.
    pose proof (c_eoq _ C) as Heoq. rewrite Hw in Heoq.
    apply ctl_loader; simpl; rewrite ?Hw; simpl; auto; try discriminate; try tauto.
    intros _. right. intros p Hp. apply nth_map_wake in Hp as [? _]. congruence.
  - discriminate.
Qed.

Lemma reader_ctl s r s' : Mutex s -> Ctl s -> reader_step s r = Some s' -> Ctl s'.
Proof.
  intros M C. unfold reader_step. destruct (nth_error _ r) as [k|] eqn:Hr; [|discriminate].
  pose proof (cnt_ge rholds _ _ _ Hr) as G. unfold Mutex in M.
  destruct k; try discriminate;
  (assert (Hal : life s = LAlive) by (eapply c_idle; eauto; discriminate)).
  - destruct (locked s); [discriminate|]. intros H; some H.
    eapply ctl_reader; eauto; discriminate.
  - destruct (bval (eoq s) || negb (is_nil (queue s))) eqn:E; intros H; some H.
    + eapply ctl_reader; eauto; try discriminate.
      intros _. apply orb_true_iff in E as [E|E]; auto. right. destruct (queue s); simpl in E; congruence.
    + apply orb_false_iff in E as [E1 E2]. eapply ctl_reader; eauto; try discriminate.
      intros _. split; auto. destruct (queue s); simpl in E2; congruence.
  - simpl in G.
    assert (Hns : bval (stop s) = false) by (rewrite (c_stop _ C), Hal; auto).
    assert (Honly : forall p, p <> r -> nth_error (readers s) p <> Some RCheck).
    { intros p Hn Hp.
      pose proof (cnt_set rholds _ _ RIdle _ Hr) as Q. simpl in Q.
      assert (Hp' : nth_error (list_set (readers s) r RIdle) p = Some RCheck)
        by (rewrite nth_error_list_set_neq; auto).
      pose proof (cnt_ge rholds _ _ _ Hp') as Q2. simpl in Q2.
      destruct (locked s); simpl in M; lia. }
    assert (Hli : forall p k, nth_error (list_set (readers s) r RIdle) p = Some k -> k <> RIdle ->
                    p <> r /\ nth_error (readers s) p = Some k).
    { intros p k Hp Hk. apply (nth_set_inv _ _ _ _ _ _ Hr) in Hp as [[-> ->]|[Hn Hp]]; [congruence|auto]. }
    destruct (queue s) as [|v q] eqn:Hq; intros H; some H.
    + destruct (c_rcheck _ C _ Hr) as [He|He]; [|congruence].
      destruct (c_eoqset _ C He) as [?|Hfin]; [congruence|].
      assert (Heof : eofbit (fstr s) = true).
      { destruct (c_fin _ C); auto; try congruence. destruct (loader s); simpl in *; auto; discriminate. }
      destruct C; constructor; simpl; auto.
      * intros p Hp. destruct (Hli _ _ Hp ltac:(discriminate)) as [_ Hp'].
        destruct (c_rsleep0 _ Hp') as [[_ ?]|?]; auto.
      * intros Hw. rewrite Hw in Hfin; discriminate.
    + assert (Hsl : forall p, nth_error (readers s) p = Some RAsleep -> filling (loader s) = true).
      { intros p Hp. destruct (c_rsleep _ C p Hp) as [[? _]|?]; congruence. }
      assert (Hend : ended s = true -> False).
      { intros He. destruct (c_ended _ C He) as (_ & ? & _). congruence. }
      assert (Hc : forall w, (loader s <> LdAsleep -> w = loader s) -> (loader s = LdAsleep -> w = LdAcquire \/ w = LdAsleep /\ q <> []) ->
        Ctl (mkPipe q (fstr s) (stop s) (eoq s) false w (list_set (readers s) r RIdle) (life s)
               (loaded s) (delivered s ++ [v]) (ended s) (uninit_read s) (overwritten s))).
      { intros w W1 W2.
        assert (Wf : finishing w = finishing (loader s) /\ finished w = finished (loader s) /\
                     filling w = filling (loader s)).
        { destruct (loader s); try (rewrite W1 by discriminate; auto).
          destruct (W2 eq_refl) as [->|[-> _]]; auto. }
        destruct Wf as (W3 & W4 & W5).
        destruct C; constructor; simpl; rewrite ?W3, ?W4, ?W5; auto.
        - intros p Hp. exfalso. destruct (Hli _ _ Hp ltac:(discriminate)) as [Hn Hp']. eapply Honly; eauto.
        - intros p Hp. destruct (Hli _ _ Hp ltac:(discriminate)) as [Hn Hp']. right; eauto.
        - tauto.
        - intros Hw. left. split; auto. destruct (loader s);
            try (rewrite W1 in Hw by discriminate; discriminate).
          destruct (W2 eq_refl) as [->|[_ ?]]; [discriminate|auto].
        - rewrite Hal; discriminate. }
      destruct (is_nil q) eqn:En.
      * apply Hc; destruct (loader s); simpl; auto; congruence.
      * apply Hc; auto. intros Hw. right. split; auto. destruct q; simpl in En; congruence.
Qed.

Lemma no_readers s : Ctl s -> life s <> LAlive ->
  forall p k, nth_error (readers s) p = Some k -> k = RIdle.
Proof.
  intros C Hn p k Hp. destruct k; auto; exfalso; apply Hn; eapply c_idle; eauto; discriminate.
Qed.

Ltac lf := first
  [ intros Hn; match goal with H : stop ?s = None -> _ |- _ => apply H in Hn; discriminate end
  | intros p k Hp Hk;
    match goal with Hno : forall p k, nth_error _ p = Some k -> k = RIdle |- _ =>
      first [ apply Hno in Hp; congruence
            | apply nth_map_wake in Hp as (_ & k0 & Hp & ->); apply Hno in Hp; subst; simpl in Hk; congruence ] end
  | intros p Hp;
    match goal with Hno : forall p k, nth_error _ p = Some k -> k = RIdle |- _ =>
      first [ apply Hno in Hp; discriminate
            | apply nth_map_wake in Hp as (_ & k0 & Hp & Hk); apply Hno in Hp; subst; discriminate ] end
  | intros Hw; match goal with H : loader ?s = LdAsleep -> _ |- _ =>
      destruct (H Hw) as [[? ?]|?]; auto; discriminate end
  | intros F Ho; match goal with H : finished _ = true -> _ -> _ |- _ =>
      apply orb_false_iff in Ho as [Ho1 Ho2]; rewrite (H F Ho1) in Ho2; discriminate end
  | match goal with |- wake_l (loader ?s) = LdAsleep -> _ => destruct (loader s); discriminate end
  | idtac ].

Lemma life_ctl s s' : Ctl s -> life_step s = Some s' -> Ctl s'.
Proof.
  intros C. pose proof (no_readers _ C) as Hno. pose proof (c_stop _ C) as Hst.
  unfold life_step. destruct (life s) eqn:Hlf; try discriminate; simpl in Hst;
    try specialize (Hno ltac:(discriminate)).
  - intros H; some H.
    destruct C; constructor; simpl; auto; try rewrite Hlf in *; try rewrite Hst in *; auto; try discriminate; lf.
  - intros H; some H.
    destruct C; constructor; simpl; auto; try rewrite Hlf in *; try rewrite Hst in *; auto; try discriminate; lf.
  - destruct (forallb _ _) eqn:Hf; [|discriminate]. intros H; some H.
    assert (Hno' : forall p k, nth_error (readers s) p = Some k -> k = RIdle).
    { intros p k Hp. rewrite forallb_forall in Hf. apply nth_error_In in Hp. apply Hf in Hp.
      destruct k; simpl in Hp; congruence. }
    clear Hno; rename Hno' into Hno.
    destruct C; constructor; simpl; auto; try rewrite Hlf in *; try rewrite Hst in *; auto; try discriminate; lf.
  - destruct (locked s); [discriminate|]. intros H; some H.
    destruct C; constructor; simpl; auto; try rewrite Hlf in *; try rewrite Hst in *; auto; try discriminate; lf.
  - intros H; some H.
    destruct C; constructor; simpl; auto; try rewrite Hlf in *; try rewrite Hst in *; auto; try discriminate; lf.
  - intros H; some H.
    destruct C; constructor; simpl; auto; try rewrite Hlf in *; try rewrite Hst in *; auto; try discriminate; lf.
  - intros H; some H.
    assert (W : finishing (wake_l (loader s)) = finishing (loader s) /\
                finished (wake_l (loader s)) = finished (loader s) /\
                filling (wake_l (loader s)) = filling (loader s)) by (destruct (loader s); auto).
    destruct W as (W1 & W2 & W3).
    destruct C; constructor; simpl; rewrite ?W1, ?W2, ?W3; auto; try rewrite Hlf in *; try rewrite Hst in *; auto; try discriminate; lf.
  - destruct (loader s) eqn:Hw; try discriminate. intros H; some H.
    destruct C; constructor; simpl; auto; try rewrite Hlf in *; try rewrite Hst in *; try rewrite Hw in *; auto; try discriminate; lf.
Qed.

Lemma ctl_step s l s' : Mutex s -> Ctl s -> step s l = Some s' -> uninit_read s' = false -> Ctl s'.
Proof.
  intros M C. destruct l as [g| |r|r|r|]; simpl.
  - apply loader_ctl; auto.
  - destruct (loader s) eqn:Hw; try discriminate. intros H _; some H.
    apply ctl_loader; rewrite ?Hw; simpl; auto; try discriminate.
    intros Hd. apply (c_dead _ C) in Hd. congruence.
  - destruct (nth_error _ r) as [k|] eqn:Hr; [|discriminate].
    destruct k; try discriminate. intros H _; some H.
    eapply ctl_reader; eauto; try discriminate.
    intros _. eapply c_idle; eauto; discriminate.
  - destruct (life s) eqn:Hlf; try discriminate. destruct (nth_error _ r) as [k|] eqn:Hr; [|discriminate].
    destruct k; try discriminate. intros H _; some H.
    eapply ctl_reader; eauto; discriminate.
  - intros H _. eapply reader_ctl; eauto.
  - intros H _. eapply life_ctl; eauto.
Qed.

(** * Reachable states *)
Lemma init_mutex nr f : Mutex (init nr f).
Proof. unfold Mutex; simpl. rewrite cnt_repeat0; auto. Qed.
Lemma init_ctl nr f : Ctl (init nr f).
Proof.
  constructor; simpl; auto; try discriminate.
  - intros p k Hp Hk. apply nth_error_In, repeat_spec in Hp. congruence.
  - intros p Hp. apply nth_error_In, repeat_spec in Hp. congruence.
Qed.

Lemma run_ind (P : pipe -> Prop) : (forall s l s', P s -> step s l = Some s' -> P s') ->
  forall ls s s', P s -> run s ls = Some s' -> P s'.
Proof.
  intros HP ls; induction ls as [|l ls IH]; simpl; intros s s' Hs H; [injection H as <-; auto|].
  destruct (step s l) as [s1|] eqn:E; [|discriminate]. eapply IH; [|exact H]. eauto.
Qed.

Lemma reach_good nr f s : reachable nr f s ->
  Flow s /\ Mutex s /\ (uninit_read s = false -> Ctl s).
Proof.
  intros [ls H].
  eapply (run_ind (fun s => Flow s /\ Mutex s /\ (uninit_read s = false -> Ctl s))); [|  |exact H].
  - intros s1 l s2 (F & M & C) E. split; [eapply flow_step; eauto|]. split; [eapply mutex_step; eauto|].
    intros Hu. eapply ctl_step; eauto. apply C. eapply uninit_mono; eauto.
  - split; [reflexivity|]. split; [apply init_mutex|intros _; apply init_ctl].
Qed.

Lemma reach_src nr recs tr s : reachable nr (open_file (map Some recs) tr) s ->
  Src (all_reads recs tr) s.
Proof.
  intros [ls H]. eapply (run_ind (Src (all_reads recs tr))); [|  |exact H].
  - intros; eapply src_step; eauto.
  - split; simpl; [apply good_open|]. rewrite pending_open. reflexivity.
Qed.

(** * Statements *)
Lemma ipip_prefix nr recs tr s : reachable nr (open_file (map Some recs) tr) s ->
  exists rest, all_reads recs tr = delivered s ++ rest.
Proof.
  intros R. destruct (reach_good _ _ _ R) as (F & _ & _). destruct (reach_src _ _ _ _ R) as [_ E].
  exists (queue s ++ pending (fstr s)). rewrite E, F, app_assoc. reflexivity.
Qed.

Lemma ipip_complete nr recs tr s : reachable nr (open_file (map Some recs) tr) s ->
  uninit_read s = false -> ended s = true -> delivered s = all_reads recs tr.
Proof.
  intros R Hu He. destruct (reach_good _ _ _ R) as (F & _ & C). specialize (C Hu).
  destruct (reach_src _ _ _ _ R) as [_ E]. destruct (c_ended _ C He) as (Heof & Hq & _).
  rewrite E, F, Hq. unfold pending. rewrite Heof, !app_nil_r. reflexivity.
Qed.

Lemma cnt_pos {A} (f : A -> nat) l : 0 < cnt f l -> exists p k, nth_error l p = Some k /\ 0 < f k.
Proof.
  unfold cnt. induction l as [|h t IH]; simpl; [lia|]. intros H.
  destruct (f h) eqn:E.
  - destruct IH as (p & k & Hp & Hk); [lia|]. exists (S p), k; auto.
  - exists 0, h. split; auto. lia.
Qed.

Lemma rholder_enabled s p k : nth_error (readers s) p = Some k -> 0 < rholds k ->
  exists s', step s (LReader p) = Some s'.
Proof.
  intros Hp Hk. simpl; unfold reader_step. rewrite Hp. destruct k; simpl in Hk; try lia.
  - destruct (_ || _); eauto.
  - destruct (queue s); eauto.
Qed.

Lemma ipip_no_deadlock nr f s r k : reachable nr f s -> uninit_read s = false ->
  overwritten s = false -> nth_error (readers s) r = Some k -> k <> RIdle ->
  exists l s', (l = LLoader false \/ exists p, l = LReader p) /\ step s l = Some s'.
Proof.
  intros R Hu Ho Hr Hk. destruct (reach_good _ _ _ R) as (_ & M & C). specialize (C Hu).
  assert (Hal : life s = LAlive) by (eapply c_idle; eauto).
  unfold Mutex in M. rewrite Hal in M; simpl in M.
  assert (Hlock : lholds (loader s) = 0 -> locked s = true -> exists l s', (l = LLoader false \/ exists p, l = LReader p) /\ step s l = Some s').
  { intros H0 Hl. rewrite Hl, H0 in M; simpl in M.
    destruct (cnt_pos rholds (readers s)) as (p & k' & Hp & Hk'); [lia|].
    destruct (rholder_enabled _ _ _ Hp Hk') as [s' Hs]. exists (LReader p), s'; eauto. }
  assert (Hreader : (loader s = LdAsleep \/ loader s = LdEnd) -> exists l s', (l = LLoader false \/ exists p, l = LReader p) /\ step s l = Some s').
  { intros Hw. destruct k; try congruence.
    - destruct (locked s) eqn:Hl.
      + apply Hlock; auto. destruct Hw as [->| ->]; auto.
      + exists (LReader r). simpl; unfold reader_step. rewrite Hr, Hl. eexists; split; eauto.
    - destruct (rholder_enabled _ _ _ Hr) as [s' Hs]; simpl; auto. exists (LReader r), s'; eauto.
    - exfalso. destruct (c_rsleep _ C _ Hr) as [[Hq Hb]|Hf].
      + destruct Hw as [Hw|Hw].
        * destruct (c_lsleep _ C Hw) as [[? _]|?]; [congruence|]. rewrite Hal in *; discriminate.
        * rewrite (c_eoq _ C) in Hb; auto; [discriminate|]. rewrite Hw; auto.
      + destruct Hw as [Hw|Hw]; rewrite Hw in Hf; discriminate.
    - destruct (rholder_enabled _ _ _ Hr) as [s' Hs]; simpl; auto. exists (LReader r), s'; eauto. }
  assert (Hld : forall s', loader_step s false = Some s' -> exists l s', (l = LLoader false \/ exists p, l = LReader p) /\ step s l = Some s').
  { intros s' Hs. exists (LLoader false), s'; auto. }
  destruct (loader s) eqn:Hw; try (apply Hreader; auto; fail);
    try (eapply Hld; unfold loader_step; rewrite Hw; reflexivity).
  - destruct (locked s) eqn:Hl; [apply Hlock; auto|].
    eapply Hld; unfold loader_step; rewrite Hw, Hl; reflexivity.
  - destruct (loader_step s false) as [s'|] eqn:E; [eapply Hld; eauto|]. exfalso.
    revert E. unfold loader_step, read_stop. rewrite Hw.
    destruct (stop s); destruct (_ || _); discriminate.
  - destruct (loader_step s false) as [s'|] eqn:E; [eapply Hld; eauto|]. exfalso.
    revert E. unfold loader_step, read_stop. rewrite Hw.
    destruct (stop s) as [[]|]; discriminate.
  - destruct (loader_step s false) as [s'|] eqn:E; [eapply Hld; eauto|]. exfalso.
    revert E. unfold loader_step. rewrite Hw. destruct (_ && _); [destruct (extract _)|]; discriminate.
  - destruct (locked s) eqn:Hl; [apply Hlock; auto|].
    eapply Hld; unfold loader_step; rewrite Hw, Hl; reflexivity.
Qed.

(** * Shutdown *)
Definition spurious (l : label) : bool := match l with LSpuriousL | LSpuriousR _ => true | _ => false end.
Definition lweight (w : lpc) : nat :=
  match w with
  | LdFill i => 20 + (batch - i) | LdNotify => 19 | LdTest => 18 | LdAcquire => 17 | LdPred => 16
  | LdBreak => 15 | LdEoqAcq => 14 | LdEoqHold => 13 | LdNotify2 => 12 | LdAsleep => 0 | LdEnd => 0
  end.
Definition dweight (l : life_pc) : nat :=
  match l with LDNotifyIo => 22 | LDNotifyLoad => 20 | LDJoin => 1 | _ => 0 end.
Definition weight (s : pipe) : nat := lweight (loader s) + dweight (life s).

Local Opaque batch.
Lemma shut_step s l s' : Ctl s -> stop s = Some true -> spurious l = false -> step s l = Some s' ->
  stop s' = Some true /\ weight s' < weight s /\ uninit_read s' = uninit_read s.
Proof.
  intros C Hst Hl.
  assert (Hsl : stopped_life (life s) = true) by (rewrite <- (c_stop _ C), Hst; auto).
  assert (Hna : life s <> LAlive) by (intros E; rewrite E in Hsl; discriminate).
  pose proof (no_readers _ C Hna) as Hno.
  unfold weight. destruct l as [g| |r|r|r|]; simpl in Hl; try discriminate; simpl.
  - unfold loader_step, read_stop. destruct (loader s) eqn:Hw; rewrite ?Hst; simpl.
    + intros H; some H; simpl. destruct (eofbit _); simpl; repeat split; auto; lia.
    + destruct (locked s); [discriminate|]. intros H; some H; simpl; repeat split; auto; lia.
    + intros H; some H; simpl; repeat split; auto; lia.
    + discriminate.
    + intros H; some H; simpl; repeat split; auto; lia.
    + destruct (i <? batch) eqn:B; simpl.
      * apply Nat.ltb_lt in B. destruct (eofbit _); simpl.
        -- intros H; some H; simpl; repeat split; auto; lia.
        -- destruct (extract _). intros H; some H; simpl; repeat split; auto; lia.
      * intros H; some H; simpl; repeat split; auto; lia.
    + intros H; some H; simpl; repeat split; auto; lia.
    + destruct (locked s); [discriminate|]. intros H; some H; simpl; repeat split; auto; lia.
    + intros H; some H; simpl; repeat split; auto; lia.
    + intros H; some H; simpl; repeat split; auto; lia.
    + discriminate.
  - destruct (life s); try discriminate; congruence.
  - unfold reader_step. destruct (nth_error _ r) as [k|] eqn:Hp; [|discriminate].
    rewrite (Hno _ _ Hp). discriminate.
  - unfold life_step. destruct (life s) eqn:Hlf; try discriminate; try congruence.
    + intros H; some H; simpl; repeat split; auto; lia.
    + intros H; some H; simpl; repeat split; auto. destruct (loader s); simpl; lia.
    + destruct (loader s) eqn:Hw; try discriminate.
      intros H; some H; simpl; rewrite Hw; repeat split; auto; simpl; lia.
Qed.

Local Transparent batch.
Lemma shut_progress s : Mutex s -> Ctl s -> stop s = Some true -> life s <> LDead ->
  exists l s', spurious l = false /\ step s l = Some s'.
Proof.
  intros M C Hst Hnd.
  assert (Hsl : stopped_life (life s) = true) by (rewrite <- (c_stop _ C), Hst; auto).
  assert (Hna : life s <> LAlive) by (intros E; rewrite E in Hsl; discriminate).
  pose proof (no_readers _ C Hna) as Hno.
  assert (Hc : cnt rholds (readers s) = 0).
  { clear - Hno. induction (readers s) as [|h t IH]; auto. unfold cnt in *; simpl.
    rewrite (Hno 0 h eq_refl); simpl. apply IH. intros p k Hp. apply (Hno (S p)); auto. }
  unfold Mutex in M. rewrite Hc in M.
  destruct (life s) eqn:Hlf; simpl in Hsl; try discriminate; try congruence.
  - exists LLife. simpl; unfold life_step; rewrite Hlf. eauto.
  - exists LLife. simpl; unfold life_step; rewrite Hlf. eauto.
  - assert (Hfree : lholds (loader s) = 0 -> locked s = false).
    { intros H. rewrite H in M; simpl in M. destruct (locked s); auto; discriminate. }
    destruct (loader s) eqn:Hw; simpl in Hfree;
      try (exists (LLoader false); simpl; unfold loader_step, read_stop; rewrite Hw, ?Hst; simpl; eauto; fail).
    + exists (LLoader false). simpl; unfold loader_step. rewrite Hw, Hfree; eauto.
    + exfalso. destruct (c_lsleep _ C Hw) as [[_ ?]|Hwk]; [rewrite Hst in *; discriminate|].
      rewrite Hlf in Hwk; discriminate.
    + exists (LLoader false). simpl; unfold loader_step. rewrite Hw.
      destruct (_ && _); [destruct (extract _)|]; eauto.
    + exists (LLoader false). simpl; unfold loader_step. rewrite Hw, Hfree; eauto.
    + exists LLife. simpl; unfold life_step; rewrite Hlf, Hw; eauto.
Qed.

Lemma shut_finish n : forall s, weight s < n -> Mutex s -> Ctl s -> uninit_read s = false ->
  stop s = Some true -> exists ls s', run s ls = Some s' /\ life s' = LDead.
Proof.
  induction n as [|n IH]; intros s Hw M C Hu Hst; [lia|].
  assert (D : {life s = LDead} + {life s <> LDead}) by (destruct (life s); auto; right; discriminate).
  destruct D as [D|D]; [exists [], s; auto|].
  destruct (shut_progress _ M C Hst D) as (l & s1 & Hl & Hs).
  destruct (shut_step _ _ _ C Hst Hl Hs) as (Hst1 & Hlt & Hu1). rewrite Hu in Hu1.
  destruct (IH s1) as (ls & s2 & Hr & Hd); auto; try lia.
  - eapply mutex_step; eauto.
  - eapply ctl_step; eauto.
  - exists (l :: ls), s2. simpl. rewrite Hs. auto.
Qed.

Lemma ipip_shutdown nr f s : reachable nr f s -> uninit_read s = false -> stop s = Some true ->
  (forall l s', spurious l = false -> step s l = Some s' -> weight s' < weight s) /\
  (life s <> LDead -> exists l s', spurious l = false /\ step s l = Some s') /\
  (exists ls s', run s ls = Some s' /\ life s' = LDead).
Proof.
  intros R Hu Hst. destruct (reach_good _ _ _ R) as (_ & M & C). specialize (C Hu).
  repeat split.
  - intros l s' Hl Hs. eapply shut_step; eauto.
  - apply shut_progress; auto.
  - eapply shut_finish; eauto.
Qed.

(** * The overwritten end mark *)
Definition stuck (r : nat) (s : pipe) : Prop :=
  life s = LAlive /\ loader s = LdEnd /\ eoq s = Some false /\ queue s = [] /\
  exists k, nth_error (readers s) r = Some k /\ k <> RIdle /\
  forall p, nth_error (readers s) p <> Some RCheck.

Lemma stuck_step r s l s' : stuck r s -> step s l = Some s' -> stuck r s' /\ delivered s' = delivered s.
Proof.
  intros (Hlf & Hw & He & Hq & k & Hr & Hk & Hnc). destruct l as [g| |r0|r0|r0|]; simpl.
  - unfold loader_step. rewrite Hw; discriminate.
  - rewrite Hw; discriminate.
  - destruct (nth_error _ r0) as [k0|] eqn:Hr0; [|discriminate]. destruct k0; try discriminate.
    intros H; some H. split; auto. repeat split; simpl; auto.
    rewrite (nth_error_list_set _ _ _ _ _ Hr0). destruct (Nat.eqb_spec r0 r).
    + exists RAcquire. split; auto. split; [discriminate|]. intros p.
      rewrite (nth_error_list_set _ _ _ _ _ Hr0). destruct (_ =? _); [discriminate|auto].
    + exists k. split; auto. split; auto. intros p.
      rewrite (nth_error_list_set _ _ _ _ _ Hr0). destruct (_ =? _); [discriminate|auto].
  - rewrite Hlf. destruct (nth_error _ r0) as [k0|] eqn:Hr0; [|discriminate]. destruct k0; try discriminate.
    intros H; some H. split; auto. repeat split; simpl; auto.
    rewrite (nth_error_list_set _ _ _ _ _ Hr0). destruct (Nat.eqb_spec r0 r).
    + exists RAcquire. split; auto. split; [discriminate|]. intros p.
      rewrite (nth_error_list_set _ _ _ _ _ Hr0). destruct (_ =? _); [discriminate|auto].
    + exists k. split; auto. split; auto. intros p.
      rewrite (nth_error_list_set _ _ _ _ _ Hr0). destruct (_ =? _); [discriminate|auto].
  - unfold reader_step. destruct (nth_error _ r0) as [k0|] eqn:Hr0; [|discriminate]. destruct k0; try discriminate.
    + destruct (locked s); [discriminate|].
      intros H; some H. split; auto. repeat split; simpl; auto.
      rewrite (nth_error_list_set _ _ _ _ _ Hr0). destruct (Nat.eqb_spec r0 r).
      * exists RTest. split; auto. split; [discriminate|]. intros p.
        rewrite (nth_error_list_set _ _ _ _ _ Hr0). destruct (_ =? _); [discriminate|auto].
      * exists k. split; auto. split; auto. intros p.
        rewrite (nth_error_list_set _ _ _ _ _ Hr0). destruct (_ =? _); [discriminate|auto].
    + rewrite He, Hq. simpl.
      intros H; some H. split; auto. repeat split; simpl; auto.
      rewrite (nth_error_list_set _ _ _ _ _ Hr0). destruct (Nat.eqb_spec r0 r).
      * exists RAsleep. split; auto. split; [discriminate|]. intros p.
        rewrite (nth_error_list_set _ _ _ _ _ Hr0). destruct (_ =? _); [discriminate|auto].
      * exists k. split; auto. split; auto. intros p.
        rewrite (nth_error_list_set _ _ _ _ _ Hr0). destruct (_ =? _); [discriminate|auto].
    + exfalso. eapply Hnc; eauto.
  - unfold life_step. rewrite Hlf. destruct (forallb _ _) eqn:Hf; [|discriminate].
    exfalso. rewrite forallb_forall in Hf. apply nth_error_In in Hr. apply Hf in Hr.
    destruct k; simpl in Hr; congruence.
Qed.

Lemma stuck_run r ls : forall s s', stuck r s -> run s ls = Some s' ->
  stuck r s' /\ delivered s' = delivered s.
Proof.
  induction ls as [|l ls IH]; simpl; intros s s' Hs H; [injection H as <-; auto|].
  destruct (step s l) as [s1|] eqn:E; [|discriminate].
  destruct (stuck_step _ _ _ _ Hs E) as [S1 D1]. destruct (IH _ _ S1 H) as [S2 D2].
  split; auto. congruence.
Qed.

Lemma ipip_blocked : exists s, reachable 1 (open_file [Some 7] false) s /\
  uninit_read s = false /\ delivered s = [Some 7] /\
  nth_error (readers s) 0 = Some RAcquire /\
  forall ls s', run s ls = Some s' -> (exists k, nth_error (readers s') 0 = Some k /\ k <> RIdle) /\
    delivered s' = [Some 7] /\ life s' = LAlive.
Proof.
  eexists; split.
  - exists ([LLife] ++ repeat (LLoader false) 11 ++ [LLife; LCall 0; LReader 0; LReader 0; LReader 0; LCall 0]).
    vm_compute; reflexivity.
  - split; [reflexivity|]. split; [reflexivity|]. split; [reflexivity|].
    intros ls s' H.
    match type of H with run ?s0 _ = _ => assert (Hs0 : stuck 0 s0) end.
    { repeat split. exists RAcquire. split; [reflexivity|]. split; [discriminate|].
      intros [|[|p]]; discriminate. }
    destruct (stuck_run 0 _ _ _ Hs0 H) as [(Hlf & _ & _ & _ & k & Hk & Hk' & _) Hd].
    split; [exists k; auto|]. split; auto.
Qed.

(** * A stream in error state (missing file, or unparsable text reached) never ends *)
Definition Failed (s : pipe) : Prop := failbit (fstr s) = true /\ eofbit (fstr s) = false /\
  Forall (fun v => v = None) (loaded s).

Lemma failed_step s l s' : Failed s -> step s l = Some s' -> Failed s'.
Proof.
  unfold Failed. intros (F1 & F2 & F3).
  destruct l as [g| |r|r|r|]; simpl; unfold loader_step, read_stop, reader_step, life_step.
  1:{ destruct (loader s); try discriminate; try (stepcases; intros H; some H; simpl; auto; fail).
      destruct (_ && _) eqn:B; [|intros H; some H; simpl; auto].
      unfold extract. rewrite F1. intros H; some H; simpl. repeat split; auto.
      apply Forall_app; auto. }
  all: stepcases; intros H; some H; simpl; auto.
Qed.

Lemma ipip_missing_never_ends nr s : reachable nr open_missing s -> uninit_read s = false ->
  ended s = false /\ Forall (fun v => v = None) (delivered s) /\
  (stop s <> Some true -> finishing (loader s) = false).
Proof.
  intros R Hu. destruct (reach_good _ _ _ R) as (F & _ & C). specialize (C Hu).
  assert (X : Failed s).
  { destruct R as [ls H]. eapply (run_ind Failed); [|  |exact H].
    - intros; eapply failed_step; eauto.
    - repeat split; auto; constructor. }
  destruct X as (X1 & X2 & X3). repeat split.
  - destruct (ended s) eqn:E; auto. destruct (c_ended _ C E). congruence.
  - rewrite F in X3. apply Forall_app in X3. tauto.
  - intros Hs. destruct (finishing (loader s)) eqn:E; auto.
    destruct (c_fin _ C E) as [B|B]; [|congruence]. destruct (stop s) as [[]|]; simpl in B; congruence.
Qed.
