From Verif Require Import Base Ipip_Model Ipip_Proofs.

Definition BInv (s : pipe) : Prop :=
  length (queue s) <= batch /\
  (loader s = LdBreak -> bval (stop s) = true \/ queue s = []) /\
  (forall i, loader s = LdFill i -> length (queue s) = i /\ i <= batch).

Lemma rholds_free s r k : Mutex s -> lholds (loader s) = 1 -> nth_error (readers s) r = Some k ->
  rholds k = 0.
Proof.
  unfold Mutex. intros M L H. assert (X := cnt_ge rholds _ _ _ H).
  destruct (locked s); simpl in M; lia.
Qed.
Lemma reader_not_check s r : Mutex s -> lholds (loader s) = 1 ->
  nth_error (readers s) r = Some RCheck -> False.
Proof. intros M L H. assert (X := rholds_free s r RCheck M L H). discriminate. Qed.

Lemma binv_keep s s' : BInv s -> queue s' = queue s ->
  (loader s' = LdBreak -> loader s = LdBreak /\ (bval (stop s) = true -> bval (stop s') = true)) ->
  (forall i, loader s' = LdFill i -> loader s = LdFill i) -> BInv s'.
Proof.
  intros (A & B & C) Q L1 L2. unfold BInv. rewrite Q. split; auto. split.
  - intros H. destruct (L1 H) as [X Y]. destruct (B X); auto.
  - intros i H. apply C; auto.
Qed.

Lemma binv_step s l s' : Mutex s -> Ctl s -> BInv s -> uninit_read s' = false ->
  step s l = Some s' -> BInv s'.
Proof.
  intros M Ct I U H. destruct l as [g| |r|r|r|]; simpl in H.
  - unfold loader_step in H. destruct (loader s) eqn:L; try discriminate.
    + injection H as <-. apply (binv_keep s); auto; simpl; intros; destruct (eofbit (fstr s)); discriminate.
    + destruct (locked s); [discriminate|]. injection H as <-. apply (binv_keep s); auto; simpl; intros; discriminate.
    + unfold read_stop in H. destruct (stop s) as [b|] eqn:St.
      * destruct b; simpl in H.
        -- injection H as <-. destruct I as (A & _). split; auto. split; simpl; [rewrite St; auto|discriminate].
        -- destruct (queue s) eqn:Q; simpl in H; injection H as <-.
           ++ split; simpl; rewrite ?Q; simpl; [lia|]. split; auto; discriminate.
           ++ apply (binv_keep s); auto; simpl; intros; discriminate.
      * destruct (_ || _); injection H as <-; discriminate U.
    + unfold read_stop in H. destruct (stop s) as [b|] eqn:St; [|destruct g; injection H as <-; discriminate U].
      destruct b; injection H as <-.
      * apply (binv_keep s); auto; simpl; intros; discriminate.
      * destruct I as (A & B & _). destruct (B L) as [X|X]; [rewrite St in X; discriminate|].
        split; auto. split; simpl; [discriminate|]. rewrite X.
        intros i E. injection E as <-. simpl. split; lia.
    + destruct I as (A & B & C). destruct (C i L) as [C1 C2].
      destruct ((i <? batch) && negb (eofbit (fstr s))) eqn:Cd.
      * destruct (extract (fstr s)) as [v f]. injection H as <-.
        apply andb_true_iff in Cd as [Cd _]. apply Nat.ltb_lt in Cd.
        unfold BInv; simpl queue; simpl loader. rewrite app_length; simpl length.
        split; [lia|]. split; [discriminate|]. intros j E. injection E as <-. lia.
      * injection H as <-. apply (binv_keep s); [repeat split; auto; rewrite L in *; intros; try congruence; apply C; auto|auto|simpl; discriminate|simpl; discriminate].
    + injection H as <-. apply (binv_keep s); auto; simpl; intros; discriminate.
    + destruct (locked s); [discriminate|]. injection H as <-. apply (binv_keep s); auto; simpl; intros; discriminate.
    + injection H as <-. apply (binv_keep s); auto; simpl; intros; discriminate.
    + injection H as <-. apply (binv_keep s); auto; simpl; intros; discriminate.
  - destruct (loader s) eqn:L; try discriminate. injection H as <-.
    apply (binv_keep s); auto; simpl; intros; discriminate.
  - destruct (nth_error (readers s) r) as [[]|]; try discriminate. injection H as <-.
    apply (binv_keep s); auto.
  - destruct (life s); try discriminate. destruct (nth_error (readers s) r) as [[]|]; try discriminate.
    injection H as <-. apply (binv_keep s); auto.
  - unfold reader_step in H. destruct (nth_error (readers s) r) as [[]|] eqn:E; try discriminate.
    + destruct (locked s); [discriminate|]. injection H as <-. apply (binv_keep s); auto.
    + destruct (_ || _); injection H as <-; apply (binv_keep s); auto.
    + assert (Nl : lholds (loader s) <> 1) by (intros L; eapply reader_not_check; eauto).
      destruct (queue s) as [|v q] eqn:Q; injection H as <-.
      * apply (binv_keep s); auto.
      * destruct I as (A & _). rewrite Q in A. simpl in A.
        assert (W : lholds (if is_nil q then wake_l (loader s) else loader s) <> 1).
        { destruct (is_nil q); auto. destruct (loader s); simpl in *; auto. }
        unfold BInv; simpl queue; simpl loader; simpl stop. split; [lia|]. split.
        -- intros X. rewrite X in W. exfalso; apply W; reflexivity.
        -- intros i X. rewrite X in W. exfalso; apply W; reflexivity.
  - assert (Cs := c_stop _ Ct). unfold life_step in H. destruct (life s) eqn:Lf; try discriminate; simpl in Cs.
    + injection H as <-. apply (binv_keep s); auto. simpl. intros X. split; auto. intros Y. congruence.
    + injection H as <-. apply (binv_keep s); auto.
    + destruct (forallb _ _); [|discriminate]. injection H as <-. apply (binv_keep s); auto.
    + destruct (locked s); [discriminate|]. injection H as <-. apply (binv_keep s); auto.
    + injection H as <-. apply (binv_keep s); auto.
    + injection H as <-. apply (binv_keep s); auto.
    + injection H as <-. apply (binv_keep s); auto.
      * simpl. intros X. destruct (loader s); simpl in X; try discriminate; auto.
      * simpl. intros i X. destruct (loader s); simpl in X; try discriminate; auto.
    + destruct (loader s); try discriminate. injection H as <-. apply (binv_keep s); auto.
Qed.

Lemma ipip_bounded nr f s : reachable nr f s -> uninit_read s = false -> length (queue s) <= 100.
Proof.
  intros (ls & H) U.
  assert (X : uninit_read s = false -> BInv s).
  { revert s H U. induction ls as [|l ls IH] using rev_ind; intros s H _ U.
    - injection H as <-. split; [simpl; unfold batch; lia|]. split; simpl; discriminate.
    - assert (RS : run (init nr f) (ls ++ [l]) =
        match run (init nr f) ls with Some s1 => step s1 l | None => None end).
      { generalize (init nr f). clear. induction ls as [|a ls IH]; intros s; simpl.
        - destruct (step s l); auto.
        - destruct (step s a); auto. }
      rewrite RS in H. destruct (run (init nr f) ls) as [s1|] eqn:E; [|discriminate].
      assert (U1 : uninit_read s1 = false) by (eapply uninit_mono; eauto).
      destruct (reach_good nr f s1 (ex_intro _ ls E)) as (_ & M & C).
      apply (binv_step s1 l s M (C U1) (IH s1 eq_refl U1 U1) U H). }
  destruct (X U) as [A _]. exact A.
Qed.
Lemma ipip_joined nr f s : reachable nr f s -> uninit_read s = false -> life s = LDead -> loader s = LdEnd.
Proof. intros Rc U L. destruct (reach_good nr f s Rc) as (_ & _ & C). apply (c_dead _ (C U) L). Qed.
