(** Lemmas for C101: the notifier refines an event count in one piece. *)
From Verif Require Import Enc_Model Enc_Spec Enc_Proofs Enc_Proofs2.
From Coq Require Import List Arith Lia Bool.
Import ListNotations.
Definition op (l : list nat) (s : st) (w : nat) : Prop := In w l \/ exists t, ticket (ws s w) = Some t /\ ep (wd s) <= t.
Definition sim (s : st) (A : nat -> Prop) : Prop := exists l own, inv l own s /\ forall w, A w <-> op l s w.
Lemma act_same s w s' : log s' = log s -> wact s w s' = match ws s w, ws s' w with Away, _ => Tau | _, Away => Ret w | _, _ => Tau end.
Proof. intros E. unfold wact. now rewrite E, Nat.eqb_refl. Qed.
Lemma act_ev s w s' a : log s' = a :: log s -> wact s w s' = Ev a.
Proof. intros E. unfold wact. rewrite E. cbn [length]. destruct (Nat.eqb_spec (S (length (log s))) (length (log s))); [lia|auto]. Qed.
Lemma nact_same s s' : log s' = log s -> nact s s' = Tau.
Proof. intros E. unfold nact. now rewrite E, Nat.eqb_refl. Qed.
Lemma nact_ev s s' a : log s' = a :: log s -> nact s s' = Ev a.
Proof. intros E. unfold nact. rewrite E. cbn [length]. destruct (Nat.eqb_spec (S (length (log s))) (length (log s))); [lia|auto]. Qed.
(** A private move of a waiter leaves the set. *)
Lemma op_same l s w x nx sg : (ticket x = ticket (ws s w) \/ ticket x = None /\ ~ op l s w) -> forall v, op l (mkS (wd s) nx sg (set (ws s) w x) (ns s) (log s)) v <-> op l s v.
Proof.
  intros T v. unfold op. cbn [ws wd]. destruct (Nat.eq_dec v w) as [->|Nv]; [rewrite set_same|now rewrite set_other by auto]. destruct T as [->|(Tn & N)]; [tauto|]. rewrite Tn. unfold op in N. split; [intros [J|(t & E & _)]; [now left|discriminate]|intros J; now destruct N].
Qed.
Lemma not_open l own s w : inv l own s -> out l own w -> (forall t, ticket (ws s w) = Some t -> t < ep (wd s)) -> ~ op l s w.
Proof. intros I (Nl & _) T [J|(t & E & L)]; [auto|]. apply T in E. lia. Qed.
(** The lowest ticket is used up by w. *)
Lemma op_tick l own s w ws' nx sg nss lg : inv l own s -> ticket (ws s w) = Some (ep (wd s)) -> ~ In w l -> (forall v, v <> w -> ws' v = ws s v) -> (forall t, ticket (ws' w) = Some t -> t <= ep (wd s)) ->
  forall v, op l (mkS (mkW (S (ep (wd s))) (wc (wd s) - 1) (stk (wd s))) nx sg ws' nss lg) v <-> op l s v /\ v <> w.
Proof.
  intros I E Nl Hw Tw v. unfold op. cbn [ws wd ep]. destruct (Nat.eq_dec v w) as [->|Nv].
  - split; [intros [J|(t & Et & L)]; [contradiction|apply Tw in Et; lia]|intros (_ & Q); contradiction].
  - rewrite Hw by auto. split.
    + intros [J|(t & Et & L)]; split; auto. right. exists t. split; auto; lia.
    + intros ([J|(t & Et & L)] & _); [now left|]. right. exists t. split; auto. destruct (Nat.eq_dec t (ep (wd s))) as [->|Q]; [|lia]. destruct Nv. now apply (i_uni _ _ _ I v w (ep (wd s))).
Qed.
Ltac same := intros v; match goal with HA : forall w, _ w <-> op _ _ w |- _ => rewrite HA; reflexivity end.
Lemma wait_sim s A w s' : sim s A -> wstep s w (ws s w) s' -> exists A', astep A (wact s w s') A' /\ sim s' A'.
Proof.
  intros (l & own & I & HA) H. assert (O : ws s w <> Park -> out l own w) by (intros N; eapply out_awake; eauto). pose proof (i_sw _ _ _ I w) as Sw.
  assert (P : forall s1, inv l own s1 -> (forall v, op l s1 v <-> op l s v) -> sim s1 A) by (intros s1 I1 E1; exists l, own; split; auto; intros v; rewrite HA; symmetry; apply E1).
  assert (Tau0 : astep A Tau A) by (apply as_tau; reflexivity).
  assert (Ret0 : ~ op l s w -> astep A (Ret w) A) by (intros N; apply as_ret; [rewrite HA; exact N|reflexivity]).
  remember (ws s w) as x eqn:Ex. symmetry in Ex. destruct H.
  - (* prepare *) exists (fun v => A v \/ v = w). rewrite (act_ev s w _ (Prep w)) by reflexivity. split.
    + apply as_prep; [|reflexivity]. rewrite HA. eapply not_open; eauto; [apply O; discriminate|]. rewrite Ex. discriminate.
    + exists l, own. split; [now apply prep|]. intros v. unfold op. cbn [ws wd ep]. destruct (Nat.eq_dec v w) as [->|Nv]; [rewrite set_same|rewrite set_other, HA by auto; unfold op; tauto]. split; [|auto]. intros _. right. exists (ep (wd s) + wc (wd s)). split; auto. lia.
  - exists A. rewrite act_same by reflexivity. cbn [ws]. rewrite Ex, set_same. split; auto. apply P; [|apply op_same; left; now rewrite Ex]. apply private; auto; try discriminate; [apply O; discriminate|left; now rewrite Ex|cbn [snapw sig]; now rewrite set_same|]. intros v Nv. now rewrite set_other.
  - exists A. rewrite act_same by reflexivity. cbn [ws]. rewrite Ex, set_same. split; auto. apply P; [|apply op_same; left; now rewrite Ex]. prv O Ex.
  - exists A. rewrite act_same by reflexivity. rewrite Ex. split; auto. apply P; auto; tauto.
  - exists A. rewrite act_same by reflexivity. cbn [ws]. rewrite Ex, set_same.
    assert (No : ~ op l s w) by (eapply not_open; eauto; [apply O; discriminate|]; rewrite Ex; cbn [ticket]; intros u [= <-]; auto). split; auto. apply P; [|apply op_same; auto]. prv O Ex.
  - exists A. rewrite act_same by reflexivity. cbn [ws]. rewrite Ex, set_same. split; auto. apply P; [|apply op_same; left; now rewrite Ex]. prv O Ex. cbn [snapw sig] in *. auto.
  - exists A. rewrite act_same by reflexivity. cbn [ws]. rewrite Ex, set_same. split; auto. apply P; [|apply op_same; left; now rewrite Ex]. prv O Ex; [|eauto]. cbn [snapw sig next] in *. rewrite set_same. tauto.
  - (* push *) subst x. exists A. rewrite act_same by reflexivity. cbn [ws]. rewrite Ex, set_same. split; auto. exists (w :: l), own. split; [eapply push; eauto|]. intros v. rewrite HA. destruct (O ltac:(discriminate)) as (Nl & _). cbn [snapw] in Sw. destruct Sw as (_ & Et & _). unfold op. cbn [ws wd ep In]. destruct (Nat.eq_dec v w) as [->|Nv].
    + split; [intros _; left; now left|]. intros _. right. exists t. rewrite Ex. split; auto. lia.
    + rewrite set_other by auto. split.
      * intros [J|(u & E & L)]; [left; now right|]. right. exists u. split; auto. destruct (Nat.eq_dec u (ep (wd s))) as [->|Q]; [|lia]. destruct Nv. apply (i_uni _ _ _ I v w (ep (wd s))); auto. rewrite Ex. cbn [ticket]. now rewrite Et.
      * intros [[J|J]|(u & E & L)]; [congruence|now left|right; exists u; split; auto; lia].
  - exists A. rewrite act_same by reflexivity. cbn [ws]. rewrite Ex, set_same. split; auto. apply P; [|apply op_same; left; now rewrite Ex]. prv O Ex. cbn [snapw sig] in *. tauto.
  - exists A. rewrite act_same by reflexivity. cbn [ws]. rewrite Ex, set_same. assert (Ou : out l own w) by (eapply out_sig; eauto).
    assert (No : ~ op l s w) by (eapply not_open; eauto; rewrite Ex; discriminate). split; auto. apply P; [|apply op_same; auto]. prv O Ex.
  - exists A. rewrite act_same by reflexivity. rewrite Ex. split; auto. apply P; auto; tauto.
  - exists A. rewrite act_same by reflexivity. cbn [ws]. rewrite Ex, set_same.
    assert (No : ~ op l s w) by (eapply not_open; eauto; [apply O; discriminate|]; rewrite Ex; cbn [ticket]; intros u [= <-]; auto). split; auto. apply P; [|apply op_same; auto]. prv O Ex.
  - exists A. rewrite act_same by reflexivity. cbn [ws]. rewrite Ex, set_same. split; auto. apply P; [|apply op_same; left; now rewrite Ex]. prv O Ex.
  - (* cancel *) subst x. exists (fun v => A v /\ v <> w). rewrite (act_ev s w _ (Undo w)) by reflexivity. cbn [snapw] in Sw. destruct (O ltac:(discriminate)) as (Nl & No). assert (Tw : ticket (ws s w) = Some (ep (wd s))) by (rewrite Ex; cbn [ticket]; now rewrite Sw). split.
    + apply as_undo; [|reflexivity]. rewrite HA. right. exists (ep (wd s)). auto.
    + exists l, own. split.
      * assert (Lt : t < ep (wd s) + wc (wd s)) by (apply (i_lt _ _ _ I w); now rewrite Ex). assert (I2 := tick l own s (Undo w) I ltac:(lia) (fun v => eq_refl) eq_refl).
        apply (private _ _ _ w Away (sig s) (next s)) in I2; auto; try discriminate; [now split| |exact Logic.I]. cbn [wd ep ws]. right. split; auto. intros u. rewrite Ex. cbn [ticket]. intros [= <-]. lia.
      * intros v. rewrite HA. symmetry. apply (op_tick l own s w); auto; [intros u Nu; now rewrite set_other|rewrite set_same; discriminate].
  - exists A. rewrite act_same by reflexivity. cbn [ws]. rewrite Ex, set_same. split; auto. apply P; [|apply op_same; left; now rewrite Ex]. prv O Ex.
Qed.
Lemma note_sim s A k s' : sim s A -> nstep s k (ns s k) s' -> exists A', astep A (nact s s') A' /\ sim s' A'.
Proof.
  intros (l & own & I & HA) H. pose proof (i_sn _ _ _ I k) as Sn. pose proof (i_own _ _ _ I k) as Ok.
  assert (P : forall own' s1, inv l own' s1 -> wd s1 = wd s -> ws s1 = ws s -> sim s1 A) by (intros own' s1 I1 E1 E2; exists l, own'; split; auto; intros v; rewrite HA; unfold op; now rewrite E1, E2).
  assert (Tau0 : astep A Tau A) by (apply as_tau; reflexivity).
  remember (ns s k) as x eqn:Ex. symmetry in Ex. destruct H.
  - exists A. rewrite nact_same by reflexivity. split; auto. apply (P own); auto. apply noter; auto; exact Logic.I.
  - (* nobody *) exists A. rewrite (nact_ev s _ Nobody) by reflexivity. assert (Em : forall v, ~ A v).
    { intros v. rewrite HA. intros [J|(t & E & L)].
      - pose proof (i_chain _ _ _ I) as C. unfold empty in H. destruct (stk (wd s)); [discriminate|]. destruct l; [destruct J|destruct C; discriminate].
      - apply (i_lt _ _ _ I) in E. unfold empty in H. destruct (stk (wd s)); [discriminate|]. apply Nat.eqb_eq in H. lia. }
    split; [now apply as_nobody|]. apply (P own); auto. apply noter; auto; exact Logic.I.
  - exists A. rewrite nact_same by reflexivity. split; auto. apply (P own); auto. apply noter; auto. destruct all; [exact Logic.I|]. cbn [snapn]. split; auto.
  - exists A. rewrite nact_same by reflexivity. split; auto. apply (P own); auto. apply noter; auto; exact Logic.I.
  - exists A. rewrite nact_same by reflexivity. split; auto. apply (P own); auto. apply noter; auto; exact Logic.I.
  - (* all *) subst x. exists (fun _ => False). rewrite (nact_ev s _ All) by reflexivity. split; [apply as_all; auto|]. exists [], (set own k l). split; [apply all_off; auto|]. intros v. unfold op. cbn [ws wd ep In]. split; [tauto|]. intros [[]|(t & E & L)]. apply (i_lt _ _ _ I) in E. lia.
  - (* one that has prepared *) subst x. destruct (i_all _ _ _ I (ep (wd s))) as (w & Tw); [lia|]. exists (fun v => A v /\ v <> w). rewrite (nact_ev s _ One) by reflexivity. split.
    + apply as_one with w; [|reflexivity]. rewrite HA. right. exists (ep (wd s)). auto.
    + exists l, own. split; [assert (I2 := tick l own s One I H (fun v => eq_refl) eq_refl); apply (noter _ _ _ k Rest (One :: log s)) in I2; auto; exact Logic.I|]. intros v. rewrite HA. symmetry. apply (op_tick l own s w); auto; [intros J; apply (i_park _ _ _ I) in J as (J & _); rewrite J in Tw; discriminate|]. rewrite Tw. intros t [= <-]. lia.
  - exists A. rewrite nact_same by reflexivity. split; auto. apply (P own); auto. apply noter; auto. cbn [snapn] in *. destruct Sn as (A0 & B). repeat split; auto. intros Q v Ev. destruct (B Q v H Ev) as [Y|Y]; auto. right. split; auto. congruence.
  - (* pop *) subst x. destruct (pop l own s k w nx I Ex H0) as (l' & -> & I'). exists (fun v => A v /\ v <> w). rewrite (nact_ev s _ One) by reflexivity. pose proof (i_nd _ _ _ I) as Nd. inversion Nd as [|? ? Nw Nd']; subst. destruct (i_park _ _ _ I w (or_introl eq_refl)) as (Pw & _). split.
    + apply as_one with w; [|reflexivity]. rewrite HA. left. now left.
    + exists l', (set own k [w]). split; auto. intros v. rewrite HA. unfold op. cbn [ws wd ep In]. destruct (Nat.eq_dec v w) as [->|Nv].
      * split; [intros (_ & Q); contradiction|]. intros [J|(t & E & _)]; [contradiction|]. rewrite Pw in E. discriminate.
      * split; [intros ([[J|J]|J] & _); [congruence|now left|now right]|]. intros [J|J]; (split; auto).
  - exists A. rewrite nact_same by reflexivity. split; auto. apply (P own); auto. now apply clear.
  - exists A. rewrite nact_same by reflexivity. split; auto. apply (P own); auto. apply noter; auto; try exact Logic.I. cbn [owns] in *. destruct (own k); auto. now destruct Ok.
  - exists A. rewrite nact_same by reflexivity. split; auto. apply (P own); auto. apply noter; auto; try exact Logic.I. cbn [owns] in *. apply chain_head with (w := w) in Ok; auto.
  - destruct (signal l own s k w nx I Ex) as (l' & _ & I'). exists A. rewrite nact_same by reflexivity. split; auto. apply (P (set own k l')); auto.
Qed.
Lemma init_sim e : sim (init e) (fun _ => False).
Proof. exists [], (fun _ => []). split; [apply init_inv|]. intros w. unfold op. cbn [init ws ticket In]. split; [tauto|]. intros [[]|(t & E & _)]. discriminate. Qed.
(** Whoever is in the set is inside; a sleeper that is not is being woken. *)
Lemma sim_in s A w : sim s A -> A w -> ws s w <> Away.
Proof. intros (l & own & I & HA) J. apply HA in J as [J|(t & E & _)]; [apply (i_park _ _ _ I) in J as (-> & _); discriminate|]. intros Q. rewrite Q in E. discriminate. Qed.
Lemma sim_out s A w : sim s A -> ~ A w -> blocked s w -> exists k s', alonen k s s' /\ sig s' w = true.
Proof. intros (l & own & I & HA) N B. eapply owned; eauto. intros J. apply N, HA. now left. Qed.
