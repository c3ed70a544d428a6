From Verif Require Import Base Sim_Model Sim_Proofs.
From Coq Require Import Lra.

(** Specification: time [t] has reached the end time [e] within the relative tolerance; for the
    end time zero only the time zero itself counts. *)
Definition reached (t e tol : R) : Prop :=
  (e <> 0 -> Rabs (t - e) <= tol * Rabs e) /\ (e = 0 -> t = 0).

Lemma far_reached t e tol : far t e tol = false <-> reached t e tol.
Proof.
  unfold far, reached. destruct (Req_EM_T e 0) as [->|Ne].
  - destruct (Req_EM_T t 0); split; intros H; try discriminate; auto.
    + split; intros; auto. contradiction.
    + destruct H as [_ H]. exfalso; auto.
  - assert (Pe : 0 < Rabs e) by (apply Rabs_pos_lt; auto).
    assert (Q : Rabs ((t - e) / e) = Rabs (t - e) / Rabs e).
    { unfold Rdiv. rewrite Rabs_mult, Rabs_inv. reflexivity. }
    rewrite Q. destruct (Rlt_dec _ _) as [L|L]; split; intros H; try discriminate.
    + destruct H as [H _]. specialize (H Ne). exfalso.
      apply (Rmult_lt_compat_r (Rabs e)) in L; auto.
      unfold Rdiv in L. rewrite Rmult_assoc, Rinv_l, Rmult_1_r in L by lra. lra.
    + split; [|intros; contradiction]. intros _.
      apply Rnot_lt_le in L. apply (Rmult_le_compat_r (Rabs e)) in L; [|lra].
      unfold Rdiv in L. rewrite Rmult_assoc, Rinv_l, Rmult_1_r in L by lra. exact L.
    + reflexivity.
Qed.

Section P.
Context {W : Type}.
Variable sys : system W.
Variable args : run_args W.
Variable hubble : R.

Lemma far_not t e tol : far t e tol = true <-> ~ reached t e tol.
Proof.
  rewrite <- far_reached. destruct (far t e tol); split; intros; auto; try discriminate; exfalso; auto.
Qed.

Lemma linked_app : forall l1 l2 (w w' : W), linked w (l1 ++ l2) w' ->
  exists w1, linked w l1 w1 /\ linked w1 l2 w'.
Proof.
  induction l1 as [|e l1 IH]; simpl; intros l2 w w' H; [eauto|].
  destruct H as [A B]. apply IH in B as (w1 & B & C). eauto.
Qed.
Lemma linked_det : forall l (w a b : W), linked w l a -> linked w l b -> a = b.
Proof.
  induction l as [|e l IH]; simpl; intros w a b H1 H2; [congruence|].
  destruct H1, H2. eauto.
Qed.
Lemma linked_pure : forall l (w a : W), linked w l a -> (forall e, In e l -> after e = before e) -> a = w.
Proof.
  induction l as [|e l IH]; simpl; intros w a H P; [congruence|].
  destruct H as [A B]. apply IH in B; auto. rewrite B, P; auto.
Qed.

Lemma run_no_step_reached fuel w0 tr w' : run sys args hubble fuel w0 = Returned tr w' ->
  step_scale sys w0 <> 0 -> Forall pure_call (opts args) -> Forall pure_cond (stop_cond args) ->
  forall e, In e tr -> ek e = KStep ->
   ~ reached (time sys (before e)) (if end_set args then end_time args else hubble) (time_rtol args) /\
   exists hc, forall c, In c (stop_cond args) -> fst (c hc (before e)) = false.
Proof.
  intros H Hs PO PC e He Ek.
  destruct (run_no_step_when_stopped sys args hubble fuel w0 tr w' H Hs PO PC e He Ek) as [A B].
  split; auto. apply far_not. exact A.
Qed.

Lemma run_why fuel w0 tr w' : run sys args hubble fuel w0 = Returned tr w' ->
  step_scale sys w0 <> 0 -> Forall pure_call (opts args) -> Forall pure_call (stop_opts args) ->
  Forall pure_cond (stop_cond args) ->
  reached (time sys w') (if end_set args then end_time args else hubble) (time_rtol args) \/
  exists h c, In c (stop_cond args) /\ fst (c h w') = true.
Proof.
  intros H Hs PO PS PC.
  destruct (run_structure sys args hubble _ _ _ _ H Hs) as
    (_ & L & F & ts & rounds & wf & fin & to & tst & hf & -> & K0 & R1 & R2 & R3 & R4 & R5).
  rewrite app_assoc in L. apply linked_app in L as (w1 & L1 & L2).
  assert (w1 = wf) by (eapply linked_det; eauto). subst w1.
  assert (Pt : forall e, In e (to ++ tst) -> after e = before e).
  { intros e He. assert (Fe : faithful sys args e).
    { apply F. rewrite !in_app_iff in *. tauto. }
    apply in_app_or in He as [He|He].
    - apply (in_map kh) in He. rewrite R4 in He. apply in_map_iff in He as (i & Hi & _).
      unfold kh in Hi. unfold faithful in Fe. replace (ek e) with (KOp i) in Fe by congruence.
      destruct Fe as (f & Hf & ->). apply nth_error_In in Hf.
      rewrite Forall_forall in PO. apply PO; auto.
    - apply (in_map kh) in He. rewrite R5 in He. apply in_map_iff in He as (i & Hi & _).
      unfold kh in Hi. unfold faithful in Fe. replace (ek e) with (KStopOp i) in Fe by congruence.
      destruct Fe as (f & Hf & ->). apply nth_error_In in Hf.
      rewrite Forall_forall in PS. apply PS; auto. }
  assert (Pf : forall e, In e fin -> after e = before e).
  { intros e He. assert (Fe : faithful sys args e) by (apply F; rewrite !in_app_iff; tauto).
    destruct R2 as [[_ ->]|(_ & j & h & _ & K)]; [destruct He|].
    apply (in_map kh) in He. rewrite K in He. unfold faithful in Fe.
    assert (exists i b, ek e = KCond i b) as (i & b & Ei).
    { apply in_app_or in He as [He|[He|[]]].
      - apply in_map_iff in He as (i & Hi & _). unfold kh in Hi. exists i, false. congruence.
      - unfold kh in He. exists j, true. congruence. }
    rewrite Ei in Fe. destruct Fe as (c & Hc & E). apply nth_error_In in Hc.
    rewrite Forall_forall in PC. specialize (PC c Hc (eh e) (before e)). rewrite E in PC. exact PC. }
  apply linked_app in L2 as (w2 & L2 & L3).
  assert (w2 = wf) by (eapply linked_pure; eauto). subst w2.
  assert (w' = wf) by (eapply linked_pure; eauto). subst w'.
  destruct R2 as [[Hf _]|(_ & j & h & Hj & K)].
  - left. apply far_reached. exact Hf.
  - right. apply map_eq_app in K as (f1 & f2 & -> & K1 & K2).
    destruct f2 as [|e [|? ?]]; try discriminate. injection K2 as Ek Eh.
    assert (Fe : faithful sys args e).
    { apply F. rewrite !in_app_iff. right; right; left. right. left; reflexivity. }
    unfold faithful in Fe. rewrite Ek in Fe. destruct Fe as (c & Hc & E).
    apply linked_app in L2 as (w3 & L4 & L5).
    assert (w3 = wf).
    { eapply linked_pure; eauto. intros x Hx. apply Pf. apply in_or_app; auto. }
    subst w3. simpl in L5. destruct L5 as [Bf _].
    exists (eh e), c. split; [eapply nth_error_In; eauto|]. rewrite <- Bf, E. reflexivity.
Qed.
End P.
