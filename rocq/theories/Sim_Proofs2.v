From Verif Require Import Base Sim_Model Sim_Proofs.
From Coq Require Import Lra.

Section P.
Context {W : Type}.
Variable sys : system W.
Variable args : run_args W.
Variable hubble : R.

Definition is_step (e : event W) : bool := match ek e with KStep => true | _ => false end.

(** [step_chain h es hf]: the integration steps [es], when [h] is proposed for the first one:
    the step taken is the proposal, limited in magnitude by what is left to the end time, and
    the proposal for the next one is what the iterator returned; [hf] is the last proposal. *)
Fixpoint step_chain (h : R) (es : list (event W)) (hf : R) : Prop :=
  match es with
  | [] => hf = h
  | e :: es' =>
      let rest := (the_end args hubble - time sys (before e)) * step_scale sys (before e) in
      ((Rabs h <= Rabs rest /\ eh e = h) \/ (Rabs rest < Rabs h /\ eh e = rest)) /\
      step_chain (fst (iterate sys (eh e) (pre_iter sys (before e)))) es' hf
  end.

Definition keeps_time (f : R -> W -> W) : Prop :=
  forall h w, time sys (f h w) = time sys w /\ step_scale sys (f h w) = step_scale sys w.

Lemma call_all_keeps mk h : forall l i w tr w', Forall keeps_time l ->
  call_all mk i l h w = (tr, w') -> time sys w' = time sys w /\ step_scale sys w' = step_scale sys w.
Proof.
  induction l as [|f l IH]; simpl; intros i w tr w' Hl H.
  - injection H as <- <-. auto.
  - destruct (call_all mk (S i) l h (f h w)) as [t w2] eqn:E. injection H as <- <-.
    inversion Hl as [|? ? Hf Hr]; subst. destruct (IH _ _ _ _ Hr E) as [A B].
    destruct (Hf h w) as [C D]. rewrite A, B. auto.
Qed.

Lemma is_step_call mk h : (forall i, mk i <> KStep) -> forall l i (w : W) tr w',
  call_all mk i l h w = (tr, w') -> filter is_step tr = [].
Proof.
  intros Hm l i w tr w' H. destruct (steps_call mk h Hm l i w tr w' H) as [_ S2].
  apply filter_nil. intros e He. apply S2 in He. unfold is_step. destruct (ek e); auto. congruence.
Qed.

Lemma is_step_cond h : forall l i (w : W) b tr w',
  check_stops i l h w = (b, tr, w') -> filter is_step tr = [].
Proof.
  induction l as [|c l IH]; simpl; intros i w b tr w' H.
  - injection H as <- <- <-. reflexivity.
  - destruct (c h w) as [r w1]. destruct r.
    + injection H as <- <- <-. reflexivity.
    + destruct (check_stops (S i) l h w1) as [[r t] w2] eqn:E. injection H as <- <- <-. simpl. eauto.
Qed.

Lemma noncond_cond h : forall l i (w : W) b tr w',
  check_stops i l h w = (b, tr, w') -> noncond tr = [].
Proof.
  induction l as [|c l IH]; simpl; intros i w b tr w' H.
  - injection H as <- <- <-. reflexivity.
  - destruct (c h w) as [r w1]. destruct r.
    + injection H as <- <- <-. reflexivity.
    + destruct (check_stops (S i) l h w1) as [[r t] w2] eqn:E. injection H as <- <- <-.
      apply (IH _ _ _ _ _ E).
Qed.

Lemma noncond_call mk h : (forall i, is_cond (mk i) = false) -> forall l i (w : W) tr w',
  call_all mk i l h w = (tr, w') -> noncond tr = map (fun i => (mk i, h)) (seq i (length l)).
Proof.
  intros Hm. induction l as [|f l IH]; simpl; intros i w tr w' H.
  - injection H as <- <-. reflexivity.
  - destruct (call_all mk (S i) l h (f h w)) as [t w2] eqn:E. injection H as <- <-.
    unfold noncond in *; simpl. rewrite Hm. simpl. f_equal. eauto.
Qed.

Lemma loop_chain : Forall keeps_time (opts args) ->
  forall fuel h w tr w', loop sys args hubble fuel h w = Some (tr, w') ->
  exists hf, step_chain h (filter is_step tr) hf /\
    noncond tr = concat (map (fun e => calls KOp (length (opts args)) (eh e) ++ [(KStep, eh e)])
                             (filter is_step tr)) ++
                 calls KOp (length (opts args)) hf ++ calls KStopOp (length (stop_opts args)) hf.
Proof.
  intros Hk.
  assert (Fin : forall h w t1 w1 t2 w2,
    call_all KOp 0 (opts args) h w = (t1, w1) -> call_all KStopOp 0 (stop_opts args) h w1 = (t2, w2) ->
    filter is_step (t1 ++ t2) = [] /\
    noncond (t1 ++ t2) = calls KOp (length (opts args)) h ++ calls KStopOp (length (stop_opts args)) h).
  { intros h w t1 w1 t2 w2 E1 E2. split.
    - rewrite filter_app, (is_step_call KOp h ltac:(discriminate) _ _ _ _ _ E1),
        (is_step_call KStopOp h ltac:(discriminate) _ _ _ _ _ E2). reflexivity.
    - rewrite noncond_app. f_equal; [apply (noncond_call KOp h (fun _ => eq_refl) _ _ _ _ _ E1)|
        apply (noncond_call KStopOp h (fun _ => eq_refl) _ _ _ _ _ E2)]. }
  induction fuel as [|n IH]; intros h w tr w' H; [discriminate|].
  rewrite loop_S in H; cbv zeta in H.
  destruct (far _ _ _).
  - destruct (check_stops 0 (stop_cond args) h w) as [[b tc] w1] eqn:Ec.
    assert (C1 := is_step_cond _ _ _ _ _ _ _ Ec). assert (C2 := noncond_cond _ _ _ _ _ _ _ Ec).
    destruct b.
    + destruct (call_all KOp 0 (opts args) h w1) as [t1 w2] eqn:E1.
      destruct (call_all KStopOp 0 (stop_opts args) h w2) as [t2 w3] eqn:E2.
      injection H as <- <-. destruct (Fin _ _ _ _ _ _ E1 E2) as [F1 F2].
      exists h. rewrite filter_app, C1, F1, noncond_app, C2, F2. split; reflexivity.
    + destruct (call_all KOp 0 (opts args) (chosen sys args hubble h w1) w1) as [tops w2] eqn:E1.
      destruct (advance sys (chosen sys args hubble h w1) w2) as [h2 w3] eqn:Ea.
      destruct (loop sys args hubble n h2 w3) as [[t w4]|] eqn:El; [|discriminate].
      injection H as <- <-.
      destruct (call_all_keeps _ _ _ _ _ _ _ Hk E1) as [K1 K2].
      destruct (IH _ _ _ _ El) as (hf & S1 & S2).
      exists hf. rewrite !filter_app, C1, (is_step_call KOp _ ltac:(discriminate) _ _ _ _ _ E1).
      cbn [app filter]. change (is_step (Ev KStep (chosen sys args hubble h w1) w2 w3)) with true.
      cbv iota. split.
      * cbn [step_chain before eh]. split.
        -- rewrite K1, K2. unfold chosen. destruct (Rle_dec _ _); [left|right]; split; auto. lra.
        -- unfold advance in Ea. destruct (iterate sys _ _) as [h' w5]. injection Ea as <- <-. exact S1.
      * rewrite !noncond_app, C2. cbn [app]. rewrite (noncond_call KOp _ (fun _ => eq_refl) _ _ _ _ _ E1).
        change (noncond (Ev KStep (chosen sys args hubble h w1) w2 w3 :: t))
          with ((KStep, chosen sys args hubble h w1) :: noncond t).
        rewrite S2. cbn [map concat eh]. unfold calls. rewrite <- !app_assoc. reflexivity.
  - destruct (call_all KOp 0 (opts args) h w) as [t1 w2] eqn:E1.
    destruct (call_all KStopOp 0 (stop_opts args) h w2) as [t2 w3] eqn:E2.
    injection H as <- <-. destruct (Fin _ _ _ _ _ _ E1 E2) as [F1 F2].
    exists h. rewrite F1, F2. split; reflexivity.
Qed.

Lemma run_unfold fuel w0 tr w' : run sys args hubble fuel w0 = Returned tr w' ->
  step_scale sys w0 <> 0 ->
  exists ts w2 t, call_all KStart 0 (start_opts args) (first_step sys args w0)
      (set_tols sys (atol args) (rtol args) w0) = (ts, w2) /\
    loop sys args hubble fuel (first_step sys args w0) w2 = Some (t, w') /\ tr = ts ++ t.
Proof.
  unfold run. intros H Hs.
  assert (H' : (if Req_EM_T (step_scale sys w0) 0 then Returned [] w0 else
        let (ts, w2) := call_all KStart 0 (start_opts args) (first_step sys args w0) (set_tols sys (atol args) (rtol args) w0) in
        match loop sys args hubble fuel (first_step sys args w0) w2 with
        | Some (t, w') => Returned (ts ++ t) w'
        | None => Running
        end) = Returned tr w').
  { destruct (stop_cond args), (end_set args); try discriminate H; exact H. }
  clear H. destruct (Req_EM_T _ _); [contradiction|].
  destruct (call_all KStart 0 _ _ _) as [ts w2] eqn:E1.
  destruct (loop _ _ _ _ _ _) as [[t w3]|] eqn:El; [|discriminate].
  injection H' as <- <-. eauto 6.
Qed.

Lemma run_chain fuel w0 tr w' : run sys args hubble fuel w0 = Returned tr w' ->
  step_scale sys w0 <> 0 -> Forall keeps_time (opts args) ->
  exists hf, step_chain (if Req_EM_T (step_size args) 0 then default_step sys w0 else step_size args)
                        (filter is_step tr) hf /\
    filter (fun p => negb (is_cond (fst p))) (map (fun e => (ek e, eh e)) tr) =
      calls KStart (length (start_opts args))
        (if Req_EM_T (step_size args) 0 then default_step sys w0 else step_size args) ++
      concat (map (fun e => calls KOp (length (opts args)) (eh e) ++ [(KStep, eh e)])
                  (filter is_step tr)) ++
      calls KOp (length (opts args)) hf ++ calls KStopOp (length (stop_opts args)) hf.
Proof.
  intros H Hs Hk. destruct (run_unfold _ _ _ _ H Hs) as (ts & w2 & t & E1 & El & ->).
  destruct (loop_chain Hk _ _ _ _ _ El) as (hf & A & B).
  exists hf. rewrite filter_app, (is_step_call KStart _ ltac:(discriminate) _ _ _ _ _ E1).
  split; [exact A|].
  change (noncond (ts ++ t) = calls KStart (length (start_opts args)) (first_step sys args w0) ++
     concat (map (fun e => calls KOp (length (opts args)) (eh e) ++ [(KStep, eh e)]) (filter is_step t)) ++
     calls KOp (length (opts args)) hf ++ calls KStopOp (length (stop_opts args)) hf).
  rewrite noncond_app, B, (noncond_call KStart _ (fun _ => eq_refl) _ _ _ _ _ E1). reflexivity.
Qed.

(** * Adaptive integrators *)
(** A step of proposed size [h > 0] advances time by at most [h / scale], and by at least
    [dmin] or the whole of it, and proposes a positive next step; the step scale is positive;
    callbacks and conditions leave time and step scale alone.  (Unlike [const_step], any stop
    conditions are allowed, and the advance may be anything in that range.) *)
Record adaptive (dmin : R) : Prop := {
  ad_pos : 0 < dmin;
  ad_iter : forall h w, 0 < h ->
     let w' := snd (advance sys h w) in
     Rmin dmin (h / step_scale sys w) <= time sys w' - time sys w <= h / step_scale sys w /\
     0 < fst (advance sys h w) /\ dmin <= fst (advance sys h w) / step_scale sys w';
  ad_scale : forall w, 0 < step_scale sys w;
  ad_ops : Forall keeps_time (opts args);
  ad_stops : Forall keeps_time (stop_opts args);
  ad_starts : Forall keeps_time (start_opts args);
  ad_tols : forall a r w, time sys (set_tols sys a r w) = time sys w /\
                          step_scale sys (set_tols sys a r w) = step_scale sys w;
  ad_cond : Forall (fun c => forall h w, time sys (snd (c h w)) = time sys w /\
                             step_scale sys (snd (c h w)) = step_scale sys w) (stop_cond args)
}.

Lemma call_all_keeps_ev mk h : forall l i w tr w', Forall keeps_time l ->
  call_all mk i l h w = (tr, w') ->
  forall e, In e tr -> time sys (before e) = time sys w /\ time sys (after e) = time sys w.
Proof.
  induction l as [|f l IH]; simpl; intros i w tr w' Hl H.
  - injection H as <- <-. intros ? [].
  - destruct (call_all mk (S i) l h (f h w)) as [t w2] eqn:E. injection H as <- <-.
    inversion Hl as [|? ? Hf Hr]; subst. destruct (Hf h w) as [C D].
    intros e [<-|He]; simpl; auto. rewrite <- C. eapply IH; eauto.
Qed.

Lemma check_keeps h : forall l i w b tr w',
  Forall (fun c => forall h w, time sys (snd (c h w)) = time sys w /\
                             step_scale sys (snd (c h w)) = step_scale sys w) l ->
  check_stops i l h w = (b, tr, w') ->
  time sys w' = time sys w /\ step_scale sys w' = step_scale sys w /\
  forall e, In e tr -> time sys (before e) = time sys w /\ time sys (after e) = time sys w.
Proof.
  induction l as [|c l IH]; simpl; intros i w b tr w' Hl H.
  - injection H as <- <- <-. repeat split; auto; contradiction.
  - inversion Hl as [|? ? Hf Hr]; subst. destruct (Hf h w) as [C D].
    destruct (c h w) as [r w1]. simpl in C, D. destruct r.
    + injection H as <- <- <-. split; auto. split; auto. intros e [<-|[]]; simpl; auto.
    + destruct (check_stops (S i) l h w1) as [[r t] w2] eqn:E. injection H as <- <- <-.
      destruct (IH _ _ _ _ _ Hr E) as (A & B & F). rewrite A, B. split; auto. split; auto.
      intros e [<-|He]; simpl; auto. rewrite <- C. auto.
Qed.

Lemma adaptive_loop dmin (AD : adaptive dmin) : the_end args hubble <> 0 -> 0 <= time_rtol args ->
  forall n h w, 0 < h -> dmin <= h / step_scale sys w -> time sys w <= the_end args hubble ->
  the_end args hubble - time sys w <= INR n * dmin ->
  exists tr w', loop sys args hubble (S n) h w = Some (tr, w') /\
    (steps tr <= n)%nat /\ time sys w' <= the_end args hubble /\
    (stop_cond args = [] -> Rabs (time sys w' - the_end args hubble) <= time_rtol args * Rabs (the_end args hubble)) /\
    (forall e, In e tr -> time sys (before e) <= the_end args hubble /\
        time sys (after e) <= the_end args hubble /\
        (ek e = KStep -> time sys (before e) < time sys (after e))).
Proof.
  intros He0 Htol.
  set (E := the_end args hubble) in *.
  assert (Dp := ad_pos _ AD).
  assert (Fin : forall h w, exists t1 w1 t2 w2,
     call_all KOp 0 (opts args) h w = (t1, w1) /\ call_all KStopOp 0 (stop_opts args) h w1 = (t2, w2) /\
     steps (t1 ++ t2) = 0%nat /\ time sys w2 = time sys w /\
     (forall e, In e (t1 ++ t2) -> time sys (before e) = time sys w /\ time sys (after e) = time sys w /\ ek e <> KStep)).
  { intros h w. destruct (call_all KOp 0 (opts args) h w) as [t1 w1] eqn:E1.
    destruct (call_all KStopOp 0 (stop_opts args) h w1) as [t2 w2] eqn:E2.
    exists t1, w1, t2, w2.
    destruct (call_all_keeps _ _ _ _ _ _ _ (ad_ops _ AD) E1) as [A1 _].
    assert (A2 := call_all_keeps_ev _ _ _ _ _ _ _ (ad_ops _ AD) E1).
    destruct (call_all_keeps _ _ _ _ _ _ _ (ad_stops _ AD) E2) as [B1 _].
    assert (B2 := call_all_keeps_ev _ _ _ _ _ _ _ (ad_stops _ AD) E2).
    destruct (steps_call KOp h ltac:(discriminate) _ _ _ _ _ E1) as [S1 S2].
    destruct (steps_call KStopOp h ltac:(discriminate) _ _ _ _ _ E2) as [S3 S4].
    repeat split; auto.
    - rewrite steps_app, S1, S3; auto.
    - congruence.
    - apply in_app_or in H as [H|H]; [apply A2 in H|apply B2 in H]; destruct H; congruence.
    - apply in_app_or in H as [H|H]; [apply A2 in H|apply B2 in H]; destruct H; congruence.
    - apply in_app_or in H as [H|H]; auto. }
  assert (Near : forall t, far t E (time_rtol args) = false -> Rabs (t - E) <= time_rtol args * Rabs E).
  { intros t. unfold far. destruct (Req_EM_T E 0); [contradiction|].
    destruct (Rlt_dec _ _) as [|Hn]; [discriminate|]. intros _. apply Rnot_lt_le in Hn.
    unfold Rdiv in Hn. rewrite Rabs_mult, Rabs_inv in Hn.
    assert (0 < Rabs E) by (apply Rabs_pos_lt; auto).
    apply (Rmult_le_compat_r (Rabs E)) in Hn; [|lra].
    rewrite Rmult_assoc, Rinv_l in Hn by lra. lra. }
  assert (AtEnd : far E E (time_rtol args) = false).
  { unfold far. destruct (Req_EM_T E 0); [contradiction|].
    destruct (Rlt_dec _ _) as [Hn|]; auto. exfalso.
    unfold Rminus, Rdiv in Hn. rewrite Rplus_opp_r, Rmult_0_l, Rabs_R0 in Hn. lra. }
  induction n as [|n IH]; intros h w Hh Hd Ht Hb.
  - simpl in Hb. assert (Te : time sys w = E) by lra.
    simpl. fold E. rewrite Te, AtEnd.
    destruct (Fin h w) as (t1 & w1 & t2 & w2 & E1 & E2 & S1 & T1 & A). rewrite E1, E2.
    exists (t1 ++ t2), w2. split; auto. split; [lia|]. split; [lra|]. split.
    + intros _. rewrite T1, Te. replace (E - E) with 0 by lra. rewrite Rabs_R0.
      apply Rmult_le_pos; auto using Rabs_pos.
    + intros e He. destruct (A e He) as (A1 & A2 & A3). rewrite A1, A2, Te.
      split; [lra|]. split; [lra|]. intros; contradiction.
  - rewrite loop_S; cbv zeta. fold E. destruct (far (time sys w) E (time_rtol args)) eqn:Hfar.
    + assert (Hlt : time sys w < E).
      { destruct (Rle_lt_or_eq_dec _ _ Ht) as [|Heq]; auto. rewrite Heq in Hfar. rewrite AtEnd in Hfar; discriminate. }
      destruct (check_stops 0 (stop_cond args) h w) as [[b tc] w1] eqn:Ec.
      destruct (check_keeps _ _ _ _ _ _ _ (ad_cond _ AD) Ec) as (T1 & Q1 & V1).
      assert (C1 := is_step_cond _ _ _ _ _ _ _ Ec).
      assert (Sc : steps tc = 0%nat) by (unfold steps; unfold is_step in C1; rewrite C1; reflexivity).
      assert (Nc : forall e, In e tc -> ek e <> KStep).
      { intros e He Ek. assert (In e (filter is_step tc)) by (apply filter_In; split; auto; unfold is_step; rewrite Ek; auto).
        rewrite C1 in H. destruct H. }
      destruct b.
      * destruct (Fin h w1) as (t1 & w2 & t2 & w3 & E1 & E2 & S1 & T2 & A). rewrite E1, E2.
        exists (tc ++ (t1 ++ t2)), w3. split; auto. split; [rewrite steps_app; lia|].
        split; [lra|]. split.
        { intros Hn. rewrite Hn in Ec. simpl in Ec. discriminate. }
        intros e He. apply in_app_or in He as [He|He].
        -- destruct (V1 e He) as [B1 B2]. rewrite B1, B2. split; [lra|]. split; [lra|].
           intros Ek; exfalso; eapply Nc; eauto.
        -- destruct (A e He) as (A1 & A2 & A3). rewrite A1, A2, T1.
           split; [lra|]. split; [lra|]. intros; contradiction.
      * set (h1 := chosen sys args hubble h w1).
        assert (Sp := ad_scale _ AD w1).
        assert (Hc : 0 < h1 /\ h1 / step_scale sys w1 <= E - time sys w1 /\
                     (dmin <= h1 / step_scale sys w1 \/ h1 / step_scale sys w1 = E - time sys w1)).
        { assert (Q : (E - time sys w1) * step_scale sys w1 / step_scale sys w1 = E - time sys w1)
            by (field; lra).
          assert (P : 0 < (E - time sys w1) * step_scale sys w1) by (apply Rmult_lt_0_compat; lra).
          unfold h1, chosen. fold E. destruct (Rle_dec _ _) as [Hle|Hle].
          - rewrite (Rabs_pos_eq h), Rabs_pos_eq in Hle by lra. split; auto. split.
            + rewrite <- Q. apply Rmult_le_compat_r; auto. apply Rlt_le, Rinv_0_lt_compat; auto.
            + left. rewrite Q1; auto.
          - rewrite Q. split; auto. split; [lra|]. right; auto. }
        destruct Hc as (Hc1 & Hc2 & Hc3).
        destruct (call_all KOp 0 (opts args) h1 w1) as [tops w2] eqn:E1.
        destruct (call_all_keeps _ _ _ _ _ _ _ (ad_ops _ AD) E1) as [A1 A1'].
        assert (A2 := call_all_keeps_ev _ _ _ _ _ _ _ (ad_ops _ AD) E1).
        destruct (steps_call KOp h1 ltac:(discriminate) _ _ _ _ _ E1) as [S1 S2].
        destruct (ad_iter _ AD h1 w2 Hc1) as (I1 & I2 & I3).
        destruct (advance sys h1 w2) as [h2 w3] eqn:Ea. simpl in I1, I2, I3.
        rewrite A1' in I1.
        assert (Up : time sys w3 <= E) by lra.
        assert (Pq : 0 < h1 / step_scale sys w1) by (apply Rdiv_lt_0_compat; auto).
        assert (Lo : time sys w2 < time sys w3).
        { destruct I1 as [I1 _]. unfold Rmin in I1. destruct (Rle_dec _ _) in I1; lra. }
        assert (Pr : E - time sys w3 <= INR n * dmin).
        { rewrite S_INR in Hb. destruct I1 as [I1 I1']. unfold Rmin in I1.
          destruct (Rle_dec _ _) as [Q|Q] in I1; [lra|].
          destruct Hc3 as [Hc3|Hc3]; [lra|].
          assert (time sys w3 = E) by lra.
          assert (0 <= INR n * dmin) by (apply Rmult_le_pos; [apply pos_INR|lra]). lra. }
        destruct (IH h2 w3 I2 I3 Up Pr) as (tr & w' & G1 & G2 & G2' & G3 & G4). rewrite G1.
        eexists _, w'. split; [reflexivity|]. split; [|split; [auto|split; auto]].
        -- rewrite !steps_app, S1, Sc. unfold steps in *; simpl. lia.
        -- intros e He. apply in_app_or in He as [He|He].
           { destruct (V1 e He) as [B1 B2]. rewrite B1, B2. split; [lra|]. split; [lra|].
             intros Ek; exfalso; eapply Nc; eauto. }
           apply in_app_or in He as [He|[<-|He]]; auto.
           ++ destruct (A2 e He) as [B1 B2]. rewrite B1, B2, T1. split; [lra|]. split; [lra|].
              intros Ek. exfalso. eapply S2; eauto.
           ++ simpl. split; [lra|]. split; auto.
    + destruct (Fin h w) as (t1 & w1 & t2 & w2 & E1 & E2 & S1 & T1 & A). rewrite E1, E2.
      exists (t1 ++ t2), w2. split; auto. split; [lia|]. split; [lra|]. split.
      * intros _. rewrite T1. apply Near; auto.
      * intros e He. destruct (A e He) as (A1 & A2 & A3). rewrite A1, A2.
        split; [lra|]. split; [lra|]. intros; contradiction.
Qed.

Lemma run_adaptive dmin (AD : adaptive dmin) n w : end_set args = true ->
  end_time args <> 0 -> 0 <= time_rtol args -> 0 < step_size args ->
  dmin <= step_size args / step_scale sys w ->
  time sys w <= end_time args -> end_time args - time sys w <= INR n * dmin ->
  exists tr w', run sys args hubble (S n) w = Returned tr w' /\
    (steps tr <= n)%nat /\ time sys w' <= end_time args /\
    (stop_cond args = [] ->
     Rabs (time sys w' - end_time args) <= time_rtol args * Rabs (end_time args)) /\
    (forall e, In e tr -> time sys (before e) <= end_time args /\
        time sys (after e) <= end_time args /\
        (ek e = KStep -> time sys (before e) < time sys (after e))).
Proof.
  intros Hes He0 Htol Hh Hd Ht Hb.
  assert (EE : the_end args hubble = end_time args) by (unfold the_end; rewrite Hes; auto).
  assert (R0 : run sys args hubble (S n) w =
     if Req_EM_T (step_scale sys w) 0 then Returned [] w else
        let (ts, w2) := call_all KStart 0 (start_opts args) (first_step sys args w) (set_tols sys (atol args) (rtol args) w) in
        match loop sys args hubble (S n) (first_step sys args w) w2 with
        | Some (t, w') => Returned (ts ++ t) w'
        | None => Running
        end).
  { unfold run. rewrite Hes. destruct (stop_cond args); reflexivity. }
  rewrite R0. clear R0.
  assert (Sp := ad_scale _ AD w).
  destruct (Req_EM_T (step_scale sys w) 0) as [Hz|_]; [lra|].
  assert (Hfs : first_step sys args w = step_size args).
  { unfold first_step. destruct (Req_EM_T _ _); auto; lra. }
  rewrite !Hfs.
  destruct (call_all KStart 0 (start_opts args) (step_size args) _) as [ts w2] eqn:E1.
  destruct (call_all_keeps _ _ _ _ _ _ _ (ad_starts _ AD) E1) as [A1 A1'].
  assert (A2 := call_all_keeps_ev _ _ _ _ _ _ _ (ad_starts _ AD) E1).
  destruct (ad_tols _ AD (atol args) (rtol args) w) as [Q1 Q2].
  rewrite Q1 in A1, A2. rewrite Q2 in A1'.
  destruct (steps_call KStart (step_size args) ltac:(discriminate) _ _ _ _ _ E1) as [S1 S2].
  destruct (adaptive_loop _ AD ltac:(rewrite EE; auto) Htol n (step_size args) w2 Hh) as (tr & w' & L & L1 & L1' & L2 & L3);
    try (rewrite ?EE, ?A1, ?A1'; lra).
  rewrite L. exists (ts ++ tr), w'. split; auto. rewrite EE in *. split; [|split; [auto|split; auto]].
  - rewrite steps_app, S1. simpl; auto.
  - intros e He. apply in_app_or in He as [He|He]; auto.
    destruct (A2 e He) as [B1 B2]. rewrite B1, B2. repeat split; try lra.
    intros Ek. exfalso; eapply S2; eauto.
Qed.
End P.
