(** Lemmas for C100: one step of a worker keeps the books straight. *)
From Verif Require Import Tgr_Model Tgr_Spec Tgr_Proofs.
From Coq Require Import List Arith Lia Bool.
Import ListNotations.
Section P.
Variable g : graph.
Notation n := (size g).
Notation V := (seq 0 (size g)).
Notation Sum f := (list_sum (map f V)).
Hypothesis WF : well_formed g.
Notation live := (live g). Notation D := (D g). Notation N := (N g). Notation Gv := (Gv g). Notation dec := (dec g). Notation pn := (pn g).
(** Steps a node still has to make. *)
Definition wp (x : phase) (u : nat) : nat := let m := 3 * length (succs g u) in
  match x with Idle => 6 + m | Queued => 5 + m | Act Got => 4 + m | Act Busy => 3 + m | Act Worked => 2 + m | Act (Out i) => 1 + m - 3 * i | Act (Hit i) => m - 3 * i | Act (Give i) => m - 3 * i - 1 | Gone => 0 end.
Definition wt (ph : nat -> phase) : nat := Sum (fun u => wp (ph u) u).
Lemma wt_upd ph u x : u < n -> wt (pupd ph u x) + wp (ph u) u = wt ph + wp x u.
Proof. intros U. unfold wt. pose proof (sum_upd (fun w => wp (ph w) w) (fun w => wp (pupd ph u x w) w) V u (seq_NoDup _ _) (proj2 (inV g u) U)) as X. cbv beta in X. rewrite pupd_same in X. apply X. intros w W. now rewrite pupd_other. Qed.
(** The events of the current pass agree with the phases. *)
Definition tracks (ph : nat -> phase) (r : list event) : Prop := sound g r /\ forall v, v < n -> (In (Start v) r <-> started (ph v)) /\ (In (Finish v) r <-> finished (ph v)).
Lemma body_app l k : body (l ++ k) = body l ++ body k.
Proof. unfold body. apply filter_app. Qed.
Lemma sound_snoc r e : sound g r -> match e with Start v => v < n /\ ~ In (Start v) r /\ (forall u, In (u, v) (edges g) -> In (Finish u) r) | Finish v => In (Start v) r /\ ~ In (Finish v) r | _ => False end -> sound g (r ++ [e]).
Proof.
  intros So He pre x post E. destruct post as [|y post] using rev_ind.
  - apply app_inj_tail in E. destruct E as (-> & ->). exact He.
  - clear IHpost. rewrite app_comm_cons, app_assoc in E. apply app_inj_tail in E. destruct E as (E & ->). exact (So _ _ _ E).
Qed.
Lemma tracks_keep ph ph' r : (forall v, v < n -> (started (ph' v) <-> started (ph v)) /\ (finished (ph' v) <-> finished (ph v))) -> tracks ph r -> tracks ph' r.
Proof. intros H (So & T). split; auto. intros v Hv. destruct (H v Hv) as (A & B). destruct (T v Hv) as (C & E). tauto. Qed.
Lemma act_here ph l s a u p c : live ph l s -> act s = a ++ (u, p) :: c -> u < n /\ ph u = Act p.
Proof. intros L E. apply (proj2 (l_a _ _ _ _ L)). rewrite E. apply in_elt. Qed.
Lemma act_replace ph A a u p p' c : A = a ++ (u, p) :: c -> (NoDup (map fst A) /\ forall v q, In (v, q) A <-> v < n /\ ph v = Act q) ->
  NoDup (map fst (a ++ (u, p') :: c)) /\ forall v q, In (v, q) (a ++ (u, p') :: c) <-> v < n /\ pupd ph u (Act p') v = Act q.
Proof.
  intros -> (Nd & I). assert (M : map fst (a ++ (u, p') :: c) = map fst (a ++ (u, p) :: c)) by (rewrite !map_app; reflexivity). split; [now rewrite M|]. intros v q.
  assert (U : u < n) by (apply (I u p), in_elt). rewrite map_app in Nd. cbn [map fst] in Nd. apply NoDup_remove_2 in Nd. rewrite in_app_iff in Nd. destruct (Nat.eq_dec v u) as [->|W].
  - rewrite pupd_same. split; [|intros (_ & [= <-]); apply in_elt]. intros J. apply in_app_or in J. destruct J as [J|[J|J]]; [| injection J as ->; auto |]; exfalso; apply Nd; [left|right]; apply (in_map fst) in J; exact J.
  - rewrite pupd_other by auto. rewrite <- I. rewrite !in_app_iff. cbn [In]. split; intros [J|[J|J]]; auto; congruence.
Qed.
Lemma act_keep ph ph' A : (forall w p, w < n -> ph' w = Act p <-> ph w = Act p) -> (NoDup (map fst A) /\ forall v q, In (v, q) A <-> v < n /\ ph v = Act q) -> NoDup (map fst A) /\ forall v q, In (v, q) A <-> v < n /\ ph' v = Act q.
Proof. intros H (Nd & I). split; auto. intros v q. rewrite I. split; intros (Hv & E); split; auto; apply H; auto. Qed.
Lemma q_keep ph ph' Q : (forall w, w < n -> ph' w = Queued <-> ph w = Queued) -> (NoDup Q /\ forall v, In v Q <-> v < n /\ ph v = Queued) -> NoDup Q /\ forall v, In v Q <-> v < n /\ ph' v = Queued.
Proof. intros H (Nd & I). split; auto. intros v. rewrite I. split; intros (Hv & E); split; auto; apply H; auto. Qed.
Lemma q_act ph u p p' : ph u = Act p -> forall w, w < n -> pupd ph u (Act p') w = Queued <-> ph w = Queued.
Proof. intros E w _. unfold pupd. destruct (Nat.eqb_spec w u) as [->|]; [rewrite E; split; discriminate|reflexivity]. Qed.
(** A worker's move. *)
Lemma work_live ph l s a u p c s' : live ph l s -> act s = a ++ (u, p) :: c -> work g s a c u p s' ->
  exists ph', live ph' l s' /\ wt ph' < wt ph /\ forall h r, body (log s) = h ++ r -> tracks ph r -> exists r', body (log s') = h ++ r' /\ tracks ph' r'.
Proof.
  intros L E W. destruct (act_here _ _ _ _ _ _ _ L E) as (U & Pu). pose proof (l_q _ _ _ _ L) as Lq. pose proof (l_a _ _ _ _ L) as La. pose proof (l_jc _ _ _ _ L) as Lj. pose proof (l_one _ _ _ _ L) as Lo. pose proof (l_tj _ _ _ _ L) as Lt. pose proof (l_in _ _ _ _ L) as Li. pose proof (l_l _ _ _ _ L) as Ll.
  assert (La' : forall p', NoDup (map fst (a ++ (u, p') :: c)) /\ forall v q, In (v, q) (a ++ (u, p') :: c) <-> v < n /\ pupd ph u (Act p') v = Act q) by (intros p'; eapply act_replace; eauto).
  assert (Ln : forall p', length (a ++ (u, p') :: c) = length (act s)) by (intros p'; rewrite E, !app_length; reflexivity).
  pose proof (Li u U) as Iu. rewrite Pu in Iu. assert (Du : forall x v, D (pupd ph u x) v + dec (Act p) u v = D ph v + dec x u v) by (intros x v; rewrite <- Pu; apply D_upd; auto).
  assert (Nu : forall x v, N (pupd ph u x) v + pn (Act p) u v = N ph v + pn x u v) by (intros x v; rewrite <- Pu; apply N_upd; auto).
  assert (Gu : forall x, Gv (pupd ph u x) + give (Act p) = Gv ph + give x) by (intros x; rewrite <- Pu; apply Gv_upd; auto).
  assert (Wu : forall x, wt (pupd ph u x) + wp (Act p) u = wt ph + wp x u) by (intros x; rewrite <- Pu; apply wt_upd; auto).
  assert (Bu : forall p' v, b (pupd ph u (Act p') v) = b (ph v)) by (intros p' v; unfold pupd; destruct (Nat.eqb_spec v u) as [->|]; [now rewrite Pu|reflexivity]).
  assert (Ii : forall x, inside g x u -> forall v, v < n -> inside g (pupd ph u x v) v) by (intros x X v Hv; unfold pupd; destruct (Nat.eqb_spec v u) as [->|]; auto).
  destruct W as [| | |i v Ev|i|i v Ev|]; cbn [jc tj queue act drv log].
  - exists (pupd ph u (Act Busy)). specialize (Du (Act Busy)). specialize (Nu (Act Busy)). specialize (Gu (Act Busy)). specialize (Wu (Act Busy)). cbn in Gu, Wu, Nu. unfold Tgr_Proofs.dec in Du. cbn [prog] in Du. split; [|split; [lia|]].
    + constructor; cbn [jc tj queue act drv log]; [eapply q_keep; [eapply q_act; eauto|auto]|apply La'| | |rewrite Ln, Lt; lia|apply Ii; exact Logic.I|auto].
      * intros v Hv. rewrite (Lj v Hv). specialize (Du v). unfold pupd at 1. destruct (Nat.eqb_spec v u) as [->|]; [rewrite Pu; cbn [fresh]|destruct (fresh (ph v)); [|reflexivity]]; f_equal; lia.
      * intros v Hv. rewrite Bu. specialize (Du v). specialize (Nu v). specialize (Lo v Hv). replace (D (pupd ph u (Act Busy)) v) with (D ph v) by lia. lia.
    + intros h r Eb (So & T). exists (r ++ [Start u]). split; [rewrite body_app, Eb, app_assoc; reflexivity|]. split.
      * apply sound_snoc; auto. split; auto. split; [intros J; apply (T u U) in J; rewrite Pu in J; exact J|]. intros w J. assert (Hw : w < n) by apply (WF _ _ J). apply (T w Hw). refine (preds_finished g WF ph u U _ w J). apply (preds_done g ph l s L u U). left. now rewrite Pu.
      * intros v Hv. rewrite !in_app_iff. cbn [In]. destruct (T v Hv) as (T1 & T2). unfold pupd. destruct (Nat.eqb_spec v u) as [->|Ne]; [rewrite Pu in *; cbn [started finished] in *|]; (split; [split; [intros [J|[J|[]]]; try tauto; congruence|tauto]|split; [intros [J|[J|[]]]; try tauto; congruence|tauto]]).
  - exists (pupd ph u (Act Worked)). specialize (Du (Act Worked)). specialize (Nu (Act Worked)). specialize (Gu (Act Worked)). specialize (Wu (Act Worked)). cbn in Gu, Wu, Nu. unfold Tgr_Proofs.dec in Du. cbn [prog] in Du. split; [|split; [lia|]].
    + constructor; cbn [jc tj queue act drv log]; [eapply q_keep; [eapply q_act; eauto|auto]|apply La'| | |rewrite Ln, Lt; lia|apply Ii; exact Logic.I|auto].
      * intros v Hv. rewrite (Lj v Hv). specialize (Du v). unfold pupd at 1. destruct (Nat.eqb_spec v u) as [->|]; [rewrite Pu; cbn [fresh]|destruct (fresh (ph v)); [|reflexivity]]; f_equal; lia.
      * intros v Hv. rewrite Bu. specialize (Du v). specialize (Nu v). specialize (Lo v Hv). replace (D (pupd ph u (Act Worked)) v) with (D ph v) by lia. lia.
    + intros h r Eb (So & T). exists (r ++ [Finish u]). split; [rewrite body_app, Eb, app_assoc; reflexivity|]. split.
      * apply sound_snoc; auto. destruct (T u U) as (T1 & T2). rewrite Pu in *. split; [now apply T1|]. intros J. apply T2 in J. exact J.
      * intros v Hv. rewrite !in_app_iff. cbn [In]. destruct (T v Hv) as (T1 & T2). unfold pupd. destruct (Nat.eqb_spec v u) as [->|Ne]; [rewrite Pu in *; cbn [started finished] in *|]; (split; [split; [intros [J|[J|[]]]; try tauto; congruence|tauto]|split; [intros [J|[J|[]]]; try tauto; congruence|tauto]]).
  - exists (pupd ph u (Act (Out 0))). specialize (Du (Act (Out 0))). specialize (Nu (Act (Out 0))). specialize (Gu (Act (Out 0))). specialize (Wu (Act (Out 0))). cbn in Gu, Wu, Nu. unfold Tgr_Proofs.dec in Du. cbn [prog] in Du. split; [|split; [lia|]].
    + constructor; cbn [jc tj queue act drv log]; [eapply q_keep; [eapply q_act; eauto|auto]|apply La'| | |rewrite Ln, Lt; lia|apply Ii; cbn; lia|auto].
      * intros v Hv. specialize (Du v). unfold upd. unfold pupd at 1. destruct (Nat.eqb_spec v u) as [->|]; [reflexivity|]. rewrite (Lj v Hv). destruct (fresh (ph v)); [|reflexivity]. f_equal; lia.
      * intros v Hv. rewrite Bu. specialize (Du v). specialize (Nu v). specialize (Lo v Hv). replace (D (pupd ph u (Act (Out 0))) v) with (D ph v) by lia. lia.
    + intros h r Eb T. exists r. split; auto. eapply tracks_keep; [|exact T]. intros v Hv. unfold pupd. destruct (Nat.eqb_spec v u) as [->|]; [rewrite Pu; cbn; tauto|tauto].
  - destruct (nth_node g WF _ _ _ Ev) as (_ & Hv). set (p' := if jc s v - 1 =? 0 then Hit i else Out (S i)). pose proof (nth_lt _ _ _ Ev) as Lti.
    assert (Dp : forall w, dec (Act p') u w = dec (Act (Out i)) u w + (if v =? w then 1 else 0)). { intros w. unfold Tgr_Proofs.dec. pose proof (dec_next g u i v w Ev) as X. unfold p'. destruct (_ =? 0); cbn [prog]; exact X. }
    assert (Dv : D (pupd ph u (Act p')) v = S (D ph v)). { specialize (Du (Act p') v). rewrite Dp, Nat.eqb_refl in Du. lia. }
    assert (Dw : forall w, w <> v -> D (pupd ph u (Act p')) w = D ph w). { intros w Nw. specialize (Du (Act p') w). rewrite Dp in Du. destruct (Nat.eqb_spec v w); [congruence|]. lia. }
    pose proof (D_le g WF (pupd ph u (Act p')) v) as Dl. assert (Iv : ph v = Idle /\ N ph v = 0 /\ count_occ Nat.eq_dec l v = 0). { pose proof (Lo v Hv) as O. destruct (Nat.eqb_spec (D ph v) (num_dependents g v)); [exfalso; lia|]. destruct (ph v); cbn [b] in O; try (exfalso; lia). repeat split; auto; lia. } destruct Iv as (Iv & Nv & Cv).
    assert (Nuv : u <> v) by congruence. pose proof (Lj v Hv) as Jv. rewrite Iv in Jv. cbn [fresh] in Jv. assert (Z : (jc s v - 1 =? 0) = (D (pupd ph u (Act p')) v =? num_dependents g v)) by (destruct (Nat.eqb_spec (jc s v - 1) 0); destruct (Nat.eqb_spec (D (pupd ph u (Act p')) v) (num_dependents g v)); auto; lia).
    exists (pupd ph u (Act p')). split; [|split].
    + constructor; cbn [jc tj queue act drv log]; [eapply q_keep; [eapply q_act; eauto|auto]|apply La'| | | | |auto].
      * intros w Hw. unfold upd. destruct (Nat.eqb_spec w v) as [->|Nw]; [rewrite pupd_other, Iv by auto; cbn [fresh]; lia|]. rewrite (Lj w Hw), (Dw w Nw). unfold pupd. destruct (Nat.eqb_spec w u) as [->|]; [|reflexivity]. rewrite Pu. unfold p'. now destruct (_ =? 0).
      * intros w Hw. rewrite Bu. specialize (Nu (Act p') w). pose proof (Lo w Hw) as O. change (pn (Act (Out i)) u w) with 0 in Nu. destruct (Nat.eq_dec w v) as [->|Nw].
        -- rewrite <- Z, Iv, Cv. cbn [b]. assert (Q : pn (Act p') u v = if jc s v - 1 =? 0 then 1 else 0). { unfold p'. destruct (jc s v - 1 =? 0); cbn [Tgr_Proofs.pn]; [rewrite Ev, Nat.eqb_refl|]; reflexivity. } rewrite Q in Nu. lia.
        -- rewrite (Dw w Nw). assert (Q : pn (Act p') u w = 0). { unfold p'. destruct (jc s v - 1 =? 0); cbn [Tgr_Proofs.pn]; [|reflexivity]. rewrite Ev. destruct (Nat.eqb_spec v w); congruence. } rewrite Q in Nu. lia.
      * rewrite Ln, Lt. specialize (Gu (Act p')). assert (Q : give (Act p') = 0) by (unfold p'; now destruct (_ =? 0)). rewrite Q in Gu. cbn [give] in Gu. lia.
      * apply Ii. unfold p'. destruct (_ =? 0); cbn; lia.
    + specialize (Wu (Act p')). assert (wp (Act p') u < wp (Act (Out i)) u) by (unfold p'; destruct (_ =? 0); cbn [wp]; lia). lia.
    + intros h r Eb T. exists r. split; auto. eapply tracks_keep; [|exact T]. intros w Hw. unfold pupd. destruct (Nat.eqb_spec w u) as [->|]; [rewrite Pu; unfold p'; destruct (_ =? 0); cbn; tauto|tauto].
  - exists (pupd ph u (Act (Give i))). specialize (Du (Act (Give i))). specialize (Nu (Act (Give i))). specialize (Gu (Act (Give i))). specialize (Wu (Act (Give i))). cbn [give wp] in Gu, Wu. cbn in Iu. unfold Tgr_Proofs.dec in Du. cbn [prog] in Du. cbn [Tgr_Proofs.pn] in Nu. split; [|split; [lia|]].
    + constructor; cbn [jc tj queue act drv log]; [eapply q_keep; [eapply q_act; eauto|auto]|apply La'| | |rewrite Ln, Lt; lia|apply Ii; exact Iu|auto].
      * intros v Hv. rewrite (Lj v Hv). specialize (Du v). unfold pupd at 1. destruct (Nat.eqb_spec v u) as [->|]; [rewrite Pu; reflexivity|destruct (fresh (ph v)); [|reflexivity]]; f_equal; lia.
      * intros v Hv. rewrite Bu. specialize (Du v). specialize (Nu v). specialize (Lo v Hv). replace (D (pupd ph u (Act (Give i))) v) with (D ph v) by lia. lia.
    + intros h r Eb T. exists r. split; auto. eapply tracks_keep; [|exact T]. intros v Hv. unfold pupd. destruct (Nat.eqb_spec v u) as [->|]; [rewrite Pu; cbn; tauto|tauto].
  - destruct (nth_node g WF _ _ _ Ev) as (_ & Hv). pose proof (nth_lt _ _ _ Ev) as Lti. assert (Pv : 1 <= N ph v). { pose proof (pn_le_N g ph u v U) as X. rewrite Pu in X. cbn [Tgr_Proofs.pn] in X. rewrite Ev, Nat.eqb_refl in X. exact X. }
    pose proof (Lo v Hv) as Ov. assert (Iv : ph v = Idle /\ N ph v = 1 /\ count_occ Nat.eq_dec l v = 0 /\ D ph v = num_dependents g v). { destruct (Nat.eqb_spec (D ph v) (num_dependents g v)); [|exfalso; lia]. destruct (ph v); cbn [b] in Ov; try (exfalso; lia). repeat split; auto; lia. } destruct Iv as (Iv & Nv & Cv & Dv).
    assert (Nuv : u <> v) by congruence. set (ph1 := pupd ph u (Act (Out (S i)))). assert (Pv1 : ph1 v = Idle) by (unfold ph1; rewrite pupd_other; auto). exists (pupd ph1 v Queued).
    specialize (Du (Act (Out (S i)))). specialize (Nu (Act (Out (S i)))). specialize (Gu (Act (Out (S i)))). specialize (Wu (Act (Out (S i)))). fold ph1 in Du, Nu, Gu, Wu.
    pose proof (D_upd g ph1 v Queued) as Du2. pose proof (N_upd g ph1 v Queued) as Nu2. pose proof (Gv_upd g ph1 v Queued Hv) as Gu2. pose proof (wt_upd ph1 v Queued Hv) as Wu2. rewrite Pv1 in *. cbn [give wp] in Gu, Wu, Gu2, Wu2. unfold Tgr_Proofs.dec in Du, Du2. cbn [prog] in Du, Du2. cbn [Tgr_Proofs.pn] in Nu, Nu2. rewrite Ev in Nu.
    assert (Dq : forall w, D (pupd ph1 v Queued) w = D ph w) by (intros w; specialize (Du w); specialize (Du2 w Hv); lia).
    assert (Nq : forall w, N (pupd ph1 v Queued) w + (if v =? w then 1 else 0) = N ph w) by (intros w; specialize (Nu w); specialize (Nu2 w Hv); lia).
    split; [|split; [lia|]].
    + constructor; cbn [jc tj queue act drv log].
      * destruct Lq as (Qn & Qi). split; [constructor; auto; intros J; apply Qi in J; destruct J; congruence|]. intros w. cbn [In]. rewrite Qi. unfold pupd at 1. destruct (Nat.eqb_spec w v) as [->|Nw]; [tauto|]. unfold ph1, pupd. destruct (Nat.eqb_spec w u) as [->|]; [rewrite Pu|]; split; try tauto; [intros [|(_ & ?)]; [subst; congruence|discriminate]|intros (_ & ?); discriminate|intros [|]; [congruence|auto]].
      * apply (act_keep ph1); [|apply La']. intros w q Hw. unfold pupd at 1. destruct (Nat.eqb_spec w v) as [->|]; [rewrite Pv1; split; discriminate|reflexivity].
      * intros w Hw. rewrite Dq, (Lj w Hw). unfold pupd at 1. destruct (Nat.eqb_spec w v) as [->|Nw]; [rewrite Iv; reflexivity|]. unfold ph1, pupd. destruct (Nat.eqb_spec w u) as [->|]; [rewrite Pu; reflexivity|reflexivity].
      * intros w Hw. rewrite Dq. rewrite <- (Lo w Hw). specialize (Nq w). unfold pupd at 2. destruct (Nat.eqb_spec w v) as [->|Nw].
        -- rewrite Nat.eqb_refl in Nq. rewrite Iv. cbn [b]. lia.
        -- destruct (Nat.eqb_spec v w); [congruence|]. unfold ph1 at 2. rewrite Bu. lia.
      * cbn [length]. rewrite Ln, Lt. lia.
      * intros w Hw. unfold pupd. destruct (Nat.eqb_spec w v) as [->|Nw]; [exact Logic.I|]. unfold ph1, pupd. destruct (Nat.eqb_spec w u) as [->|]; [cbn; lia|auto].
      * auto.
    + intros h r Eb T. exists r. split; auto. eapply tracks_keep; [|exact T]. intros w Hw. destruct (Nat.eq_dec w v) as [->|Nw]; [rewrite pupd_same, Iv; cbn; tauto|]. rewrite pupd_other by auto. unfold ph1, pupd. destruct (Nat.eqb_spec w u) as [->|]; [rewrite Pu; cbn; tauto|tauto].
  - exists (pupd ph u Gone). specialize (Du Gone). specialize (Nu Gone). specialize (Gu Gone). specialize (Wu Gone). cbn [give wp] in Gu, Wu. unfold Tgr_Proofs.dec in Du. cbn [prog] in Du. cbn [Tgr_Proofs.pn] in Nu. split; [|split; [lia|]].
    + constructor; cbn [jc tj queue act drv log].
      * eapply q_keep; [|exact Lq]. intros w Hw. unfold pupd. destruct (Nat.eqb_spec w u) as [->|]; [rewrite Pu; split; discriminate|reflexivity].
      * destruct La as (An & Ai). rewrite E in An, Ai. rewrite map_app in An. cbn [map fst] in An. pose proof (NoDup_remove_1 _ _ _ An) as A1. pose proof (NoDup_remove_2 _ _ _ An) as A2. rewrite <- map_app in A1, A2. split; [exact A1|]. intros w q. unfold pupd. destruct (Nat.eqb_spec w u) as [->|Nw].
        -- split; [|intros (_ & ?); discriminate]. intros J. exfalso. apply A2. apply (in_map fst) in J. exact J.
        -- rewrite <- Ai. rewrite !in_app_iff. cbn [In]. split; [tauto|]. intros [|[|]]; auto. congruence.
      * intros v Hv. rewrite (Lj v Hv). specialize (Du v). unfold pupd at 1. destruct (Nat.eqb_spec v u) as [->|]; [rewrite Pu; reflexivity|destruct (fresh (ph v)); [|reflexivity]]; f_equal; lia.
      * intros v Hv. assert (Q : b (pupd ph u Gone v) = b (ph v)) by (unfold pupd; destruct (Nat.eqb_spec v u) as [->|]; [now rewrite Pu|reflexivity]). rewrite Q. specialize (Du v). specialize (Nu v). specialize (Lo v Hv). replace (D (pupd ph u Gone) v) with (D ph v) by lia. lia.
      * rewrite Lt, E, !app_length. cbn [length]. lia.
      * apply Ii. exact Logic.I.
      * auto.
    + intros h r Eb T. exists r. split; auto. eapply tracks_keep; [|exact T]. intros v Hv. unfold pupd. destruct (Nat.eqb_spec v u) as [->|]; [rewrite Pu; cbn; tauto|tauto].
Qed.
End P.
