From Verif Require Import Base Sim_Model.
From Coq Require Import Lra.

Lemma linked_app {W} (a b : list (event W)) : forall w w1 w2,
  linked w a w1 -> linked w1 b w2 -> linked w (a ++ b) w2.
Proof.
  induction a as [|e a IH]; simpl; intros w w1 w2 H1 H2; [subst; auto|].
  destruct H1 as [E H1]. split; auto. eapply IH; eauto.
Qed.

Section P.
Context {W : Type}.
Variable sys : system W.
Variable args : run_args W.
Variable hubble : R.

Lemma call_all_spec (mk : nat -> kind) (get : list (R -> W -> W)) h : forall l i w tr w',
  (forall j f, nth_error l j = Some f -> nth_error get (i + j) = Some f) ->
  call_all mk i l h w = (tr, w') ->
  linked w tr w' /\ map kh tr = map (fun i => (mk i, h)) (seq i (length l)) /\
  (forall e, In e tr -> exists j f, ek e = mk j /\ nth_error get j = Some f /\ after e = f (eh e) (before e)).
Proof.
  induction l as [|f l IH]; simpl; intros i w tr w' Hg H.
  - injection H as <- <-. simpl. split; [auto|split; [auto|intros ? []]].
  - destruct (call_all mk (S i) l h (f h w)) as [t w2] eqn:E. injection H as <- <-.
    destruct (IH (S i) _ _ _ (fun j g Hj => eq_trans (f_equal (nth_error get) (eq_sym (Nat.add_succ_r i j) : (S i + j = i + S j)%nat)) (Hg (S j) g Hj)) E)
      as (L & K & F).
    repeat split; simpl; auto.
    + f_equal; auto.
    + intros e [<-|He]; auto. exists i, f. simpl. repeat split; auto.
      rewrite <- (Nat.add_0_r i). apply Hg; auto.
Qed.

Lemma check_stops_spec (get : list (R -> W -> bool * W)) h : forall l i w b tr w',
  (forall j f, nth_error l j = Some f -> nth_error get (i + j) = Some f) ->
  check_stops i l h w = (b, tr, w') ->
  linked w tr w' /\
  (forall e, In e tr -> exists j c r, ek e = KCond j r /\ nth_error get j = Some c /\ c (eh e) (before e) = (r, after e)) /\
  (if b then exists j, (j < length l)%nat /\ map kh tr = map (fun k => (KCond k false, h)) (seq i j) ++ [(KCond (i + j) true, h)]
   else map kh tr = map (fun k => (KCond k false, h)) (seq i (length l))).
Proof.
  induction l as [|c l IH]; simpl; intros i w b tr w' Hg H.
  - injection H as <- <- <-. simpl. repeat split; auto. intros ? [].
  - destruct (c h w) as [r w1] eqn:Ec. destruct r.
    + injection H as <- <- <-. simpl. repeat split; auto.
      * intros e [<-|[]]. exists i, c, true. simpl. repeat split; auto.
        rewrite <- (Nat.add_0_r i). apply Hg; auto.
      * exists 0%nat. split; [lia|]. simpl. rewrite Nat.add_0_r. reflexivity.
    + destruct (check_stops (S i) l h w1) as [[r t] w2] eqn:E. injection H as <- <- <-.
      destruct (IH (S i) w1 r t w2) as (L & F & K); auto.
      { intros j f Hj. replace (S i + j)%nat with (i + S j)%nat by lia. apply Hg; auto. }
      repeat split; simpl; auto.
      * intros e [<-|He]; auto. exists i, c, false. simpl. repeat split; auto.
        rewrite <- (Nat.add_0_r i). apply Hg; auto.
      * destruct r.
        -- destruct K as (j & Hj & K). exists (S j). split; [lia|]. simpl. rewrite K.
           replace (S i + j)%nat with (i + S j)%nat by lia. reflexivity.
        -- rewrite K. reflexivity.
Qed.

(** One complete round: all conditions evaluated to false, then the operations, then the step,
    starting in a state [w] that is far from the end time. *)
Definition is_round (rd : list (event W)) : Prop :=
  exists w w' hc h, linked w rd w' /\ far (time sys w) (the_end args hubble) (time_rtol args) = true /\
    map kh rd = map (fun k => (KCond k false, hc)) (seq 0 (length (stop_cond args))) ++
                calls KOp (length (opts args)) h ++ [(KStep, h)].

(** How the loop ended in state [w]: end time reached and no condition evaluated, or the first
    true condition. *)
Definition is_final (w : W) (fin : list (event W)) : Prop :=
  (far (time sys w) (the_end args hubble) (time_rtol args) = false /\ fin = []) \/
  (far (time sys w) (the_end args hubble) (time_rtol args) = true /\
   exists j h, (j < length (stop_cond args))%nat /\
     map kh fin = map (fun k => (KCond k false, h)) (seq 0 j) ++ [(KCond j true, h)]).

Lemma nth0 {A} (l : list A) j f : nth_error l j = Some f -> nth_error l (0 + j) = Some f.
Proof. auto. Qed.

Lemma loop_spec fuel : forall h w tr w',
  loop sys args hubble fuel h w = Some (tr, w') ->
  linked w tr w' /\ (forall e, In e tr -> faithful sys args e) /\
  exists rounds wf fin tops tstops hf,
    tr = concat rounds ++ fin ++ tops ++ tstops /\
    Forall is_round rounds /\ is_final wf fin /\ linked w (concat rounds) wf /\
    map kh tops = calls KOp (length (opts args)) hf /\
    map kh tstops = calls KStopOp (length (stop_opts args)) hf.
Proof.
  induction fuel as [|n IH]; simpl; intros h w tr w' H; [discriminate|].
  destruct (far _ _ _) eqn:Hfar.
  - destruct (check_stops 0 (stop_cond args) h w) as [[b tc] w1] eqn:Ec.
    destruct (check_stops_spec (stop_cond args) h _ 0 _ _ _ _ (fun j f => nth0 _ j f) Ec) as (Lc & Fc & Kc).
    assert (Fc' : forall e, In e tc -> faithful sys args e).
    { intros e He. destruct (Fc _ He) as (j & c & r & E1 & E2 & E3). unfold faithful. rewrite E1. eauto. }
    destruct b.
    + destruct (call_all KOp 0 (opts args) h w1) as [t1 w2] eqn:E1.
      destruct (call_all KStopOp 0 (stop_opts args) h w2) as [t2 w3] eqn:E2.
      injection H as <- <-.
      destruct (call_all_spec KOp (opts args) h _ 0 _ _ _ (fun j f => nth0 _ j f) E1) as (L1 & K1 & F1).
      destruct (call_all_spec KStopOp (stop_opts args) h _ 0 _ _ _ (fun j f => nth0 _ j f) E2) as (L2 & K2 & F2).
      split; [|split].
      * eapply linked_app; eauto. eapply linked_app; eauto.
      * intros e He. apply in_app_or in He as [He|He]; auto. apply in_app_or in He as [He|He].
        -- destruct (F1 _ He) as (j & f & A & B & C). unfold faithful; rewrite A; eauto.
        -- destruct (F2 _ He) as (j & f & A & B & C). unfold faithful; rewrite A; eauto.
      * exists [], w, tc, t1, t2, h. simpl. repeat split; auto.
        right. split; auto. destruct Kc as (j & Hj & Kc). exists j, h. auto.
    + destruct (call_all KOp 0 (opts args) (chosen sys args hubble h w1) w1) as [tops w2] eqn:E1.
      destruct (advance sys (chosen sys args hubble h w1) w2) as [h2 w3] eqn:Ea.
      destruct (loop sys args hubble n h2 w3) as [[t w4]|] eqn:El; [|discriminate].
      injection H as <- <-.
      destruct (call_all_spec KOp (opts args) _ _ 0 _ _ _ (fun j f => nth0 _ j f) E1) as (L1 & K1 & F1).
      destruct (IH _ _ _ _ El) as (L & F & rounds & wf & fin & to & ts & hf & -> & R1 & R2 & R3 & R4 & R5).
      assert (La : linked w (tc ++ tops ++ [Ev KStep (chosen sys args hubble h w1) w2 w3]) w3).
      { eapply linked_app; eauto. eapply linked_app; eauto. simpl; auto. }
      split; [|split].
      * replace (tc ++ tops ++ Ev KStep (chosen sys args hubble h w1) w2 w3 :: concat rounds ++ fin ++ to ++ ts)
          with ((tc ++ tops ++ [Ev KStep (chosen sys args hubble h w1) w2 w3]) ++ (concat rounds ++ fin ++ to ++ ts))
          by (rewrite <- !app_assoc; reflexivity).
        eapply linked_app; eauto.
      * intros e He. apply in_app_or in He as [He|He]; auto. apply in_app_or in He as [He|He].
        -- destruct (F1 _ He) as (j & f & A & B & C). unfold faithful; rewrite A; eauto.
        -- destruct He as [<-|He]; auto. unfold faithful; simpl.
           unfold advance in Ea. destruct (iterate sys _ _) as [h' w5]. injection Ea as <- <-. reflexivity.
      * exists ((tc ++ tops ++ [Ev KStep (chosen sys args hubble h w1) w2 w3]) :: rounds), wf, fin, to, ts, hf.
        repeat split; auto.
        -- simpl. rewrite <- !app_assoc. reflexivity.
        -- constructor; auto. exists w, w3, h, (chosen sys args hubble h w1).
           split; auto. split; auto. rewrite !map_app, Kc. unfold calls. rewrite K1. reflexivity.
        -- simpl. eapply linked_app; eauto.
  - destruct (call_all KOp 0 (opts args) h w) as [t1 w2] eqn:E1.
    destruct (call_all KStopOp 0 (stop_opts args) h w2) as [t2 w3] eqn:E2.
    injection H as <- <-.
    destruct (call_all_spec KOp (opts args) h _ 0 _ _ _ (fun j f => nth0 _ j f) E1) as (L1 & K1 & F1).
    destruct (call_all_spec KStopOp (stop_opts args) h _ 0 _ _ _ (fun j f => nth0 _ j f) E2) as (L2 & K2 & F2).
    split; [|split].
    + eapply linked_app; eauto.
    + intros e He. apply in_app_or in He as [He|He].
      * destruct (F1 _ He) as (j & f & A & B & C). unfold faithful; rewrite A; eauto.
      * destruct (F2 _ He) as (j & f & A & B & C). unfold faithful; rewrite A; eauto.
    + exists [], w, [], t1, t2, h. simpl. repeat split; auto. left; auto.
Qed.

(** C07/C08 main statement. *)
Lemma run_structure fuel w0 tr w' : run sys args hubble fuel w0 = Returned tr w' ->
  step_scale sys w0 <> 0 ->
  (stop_cond args <> [] \/ end_set args = true) /\
  linked (set_tols sys (atol args) (rtol args) w0) tr w' /\
  (forall e, In e tr -> faithful sys args e) /\
  exists tstart rounds wf fin tops tstops hf,
    tr = tstart ++ concat rounds ++ fin ++ tops ++ tstops /\
    map kh tstart = calls KStart (length (start_opts args)) (first_step sys args w0) /\
    Forall is_round rounds /\ is_final wf fin /\
    linked (set_tols sys (atol args) (rtol args) w0) (tstart ++ concat rounds) wf /\
    map kh tops = calls KOp (length (opts args)) hf /\
    map kh tstops = calls KStopOp (length (stop_opts args)) hf.
Proof.
  unfold run. intros H Hs.
  assert (Hset : stop_cond args <> [] \/ end_set args = true).
  { destruct (stop_cond args), (end_set args); try discriminate H; auto; left; discriminate. }
  split; auto.
  assert (H' : (if Req_EM_T (step_scale sys w0) 0 then Returned [] w0 else
        let (ts, w2) := call_all KStart 0 (start_opts args) (first_step sys args w0) (set_tols sys (atol args) (rtol args) w0) in
        match loop sys args hubble fuel (first_step sys args w0) w2 with
        | Some (t, w') => Returned (ts ++ t) w'
        | None => Running
        end) = Returned tr w').
  { destruct (stop_cond args), (end_set args); try discriminate H; exact H. }
  clear H. destruct (Req_EM_T _ _); [contradiction|].
  destruct (call_all KStart 0 _ _ _) as [ts w2] eqn:E1.
  destruct (loop _ _ _ _ _ _) as [[t w3]|] eqn:El; [|discriminate].
  injection H' as <- <-.
  destruct (call_all_spec KStart (start_opts args) _ _ 0 _ _ _ (fun j f => nth0 _ j f) E1) as (L1 & K1 & F1).
  destruct (loop_spec _ _ _ _ _ El) as (L & F & rounds & wf & fin & to & tst & hf & -> & R1 & R2 & R3 & R4 & R5).
  split; [eapply linked_app; eauto|]. split.
  - intros e He. apply in_app_or in He as [He|He]; auto.
    destruct (F1 _ He) as (j & f & A & B & C). unfold faithful; rewrite A; eauto.
  - exists ts, rounds, wf, fin, to, tst, hf. repeat split; auto.
    eapply linked_app; eauto.
Qed.

Lemma filter_nil {A} (f : A -> bool) l : (forall x, In x l -> f x = false) -> filter f l = [].
Proof.
  induction l as [|h t IH]; simpl; intros H; auto.
  rewrite H by auto. apply IH; auto.
Qed.

Lemma noncond_calls mk n h : (forall i, is_cond (mk i) = false) ->
  filter (fun p => negb (is_cond (fst p))) (calls mk n h) = calls mk n h.
Proof.
  intros H. unfold calls. generalize 0%nat. induction n; simpl; auto; intros i.
  rewrite H. simpl. f_equal. apply IHn.
Qed.

Definition noncond (tr : list (event W)) : list (kind * R) :=
  filter (fun p => negb (is_cond (fst p))) (map kh tr).

Lemma noncond_app a b : noncond (a ++ b) = noncond a ++ noncond b.
Proof. unfold noncond. rewrite map_app, filter_app. reflexivity. Qed.

Lemma noncond_round rd : is_round rd ->
  exists h, noncond rd = calls KOp (length (opts args)) h ++ [(KStep, h)].
Proof.
  intros (w & w' & hc & h & _ & _ & K). exists h. unfold noncond. rewrite K, !filter_app.
  rewrite filter_nil, noncond_calls; auto.
  intros x Hx. apply in_map_iff in Hx as (k & <- & _). reflexivity.
Qed.

Lemma noncond_rounds rounds : Forall is_round rounds ->
  exists hs, length hs = length rounds /\
   noncond (concat rounds) = concat (map (fun h => calls KOp (length (opts args)) h ++ [(KStep, h)]) hs).
Proof.
  induction 1 as [|rd rs H Hs (hs & Hl & E)]; [exists []; auto|].
  destruct (noncond_round _ H) as (h & Hh). exists (h :: hs). simpl. split; [lia|].
  rewrite noncond_app, Hh, E. reflexivity.
Qed.

Lemma noncond_final w fin : is_final w fin -> noncond fin = [].
Proof.
  intros [[_ ->]|(_ & j & h & _ & K)]; auto.
  unfold noncond. rewrite K. apply filter_nil.
  intros x Hx. apply in_app_or in Hx as [Hx|[<-|[]]]; auto.
  apply in_map_iff in Hx as (k & <- & _). reflexivity.
Qed.

Lemma run_protocol fuel w0 tr w' : run sys args hubble fuel w0 = Returned tr w' ->
  step_scale sys w0 <> 0 ->
  linked (set_tols sys (atol args) (rtol args) w0) tr w' /\
  (forall e, In e tr -> faithful sys args e) /\
  exists (hs : list R) (hf : R),
    filter (fun p => negb (is_cond (fst p))) (map kh tr) =
      calls KStart (length (start_opts args)) (first_step sys args w0) ++
      concat (map (fun h => calls KOp (length (opts args)) h ++ [(KStep, h)]) hs) ++
      calls KOp (length (opts args)) hf ++
      calls KStopOp (length (stop_opts args)) hf.
Proof.
  intros H Hs. destruct (run_structure _ _ _ _ H Hs) as (_ & L & F & ts & rounds & wf & fin & to & tst & hf & -> & K0 & R1 & R2 & R3 & R4 & R5).
  split; auto. split; auto.
  destruct (noncond_rounds _ R1) as (hs & _ & E). exists hs, hf.
  change (noncond (ts ++ concat rounds ++ fin ++ to ++ tst) =
      calls KStart (length (start_opts args)) (first_step sys args w0) ++
      concat (map (fun h => calls KOp (length (opts args)) h ++ [(KStep, h)]) hs) ++
      calls KOp (length (opts args)) hf ++
      calls KStopOp (length (stop_opts args)) hf).
  rewrite !noncond_app, E, (noncond_final _ _ R2). unfold noncond. rewrite K0, R4, R5.
  rewrite !noncond_calls; auto.
Qed.

Definition count_kind (k : kind) (tr : list (event W)) : nat :=
  length (filter (fun e => match ek e, k with
     | KOp i, KOp j => (i =? j)%nat | KStep, KStep => true | KStart i, KStart j => (i =? j)%nat
     | KStopOp i, KStopOp j => (i =? j)%nat | _, _ => false end) tr).

(** * Corollary for conditions and operations that do not modify the system *)
Definition pure_call (f : R -> W -> W) := forall h w, f h w = w.
Definition pure_cond (c : R -> W -> bool * W) := forall h w, snd (c h w) = w.

Lemma linked_pure (tr : list (event W)) : forall w w', linked w tr w' ->
  (forall e, In e tr -> after e = before e) -> w' = w /\ forall e, In e tr -> before e = w.
Proof.
  induction tr as [|e tr IH]; simpl; intros w w' L P; [split; auto; intros ? []|].
  destruct L as [<- L]. rewrite (P e) in L by auto.
  destruct (IH _ _ L) as [E1 E2]; auto. split; auto. intros x [<-|Hx]; auto.
Qed.

Lemma linked_split (a : list (event W)) : forall w b w', linked w (a ++ b) w' -> exists w1, linked w a w1 /\ linked w1 b w'.
Proof.
  induction a as [|e a IH]; simpl; intros w b w' L; [exists w; auto|].
  destruct L as [E L]. destruct (IH _ _ _ L) as (w1 & L1 & L2). exists w1; auto.
Qed.

Lemma in_concat_split {A} (l : list (list A)) x : In x (concat l) -> exists rd, In rd l /\ In x rd.
Proof. intros H. apply in_concat in H. auto. Qed.

Lemma round_step rd : is_round rd -> (forall e, In e rd -> faithful sys args e) ->
  Forall pure_call (opts args) -> Forall pure_cond (stop_cond args) ->
  forall e, In e rd -> ek e = KStep ->
   far (time sys (before e)) (the_end args hubble) (time_rtol args) = true /\
   exists hc, forall c, In c (stop_cond args) -> fst (c hc (before e)) = false.
Proof.
  intros (w & w' & hc & h & L & Hfar & K) F PO PC e He Ek.
  apply map_eq_app in K as (cs & r1 & -> & K1 & K2).
  apply map_eq_app in K2 as (os & st & -> & K2 & K3).
  destruct st as [|st [|? ?]]; try discriminate. injection K3 as K3 K4.
  assert (Pc : forall x, In x cs -> after x = before x).
  { intros x Hx. pose proof (F x ltac:(apply in_or_app; auto)) as Fx.
    assert (Hk : exists i, kh x = (KCond i false, hc)).
    { apply (in_map kh) in Hx. rewrite K1 in Hx. apply in_map_iff in Hx as (i & Hi & _). eauto. }
    destruct Hk as [i Hi]. injection Hi as Hi1 Hi2. unfold faithful in Fx. rewrite Hi1 in Fx.
    destruct Fx as (c & Hc & E). rewrite Forall_forall in PC. pose proof (PC c (nth_error_In _ _ Hc) (eh x) (before x)) as P.
    rewrite E in P. auto. }
  assert (Po : forall x, In x os -> after x = before x).
  { intros x Hx. pose proof (F x ltac:(apply in_or_app; right; apply in_or_app; auto)) as Fx.
    assert (Hk : exists i, kh x = (KOp i, h)).
    { apply (in_map kh) in Hx. rewrite K2 in Hx. apply in_map_iff in Hx as (i & Hi & _). eauto. }
    destruct Hk as [i Hi]. injection Hi as Hi1 Hi2. unfold faithful in Fx. rewrite Hi1 in Fx.
    destruct Fx as (f & Hf & E). rewrite Forall_forall in PO. rewrite (PO f (nth_error_In _ _ Hf)) in E. auto. }
  destruct (linked_split _ _ _ _ L) as (w1 & L1 & L2). destruct (linked_split _ _ _ _ L2) as (w2 & L3 & L4).
  destruct (linked_pure _ _ _ L1 Pc) as [-> B1]. destruct (linked_pure _ _ _ L3 Po) as [-> B2].
  simpl in L4. destruct L4 as [B3 _].
  assert (Hst : e = st).
  { apply in_app_or in He as [He|He].
    - exfalso. apply (in_map kh) in He. rewrite K1 in He. apply in_map_iff in He as (i & Hi & _).
      unfold kh in Hi. rewrite Ek in Hi. discriminate.
    - apply in_app_or in He as [He|[He|[]]]; auto.
      exfalso. apply (in_map kh) in He. rewrite K2 in He. apply in_map_iff in He as (i & Hi & _).
      unfold kh in Hi. rewrite Ek in Hi. discriminate. }
  subst e. rewrite B3. split; auto. exists hc. intros c Hc.
  apply In_nth_error in Hc as [i Hi].
  assert (Hlt : (i < length (stop_cond args))%nat) by (apply nth_error_Some; congruence).
  assert (Hin : In (KCond i false, hc) (map kh cs)).
  { rewrite K1. apply in_map_iff. exists i. split; auto. apply in_seq. lia. }
  apply in_map_iff in Hin as (x & Hx & Hinx). injection Hx as Hx1 Hx2.
  pose proof (F x ltac:(apply in_or_app; auto)) as Fx. unfold faithful in Fx. rewrite Hx1 in Fx.
  destruct Fx as (c' & Hc' & E). rewrite Hi in Hc'. injection Hc' as <-.
  rewrite (B1 _ Hinx), Hx2 in E. rewrite E. reflexivity.
Qed.

Lemma run_no_step_when_stopped fuel w0 tr w' : run sys args hubble fuel w0 = Returned tr w' ->
  step_scale sys w0 <> 0 -> Forall pure_call (opts args) -> Forall pure_cond (stop_cond args) ->
  forall e, In e tr -> ek e = KStep ->
   far (time sys (before e)) (the_end args hubble) (time_rtol args) = true /\
   exists hc, forall c, In c (stop_cond args) -> fst (c hc (before e)) = false.
Proof.
  intros H Hs PO PC e He Ek.
  destruct (run_structure _ _ _ _ H Hs) as (_ & L & F & ts & rounds & wf & fin & to & tst & hf & -> & K0 & R1 & R2 & R3 & R4 & R5).
  assert (In e (concat rounds)).
  { apply in_app_or in He as [He|He].
    { exfalso. apply (in_map kh) in He. rewrite K0 in He. apply in_map_iff in He as (i & Hi & _).
      unfold kh in Hi. rewrite Ek in Hi. discriminate. }
    apply in_app_or in He as [He|He]; auto. exfalso.
    apply in_app_or in He as [He|He].
    { destruct R2 as [[_ ->]|(_ & j & h & _ & K)]; [destruct He|].
      apply (in_map kh) in He. rewrite K in He. apply in_app_or in He as [He|[He|[]]].
      - apply in_map_iff in He as (i & Hi & _). unfold kh in Hi. rewrite Ek in Hi. discriminate.
      - unfold kh in He. rewrite Ek in He. discriminate. }
    apply in_app_or in He as [He|He].
    - apply (in_map kh) in He. rewrite R4 in He. apply in_map_iff in He as (i & Hi & _).
      unfold kh in Hi. rewrite Ek in Hi. discriminate.
    - apply (in_map kh) in He. rewrite R5 in He. apply in_map_iff in He as (i & Hi & _).
      unfold kh in Hi. rewrite Ek in Hi. discriminate. }
  apply in_concat in H0 as (rd & Hrd & Hin). rewrite Forall_forall in R1.
  apply (round_step rd); auto. intros x Hx. apply F. apply in_or_app; right. apply in_or_app; left.
  apply in_concat. eauto.
Qed.

(** * Constant-step iterator *)
(** [hub::ode::ConstOdeIterator]-like behaviour: every step advances the time by exactly the
    tried step and proposes the same step again; the step scale is 1; callbacks do not change
    the time; no stop conditions. *)
Record const_step : Prop := {
  cs_iter : forall h w, fst (advance sys h w) = h /\ time sys (snd (advance sys h w)) = time sys w + h;
  cs_scale : forall w, step_scale sys w = 1;
  cs_ops : forall f h w, In f (opts args) -> time sys (f h w) = time sys w;
  cs_stops : forall f h w, In f (stop_opts args) -> time sys (f h w) = time sys w;
  cs_starts : forall f h w, In f (start_opts args) -> time sys (f h w) = time sys w;
  cs_tols : forall a r w, time sys (set_tols sys a r w) = time sys w;
  cs_cond : stop_cond args = []
}.

Lemma call_all_time mk h : forall l i w tr w',
  (forall f h w, In f l -> time sys (f h w) = time sys w) ->
  call_all mk i l h w = (tr, w') ->
  time sys w' = time sys w /\
  (forall e, In e tr -> time sys (before e) = time sys w /\ time sys (after e) = time sys w).
Proof.
  induction l as [|f l IH]; simpl; intros i w tr w' Hl H.
  - injection H as <- <-. split; auto. intros ? [].
  - destruct (call_all mk (S i) l h (f h w)) as [t w2] eqn:E. injection H as <- <-.
    destruct (IH _ _ _ _ (fun g h w Hg => Hl g h w (or_intror Hg)) E) as [E1 E2].
    rewrite (Hl f h w (or_introl eq_refl)) in *. split; auto.
    intros e [<-|He]; simpl; auto.
Qed.

Definition steps (tr : list (event W)) : nat :=
  length (filter (fun e => match ek e with KStep => true | _ => false end) tr).

Lemma steps_app a b : steps (a ++ b) = (steps a + steps b)%nat.
Proof. unfold steps. rewrite filter_app, app_length. reflexivity. Qed.

Lemma steps_call mk h : (forall i, mk i <> KStep) -> forall l i w tr w',
  call_all mk i l h w = (tr, w') -> steps tr = 0%nat /\ (forall e, In e tr -> ek e <> KStep).
Proof.
  intros Hm. induction l as [|f l IH]; simpl; intros i w tr w' H.
  - injection H as <- <-. split; [reflexivity|intros ? []].
  - destruct (call_all mk (S i) l h (f h w)) as [t w2] eqn:E. injection H as <- <-.
    destruct (IH _ _ _ _ E) as [E1 E2]. split.
    + unfold steps in *; simpl. destruct (mk i) eqn:M; auto. exfalso; eapply Hm; eauto.
    + intros e [<-|He]; simpl; auto.
Qed.

Lemma loop_S n h w : loop sys args hubble (S n) h w =
      let finish h w := let (t1, w1) := call_all KOp 0 (opts args) h w in
                        let (t2, w2) := call_all KStopOp 0 (stop_opts args) h w1 in
                        (t1 ++ t2, w2) in
      if far (time sys w) (the_end args hubble) (time_rtol args) then
        let '(stopped, tc, w1) := check_stops 0 (stop_cond args) h w in
        if stopped then let (t, w') := finish h w1 in Some (tc ++ t, w')
        else
          let h1 := chosen sys args hubble h w1 in
          let (tops, w2) := call_all KOp 0 (opts args) h1 w1 in
          let (h2, w3) := advance sys h1 w2 in
          match loop sys args hubble n h2 w3 with
          | Some (t, w') => Some (tc ++ tops ++ Ev KStep h1 w2 w3 :: t, w')
          | None => None
          end
      else Some (finish h w).
Proof. reflexivity. Qed.

Lemma const_loop (CS : const_step) : the_end args hubble <> 0 -> 0 <= time_rtol args ->
  forall n h w, 0 < h -> time sys w <= the_end args hubble ->
  the_end args hubble - time sys w <= INR n * h ->
  exists tr w', loop sys args hubble (S n) h w = Some (tr, w') /\
    (steps tr <= n)%nat /\
    Rabs (time sys w' - the_end args hubble) <= time_rtol args * Rabs (the_end args hubble) /\
    (forall e, In e tr -> time sys (before e) <= the_end args hubble /\
        time sys (after e) <= the_end args hubble /\
        (ek e = KStep -> time sys (before e) < time sys (after e))).
Proof.
  intros He0 Htol.
  set (E := the_end args hubble) in *.
  assert (Fin : forall h w, exists t1 w1 t2 w2,
     call_all KOp 0 (opts args) h w = (t1, w1) /\ call_all KStopOp 0 (stop_opts args) h w1 = (t2, w2) /\
     steps (t1 ++ t2) = 0%nat /\ time sys w2 = time sys w /\
     (forall e, In e (t1 ++ t2) -> time sys (before e) = time sys w /\ time sys (after e) = time sys w /\ ek e <> KStep)).
  { intros h w. destruct (call_all KOp 0 (opts args) h w) as [t1 w1] eqn:E1.
    destruct (call_all KStopOp 0 (stop_opts args) h w1) as [t2 w2] eqn:E2.
    exists t1, w1, t2, w2.
    destruct (call_all_time _ _ _ _ _ _ _ (cs_ops CS) E1) as [A1 A2].
    destruct (call_all_time _ _ _ _ _ _ _ (cs_stops CS) E2) as [B1 B2].
    destruct (steps_call KOp h ltac:(discriminate) _ _ _ _ _ E1) as [S1 S2].
    destruct (steps_call KStopOp h ltac:(discriminate) _ _ _ _ _ E2) as [S3 S4].
    repeat split; auto.
    - rewrite steps_app, S1, S3; auto.
    - congruence.
    - apply in_app_or in H as [H|H]; [apply A2 in H|apply B2 in H]; destruct H; congruence.
    - apply in_app_or in H as [H|H]; [apply A2 in H|apply B2 in H]; destruct H; congruence.
    - apply in_app_or in H as [H|H]; auto. }
  assert (Near : forall t, far t E (time_rtol args) = false -> Rabs (t - E) <= time_rtol args * Rabs E).
  { intros t. unfold far. destruct (Req_EM_T E 0); [contradiction|].
    destruct (Rlt_dec _ _) as [|Hn]; [discriminate|]. intros _. apply Rnot_lt_le in Hn.
    unfold Rdiv in Hn. rewrite Rabs_mult, Rabs_inv in Hn.
    assert (0 < Rabs E) by (apply Rabs_pos_lt; auto).
    apply (Rmult_le_compat_r (Rabs E)) in Hn; [|lra].
    rewrite Rmult_assoc, Rinv_l in Hn by lra. lra. }
  assert (AtEnd : far E E (time_rtol args) = false).
  { unfold far. destruct (Req_EM_T E 0); [contradiction|].
    destruct (Rlt_dec _ _) as [Hn|]; auto. exfalso.
    unfold Rminus, Rdiv in Hn. rewrite Rplus_opp_r, Rmult_0_l, Rabs_R0 in Hn. lra. }
  induction n as [|n IH]; intros h w Hh Ht Hb.
  - simpl in Hb. assert (Te : time sys w = E) by lra.
    simpl. fold E. rewrite Te, AtEnd.
    destruct (Fin h w) as (t1 & w1 & t2 & w2 & E1 & E2 & S1 & T1 & A). rewrite E1, E2.
    exists (t1 ++ t2), w2. split; auto. split; [lia|]. split.
    + rewrite T1, Te. replace (E - E) with 0 by lra. rewrite Rabs_R0.
      apply Rmult_le_pos; auto using Rabs_pos.
    + intros e He. destruct (A e He) as (A1 & A2 & A3). rewrite A1, A2, Te.
      split; [lra|]. split; [lra|]. intros; contradiction.
  - rewrite loop_S; cbv zeta. fold E. destruct (far (time sys w) E (time_rtol args)) eqn:Hfar.
    + rewrite (cs_cond CS). simpl check_stops. cbv iota beta.
      assert (Hlt : time sys w < E).
      { destruct (Rle_lt_or_eq_dec _ _ Ht) as [|Heq]; auto. rewrite Heq in Hfar. rewrite AtEnd in Hfar; discriminate. }
      set (h1 := chosen sys args hubble h w).
      assert (Hc : 0 < h1 /\ h1 <= E - time sys w /\ (h1 = h \/ h1 = E - time sys w)).
      { unfold h1, chosen. fold E. rewrite (cs_scale CS), Rmult_1_r.
        destruct (Rle_dec _ _) as [Hle|Hle].
        - rewrite (Rabs_pos_eq h), (Rabs_pos_eq (E - time sys w)) in Hle by lra. lra.
        - lra. }
      destruct Hc as (Hc1 & Hc2 & Hc3).
      destruct (call_all KOp 0 (opts args) h1 w) as [tops w2] eqn:E1.
      destruct (call_all_time _ _ _ _ _ _ _ (cs_ops CS) E1) as [A1 A2].
      destruct (steps_call KOp h1 ltac:(discriminate) _ _ _ _ _ E1) as [S1 S2].
      destruct (cs_iter CS h1 w2) as [I1 I2].
      destruct (advance sys h1 w2) as [h2 w3] eqn:Ea. simpl in I1, I2. subst h2.
      assert (G : exists tr w', loop sys args hubble (S n) h1 w3 = Some (tr, w') /\
        (steps tr <= n)%nat /\ Rabs (time sys w' - E) <= time_rtol args * Rabs E /\
        (forall e, In e tr -> time sys (before e) <= E /\ time sys (after e) <= E /\
           (ek e = KStep -> time sys (before e) < time sys (after e)))).
      { destruct Hc3 as [Hc3|Hc3].
        - rewrite Hc3 in *. apply IH; auto; try lra. rewrite S_INR in Hb. lra.
        - assert (Te : time sys w3 = E) by lra. simpl. fold E. rewrite Te, AtEnd.
          destruct (Fin h1 w3) as (t1 & w1 & t2 & w4 & F1 & F2 & F3 & F4 & F5). rewrite F1, F2.
          exists (t1 ++ t2), w4. split; auto. split; [lia|]. split.
          + rewrite F4, Te. replace (E - E) with 0 by lra. rewrite Rabs_R0.
            apply Rmult_le_pos; auto using Rabs_pos.
          + intros e He. destruct (F5 e He) as (B1 & B2 & B3). rewrite B1, B2, Te.
            split; [lra|]. split; [lra|]. intros; contradiction. }
      destruct G as (tr & w' & G1 & G2 & G3 & G4). rewrite G1.
      eexists _, w'. split; [reflexivity|]. split; [|split; auto].
      * simpl. rewrite steps_app, S1. unfold steps in *; simpl. lia.
      * simpl. intros e He. apply in_app_or in He as [He|[<-|He]]; auto.
        -- destruct (A2 e He) as [B1 B2]. rewrite B1, B2. split; [lra|]. split; [lra|].
           intros Ek. exfalso. eapply S2; eauto.
        -- simpl. rewrite A1, I2, A1. repeat split; lra.
    + destruct (Fin h w) as (t1 & w1 & t2 & w2 & E1 & E2 & S1 & T1 & A). rewrite E1, E2.
      exists (t1 ++ t2), w2. split; auto. split; [lia|]. split.
      * rewrite T1. apply Near; auto.
      * intros e He. destruct (A e He) as (A1 & A2 & A3). rewrite A1, A2.
        split; [lra|]. split; [lra|]. intros; contradiction.
Qed.

Lemma run_const (CS : const_step) n w : end_set args = true ->
  end_time args <> 0 -> 0 <= time_rtol args -> 0 < step_size args ->
  time sys w < end_time args -> end_time args - time sys w <= INR n * step_size args ->
  exists tr w', run sys args hubble (S n) w = Returned tr w' /\
    (steps tr <= n)%nat /\
    Rabs (time sys w' - end_time args) <= time_rtol args * Rabs (end_time args) /\
    (forall e, In e tr -> time sys (before e) <= end_time args /\
        time sys (after e) <= end_time args /\
        (ek e = KStep -> time sys (before e) < time sys (after e))).
Proof.
  intros Hes He0 Htol Hh Ht Hb.
  assert (EE : the_end args hubble = end_time args) by (unfold the_end; rewrite Hes; auto).
  unfold run. rewrite (cs_cond CS), Hes.
  destruct (Req_EM_T (step_scale sys w) 0) as [Hz|_]; [rewrite (cs_scale CS) in Hz; lra|].
  assert (Hfs : first_step sys args w = step_size args).
  { unfold first_step. destruct (Req_EM_T _ _); auto; lra. }
  rewrite Hfs.
  destruct (call_all KStart 0 _ _ _) as [ts w2] eqn:E1.
  destruct (call_all_time _ _ _ _ _ _ _ (cs_starts CS) E1) as [A1 A2]. rewrite (cs_tols CS) in A1, A2.
  destruct (steps_call KStart (step_size args) ltac:(discriminate) _ _ _ _ _ E1) as [S1 S2].
  destruct (const_loop CS ltac:(rewrite EE; auto) Htol n (step_size args) w2 Hh) as (tr & w' & L & L1 & L2 & L3).
  { rewrite EE, A1; lra. }
  { rewrite EE, A1; lra. }
  rewrite L. exists (ts ++ tr), w'. split; auto. rewrite EE in *. split; [|split; auto].
  - rewrite steps_app, S1. simpl; auto.
  - intros e He. apply in_app_or in He as [He|He]; auto.
    destruct (A2 e He) as [B1 B2]. rewrite B1, B2. repeat split; try lra.
    intros Ek. exfalso; eapply S2; eauto.
Qed.

(** * Start beyond the end *)
Lemma diverge_loop (CS : const_step) : 0 < the_end args hubble ->
  forall fuel h w, 0 < h -> the_end args hubble + h <= time sys w ->
  time_rtol args * the_end args hubble < time sys w - the_end args hubble ->
  loop sys args hubble fuel h w = None.
Proof.
  intros He. set (E := the_end args hubble) in *.
  induction fuel as [|n IH]; intros h w Hh Ht Hb; auto.
  rewrite loop_S; cbv zeta. fold E.
  assert (Hfar : far (time sys w) E (time_rtol args) = true).
  { unfold far. destruct (Req_EM_T E 0); [lra|]. destruct (Rlt_dec _ _) as [|Hn]; auto. exfalso.
    apply Hn. unfold Rdiv. rewrite Rabs_mult, Rabs_inv, (Rabs_pos_eq E) by lra.
    rewrite Rabs_pos_eq by lra. apply (Rmult_lt_reg_r E); auto.
    rewrite Rmult_assoc, Rinv_l by lra. lra. }
  rewrite Hfar, (cs_cond CS). simpl check_stops. cbv iota beta.
  assert (Hc : chosen sys args hubble h w = h).
  { unfold chosen. fold E. rewrite (cs_scale CS), Rmult_1_r. destruct (Rle_dec _ _) as [|Hn]; auto.
    exfalso. apply Hn. rewrite (Rabs_pos_eq h) by lra. rewrite Rabs_left1 by lra. lra. }
  rewrite Hc.
  destruct (call_all KOp 0 (opts args) h w) as [tops w2] eqn:E1.
  destruct (call_all_time _ _ _ _ _ _ _ (cs_ops CS) E1) as [A1 A2].
  destruct (cs_iter CS h w2) as [I1 I2].
  destruct (advance sys h w2) as [h2 w3] eqn:Ea. simpl in I1, I2. subst h2.
  rewrite IH; auto; lra.
Qed.

Lemma run_diverges (CS : const_step) fuel w : end_set args = true ->
  0 < end_time args -> 0 < step_size args -> end_time args + step_size args <= time sys w ->
  time_rtol args * end_time args < time sys w - end_time args ->
  run sys args hubble fuel w = Running.
Proof.
  intros Hes He Hh Ht Hb.
  assert (EE : the_end args hubble = end_time args) by (unfold the_end; rewrite Hes; auto).
  unfold run. rewrite (cs_cond CS), Hes.
  destruct (Req_EM_T (step_scale sys w) 0) as [Hz|_]; [rewrite (cs_scale CS) in Hz; lra|].
  assert (Hfs : first_step sys args w = step_size args).
  { unfold first_step. destruct (Req_EM_T _ _); auto; lra. }
  rewrite Hfs.
  destruct (call_all KStart 0 _ _ _) as [ts w2] eqn:E1.
  destruct (call_all_time _ _ _ _ _ _ _ (cs_starts CS) E1) as [A1 A2]. rewrite (cs_tols CS) in A1.
  rewrite (diverge_loop CS); auto; rewrite EE, ?A1; auto.
Qed.

Lemma run_zero_scale fuel w : (stop_cond args <> [] \/ end_set args = true) ->
  step_scale sys w = 0 -> run sys args hubble fuel w = Returned [] w.
Proof.
  intros H Hz. unfold run. destruct (Req_EM_T (step_scale sys w) 0); [|contradiction].
  destruct (stop_cond args), (end_set args); auto. destruct H; congruence.
Qed.
Lemma run_aborts fuel w : run sys args hubble fuel w = Aborted <->
  (stop_cond args = [] /\ end_set args = false).
Proof.
  unfold run. split.
  - destruct (stop_cond args), (end_set args); auto;
    (destruct (Req_EM_T _ _); [discriminate|]; destruct (call_all _ _ _ _ _);
     destruct (loop _ _ _ _ _ _) as [[? ?]|]; discriminate).
  - intros [-> ->]. reflexivity.
Qed.
End P.
