(** Lemmas for C100: the invariant of the whole executor, and a measure that every step of its own lowers. *)
From Verif Require Import Tgr_Model Tgr_Spec Tgr_Proofs Tgr_Proofs2.
From Coq Require Import List Arith Lia Bool.
Import ListNotations.
Definition ready_ok (l : list event) : Prop := forall pre c post, l = pre ++ Ready c :: post -> In (Called c) pre /\ ~ In (Ready c) pre.
Lemma ready_snoc l e : ready_ok l -> (forall c, e = Ready c -> In (Called c) l /\ ~ In (Ready c) l) -> ready_ok (l ++ [e]).
Proof.
  intros R H pre c post E. destruct post as [|y post] using rev_ind.
  - apply app_inj_tail in E. destruct E as (-> & Q). now apply H.
  - clear IHpost. rewrite app_comm_cons, app_assoc in E. apply app_inj_tail in E. destruct E as (E & _). exact (R _ _ _ E).
Qed.
Lemma in_body e l : In e (body l) -> In e l.
Proof. unfold body. intros I. apply filter_In in I. tauto. Qed.
Section P.
Variable g : graph.
Variable stop : nat -> nat -> bool.
Notation n := (size g).
Notation V := (seq 0 (size g)).
Hypothesis WF : well_formed g.
Hypothesis AC : acyclic g.
Notation live := (live g). Notation D := (D g). Notation N := (N g). Notation Gv := (Gv g). Notation wt := (wt g). Notation tracks := (tracks g). Notation history := (history g stop).
Lemma history_called c k l : history c k l -> forall d, d < c -> In (Called d) l.
Proof.
  induction 1 as [|c k l r H IH P Q|c k l r H IH P Q]; intros d Hd; [lia| |].
  - apply in_or_app. left. now apply IH.
  - destruct (Nat.eq_dec d c) as [->|]; [|apply in_or_app; left; apply IH; lia]. apply in_or_app. right. apply in_or_app. right. cbn. auto.
Qed.
Definition quiet (s : st) : Prop := queue s = [] /\ act s = [].
Definition shape (ph : nat -> phase) (s : st) : Prop := match drv s with
  | Off => quiet s /\ sub s = cur s /\ history (cur s) 0 (body (log s))
  | SetUp | Tgr_Model.Dec => quiet s /\ cur s < sub s /\ history (cur s) 0 (body (log s))
  | Push l => live ph l s /\ 1 <= tj s /\ cur s < sub s /\ exists k h r, calls s = S k /\ body (log s) = h ++ r /\ history (cur s) k h /\ tracks ph r
  | Ask => quiet s /\ cur s < sub s /\ (forall v, v < n -> jc s v = num_dependents g v) /\ exists k h r, calls s = S k /\ body (log s) = h ++ r /\ history (cur s) k h /\ pass g r
  | Bye => quiet s /\ cur s < sub s /\ exists k h r, body (log s) = h ++ r ++ [Asked (cur s) true] /\ history (cur s) k h /\ pass g r /\ stop (cur s) (S k) = true
  | Lock => quiet s /\ cur s < sub s /\ history (S (cur s)) 0 (body (log s))
  end.
Definition bdec (d : driver) : nat := match d with Tgr_Model.Dec => 1 | _ => 0 end.
Record inv (ph : nat -> phase) (s : st) : Prop := mkI {
  i_shape : shape ph s;
  i_size : cur s < sub s -> n <> 0;
  i_num : num s = pend s + (sub s - cur s) + length (owe s) + bdec (drv s);
  i_cur : cur s <= sub s;
  i_rok : ready_ok (log s);
  i_nd : NoDup (map fst (owe s)) /\ forall c x, In (c, x) (owe s) -> c < cur s;
  i_all : forall c, c < cur s -> In (Ready c) (log s) \/ In (c, false) (owe s);
  i_no : forall c, In (Ready c) (log s) -> c < cur s /\ ~ In (c, false) (owe s) }.
Lemma shape_called ph s : shape ph s -> forall c, c < cur s -> In (Called c) (log s).
Proof.
  unfold shape. intros H c Hc. apply in_body. destruct (drv s).
  - destruct H as (_ & _ & H). exact (history_called _ _ _ H c Hc).
  - destruct H as (_ & _ & H). exact (history_called _ _ _ H c Hc).
  - destruct H as (_ & _ & _ & k & h & r & _ & -> & H & _). apply in_or_app. left. exact (history_called _ _ _ H c Hc).
  - destruct H as (_ & _ & _ & k & h & r & _ & -> & H & _). apply in_or_app. left. exact (history_called _ _ _ H c Hc).
  - destruct H as (_ & _ & k & h & r & -> & H & _). apply in_or_app. left. exact (history_called _ _ _ H c Hc).
  - destruct H as (_ & _ & H). apply (history_called _ _ _ H c). lia.
  - destruct H as (_ & _ & H). exact (history_called _ _ _ H c Hc).
Qed.
(** The beginning of a pass. *)
Lemma start_live s : (forall v, v < n -> jc s v = num_dependents g v) -> quiet s -> tj s = length (sources g) -> live (fun _ => Idle) (sources g) s.
Proof.
  intros J (Q & A) T. assert (Dz : forall v, D (fun _ => Idle) v = 0) by (intros v; apply sum_const; reflexivity). assert (Nz : forall v, N (fun _ => Idle) v = 0) by (intros v; apply sum_const; reflexivity).
  constructor.
  - rewrite Q. split; [constructor|]. intros v. split; [contradiction|intros (_ & ?); discriminate].
  - rewrite A. split; [constructor|]. intros v p. split; [contradiction|intros (_ & ?); discriminate].
  - intros v Hv. cbn [fresh]. rewrite Dz, J by auto. lia.
  - intros v Hv. rewrite Dz, Nz. cbn [b]. destruct (Nat.eqb_spec 0 (num_dependents g v)) as [E|E].
    + assert (I : In v (sources g)) by (apply source_iff; auto). assert (Nd : NoDup (sources g)) by (apply NoDup_filter, seq_NoDup). pose proof (proj1 (NoDup_count_occ' Nat.eq_dec _) Nd v I). lia.
    + assert (I : ~ In v (sources g)) by (intros I; apply source_iff in I; lia). apply (count_occ_not_In Nat.eq_dec) in I. lia.
  - rewrite Q, A, T. assert (Gz : Gv (fun _ => Idle) = 0) by (apply sum_const; reflexivity). rewrite Gz. cbn [length]. lia.
  - intros; exact Logic.I.
  - intros v I. apply source_iff in I. tauto.
Qed.
Lemma some_source : n <> 0 -> 1 <= length (sources g).
Proof.
  intros Z. destruct (sources g) as [|v l] eqn:E; [|cbn; lia]. exfalso. pose (s := mkS (num_dependents g) 0 [] [] Off 0 0 0 0 0 [] []). assert (L : live (fun _ => Idle) (sources g) s) by (apply start_live; [reflexivity|split; reflexivity|rewrite E; reflexivity]).
  rewrite E in L. pose proof (all_gone g WF _ s AC L eq_refl eq_refl 0) as X. cbv beta in X. assert (Idle = Gone) by (apply X; lia). discriminate.
Qed.
Lemma tracks_start : tracks (fun _ => Idle) [].
Proof. split; [intros pre e post E; destruct pre; discriminate|]. intros v Hv. cbn. tauto. Qed.
Lemma take_live ph l s q1 q2 u s' : live ph l s -> queue s = q1 ++ u :: q2 -> jc s' = jc s -> tj s' = tj s -> queue s' = q1 ++ q2 -> act s' = (u, Got) :: act s ->
  live (pupd ph u (Act Got)) l s' /\ wt (pupd ph u (Act Got)) < wt ph /\ forall r, tracks ph r -> tracks (pupd ph u (Act Got)) r.
Proof.
  intros L E Ej Et Eq Ea. destruct (l_q _ _ _ _ L) as (Qn & Qi). destruct (l_a _ _ _ _ L) as (An & Ai). assert (X : u < n /\ ph u = Queued) by (apply Qi; rewrite E; apply in_elt). destruct X as (U & Pu).
  pose proof (fun v => D_upd g ph u (Act Got) v U) as Du. pose proof (fun v => N_upd g ph u (Act Got) v U) as Nu. pose proof (Gv_upd g ph u (Act Got) U) as Gu. pose proof (wt_upd g ph u (Act Got) U) as Wu. rewrite Pu in *. cbn [give wp] in Gu, Wu. unfold dec in Du. cbn [prog] in Du. cbn [pn] in Nu.
  assert (Bu : forall v, b (pupd ph u (Act Got) v) = b (ph v)) by (intros v; unfold pupd; destruct (Nat.eqb_spec v u) as [->|]; [now rewrite Pu|reflexivity]).
  split; [|split; [lia|]].
  - constructor; rewrite ?Ej, ?Et, ?Eq, ?Ea.
    + rewrite E in Qn. split; [eapply NoDup_remove_1; eauto|]. intros v. apply NoDup_remove_2 in Qn. unfold pupd. destruct (Nat.eqb_spec v u) as [->|Nv]; [split; [intros J; contradiction|intros (_ & ?); discriminate]|]. rewrite <- Qi, E, !in_app_iff. cbn [In]. split; [tauto|]. intros [|[|]]; auto. congruence.
    + split; [cbn [map fst]; constructor; auto; intros J; apply in_map_iff in J; destruct J as ((w, q) & W & J); cbn [fst] in W; subst w; apply Ai in J; destruct J; congruence|]. intros v q. cbn [In]. rewrite Ai. unfold pupd. destruct (Nat.eqb_spec v u) as [->|Nv].
      * split; [intros [[= <-]|(_ & ?)]; [auto|congruence]|intros (_ & [= <-]); auto].
      * split; [intros [[= -> _]|]; [congruence|auto]|auto].
    + intros v Hv. rewrite (l_jc _ _ _ _ L v Hv). specialize (Du v). unfold pupd at 1. destruct (Nat.eqb_spec v u) as [->|]; [rewrite Pu; cbn [fresh]|destruct (fresh (ph v)); [|reflexivity]]; f_equal; lia.
    + intros v Hv. rewrite Bu. specialize (Du v). specialize (Nu v). pose proof (l_one _ _ _ _ L v Hv) as Lo. replace (D (pupd ph u (Act Got)) v) with (D ph v) by lia. lia.
    + rewrite (l_tj _ _ _ _ L), E, !app_length. cbn [length]. lia.
    + intros v Hv. unfold pupd. destruct (Nat.eqb_spec v u) as [->|]; [exact Logic.I|apply (l_in _ _ _ _ L v Hv)].
    + apply (l_l _ _ _ _ L).
  - intros r T. eapply tracks_keep; [|exact T]. intros v Hv. unfold pupd. destruct (Nat.eqb_spec v u) as [->|]; [rewrite Pu; cbn; tauto|tauto].
Qed.
Lemma push_live ph v l s s' : live ph (v :: l) s -> jc s' = jc s -> tj s' = tj s -> queue s' = v :: queue s -> act s' = act s ->
  live (pupd ph v Queued) l s' /\ wt (pupd ph v Queued) < wt ph /\ forall r, tracks ph r -> tracks (pupd ph v Queued) r.
Proof.
  intros L Ej Et Eq Ea. pose proof (l_l _ _ _ _ L v (or_introl eq_refl)) as Hv. pose proof (l_one _ _ _ _ L v Hv) as Ov. cbn [count_occ] in Ov. destruct (Nat.eq_dec v v) as [_|C]; [|congruence].
  assert (Iv : ph v = Idle) by (destruct (_ =? _); [destruct (ph v); auto; cbn [b] in Ov; lia|lia]).
  pose proof (fun w => D_upd g ph v Queued w Hv) as Du. pose proof (fun w => N_upd g ph v Queued w Hv) as Nu. pose proof (Gv_upd g ph v Queued Hv) as Gu. pose proof (wt_upd g ph v Queued Hv) as Wu. rewrite Iv in *. cbn [give wp] in Gu, Wu. unfold dec in Du. cbn [prog] in Du. cbn [pn] in Nu.
  destruct (l_q _ _ _ _ L) as (Qn & Qi). destruct (l_a _ _ _ _ L) as (An & Ai). split; [|split; [lia|]].
  - constructor; rewrite ?Ej, ?Et, ?Eq, ?Ea.
    + split; [constructor; auto; intros J; apply Qi in J; destruct J; congruence|]. intros w. cbn [In]. rewrite Qi. unfold pupd. destruct (Nat.eqb_spec w v) as [->|Nw]; [tauto|]. split; [intros [|]; [congruence|auto]|auto].
    + split; auto. intros w p. rewrite Ai. unfold pupd. destruct (Nat.eqb_spec w v) as [->|]; [rewrite Iv; split; intros (_ & ?); discriminate|reflexivity].
    + intros w Hw. rewrite (l_jc _ _ _ _ L w Hw). specialize (Du w). unfold pupd at 1. destruct (Nat.eqb_spec w v) as [->|]; [rewrite Iv; cbn [fresh]|destruct (fresh (ph w)); [|reflexivity]]; f_equal; lia.
    + intros w Hw. specialize (Du w). specialize (Nu w). pose proof (l_one _ _ _ _ L w Hw) as Lo. replace (D (pupd ph v Queued) w) with (D ph w) by lia. rewrite <- Lo. cbn [count_occ]. unfold pupd at 2. destruct (Nat.eqb_spec w v) as [->|Nw].
      * destruct (Nat.eq_dec v v) as [_|C]; [|congruence]. rewrite Iv. cbn [b]. lia.
      * destruct (Nat.eq_dec v w); [congruence|]. lia.
    + rewrite (l_tj _ _ _ _ L). cbn [length]. lia.
    + intros w Hw. unfold pupd. destruct (Nat.eqb_spec w v) as [->|]; [exact Logic.I|apply (l_in _ _ _ _ L w Hw)].
    + intros w I. apply (l_l _ _ _ _ L). now right.
  - intros r T. eapply tracks_keep; [|exact T]. intros w Hw. unfold pupd. destruct (Nat.eqb_spec w v) as [->|]; [rewrite Iv; cbn; tauto|tauto].
Qed.
Lemma work_frame s a c u p s' : work g s a c u p s' -> cur s' = cur s /\ sub s' = sub s /\ calls s' = calls s /\ num s' = num s /\ pend s' = pend s /\ owe s' = owe s /\
  (exists es, log s' = log s ++ es /\ length es <= 1 /\ forall d, ~ In (Ready d) es) /\ ((drv s' = drv s /\ tj s <= tj s') \/ (tj s' = tj s - 1 /\ drv s' = if tj s =? 1 then Ask else drv s)).
Proof.
  destruct 1; cbn [cur sub calls num pend owe log drv tj]; repeat (split; [reflexivity|]); (split; [try (exists []; rewrite app_nil_r; split; [reflexivity|split; [cbn; lia|intros d []]]; fail); try (eexists [_]; split; [reflexivity|split; [cbn; lia|intros d [J|[]]; discriminate]]) |]); auto; left; split; auto; lia.
Qed.
(** What is left to do. *)
Variable last : nat -> nat.
Definition K : nat := wt (fun _ => Idle).
Definition cost (c : nat) : nat := last c * (K + 2) + 10.
Definition dw (ph : nat -> phase) (s : st) : nat := match drv s with
  | Off => 0 | SetUp => last (cur s) * (K + 2) + 9 | Tgr_Model.Dec => last (cur s) * (K + 2) + 10
  | Push _ => (last (cur s) - calls s) * (K + 2) + wt ph + 8 | Ask => (last (cur s) - calls s) * (K + 2) + 7 | Bye => 6 | Lock => 5 end.
Definition M (ph : nat -> phase) (s : st) : nat := list_sum (map cost (seq (S (cur s)) (sub s - cur s - 1))) + dw ph s + list_sum (map (fun o : nat * bool => if snd o then 1 else 2) (owe s)).
Definition within (s : st) : Prop := (forall c, 1 <= last c /\ stop c (last c) = true) /\ match drv s with Push _ | Ask => calls s <= last (cur s) | _ => True end.
Lemma owe_sum o1 o2 (x : nat * bool) : list_sum (map (fun o : nat * bool => if snd o then 1 else 2) (o1 ++ x :: o2)) = list_sum (map (fun o : nat * bool => if snd o then 1 else 2) (o1 ++ o2)) + (if snd x then 1 else 2).
Proof. rewrite !map_app, !list_sum_app. cbn [map]. change (list_sum ((if snd x then 1 else 2) :: map (fun o : nat * bool => if snd o then 1 else 2) o2)) with ((if snd x then 1 else 2) + list_sum (map (fun o : nat * bool => if snd o then 1 else 2) o2)). lia. Qed.
Lemma body_1 l e : is_ready e = false -> body (l ++ [e]) = body l ++ [e].
Proof. intros E. rewrite body_app. f_equal. unfold body. cbn. now rewrite E. Qed.
Lemma body_ready l c : body (l ++ [Ready c]) = body l.
Proof. rewrite body_app. unfold body at 2. cbn. apply app_nil_r. Qed.
End P.
