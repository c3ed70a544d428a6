(** C72: what a constructed system is, and whole runs: chain systems show the same motion as plain ones. *)
From Verif Require Import Build_Spec Build_Proofs System_Proofs System_Proofs2 System_Proofs3 System_Proofs4 System_Props Chain_Proofs Chain_Props Reg_Spec Reg_Props.
Import System_Spec.
Open Scope R_scope.

(** ** Constructors *)
Theorem C72_simple_new I t set : let s := simple_new I t set in
  shows s t set /\ s_w s = s_v s /\ well_sized I 1 s /\ s_sync s = false /\ (forall x, In x (s_inc s) -> x = 0).
Proof.
  intros s. split; [repeat split|]. split; [reflexivity|]. split.
  - unfold well_sized, s, simple_new, npart. cbv zeta. cbn [s_m s_p s_v s_w s_inc]. rewrite repeat_length, !map_length. auto.
  - split; [reflexivity|]. intros x H. apply repeat_spec in H. auto.
Qed.
Theorem C72_regularised_new I r t set : let s := regu_new I r t set in
  shows s t set /\ s_w s = s_v s /\ well_sized I 3 s /\ s_sync s = false /\ (forall x, In x (s_inc s) -> x = 0) /\
  s_om s = Upot s /\ s_be s = - (Tkin s - Upot s) /\ s_sc s = match r with NoReg => 1 | _ => Upot s end.
Proof.
  intros s. destruct (C54_new I r (map b_m set) t (map b_p set) (map b_v set)) as (E1 & E2 & E3 & E4 & E5 & E6 & E7 & E8 & E9).
  fold (regu_new I r t set) in *. fold s in E1, E2, E3, E4, E5, E6, E7, E8, E9.
  split; [repeat split; auto|]. split; [congruence|]. split.
  - unfold well_sized, s, regu_new, rnew, npart. cbv zeta. cbn [s_m s_p s_v s_w s_inc]. rewrite repeat_length, !map_length. auto.
  - split; [reflexivity|]. split; [intros x H; apply repeat_spec in H; auto|]. repeat split; auto. lra.
Qed.
Lemma consistent_describes I c : consistent I c ->
  chain_describes (c_idx c) (c_cp c) (s_p (c_st c)) /\ chain_describes (c_idx c) (c_cv c) (s_v (c_st c)).
Proof.
  intros (H1 & H2 & Hp & Hv & Ep & Ev & _). unfold chain_describes, chain_of in *.
  assert (LB : length (blank (npart (c_st c))) = npart (c_st c)) by (unfold blank; apply repeat_length).
  destruct (C17_chain_entries _ _ _ _ _ H1 H2 Hp LB Ep) as (A1 & A2 & A3).
  destruct (C17_chain_entries _ _ _ _ _ H1 H2 Hv LB Ev) as (B1 & B2 & B3).
  rewrite Hp, Hv. auto 10.
Qed.
(** A chain system of two or more particles can always be built; it shows the particles it was given, its chain
    coordinates describe them along a permutation of the particles, and every invariant the other theorems ask for
    ([consistent], [well_sized]) holds. *)
Theorem C72_chain_new I t set : (2 <= length set)%nat ->
  (exists o, chain_new I t set o) /\
  forall o, chain_new I t set o -> exists c, o = Ok c /\ shows (c_st c) t set /\
    Permutation (c_idx c) (seq 0 (length set)) /\ chain_describes (c_idx c) (c_cp c) (map b_p set) /\
    chain_describes (c_idx c) (c_cv c) (map b_v set) /\ consistent I c /\ well_sized I 1 (c_st c) /\
    (forall x, In x (s_inc (c_st c)) -> x = 0).
Proof.
  intros Hn. split.
  - destruct (new_exists I set (chain_build I t set) Hn) as (o & i & H). exists o, i. exact H.
  - intros o H. destruct (chain_new_ok I t set o Hn H) as (c & -> & C & Es). exists c. split; auto.
    destruct (consistent_describes I c C) as [D1 D2]. pose proof C as (_ & P & _).
    destruct (C72_simple_new I t set) as (S1 & S2 & S3 & S4 & S5). rewrite Es in *.
    replace (npart (simple_new I t set)) with (length set) in P by (unfold npart, simple_new; cbv zeta; cbn [s_m]; rewrite map_length; auto).
    auto 10.
Qed.
Theorem C72_archain_new I r t set : (2 <= length set)%nat ->
  (exists o, archain_new I r t set o) /\
  forall o, archain_new I r t set o -> exists c, o = Ok c /\ shows (c_st c) t set /\
    Permutation (c_idx c) (seq 0 (length set)) /\ chain_describes (c_idx c) (c_cp c) (map b_p set) /\
    chain_describes (c_idx c) (c_cv c) (map b_v set) /\ consistent I c /\ well_sized I 3 (c_st c) /\
    (forall x, In x (s_inc (c_st c)) -> x = 0) /\
    s_om (c_st c) = Upot (c_st c) /\ s_be (c_st c) = - (Tkin (c_st c) - Upot (c_st c)) /\
    s_sc (c_st c) = match r with NoReg => 1 | _ => Upot (c_st c) end.
Proof.
  intros Hn. split.
  - destruct (new_exists I set (archain_build I r t set) Hn) as (o & i & H). exists o, i. exact H.
  - intros o H. destruct (archain_new_ok I r t set o Hn H) as (c & -> & C & Es). exists c. split; auto.
    destruct (consistent_describes I c C) as [D1 D2]. pose proof C as (_ & P & _).
    destruct (C72_regularised_new I r t set) as (S1 & S2 & S3 & S4 & S5 & S6 & S7 & S8). rewrite Es in *.
    replace (npart (regu_new I r t set)) with (length set) in P by (unfold npart, regu_new, rnew; cbv zeta; cbn [s_m]; rewrite map_length; auto).
    split; [exact S1|]. split; [exact P|]. split; [exact D1|]. split; [exact D2|]. split; [exact C|]. split; [exact S3|].
    split; [exact S5|]. split; [exact S6|]. split; [exact S7|exact S8].
Qed.
(** With fewer than two particles the construction of a chain system is undefined behaviour. *)
Theorem C72_chain_of_one_undefined I r t set o : (length set < 2)%nat ->
  (chain_new I t set o -> o = UB) /\ (archain_new I r t set o -> o = UB).
Proof.
  intros Hn. split; intros (i & Hi & ->); (rewrite (chain_index_few (map b_p set) i); [reflexivity|rewrite map_length; auto|auto]).
Qed.

(** ** Whole runs *)
Lemma rel_new I n c s : consistent I c -> c_st c = s -> npart s = n -> Rel n c s.
Proof. intros C E N. split; [eapply cart_ok_of; eauto|]. split; [congruence|auto]. Qed.
Lemma rel_physics n c s : Rel n c s -> same_physics (c_st c) s.
Proof.
  intros (_ & E & _). unfold same_physics.
  assert (X : forall A (f : st -> A), (forall z, f (strip z) = f z) -> f (c_st c) = f s) by (intros A f H; rewrite <- (H (c_st c)), <- (H s); congruence).
  repeat split; apply X; reflexivity.
Qed.
Lemma npart_simple I t set : npart (simple_new I t set) = length set.
Proof. unfold npart, simple_new. cbv zeta. cbn [s_m]. apply map_length. Qed.
Lemma npart_regu I r t set : npart (regu_new I r t set) = length set.
Proof. unfold npart, regu_new, rnew. cbv zeta. cbn [s_m]. apply map_length. Qed.

(** A ChainSystem built from at least two particles and driven by the simulator through any sequence of steps never aborts and
    never reaches undefined behaviour, whatever the (re-)indexing chooses among equal distances; and after every step it shows exactly
    the time, positions and velocities of the SimpleSystem built from the same particles and driven through the same steps.
    Any force list whose chain evaluation agrees with the direct one (C19), velocity dependent or not. *)
Theorem C72_chain_run_is_simple_run I CI l t set hs : sized I -> agree I CI (length set) -> (2 <= length set)%nat ->
  (forall o, chain_new I t set o -> exists o', run_steps (chain_step I CI l) o hs o') /\
  forall o o', chain_new I t set o -> run_steps (chain_step I CI l) o hs o' ->
  exists c, o' = Ok c /\ same_physics (c_st c) (fold_left (simple_step I l) hs (simple_new I t set)) /\
            chain_describes (c_idx c) (c_cp c) (s_p (c_st c)) /\ chain_describes (c_idx c) (c_cv c) (s_v (c_st c)).
Proof.
  intros SZ AG Hn.
  assert (ST : forall c s h o, Rel (length set) c s -> chain_step I CI l c h o -> exists c', o = Ok c' /\ Rel (length set) c' (simple_step I l s h)).
  { intros. eapply chain_step_sim; eauto. }
  split.
  - intros o H. destruct (chain_new_ok I t set o Hn H) as (c & -> & C & Es).
    apply (run_exists (length set) (chain_step I CI l) (simple_step I l) ST) with (s := simple_new I t set).
    + intros c0 s0 h0 R0. eapply chain_step_exists; eauto.
    + apply (rel_new I); auto. apply npart_simple.
  - intros o o' H Hr. destruct (chain_new_ok I t set o Hn H) as (c & -> & C & Es).
    destruct (run_sim (length set) (chain_step I CI l) (simple_step I l) ST hs _ _ Hr c (simple_new I t set) eq_refl) as (c' & -> & R').
    + apply (rel_new I); auto. apply npart_simple.
    + exists c'. split; auto. split; [eapply rel_physics; eauto|]. destruct R' as (C' & _). apply (consistent_describes newton_only c' C').
Qed.
(** The same for ARchainSystem and RegularizedSystem, for each regularisation; omega, binding energy and step scale agree too. *)
Theorem C72_archain_run_is_regularised_run I CI r l t set hs : sized I -> agree I CI (length set) -> (2 <= length set)%nat ->
  (forall o, archain_new I r t set o -> exists o', run_steps (archain_step I CI r l) o hs o') /\
  forall o o', archain_new I r t set o -> run_steps (archain_step I CI r l) o hs o' ->
  let s := fold_left (regu_step I r l) hs (regu_new I r t set) in
  exists c, o' = Ok c /\ same_physics (c_st c) s /\ s_om (c_st c) = s_om s /\ s_be (c_st c) = s_be s /\ s_sc (c_st c) = s_sc s /\
            chain_describes (c_idx c) (c_cp c) (s_p (c_st c)) /\ chain_describes (c_idx c) (c_cv c) (s_v (c_st c)).
Proof.
  intros SZ AG Hn.
  assert (ST : forall c s h o, Rel (length set) c s -> archain_step I CI r l c h o -> exists c', o = Ok c' /\ Rel (length set) c' (regu_step I r l s h)).
  { intros. eapply archain_step_sim; eauto. }
  split.
  - intros o H. destruct (archain_new_ok I r t set o Hn H) as (c & -> & C & Es).
    apply (run_exists (length set) (archain_step I CI r l) (regu_step I r l) ST) with (s := regu_new I r t set).
    + intros c0 s0 h0 R0. eapply archain_step_exists; eauto.
    + apply (rel_new I); auto. apply npart_regu.
  - intros o o' H Hr s. destruct (archain_new_ok I r t set o Hn H) as (c & -> & C & Es).
    destruct (run_sim (length set) (archain_step I CI r l) (regu_step I r l) ST hs _ _ Hr c (regu_new I r t set) eq_refl) as (c' & -> & R').
    + apply (rel_new I); auto. apply npart_regu.
    + exists c'. split; auto. split; [eapply rel_physics; eauto|]. destruct R' as (C' & E & _). fold s in E.
      split; [change (s_om (c_st c')) with (s_om (strip (c_st c'))); rewrite E; reflexivity|].
      split; [change (s_be (c_st c')) with (s_be (strip (c_st c'))); rewrite E; reflexivity|].
      split; [change (s_sc (c_st c')) with (s_sc (strip (c_st c'))); rewrite E; reflexivity|].
      apply (consistent_describes newton_only c' C').
Qed.

(** ** Conservation over whole runs, from the particles the user gave *)
Lemma conserves_refl s : conserves s s.
Proof. repeat split; auto. replace (s_t s - s_t s) with 0 by ring. destruct (moment s), (momentum s). vring. Qed.
Lemma conserves_trans a b c : conserves a b -> conserves b c -> conserves a c.
Proof.
  intros (A1 & A2 & A3 & A4) (B1 & B2 & B3 & B4). repeat split; try congruence.
  rewrite B4, A4, A1. destruct (moment a), (momentum a). vunf. f_equal; ring.
Qed.
Lemma ws_pre I e s : well_sized I e s -> well_sized I e (pre_iter I s).
Proof.
  intros (A & B & C & D). unfold pre_iter. destruct (I_dep I) eqn:E.
  - unfold well_sized, npart in *. cbn [s_m s_p s_v s_w s_inc]. auto.
  - repeat split; auto. intros X. congruence.
Qed.
Lemma conserves_pre I a s : conserves a s -> conserves a (pre_iter I s).
Proof. unfold pre_iter. destruct (I_dep I); auto. Qed.
Lemma conserves_of_pre I a s : conserves (pre_iter I a) s -> conserves a s.
Proof. unfold pre_iter. destruct (I_dep I); auto. Qed.

Theorem C72_simple_run_conserves I l t set hs : sized I -> balanced I ->
  conserves (simple_new I t set) (fold_left (simple_step I l) hs (simple_new I t set)).
Proof.
  intros SZ BA. destruct (C72_simple_new I t set) as (_ & _ & W & _).
  enough (G : forall hs s, well_sized I 1 s -> conserves s (fold_left (simple_step I l) hs s)) by (apply G; auto).
  clear W. induction hs0 as [|h hs0 IH]; intros s W; simpl; [apply conserves_refl|].
  assert (W1 : well_sized I 1 (simple_step I l s h)).
  { unfold simple_step. apply (integrate_P drift (kick I) (well_sized I 1)); [intros; apply ws_drift; auto|intros; apply ws_kick; auto|apply ws_pre; auto]. }
  eapply conserves_trans; [|apply IH; auto].
  apply (conserves_of_pre I). apply C25_simple_conserves; auto. apply ws_pre; auto.
Qed.
Theorem C72_regularised_run_conserves I r l t set hs : sized I -> balanced I ->
  conserves (regu_new I r t set) (fold_left (regu_step I r l) hs (regu_new I r t set)).
Proof.
  intros SZ BA. destruct (C72_regularised_new I r t set) as (_ & _ & W & _).
  enough (G : forall hs s, well_sized I 3 s -> conserves s (fold_left (regu_step I r l) hs s)) by (apply G; auto).
  clear W. induction hs0 as [|h hs0 IH]; intros s W; simpl; [apply conserves_refl|].
  assert (W1 : well_sized I 3 (regu_step I r l s h)).
  { unfold regu_step. apply (integrate_P (rdrift r) (rkick I r) (well_sized I 3)); [intros; apply ws_rdrift; auto|intros; apply ws_rkick; auto|apply ws_pre; auto]. }
  eapply conserves_trans; [|apply IH; auto].
  apply (conserves_of_pre I). apply C25_regularised_conserves; auto. apply ws_pre; auto.
Qed.
Lemma conserves_physics a s s' : same_physics s s' -> conserves a s' -> conserves a s.
Proof.
  intros (E1 & E2 & E3 & E4) (A1 & A2 & A3 & A4). unfold conserves, momentum, angular, moment, npart in *. rewrite E1, E2, E3, E4. auto.
Qed.
(** A chain system, regularised or not, built from the user's particles conserves their momentum and angular momentum, and moves
    their centre of mass uniformly, over any sequence of steps and re-indexings. *)
Theorem C72_chain_run_conserves I CI r l t set hs o o' : sized I -> balanced I -> agree I CI (length set) -> (2 <= length set)%nat ->
  (chain_new I t set o -> run_steps (chain_step I CI l) o hs o' -> exists c, o' = Ok c /\ conserves (simple_new I t set) (c_st c)) /\
  (archain_new I r t set o -> run_steps (archain_step I CI r l) o hs o' -> exists c, o' = Ok c /\ conserves (regu_new I r t set) (c_st c)).
Proof.
  intros SZ BA AG Hn. split; intros H Hr.
  - destruct (proj2 (C72_chain_run_is_simple_run I CI l t set hs SZ AG Hn) o o' H Hr) as (c & -> & P & _). exists c. split; auto.
    eapply conserves_physics; [exact P|]. apply C72_simple_run_conserves; auto.
  - destruct (proj2 (C72_archain_run_is_regularised_run I CI r l t set hs SZ AG Hn) o o' H Hr) as (c & -> & P & _). exists c. split; auto.
    eapply conserves_physics; [exact P|]. apply C72_regularised_run_conserves; auto.
Qed.

(** Non-vacuity: Newtonian gravity satisfies the hypotheses for every particle set of two or more, so such runs exist. *)
Example C72_case : let set := [mkB 1 (mkV 0 0 0) (mkV 0 0 0); mkB 2 (mkV 1 0 0) (mkV 0 1 0); mkB 3 (mkV 0 5 0) (mkV 0 0 1)] in
  sized newton_only /\ balanced newton_only /\ agree newton_only chain_newton_only (length set) /\
  exists o o', archain_new newton_only LogH 0 set o /\ run_steps (archain_step newton_only chain_newton_only LogH leapfrog_dkd) o [0.1; 0.2] o'.
Proof.
  cbv zeta. assert (A : sized newton_only) by apply newton_sized. assert (AG : agree newton_only chain_newton_only 3) by (apply newton_agree; lia).
  split; auto. split; [apply newton_balanced|]. split; auto.
  set (set := _ :: _). assert (Hn : (2 <= length set)%nat) by (simpl; lia).
  destruct (C72_archain_new newton_only LogH 0 set Hn) as [[o Ho] _]. exists o.
  destruct (proj1 (C72_archain_run_is_regularised_run newton_only chain_newton_only LogH leapfrog_dkd 0 set [0.1; 0.2] A AG Hn) o Ho) as [o' H']. eauto.
Qed.

Print Assumptions C72_simple_new.
Print Assumptions C72_regularised_new.
Print Assumptions C72_chain_new.
Print Assumptions C72_archain_new.
Print Assumptions C72_chain_of_one_undefined.
Print Assumptions C72_chain_run_is_simple_run.
Print Assumptions C72_archain_run_is_regularised_run.
Print Assumptions C72_simple_run_conserves.
Print Assumptions C72_regularised_run_conserves.
Print Assumptions C72_chain_run_conserves.
