From Verif Require Import Build_Spec System_Proofs System_Proofs3 Chain_Spec Chain_Proofs Force_Spec.
Open Scope R_scope.

Lemma chain_index_ok pos o : (2 <= length pos)%nat -> chain_index pos o -> exists i, o = Ok i /\ Permutation i (seq 0 (length pos)).
Proof.
  intros Hn (fuel & r & H & E). destruct H as (d & Hs & Er).
  unfold create_index_from_dist_array in Er. destruct (aget d 0) as [n0| |] eqn:E0.
  - cbn [obind] in Er. destruct r as [[i|]| |]; try discriminate; [|tauto].
    exists i. split; auto. apply (calc_chain_index_any pos fuel i Hn). exists d. split; auto.
    unfold create_index_from_dist_array. rewrite E0. auto.
  - unfold aget in E0. destruct (nth_error d 0); discriminate.
  - exfalso. destruct (create_index_ok pos d (enough_fuel d) Hn Hs (le_n _)) as (n0 & idx & H0 & _).
    unfold aget in E0. rewrite H0 in E0. discriminate.
Qed.

Lemma chain_index_exists pos : (2 <= length pos)%nat -> exists i, chain_index pos (Ok i).
Proof.
  intros Hn. destruct (calc_chain_index_returns pos Hn) as (fuel & idx & H). exists idx, fuel, (Ok (Some idx)). auto.
Qed.

Lemma chain_index_few pos o : (length pos < 2)%nat -> chain_index pos o -> o = UB.
Proof.
  intros Hn (fuel & r & (d & [Hp _] & Er) & E).
  destruct pos as [|a [|b pos]]; simpl in Hn; try lia;
  unfold create_distances_array in Hp; simpl in Hp; apply Permutation_nil in Hp; subst; exact E.
Qed.

(** Consistency of the coordinates alone. *)
Definition cart_ok (c : cst) : Prop := consistent newton_only c.
Lemma cart_ok_of I c : consistent I c -> cart_ok c.
Proof. intros (H1 & H2 & Hp & Hv & Ep & Ev & Hw). repeat split; auto; discriminate. Qed.
Lemma cart_ok_pre I c : cart_ok c -> consistent I (cpre_iter I c).
Proof.
  intros (H1 & H2 & Hp & Hv & Ep & Ev & _). unfold cpre_iter, pre_iter. destruct (I_dep I) eqn:D.
  - unfold consistent, npart in *. cbn [c_st c_cp c_cv c_cw c_idx s_m s_t s_p s_v s_w]. repeat split; auto.
  - unfold consistent. repeat split; auto; intros; congruence.
Qed.
Lemma strip_pre I s : strip (pre_iter I s) = pre_iter I (strip s).
Proof. unfold pre_iter. destruct (I_dep I); reflexivity. Qed.
Lemma st_pre I c : c_st (cpre_iter I c) = pre_iter I (c_st c).
Proof. unfold cpre_iter, pre_iter. destruct (I_dep I); reflexivity. Qed.
Lemma npart_pre I s : npart (pre_iter I s) = npart s.
Proof. unfold pre_iter. destruct (I_dep I); reflexivity. Qed.
Lemma npart_strip s : npart (strip s) = npart s. Proof. reflexivity. Qed.

Lemma reindex_ok c o : cart_ok c -> (2 <= npart (c_st c))%nat -> reindex c o ->
  exists c', o = Ok c' /\ cart_ok c' /\ c_st c' = c_st c.
Proof.
  intros C Hn (i & Hi & ->). pose proof C as (H1 & H2 & Hp & _).
  destruct (chain_index_ok (s_p (c_st c)) i) as (idx & -> & P); [rewrite Hp; auto|auto|].
  rewrite Hp in P. destruct (post_iter_sim newton_only c idx C eq_refl P) as (c' & E & C' & _ & Es).
  exists c'. simpl. rewrite E. auto.
Qed.

Lemma reindex_exists c : cart_ok c -> (2 <= npart (c_st c))%nat -> exists o, reindex c o.
Proof.
  intros (H1 & H2 & Hp & _) Hn. destruct (chain_index_exists (s_p (c_st c))) as [i Hi]; [rewrite Hp; auto|].
  exists (post_iter i c), (Ok i). auto.
Qed.

Section Steps.
Variables (I : inter) (CI : cinter) (l : list op) (n : nat).
Hypotheses (SZ : sized I) (AG : agree I CI n) (Hn : (2 <= n)%nat).

Definition Rel (c : cst) (s : st) : Prop := cart_ok c /\ strip (c_st c) = strip s /\ npart s = n.

Lemma rel_npart c s : Rel c s -> npart (c_st c) = n.
Proof. intros (_ & E & N). rewrite <- npart_strip, E, npart_strip. auto. Qed.

(** One step of the simulator, for a scheme that simulates the Cartesian one. *)
Lemma step_sim (dr ki : cst -> R -> outcome cst) (f : st -> R -> st)
  (F : forall s h, strip (f s h) = f (strip s) h) (Fn : forall s h, npart (f s h) = npart s)
  (SIM : forall c h, consistent I c -> npart (c_st c) = n ->
     simulates I (ointegrate dr ki l c h) (strip (f (c_st c) h)) (c_idx c)) :
  forall c s h o, Rel c s ->
  match ointegrate dr ki l (cpre_iter I c) h with Ok c1 => reindex c1 o | Abort => o = Abort | UB => o = UB end ->
  exists c', o = Ok c' /\ Rel c' (f (pre_iter I s) h).
Proof.
  intros c s h o Rl H. pose proof (rel_npart c s Rl) as Nc. destruct Rl as (C & E & N).
  pose proof (cart_ok_pre I c C) as CP.
  destruct (SIM (cpre_iter I c) h CP) as (c1 & E1 & (C1 & S1) & _); [rewrite st_pre, npart_pre; auto|].
  rewrite E1 in H. rewrite st_pre, F, strip_pre, E, <- strip_pre, <- F in S1.
  assert (N1 : npart (c_st c1) = n) by (rewrite <- npart_strip, S1, npart_strip, Fn, npart_pre; auto).
  destruct (reindex_ok c1 o (cart_ok_of I c1 C1)) as (c' & -> & C' & Es); [rewrite N1; auto|auto|].
  exists c'. split; auto. split; auto. rewrite Es. split; auto. rewrite Fn, npart_pre; auto.
Qed.
Lemma step_exists (dr ki : cst -> R -> outcome cst) (f : st -> R -> st)
  (F : forall s h, strip (f s h) = f (strip s) h) (Fn : forall s h, npart (f s h) = npart s)
  (SIM : forall c h, consistent I c -> npart (c_st c) = n ->
     simulates I (ointegrate dr ki l c h) (strip (f (c_st c) h)) (c_idx c)) :
  forall c s h, Rel c s -> exists o,
  match ointegrate dr ki l (cpre_iter I c) h with Ok c1 => reindex c1 o | Abort => o = Abort | UB => o = UB end.
Proof.
  intros c s h Rl. pose proof (rel_npart c s Rl) as Nc. destruct Rl as (C & E & N).
  pose proof (cart_ok_pre I c C) as CP.
  destruct (SIM (cpre_iter I c) h CP) as (c1 & E1 & (C1 & S1) & _); [rewrite st_pre, npart_pre; auto|].
  rewrite E1. apply reindex_exists; [eapply cart_ok_of; eauto|].
  rewrite <- npart_strip, S1, npart_strip, Fn, st_pre, npart_pre. lia.
Qed.

Lemma run_sim (step : cst -> R -> outcome cst -> Prop) (f : st -> R -> st)
  (ST : forall c s h o, Rel c s -> step c h o -> exists c', o = Ok c' /\ Rel c' (f s h)) :
  forall hs o o' , run_steps step o hs o' -> forall c s, o = Ok c -> Rel c s -> exists c', o' = Ok c' /\ Rel c' (fold_left f hs s).
Proof.
  intros hs o o' H. induction H as [o|c h hs o o' H1 H2 IH|h hs|h hs]; intros c0 s E Rl; try discriminate.
  - exists c0. auto.
  - injection E as <-. destruct (ST _ _ _ _ Rl H1) as (c1 & -> & R1). simpl. eapply IH; eauto.
Qed.
Lemma run_exists (step : cst -> R -> outcome cst -> Prop) (f : st -> R -> st)
  (ST : forall c s h o, Rel c s -> step c h o -> exists c', o = Ok c' /\ Rel c' (f s h))
  (EX : forall c s h, Rel c s -> exists o, step c h o) :
  forall hs c s, Rel c s -> exists o', run_steps step (Ok c) hs o'.
Proof.
  induction hs as [|h hs IH]; intros c s Rl.
  - exists (Ok c). constructor.
  - destruct (EX c s h Rl) as [o Ho]. destruct (ST _ _ _ _ Rl Ho) as (c1 & -> & R1).
    destruct (IH _ _ R1) as [o' H']. exists o'. econstructor; eauto.
Qed.

Lemma chain_step_sim c s h o : Rel c s -> chain_step I CI l c h o -> exists c', o = Ok c' /\ Rel c' (simple_step I l s h).
Proof.
  intros Rl H. unfold chain_step in H.
  refine (step_sim cdrift (ckick I CI) (integrate drift (kick I) l) _ _ _ c s h o Rl H).
  - intros. apply strip_integrate; [reflexivity|]. intros. apply strip_kick.
  - intros s0 h0. apply (integrate_P drift (kick I) (fun z => npart z = npart s0)); auto. intros. rewrite npart_kick; auto.
  - intros c0 h0 C0 N0. apply chain_sim; auto. rewrite N0; auto.
Qed.
Lemma chain_step_exists c s h : Rel c s -> exists o, chain_step I CI l c h o.
Proof.
  intros Rl. unfold chain_step.
  refine (step_exists cdrift (ckick I CI) (integrate drift (kick I) l) _ _ _ c s h Rl).
  - intros. apply strip_integrate; [reflexivity|]. intros. apply strip_kick.
  - intros s0 h0. apply (integrate_P drift (kick I) (fun z => npart z = npart s0)); auto. intros. rewrite npart_kick; auto.
  - intros c0 h0 C0 N0. apply chain_sim; auto. rewrite N0; auto.
Qed.
Lemma archain_step_sim r c s h o : Rel c s -> archain_step I CI r l c h o -> exists c', o = Ok c' /\ Rel c' (regu_step I r l s h).
Proof.
  intros Rl H. unfold archain_step in H.
  refine (step_sim (ardrift r) (arkick I CI r) (integrate (rdrift r) (rkick I r) l) _ _ _ c s h o Rl H).
  - intros. apply strip_integrate; intros; [apply strip_rdrift|apply strip_rkick].
  - intros s0 h0. apply (integrate_P (rdrift r) (rkick I r) (fun z => npart z = npart s0)); auto; intros; [rewrite npart_rdrift|rewrite npart_rkick]; auto.
  - intros c0 h0 C0 N0. apply archain_sim; auto; rewrite N0; auto.
Qed.
Lemma archain_step_exists r c s h : Rel c s -> exists o, archain_step I CI r l c h o.
Proof.
  intros Rl. unfold archain_step.
  refine (step_exists (ardrift r) (arkick I CI r) (integrate (rdrift r) (rkick I r) l) _ _ _ c s h Rl).
  - intros. apply strip_integrate; intros; [apply strip_rdrift|apply strip_rkick].
  - intros s0 h0. apply (integrate_P (rdrift r) (rkick I r) (fun z => npart z = npart s0)); auto; intros; [rewrite npart_rdrift|rewrite npart_rkick]; auto.
  - intros c0 h0 C0 N0. apply archain_sim; auto; rewrite N0; auto.
Qed.
End Steps.

(** Construction. *)
Lemma build_consistent I (s : st) idx cp cv : (1 <= npart s)%nat -> Permutation idx (seq 0 (npart s)) ->
  length (s_p s) = npart s -> length (s_v s) = npart s -> s_w s = s_v s ->
  to_chain (s_p s) (blank (npart s)) idx = Ok cp -> to_chain (s_v s) (blank (npart s)) idx = Ok cv ->
  consistent I (mkCst s cp cv cv idx).
Proof. intros. unfold consistent, chain_of. cbn [c_st c_cp c_cv c_cw c_idx]. repeat split; auto; congruence. Qed.
Lemma to_chain_exists n idx a : (1 <= n)%nat -> Permutation idx (seq 0 n) -> length a = n -> exists ch, to_chain a (blank n) idx = Ok ch.
Proof.
  intros Hn P L. destruct (to_chain_ok n idx a (blank n)) as (ch & E & _); auto.
  - unfold blank. apply repeat_length.
  - eauto.
Qed.

Lemma chain_new_ok I t set o : (2 <= length set)%nat -> chain_new I t set o ->
  exists c, o = Ok c /\ consistent I c /\ c_st c = simple_new I t set.
Proof.
  intros Hn (i & Hi & ->).
  destruct (chain_index_ok (map b_p set) i) as (idx & -> & P); [rewrite map_length; auto|auto|]. rewrite map_length in P.
  cbn [obind]. unfold chain_build. cbv zeta. set (s := simple_new I t set).
  assert (N : npart s = length set) by (unfold s, simple_new, npart; cbv zeta; cbn [s_m]; apply map_length).
  assert (Lp : length (s_p s) = npart s) by (rewrite N; apply map_length).
  assert (Lv : length (s_v s) = npart s) by (rewrite N; apply map_length).
  destruct (to_chain_exists (npart s) idx (s_p s)) as [cp Ep]; auto; [lia|rewrite N; auto|].
  destruct (to_chain_exists (npart s) idx (s_v s)) as [cv Ev]; auto; [lia|rewrite N; auto|].
  rewrite Ep, Ev. cbn [obind]. eexists. split; [reflexivity|]. split; [|reflexivity].
  apply build_consistent; auto; [lia|rewrite N; auto].
Qed.
Lemma archain_new_ok I r t set o : (2 <= length set)%nat -> archain_new I r t set o ->
  exists c, o = Ok c /\ consistent I c /\ c_st c = regu_new I r t set.
Proof.
  intros Hn (i & Hi & ->).
  destruct (chain_index_ok (map b_p set) i) as (idx & -> & P); [rewrite map_length; auto|auto|]. rewrite map_length in P.
  cbn [obind]. unfold archain_build. cbv zeta. set (s := regu_new I r t set).
  assert (N : npart s = length set) by (unfold s, regu_new, rnew, npart; cbv zeta; cbn [s_m]; apply map_length).
  assert (Lp : length (s_p s) = npart s) by (rewrite N; apply map_length).
  assert (Lv : length (s_v s) = npart s) by (rewrite N; apply map_length).
  destruct (to_chain_exists (npart s) idx (s_p s)) as [cp Ep]; auto; [lia|rewrite N; auto|].
  destruct (to_chain_exists (npart s) idx (s_v s)) as [cv Ev]; auto; [lia|rewrite N; auto|].
  rewrite Ep, Ev. cbn [obind].
  assert (C : consistent I (mkCst s cp cv cv idx)) by (apply build_consistent; auto; [lia|rewrite N; auto]).
  rewrite (c_pot_ok I _ C) by (cbn [c_st]; lia). cbn [obind c_st].
  assert (E : mkSt (s_m s) (s_t s) (s_p s) (s_v s) (s_w s) (- pot s) (- (pot s + kin s))
                   (match r with NoReg => 1 | _ => - pot s end) (s_inc s) (s_sync s) = s) by reflexivity.
  rewrite E. eexists. split; [reflexivity|]. auto.
Qed.
Lemma new_exists (I : inter) set (b : list nat -> outcome cst) : (2 <= length set)%nat ->
  exists o i, chain_index (map b_p set) i /\ o = obind i b.
Proof.
  intros Hn. destruct (chain_index_exists (map b_p set)) as [i Hi]; [rewrite map_length; auto|].
  exists (obind (Ok i) b), (Ok i). auto.
Qed.
