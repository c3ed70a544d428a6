From Verif Require Import System_Model System_Spec Force_Spec Force_Proofs Chain_Proofs Chain_Spec System_Proofs System_Proofs2.
Open Scope R_scope.

(** * chain systems refine the Cartesian ones *)
Lemma chain_of_ok n idx a : (1 <= n)%nat -> is_index n idx -> length a = n ->
  exists ca, chain_of n idx a = Ok ca /\ length ca = n.
Proof.
  intros H1 H2 H3. unfold chain_of. destruct (to_chain_ok n idx a (blank n) H1 H2 H3) as (ca & E & L & _); eauto.
  unfold blank; apply repeat_length.
Qed.
Lemma chain_of_nth n idx a ca : (1 <= n)%nat -> is_index n idx -> length a = n -> chain_of n idx a = Ok ca ->
  length ca = n /\ forall i, (i < n)%nat -> nth i ca vzero = chain_at a idx n i.
Proof.
  intros H1 H2 H3 H4. unfold chain_of in H4. destruct (to_chain_ok n idx a (blank n) H1 H2 H3) as (ca' & E & L & V).
  { unfold blank; apply repeat_length. }
  rewrite H4 in E. assert (ca = ca') by congruence. subst. auto.
Qed.
Lemma chain_of_advance n idx a b ca cb h : (1 <= n)%nat -> is_index n idx -> length a = n -> length b = n ->
  chain_of n idx a = Ok ca -> chain_of n idx b = Ok cb -> chain_of n idx (advance a b h) = Ok (advance ca cb h).
Proof.
  intros H1 H2 La Lb Ea Eb. destruct (chain_of_nth n idx a ca) as [LA VA]; auto. destruct (chain_of_nth n idx b cb) as [LB VB]; auto.
  assert (L : length (advance a b h) = n) by (rewrite advance_length; congruence).
  destruct (chain_of_ok n idx (advance a b h)) as (cc & E & Lc); auto. rewrite E. f_equal.
  destruct (chain_of_nth n idx (advance a b h) cc) as [_ VC]; auto.
  apply (nth_ext_v _ _ n); auto; [rewrite advance_length; congruence|].
  intros i Hi. rewrite VC, advance_nth, VA, VB by congruence. unfold chain_at.
  destruct (i =? n - 1)%nat; rewrite !advance_nth by congruence; [auto|].
  repeat match goal with |- context [nth ?k a vzero] => generalize (nth k a vzero) end.
  repeat match goal with |- context [nth ?k b vzero] => generalize (nth k b vzero) end. intros; vring.
Qed.
Lemma chain_back n idx a ca out : (1 <= n)%nat -> is_index n idx -> length a = n -> length out = n ->
  chain_of n idx a = Ok ca -> to_cartesian ca out idx = Ok a.
Proof.
  intros H1 H2 H3 H4 E. destruct (round_trip n idx a (blank n) out) as (ch & E1 & E2); auto.
  { unfold blank; apply repeat_length. }
  unfold chain_of in E. rewrite E in E1. assert (ca = ch) by congruence. subst; auto.
Qed.
Lemma chain_advance_ok n idx a ca b cb h : (1 <= n)%nat -> is_index n idx -> length a = n -> length b = n ->
  chain_of n idx a = Ok ca -> chain_of n idx b = Ok cb ->
  chain_advance idx a ca cb h = Ok (advance a b h, advance ca cb h).
Proof.
  intros. unfold chain_advance. cbv zeta. rewrite (chain_back n idx (advance a b h)); auto.
  - rewrite advance_length; congruence.
  - apply chain_of_advance; auto.
Qed.

Lemma strip_drift s h : strip (drift s h) = drift (strip s) h. Proof. reflexivity. Qed.
Lemma strip_kick_vel s a h : strip (kick_vel s a h) = kick_vel (strip s) a h. Proof. reflexivity. Qed.
Lemma strip_kick_aux s a h : strip (kick_aux s a h) = kick_aux (strip s) a h. Proof. reflexivity. Qed.
Lemma strip_kick I s h : strip (kick I s h) = kick I (strip s) h.
Proof. unfold kick. destruct (I_dep I); reflexivity. Qed.
Lemma strip_rdrift r s h : strip (rdrift r s h) = rdrift r (strip s) h.
Proof. rewrite !rdrift_eq. destruct r; reflexivity. Qed.
Lemma strip_rkick_body I r s dt : strip (rkick_body I r s dt) = rkick_body I r (strip s) dt.
Proof. unfold rkick_body, rkick_pseu. cbv zeta. destruct (I_dep I); destruct (I_ind I); reflexivity. Qed.
Lemma strip_rkick I r s h : strip (rkick I r s h) = rkick I r (strip s) h.
Proof. rewrite !rkick_eq. rewrite strip_rkick_body. destruct r; reflexivity. Qed.
Lemma strip_integrate (dr ki : st -> R -> st) l s h : (forall s h, strip (dr s h) = dr (strip s) h) ->
  (forall s h, strip (ki s h) = ki (strip s) h) -> strip (integrate dr ki l s h) = integrate dr ki l (strip s) h.
Proof.
  intros H1 H2. unfold integrate. revert s. induction l as [|[c|c] l IH]; intros s; simpl; auto; rewrite IH; cbn [run_op]; congruence.
Qed.

(** A chain operation simulates a Cartesian one. *)
Definition sim (I : inter) (c : cst) (s : st) : Prop := consistent I c /\ strip (c_st c) = s.
Definition simulates (I : inter) (x : outcome cst) (s : st) (idx : list nat) : Prop :=
  exists c', x = Ok c' /\ sim I c' s /\ c_idx c' = idx.

Ltac sdc := cbn [c_st c_cp c_cv c_cw c_idx s_m s_t s_p s_v s_w s_om s_be s_sc s_inc s_sync set_pos set_vel set_aux set_sc] in *.
Lemma cdrift_sim I c h : consistent I c -> simulates I (cdrift c h) (strip (drift (c_st c) h)) (c_idx c).
Proof.
  intros (H1 & H2 & Hp & Hv & Ep & Ev & Hw). unfold simulates, cdrift. cbv zeta.
  rewrite (chain_advance_ok (npart (c_st c)) (c_idx c) _ _ (s_v (c_st c))) by auto. cbn [obind].
  eexists. split; [reflexivity|]. split; [|reflexivity]. split; [|reflexivity].
  unfold consistent, npart. sdc. repeat split; auto.
  - rewrite advance_length; auto. congruence.
  - apply chain_of_advance; auto.
  - apply Hw; auto.
  - apply Hw; auto.
Qed.
Lemma ckick_vel_sim I c a h : consistent I c -> length a = npart (c_st c) ->
  simulates I (ckick_vel c a h) (strip (kick_vel (c_st c) a h)) (c_idx c).
Proof.
  intros (H1 & H2 & Hp & Hv & Ep & Ev & Hw) Ha. unfold simulates, ckick_vel. cbv zeta.
  destruct (chain_of_ok (npart (c_st c)) (c_idx c) a) as (ca & Ea & La); auto. rewrite Ea. cbn [obind].
  rewrite (chain_advance_ok (npart (c_st c)) (c_idx c) _ _ a) by auto. cbn [obind].
  eexists. split; [reflexivity|]. split; [|reflexivity]. split; [|reflexivity].
  unfold consistent, npart. sdc. repeat split; auto.
  - rewrite advance_length; auto. congruence.
  - apply chain_of_advance; auto.
  - apply Hw; auto.
  - apply Hw; auto.
Qed.
Lemma ckick_aux_sim I c a h : consistent I c -> I_dep I = true -> length a = npart (c_st c) ->
  simulates I (ckick_aux c a h) (strip (kick_aux (c_st c) a h)) (c_idx c).
Proof.
  intros (H1 & H2 & Hp & Hv & Ep & Ev & Hw) Hd Ha. destruct (Hw Hd) as [Lw Ew]. unfold simulates, ckick_aux. cbv zeta.
  destruct (chain_of_ok (npart (c_st c)) (c_idx c) a) as (ca & Ea & La); auto. rewrite Ea. cbn [obind].
  rewrite (chain_advance_ok (npart (c_st c)) (c_idx c) _ _ a) by auto. cbn [obind].
  eexists. split; [reflexivity|]. split; [|reflexivity]. split; [|reflexivity].
  unfold consistent, npart. sdc. repeat split; auto.
  - rewrite advance_length; auto. unfold npart in *. congruence.
  - apply chain_of_advance; auto.
Qed.
(** Facts carried by [sim]. *)
Lemma sim_fields I c s : sim I c s -> s_m (c_st c) = s_m s /\ s_t (c_st c) = s_t s /\ s_p (c_st c) = s_p s /\ s_v (c_st c) = s_v s /\
  s_w (c_st c) = s_w s /\ s_om (c_st c) = s_om s /\ s_be (c_st c) = s_be s /\ s_sc (c_st c) = s_sc s.
Proof. intros [_ <-]. repeat split. Qed.
Lemma sim_npart I c s : sim I c s -> npart (c_st c) = npart s.
Proof. intros [_ <-]. reflexivity. Qed.
Lemma sim_strip I c s : sim I c s -> strip s = s.
Proof. intros [_ <-]. reflexivity. Qed.
Lemma consistent_sized I c : consistent I c ->
  length (s_p (c_st c)) = npart (c_st c) /\ length (s_v (c_st c)) = npart (c_st c) /\ (I_dep I = true -> length (s_w (c_st c)) = npart (c_st c)).
Proof. intros (H1 & H2 & Hp & Hv & Ep & Ev & Hw). repeat split; auto. apply Hw. Qed.
Lemma agree_newt I CI c : agree I CI (npart (c_st c)) -> consistent I c ->
  c_newt CI c = Ok (I_newt I (s_m (c_st c)) (s_p (c_st c))) /\
  (I_ind I = true -> c_ext CI c = Ok (I_vi I (s_m (c_st c)) (s_p (c_st c)))) /\
  (I_dep I = true -> c_dep_real CI c = Ok (I_vd I (s_m (c_st c)) (s_p (c_st c)) (s_v (c_st c))) /\
                     c_dep_aux CI c = Ok (I_vd I (s_m (c_st c)) (s_p (c_st c)) (s_w (c_st c)))).
Proof.
  intros A (H1 & H2 & Hp & Hv & Ep & Ev & Hw).
  destruct (A (s_m (c_st c)) (s_p (c_st c)) (s_v (c_st c)) (c_idx c) (c_cp c) (c_cv c)) as (A1 & A2 & A3); auto.
  split; auto. split; auto. intros Hd. split; [apply A3; auto|].
  destruct (Hw Hd) as [Lw Ew].
  destruct (A (s_m (c_st c)) (s_p (c_st c)) (s_w (c_st c)) (c_idx c) (c_cp c) (c_cw c)) as (_ & _ & A4); auto.
Qed.
Lemma creal_sim I CI vi c h : sized I -> I_dep I = true -> agree I CI (npart (c_st c)) -> consistent I c -> length vi = npart (c_st c) ->
  simulates I (ckick_real_vel CI vi c h) (strip (kick_real_vel I vi (c_st c) h)) (c_idx c).
Proof.
  intros HI Hd A C Hvi. unfold ckick_real_vel. destruct (agree_newt I CI c A C) as (_ & _ & A3). destruct (A3 Hd) as [_ E]. rewrite E. cbn [obind].
  apply ckick_vel_sim; auto. destruct (consistent_sized I c C) as (? & ? & ?). apply vd_len; auto.
Qed.
Lemma cpseu_sim I CI vi c h : sized I -> I_dep I = true -> agree I CI (npart (c_st c)) -> consistent I c -> length vi = npart (c_st c) ->
  simulates I (ckick_pseu_vel CI vi c h) (strip (kick_pseu_vel I vi (c_st c) h)) (c_idx c).
Proof.
  intros HI Hd A C Hvi. unfold ckick_pseu_vel. destruct (agree_newt I CI c A C) as (_ & _ & A3). destruct (A3 Hd) as [E _]. rewrite E. cbn [obind].
  apply ckick_aux_sim; auto. destruct (consistent_sized I c C) as (? & ? & ?). apply vd_len; auto.
Qed.
Lemma c_tot_vi_ok I CI c : agree I CI (npart (c_st c)) -> consistent I c ->
  c_tot_vi I CI c = Ok (tot_vi I (s_m (c_st c)) (s_p (c_st c))).
Proof.
  intros A C. destruct (agree_newt I CI c A C) as (A1 & A2 & _). unfold c_tot_vi, tot_vi. destruct (I_ind I); auto.
  rewrite A1, A2 by auto. reflexivity.
Qed.
(** Continuing a simulation. *)
Lemma sim_step I x s idx (f : cst -> outcome cst) (g : st -> st) :
  simulates I x s idx -> (forall c, sim I c s -> c_idx c = idx -> simulates I (f c) (g s) idx) -> simulates I (obind x f) (g s) idx.
Proof. intros (c & -> & S & E) H. cbn [obind]. apply H; auto. Qed.
Lemma ckick_sim I CI c h : sized I -> agree I CI (npart (c_st c)) -> consistent I c ->
  simulates I (ckick I CI c h) (strip (kick I (c_st c) h)) (c_idx c).
Proof.
  intros HI A C. destruct (consistent_sized I c C) as (Lp & Lv & Lw).
  assert (HV := tot_vi_length I (c_st c) HI Lp).
  unfold ckick. rewrite c_tot_vi_ok by auto. cbn [obind]. unfold kick, eval_total. set (vi := tot_vi I (s_m (c_st c)) (s_p (c_st c))) in *.
  destruct (I_dep I) eqn:Hd; [|apply ckick_vel_sim; auto]. cbv zeta.
  destruct (creal_sim I CI vi c (0.5 * h)) as (c1 & E1 & S1 & X1); auto. rewrite E1. cbn [obind].
  assert (N1 : npart (c_st c1) = npart (c_st c)) by (rewrite (sim_npart _ _ _ S1); reflexivity).
  destruct (cpseu_sim I CI vi c1 h) as (c2 & E2 & S2 & X2); auto; [rewrite N1; auto|apply S1|congruence|]. rewrite E2. cbn [obind].
  assert (N2 : npart (c_st c2) = npart (c_st c)) by (rewrite (sim_npart _ _ _ S2), <- N1; reflexivity).
  destruct (creal_sim I CI vi c2 (0.5 * h)) as (c3 & E3 & S3 & X3); auto; [rewrite N2; auto|apply S2|congruence|]. rewrite E3.
  exists c3. split; auto. split; [|congruence]. destruct S3 as [C3 S3]. split; auto. rewrite S3.
  destruct S2 as [_ S2]. destruct S1 as [_ S1].
  change (strip (kick_real_vel I vi (c_st c2) (0.5 * h))) with (kick_real_vel I vi (strip (c_st c2)) (0.5 * h)). rewrite S2.
  change (strip (kick_pseu_vel I vi (c_st c1) h)) with (kick_pseu_vel I vi (strip (c_st c1)) h). rewrite S1. reflexivity.
Qed.

(** AR-chain. *)
Lemma chn_consistent n idx m p v cp cv : (1 <= n)%nat -> is_index n idx -> length m = n -> length p = n -> length v = n ->
  chain_of n idx p = Ok cp -> chain_of n idx v = Ok cv -> chain_consistent (sys_of m p v) (chn_of cp cv idx).
Proof.
  intros H1 H2 Lm Lp Lv Ep Ev. destruct (chain_of_nth n idx p cp) as [_ VP]; auto. destruct (chain_of_nth n idx v cv) as [_ VV]; auto.
  split; simpl; rewrite Lm.
  - assert (map (fun i => nth i idx 0%nat) (seq 0 n) = idx) as ->; auto.
    assert (L : length idx = n) by (apply is_index_len; auto). rewrite <- L. clear. induction idx as [|x l IH]; simpl; auto.
    f_equal. rewrite <- seq_shift, map_map. exact IH.
  - intros i Hi. rewrite VP, VV by lia. unfold chain_at. destruct (Nat.eqb_spec i (n - 1)); [lia|]. auto.
Qed.
Lemma c_pot_ok I c : consistent I c -> (2 <= npart (c_st c))%nat -> c_pot c = Ok (pot (c_st c)).
Proof.
  intros (H1 & H2 & Hp & Hv & Ep & Ev & Hw) Hn. unfold c_pot, pot. apply chain_pe_eq; auto.
  apply (chn_consistent (npart (c_st c))); auto.
Qed.
Lemma cvel_phy_ok I r c h : consistent I c -> (2 <= npart (c_st c))%nat -> cvel_phy r c h = Ok (vel_phy r (c_st c) h).
Proof. intros C Hn. unfold cvel_phy, vel_phy. destruct r; auto; rewrite (c_pot_ok I) by auto; reflexivity. Qed.
Lemma consistent_set I c s' : consistent I c -> s_m s' = s_m (c_st c) -> s_p s' = s_p (c_st c) -> s_v s' = s_v (c_st c) -> s_w s' = s_w (c_st c) ->
  consistent I (cset_st c s').
Proof. intros C E1 E2 E3 E4. unfold consistent, npart in *. cbn [cset_st c_st c_cp c_cv c_cw c_idx]. rewrite E1, E2, E3, E4. exact C. Qed.
Lemma ardrift_sim I r c h : consistent I c -> simulates I (ardrift r c h) (strip (rdrift r (c_st c) h)) (c_idx c).
Proof.
  intros C. unfold ardrift, rdrift. destruct (pos_phy r (c_st c) h) as [dt sc] eqn:E.
  apply (cdrift_sim I (cset_st c (set_sc (c_st c) sc)) dt). apply consistent_set; auto.
Qed.
Lemma arpseu_sim I CI r vi newt ext c dt : sized I -> I_dep I = true -> agree I CI (npart (c_st c)) -> consistent I c ->
  length vi = npart (c_st c) ->
  simulates I (arkick_pseu I CI r vi newt ext c dt) (strip (rkick_pseu I r vi newt ext (c_st c) dt)) (c_idx c).
Proof.
  intros HI Hd A C Hvi. unfold arkick_pseu. destruct (agree_newt I CI c A C) as (_ & _ & A3). destruct (A3 Hd) as [E _]. rewrite E. cbn [obind].
  set (vd := I_vd I (s_m (c_st c)) (s_p (c_st c)) (s_v (c_st c))).
  destruct (ckick_aux_sim I c (vladd vi vd) dt) as (c1 & E1 & (C1 & S1) & X1); auto.
  { destruct (consistent_sized I c C) as (? & ? & ?). apply vd_len; auto. }
  rewrite E1. cbn [obind]. unfold rkick_pseu. cbv zeta. fold vd.
  destruct (I_ind I); eexists; (split; [reflexivity|]); (split; [|exact X1]); split.
  - repeat (apply consistent_set; auto).
  - change (strip (c_st (c_bindE I r (c_omega I r c1 newt dt) (vladd ext vd) dt))) with
      (advance_bindE I r (advance_omega I r (strip (c_st c1)) newt dt) (vladd ext vd) dt). rewrite S1. reflexivity.
  - repeat (apply consistent_set; auto).
  - change (strip (c_st (c_bindE I r (c_omega I r c1 newt dt) vd dt))) with
      (advance_bindE I r (advance_omega I r (strip (c_st c1)) newt dt) vd dt). rewrite S1. reflexivity.
Qed.
Lemma arkick_sim I CI r c h : sized I -> agree I CI (npart (c_st c)) -> consistent I c -> (2 <= npart (c_st c))%nat ->
  simulates I (arkick I CI r c h) (strip (rkick I r (c_st c) h)) (c_idx c).
Proof.
  intros HI A C Hn. unfold arkick. rewrite (cvel_phy_ok I) by auto. cbn [obind]. rewrite rkick_eq. unfold vdt.
  destruct (vel_phy r (c_st c) h) as [dt sc]. cbn [fst snd]. clear h.
  set (c0 := cset_st c (set_sc (c_st c) sc)). assert (C0 : consistent I c0) by (apply consistent_set; auto).
  change (npart (c_st c)) with (npart (c_st c0)) in A, Hn. change (set_sc (c_st c) sc) with (c_st c0).
  change (c_idx c) with (c_idx c0). clearbody c0. clear C c. rename c0 into c, C0 into C.
  destruct (agree_newt I CI c A C) as (A1 & A2 & _). rewrite A1. cbn [obind].
  destruct (consistent_sized I c C) as (Lp & Lv & Lw).
  pose proof (vi_of_length I (c_st c) HI Lp) as HV.
  unfold rkick_body. cbv zeta. set (newt := I_newt I (s_m (c_st c)) (s_p (c_st c))).
  set (vi := vi_of I (s_m (c_st c)) (s_p (c_st c))) in *.
  set (ext' := I_vi I (s_m (c_st c)) (s_p (c_st c))) in *.
  change (if I_ind I then vladd ext' newt else newt) with vi.
  assert (X : exists ext, (if I_ind I then c_ext CI c else Ok []) = Ok ext /\ (I_ind I = true -> ext = ext')).
  { destruct (I_ind I); [exists ext'; rewrite A2; auto|exists []; split; [auto|discriminate]]. }
  destruct X as (ext & -> & X). cbn [obind].
  assert (Y : (if I_ind I then vladd ext newt else newt) = vi).
  { unfold vi, vi_of. destruct (I_ind I); [rewrite X by auto|]; reflexivity. }
  rewrite Y. destruct (I_dep I) eqn:Hd.
  - destruct (creal_sim I CI vi c (0.5 * dt)) as (c1 & E1 & S1 & X1); auto. rewrite E1. cbn [obind].
    assert (N1 : npart (c_st c1) = npart (c_st c)) by (rewrite (sim_npart _ _ _ S1); reflexivity).
    destruct (arpseu_sim I CI r vi newt ext c1 dt) as (c2 & E2 & S2 & X2); auto; [rewrite N1; auto|apply S1|congruence|].
    rewrite E2. cbn [obind].
    assert (N2 : npart (c_st c2) = npart (c_st c)).
    { rewrite (sim_npart _ _ _ S2), <- N1. unfold rkick_pseu. cbv zeta. destruct (I_ind I); reflexivity. }
    destruct (creal_sim I CI vi c2 (0.5 * dt)) as (c3 & E3 & S3 & X3); auto; [rewrite N2; auto|apply S2|congruence|]. rewrite E3.
    exists c3. split; auto. split; [|congruence]. destruct S3 as [C3 S3]. split; auto. rewrite S3.
    destruct S2 as [_ S2]. destruct S1 as [_ S1].
    change (strip (kick_real_vel I vi (c_st c2) (0.5 * dt))) with (kick_real_vel I vi (strip (c_st c2)) (0.5 * dt)). rewrite S2.
    assert (Z : forall s, strip (rkick_pseu I r vi newt ext s dt) = rkick_pseu I r vi newt ext' (strip s) dt).
    { intros s. unfold rkick_pseu. cbv zeta. destruct (I_ind I); [rewrite X by auto|]; reflexivity. }
    rewrite Z, S1.
    assert (Z' : forall s, strip (rkick_pseu I r vi newt ext' s dt) = rkick_pseu I r vi newt ext' (strip s) dt).
    { intros s. unfold rkick_pseu. cbv zeta. destruct (I_ind I); reflexivity. }
    change (strip (kick_real_vel I vi (rkick_pseu I r vi newt ext' (kick_real_vel I vi (c_st c) (0.5 * dt)) dt) (0.5 * dt)))
      with (kick_real_vel I vi (strip (rkick_pseu I r vi newt ext' (kick_real_vel I vi (c_st c) (0.5 * dt)) dt)) (0.5 * dt)).
    rewrite Z'. reflexivity.
  - set (c1 := c_omega I r c newt (0.5 * dt)).
    set (c2 := if I_ind I then c_bindE I r c1 ext (0.5 * dt) else c1).
    assert (C2 : consistent I c2 /\ npart (c_st c2) = npart (c_st c) /\ c_idx c2 = c_idx c).
    { unfold c2. destruct (I_ind I); (split; [repeat (apply consistent_set; auto)|split; auto]). }
    destruct C2 as (C2 & N2 & X2).
    destruct (ckick_vel_sim I c2 vi dt) as (c3 & E3 & (C3 & S3) & X3); [auto|congruence|]. rewrite E3. cbn [obind].
    eexists. split; [reflexivity|]. split; [|unfold c_omega, c_bindE; destruct (I_ind I); cbn [cset_st c_idx]; congruence].
    split.
    + destruct (I_ind I); repeat (apply consistent_set; auto).
    + assert (Q : strip (c_st c2) = (if I_ind I then advance_bindE I r (advance_omega I r (strip (c_st c)) newt (0.5 * dt)) ext' (0.5 * dt)
                                     else advance_omega I r (strip (c_st c)) newt (0.5 * dt))).
      { unfold c2. destruct (I_ind I); [rewrite X by auto|]; reflexivity. }
      rewrite strip_kick_vel, Q in S3.
      destruct (I_ind I).
      * rewrite X by auto. change (strip (c_st (c_omega I r (c_bindE I r c3 ext' (0.5 * dt)) newt (0.5 * dt)))) with
          (advance_omega I r (advance_bindE I r (strip (c_st c3)) ext' (0.5 * dt)) newt (0.5 * dt)). rewrite S3. reflexivity.
      * change (strip (c_st (c_omega I r c3 newt (0.5 * dt)))) with (advance_omega I r (strip (c_st c3)) newt (0.5 * dt)). rewrite S3. reflexivity.
Qed.

(** Whole integrations. *)
Lemma ointegrate_sim (I : inter) (n : nat) (cdr cki : cst -> R -> outcome cst) (dr ki : st -> R -> st) l c h :
  (forall s h, strip (dr s h) = dr (strip s) h) -> (forall s h, strip (ki s h) = ki (strip s) h) ->
  (forall s h, npart (dr s h) = npart s) -> (forall s h, npart (ki s h) = npart s) ->
  (forall c h, consistent I c -> npart (c_st c) = n -> simulates I (cdr c h) (strip (dr (c_st c) h)) (c_idx c)) ->
  (forall c h, consistent I c -> npart (c_st c) = n -> simulates I (cki c h) (strip (ki (c_st c) h)) (c_idx c)) ->
  consistent I c -> npart (c_st c) = n ->
  simulates I (ointegrate cdr cki l c h) (strip (integrate dr ki l (c_st c) h)) (c_idx c).
Proof.
  intros Sd Sk Nd Nk Hd Hk. unfold ointegrate. rewrite strip_integrate by auto. revert c.
  induction l as [|o l IH]; intros c C N.
  - exists c. split; [reflexivity|]. split; [|reflexivity]. split; [exact C|reflexivity].
  - cbn [fold_left]. assert (X : simulates I (orun_op cdr cki h (Ok c) o) (strip (run_op dr ki h (c_st c) o)) (c_idx c)).
    { destruct o; cbn [orun_op obind run_op]; auto. }
    destruct X as (c1 & E1 & S1 & X1). rewrite E1.
    assert (N1 : npart (c_st c1) = n).
    { rewrite (sim_npart _ _ _ S1). change (npart (strip (run_op dr ki h (c_st c) o))) with (npart (run_op dr ki h (c_st c) o)).
      destruct o; cbn [run_op]; [rewrite Nd|rewrite Nk]; auto. }
    destruct (IH c1) as (c2 & E2 & S2 & X2); [apply S1|auto|].
    exists c2. split; auto. split; [|congruence]. destruct S2 as [C2 S2]. split; auto. rewrite S2.
    change (integrate dr ki (o :: l) (strip (c_st c)) h) with (integrate dr ki l (run_op dr ki h (strip (c_st c)) o) h).
    f_equal. rewrite (proj2 S1). destruct o; cbn [run_op]; auto.
Qed.
Lemma npart_kick I s h : npart (kick I s h) = npart s. Proof. unfold kick. destruct (I_dep I); reflexivity. Qed.
Lemma npart_rdrift r s h : npart (rdrift r s h) = npart s. Proof. rewrite rdrift_eq. reflexivity. Qed.
Lemma npart_rkick I r s h : npart (rkick I r s h) = npart s.
Proof. rewrite rkick_eq. unfold npart. rewrite (proj1 (proj2 (rkick_body_pm I r _ _))). reflexivity. Qed.
Lemma chain_sim I CI l c h : sized I -> agree I CI (npart (c_st c)) -> consistent I c ->
  simulates I (ointegrate cdrift (ckick I CI) l c h) (strip (integrate drift (kick I) l (c_st c) h)) (c_idx c).
Proof.
  intros HI A C. apply (ointegrate_sim I (npart (c_st c))); auto; try reflexivity.
  - intros; apply strip_kick.
  - intros; apply npart_kick.
  - intros; apply cdrift_sim; auto.
  - intros c0 h0 C0 N0. apply ckick_sim; auto. rewrite N0; auto.
Qed.
Lemma archain_sim I CI r l c h : sized I -> agree I CI (npart (c_st c)) -> consistent I c -> (2 <= npart (c_st c))%nat ->
  simulates I (ointegrate (ardrift r) (arkick I CI r) l c h) (strip (integrate (rdrift r) (rkick I r) l (c_st c) h)) (c_idx c).
Proof.
  intros HI A C Hn. apply (ointegrate_sim I (npart (c_st c))); auto.
  - intros; apply strip_rdrift.
  - intros; apply strip_rkick.
  - intros; apply npart_rdrift.
  - intros; apply npart_rkick.
  - intros; apply ardrift_sim; auto.
  - intros c0 h0 C0 N0. apply arkick_sim; auto; rewrite N0; auto.
Qed.
(** Newtonian forces along the chain agree with the direct ones. *)
Lemma newton_agree n : (2 <= n)%nat -> agree newton_only chain_newton_only n.
Proof.
  intros Hn m p v idx cp cv Lm Lp Lv Hi Ep Ev. split; [|split; discriminate]. simpl. unfold chain_newton, newton_acc. cbv zeta.
  set (s := sys_of m p []).
  destruct (chain_of_ok n idx (repeat vzero n)) as (cz & Ez & _); [lia|auto|apply repeat_length|].
  assert (Cc : chain_consistent s (chn_of cp [] idx)).
  { destruct (chn_consistent n idx m p v cp cv) as [P Q]; auto; [lia|]. split; auto. intros i Hi'. split; [apply Q; auto|].
    unfold s, sys_of, chn_of; simpl. destruct i; destruct (nth _ idx 0%nat); destruct (nth _ idx 0%nat); vring. }
  destruct (chain_acc_eq (newton_pair (sm s)) s (chn_of cp [] idx)) as (l & l' & E & _ & V); auto.
  - apply newton_exchange.
  - unfold s; simpl. lia.
  - fold s. rewrite E. cbn [obind]. f_equal. unfold tolist. apply map_ext. intros i. apply V.
Qed.
(** Consistent states with the same Cartesian part and index are equal up to the increment. *)
Lemma consistent_unique I c c' : consistent I c -> consistent I c' -> c_idx c = c_idx c' -> strip (c_st c) = strip (c_st c') ->
  c_cp c = c_cp c' /\ c_cv c = c_cv c' /\ (I_dep I = true -> c_cw c = c_cw c').
Proof.
  intros (H1 & H2 & Hp & Hv & Ep & Ev & Hw) (H1' & H2' & Hp' & Hv' & Ep' & Ev' & Hw') Ei Es.
  assert (Em : s_m (c_st c) = s_m (c_st c')) by (change (s_m (c_st c)) with (s_m (strip (c_st c))); rewrite Es; reflexivity).
  assert (E1 : s_p (c_st c) = s_p (c_st c')) by (change (s_p (c_st c)) with (s_p (strip (c_st c))); rewrite Es; reflexivity).
  assert (E2 : s_v (c_st c) = s_v (c_st c')) by (change (s_v (c_st c)) with (s_v (strip (c_st c))); rewrite Es; reflexivity).
  assert (E3 : s_w (c_st c) = s_w (c_st c')) by (change (s_w (c_st c)) with (s_w (strip (c_st c))); rewrite Es; reflexivity).
  unfold npart in *. rewrite Em, E1, Ei, Ep' in Ep. rewrite Em, E2, Ei, Ev' in Ev. split; [congruence|]. split; [congruence|].
  intros Hd. destruct (Hw Hd) as [_ Ew]. destruct (Hw' Hd) as [_ Ew']. rewrite Em, E3, Ei, Ew' in Ew. congruence.
Qed.
(** Re-indexing. *)
Lemma post_iter_sim I c new_idx : consistent I c -> I_dep I = false -> Permutation new_idx (seq 0 (npart (c_st c))) ->
  exists c', post_iter new_idx c = Ok c' /\ consistent I c' /\ c_idx c' = new_idx /\ c_st c' = c_st c.
Proof.
  intros C Hd Hn. pose proof C as (H1 & H2 & Hp & Hv & Ep & Ev & Hw). unfold post_iter. cbv zeta.
  destruct (list_eq_dec Nat.eq_dec new_idx (c_idx c)) as [->|Hne]; [exists c; auto|].
  assert (LB : length (blank (npart (c_st c))) = npart (c_st c)) by (unfold blank; apply repeat_length).
  rewrite (update_chain_ok (npart (c_st c)) (c_idx c) new_idx (s_p (c_st c)) (c_cp c) (blank (npart (c_st c))) (blank (npart (c_st c)))) by auto.
  destruct (round_trip (npart (c_st c)) new_idx (s_p (c_st c)) (blank (npart (c_st c))) (s_p (c_st c))) as (cp' & E1 & E2); auto.
  rewrite E1. cbn [obind]. rewrite E2. cbn [obind].
  rewrite (update_chain_ok (npart (c_st c)) (c_idx c) new_idx (s_v (c_st c)) (c_cv c) (blank (npart (c_st c))) (blank (npart (c_st c)))) by auto.
  destruct (round_trip (npart (c_st c)) new_idx (s_v (c_st c)) (blank (npart (c_st c))) (s_v (c_st c))) as (cv' & E3 & E4); auto.
  rewrite E3. cbn [obind]. rewrite E4. cbn [obind].
  eexists. split; [reflexivity|]. cbn [c_st c_idx].
  assert (Z : mkSt (s_m (c_st c)) (s_t (c_st c)) (s_p (c_st c)) (s_v (c_st c)) (s_w (c_st c)) (s_om (c_st c)) (s_be (c_st c)) (s_sc (c_st c))
     (s_inc (c_st c)) (s_sync (c_st c)) = c_st c) by (destruct (c_st c); reflexivity).
  rewrite Z. split; [|split; auto]. unfold consistent. cbn [c_st c_cp c_cv c_cw c_idx]. repeat split; auto; congruence.
Qed.

(** Chain increments. *)
Definition gcwrite (I : inter) (e : nat) (c : cst) : list R :=
  pack (s_t (c_st c)) (c_cp c) (c_cv c) (auxl I (c_cw c)) (if (e =? 3)%nat then [s_om (c_st c); s_be (c_st c)] else []).
Definition ctracks (I : inter) (e : nat) (y0 : list R) (c : cst) : Prop :=
  s_sync (c_st c) = true /\ length (s_inc (c_st c)) = length y0 /\ gcwrite I e c = zip_add y0 (s_inc (c_st c)).
Lemma consistent_chain_len I c : consistent I c -> length (c_cp c) = npart (c_st c) /\ length (c_cv c) = npart (c_st c) /\
  (I_dep I = true -> length (c_cw c) = npart (c_st c)).
Proof.
  intros (H1 & H2 & Hp & Hv & Ep & Ev & Hw). split; [|split].
  - eapply (proj1 (chain_of_nth _ _ _ _ H1 H2 Hp Ep)).
  - eapply (proj1 (chain_of_nth _ _ _ _ H1 H2 Hv Ev)).
  - intros Hd. destruct (Hw Hd) as [Lw Ew]. eapply (proj1 (chain_of_nth _ _ _ _ H1 H2 Lw Ew)).
Qed.
Lemma ctracks_drift I e y0 c h c' : consistent I c -> cdrift c h = Ok c' -> ctracks I e y0 c -> ctracks I e y0 c'.
Proof.
  intros C E (S & L & T). pose proof (consistent_chain_len I c C) as (Lp & Lv & Lw). destruct C as (H1 & H2 & Hp & Hv & Ep & Ev & Hw).
  unfold cdrift in E. cbv zeta in E. rewrite (chain_advance_ok (npart (c_st c)) (c_idx c) _ _ (s_v (c_st c))) in E by auto. cbn [obind] in E.
  assert (E' := f_equal (fun o => match o with Ok x => x | _ => c' end) E). simpl in E'. subst c'. clear E.
  unfold ctracks, set_pos. cbn [c_st s_sync s_inc]. unfold sync. rewrite S. rewrite !add_at_length. split; auto. split; auto.
  rewrite !zip_add_at by (rewrite ?add_at_length; auto). rewrite <- T.
  unfold gcwrite. sdc. unfold time_offset. rewrite pack_t. rewrite pack_a with (n := npart (c_st c)) by auto. reflexivity.
Qed.
Lemma ctracks_kick_vel I e y0 c a h c' : consistent I c -> length a = npart (c_st c) -> ckick_vel c a h = Ok c' -> ctracks I e y0 c -> ctracks I e y0 c'.
Proof.
  intros C Ha E (S & L & T). pose proof (consistent_chain_len I c C) as (Lp & Lv & Lw). destruct C as (H1 & H2 & Hp & Hv & Ep & Ev & Hw).
  unfold ckick_vel in E. cbv zeta in E. destruct (chain_of_ok (npart (c_st c)) (c_idx c) a) as (ca & Ea & La); auto. rewrite Ea in E. cbn [obind] in E.
  rewrite (chain_advance_ok (npart (c_st c)) (c_idx c) _ _ a) in E by auto. cbn [obind] in E.
  assert (E' := f_equal (fun o => match o with Ok x => x | _ => c' end) E). simpl in E'. subst c'. clear E.
  unfold ctracks, set_vel. cbn [c_st s_sync s_inc]. unfold sync. rewrite S. rewrite !add_at_length. split; auto. split; auto.
  rewrite !zip_add_at by (rewrite ?add_at_length; auto). rewrite <- T.
  unfold gcwrite. sdc. rewrite pack_b by auto. reflexivity.
Qed.
Lemma ctracks_kick_aux I e y0 c a h c' : I_dep I = true -> consistent I c -> length a = npart (c_st c) -> ckick_aux c a h = Ok c' ->
  ctracks I e y0 c -> ctracks I e y0 c'.
Proof.
  intros Hd C Ha E (S & L & T). pose proof (consistent_chain_len I c C) as (Lp & Lv & Lw). destruct C as (H1 & H2 & Hp & Hv & Ep & Ev & Hw).
  destruct (Hw Hd) as [Lww Eww].
  unfold ckick_aux in E. cbv zeta in E. destruct (chain_of_ok (npart (c_st c)) (c_idx c) a) as (ca & Ea & La); auto. rewrite Ea in E. cbn [obind] in E.
  rewrite (chain_advance_ok (npart (c_st c)) (c_idx c) _ _ a) in E by auto. cbn [obind] in E.
  assert (E' := f_equal (fun o => match o with Ok x => x | _ => c' end) E). simpl in E'. subst c'. clear E.
  unfold ctracks, set_aux. cbn [c_st s_sync s_inc]. unfold sync. rewrite S. rewrite !add_at_length. split; auto. split; auto.
  rewrite !zip_add_at by (rewrite ?add_at_length; auto). rewrite <- T.
  unfold gcwrite. sdc. unfold auxl. rewrite Hd. rewrite pack_c by auto. reflexivity.
Qed.
Lemma ctracks_real I CI e y0 vi c h c' : sized I -> I_dep I = true -> agree I CI (npart (c_st c)) -> consistent I c -> length vi = npart (c_st c) ->
  ckick_real_vel CI vi c h = Ok c' -> ctracks I e y0 c -> ctracks I e y0 c'.
Proof.
  intros HI Hd A C Hvi E T. unfold ckick_real_vel in E. destruct (agree_newt I CI c A C) as (_ & _ & A3). destruct (A3 Hd) as [_ X]. rewrite X in E. cbn [obind] in E.
  eapply ctracks_kick_vel; [exact C| |exact E|exact T]. destruct (consistent_sized I c C) as (? & ? & ?). apply vd_len; auto.
Qed.
Lemma ctracks_kick I CI e y0 c h c' : sized I -> agree I CI (npart (c_st c)) -> consistent I c -> ckick I CI c h = Ok c' ->
  ctracks I e y0 c -> ctracks I e y0 c'.
Proof.
  intros HI A C E T. destruct (consistent_sized I c C) as (Lp & Lv & Lw).
  assert (HV := tot_vi_length I (c_st c) HI Lp).
  unfold ckick in E. rewrite c_tot_vi_ok in E by auto. cbn [obind] in E. set (vi := tot_vi I (s_m (c_st c)) (s_p (c_st c))) in *.
  destruct (I_dep I) eqn:Hd; [|eapply ctracks_kick_vel; eauto]. cbv zeta in E.
  destruct (creal_sim I CI vi c (0.5 * h)) as (c1 & E1 & S1 & X1); auto. rewrite E1 in E. cbn [obind] in E.
  assert (N1 : npart (c_st c1) = npart (c_st c)) by (rewrite (sim_npart _ _ _ S1); reflexivity).
  assert (T1 : ctracks I e y0 c1) by (eapply ctracks_real; [..|exact E1|]; eauto).
  destruct (cpseu_sim I CI vi c1 h) as (c2 & E2 & S2 & X2); auto; [rewrite N1; auto|apply S1|congruence|]. rewrite E2 in E. cbn [obind] in E.
  assert (N2 : npart (c_st c2) = npart (c_st c)) by (rewrite (sim_npart _ _ _ S2), <- N1; reflexivity).
  assert (T2 : ctracks I e y0 c2).
  { unfold ckick_pseu_vel in E2. assert (C1 := proj1 S1). destruct (agree_newt I CI c1) as (_ & _ & A3); [rewrite N1; auto|auto|].
    destruct (A3 Hd) as [X _]. rewrite X in E2. cbn [obind] in E2. eapply ctracks_kick_aux; [..|exact E2|]; auto.
    destruct (consistent_sized I c1 C1) as (? & ? & ?). apply vd_len; auto; congruence. }
  eapply ctracks_real; [..|exact E|]; eauto; [rewrite N2; auto|apply S2|congruence].
Qed.
Lemma ctracks_omega I r y0 c a h : consistent I c -> ctracks I 3 y0 c -> ctracks I 3 y0 (c_omega I r c a h).
Proof.
  intros C (S & L & T). pose proof (consistent_chain_len I c C) as (Lp & Lv & Lw).
  unfold ctracks, c_omega, advance_omega. cbn [cset_st c_st s_sync s_inc]. unfold sync. rewrite S. rewrite !add_at_length. split; auto. split; auto.
  rewrite !zip_add_at by (rewrite ?add_at_length; auto). rewrite <- T. unfold gcwrite. sdc. cbn [Nat.eqb cset_st c_cp c_cv c_cw c_st s_t s_om s_be].
  rewrite (proj1 (pack_om I (s_t (c_st c)) (c_cp c) (c_cv c) (c_cw c) (s_om (c_st c)) (s_be (c_st c)) _ (npart (c_st c)) Lp Lv Lw)). reflexivity.
Qed.
Lemma ctracks_bindE I r y0 c a h : consistent I c -> ctracks I 3 y0 c -> ctracks I 3 y0 (c_bindE I r c a h).
Proof.
  intros C (S & L & T). pose proof (consistent_chain_len I c C) as (Lp & Lv & Lw).
  unfold ctracks, c_bindE, advance_bindE. cbn [cset_st c_st s_sync s_inc]. unfold sync. rewrite S. rewrite !add_at_length. split; auto. split; auto.
  rewrite !zip_add_at by (rewrite ?add_at_length; auto). rewrite <- T. unfold gcwrite. sdc. cbn [Nat.eqb cset_st c_cp c_cv c_cw c_st s_t s_om s_be].
  rewrite (proj2 (pack_om I (s_t (c_st c)) (c_cp c) (c_cv c) (c_cw c) (s_om (c_st c)) (s_be (c_st c)) _ (npart (c_st c)) Lp Lv Lw)). reflexivity.
Qed.
Lemma ctracks_ardrift I r y0 c h c' : consistent I c -> ardrift r c h = Ok c' -> ctracks I 3 y0 c -> ctracks I 3 y0 c'.
Proof.
  intros C E T. unfold ardrift in E. destruct (pos_phy r (c_st c) h) as [dt sc].
  eapply ctracks_drift; [|exact E|]; [apply consistent_set; auto|exact T].
Qed.
Lemma ctracks_arkick I CI r y0 c h c' : sized I -> agree I CI (npart (c_st c)) -> consistent I c -> (2 <= npart (c_st c))%nat ->
  arkick I CI r c h = Ok c' -> ctracks I 3 y0 c -> ctracks I 3 y0 c'.
Proof.
  intros HI A C Hn E T. unfold arkick in E. rewrite (cvel_phy_ok I) in E by auto. cbn [obind] in E.
  destruct (vel_phy r (c_st c) h) as [dt sc].
  set (c0 := cset_st c (set_sc (c_st c) sc)) in E. assert (C0 : consistent I c0) by (apply consistent_set; auto).
  assert (T0 : ctracks I 3 y0 c0) by exact T.
  change (npart (c_st c)) with (npart (c_st c0)) in A, Hn. clearbody c0. clear C T c. rename c0 into c, C0 into C, T0 into T.
  destruct (agree_newt I CI c A C) as (A1 & A2 & _). rewrite A1 in E. cbn [obind] in E.
  destruct (consistent_sized I c C) as (Lp & Lv & Lw).
  pose proof (vi_of_length I (c_st c) HI Lp) as HV.
  set (newt := I_newt I (s_m (c_st c)) (s_p (c_st c))) in *.
  set (vi := vi_of I (s_m (c_st c)) (s_p (c_st c))) in *.
  set (ext' := I_vi I (s_m (c_st c)) (s_p (c_st c))) in *.
  assert (X : exists ext, (if I_ind I then c_ext CI c else Ok []) = Ok ext /\ (I_ind I = true -> ext = ext')).
  { destruct (I_ind I); [exists ext'; rewrite A2; auto|exists []; split; [auto|discriminate]]. }
  destruct X as (ext & EX & X). rewrite EX in E. cbn [obind] in E.
  assert (Y : (if I_ind I then vladd ext newt else newt) = vi).
  { unfold vi, vi_of. destruct (I_ind I); [rewrite X by auto|]; reflexivity. }
  rewrite Y in E. destruct (I_dep I) eqn:Hd.
  - destruct (creal_sim I CI vi c (0.5 * dt)) as (c1 & E1 & S1 & X1); auto. rewrite E1 in E. cbn [obind] in E.
    assert (N1 : npart (c_st c1) = npart (c_st c)) by (rewrite (sim_npart _ _ _ S1); reflexivity).
    assert (T1 : ctracks I 3 y0 c1) by (eapply ctracks_real; [..|exact E1|]; eauto).
    assert (C1 := proj1 S1).
    destruct (arpseu_sim I CI r vi newt ext c1 dt) as (c2 & E2 & S2 & X2); auto; [rewrite N1; auto|congruence|].
    rewrite E2 in E. cbn [obind] in E.
    assert (N2 : npart (c_st c2) = npart (c_st c)).
    { rewrite (sim_npart _ _ _ S2), <- N1. unfold rkick_pseu. cbv zeta. destruct (I_ind I); reflexivity. }
    assert (T2 : ctracks I 3 y0 c2).
    { unfold arkick_pseu in E2. destruct (agree_newt I CI c1) as (_ & _ & A3); [rewrite N1; auto|auto|].
      destruct (A3 Hd) as [Q _]. rewrite Q in E2. cbn [obind] in E2.
      set (vd := I_vd I (s_m (c_st c1)) (s_p (c_st c1)) (s_v (c_st c1))) in *.
      assert (LL : length (vladd vi vd) = npart (c_st c1)).
      { destruct (consistent_sized I c1 C1) as (? & ? & ?). apply vd_len; auto; congruence. }
      destruct (ckick_aux_sim I c1 (vladd vi vd) dt) as (c5 & E5 & (C5 & S5) & X5); auto.
      rewrite E5 in E2. cbn [obind] in E2.
      assert (T5 : ctracks I 3 y0 c5) by (eapply ctracks_kick_aux; [..|exact E5|]; auto).
      assert (E2' := f_equal (fun o => match o with Ok x => x | _ => c2 end) E2). cbv beta iota in E2'. subst c2.
      destruct (I_ind I); apply ctracks_bindE; try (apply ctracks_omega; auto); repeat (apply consistent_set; auto). }
    eapply ctracks_real; [..|exact E|]; eauto; [rewrite N2; auto|apply S2|congruence].
  - set (c1 := c_omega I r c newt (0.5 * dt)) in *.
    assert (C1 : consistent I c1) by (apply consistent_set; auto).
    assert (T1 : ctracks I 3 y0 c1) by (apply ctracks_omega; auto).
    set (c2 := if I_ind I then c_bindE I r c1 ext (0.5 * dt) else c1) in *.
    assert (C2 : consistent I c2 /\ npart (c_st c2) = npart (c_st c) /\ ctracks I 3 y0 c2).
    { unfold c2. destruct (I_ind I); (split; [repeat (apply consistent_set; auto)|split; auto]); auto. apply ctracks_bindE; auto. }
    destruct C2 as (C2 & N2 & T2).
    destruct (ckick_vel_sim I c2 vi dt) as (c3 & E3 & (C3 & S3) & X3); [auto|congruence|]. rewrite E3 in E. cbn [obind] in E.
    assert (T3 : ctracks I 3 y0 c3) by (eapply ctracks_kick_vel; [..|exact E3|]; auto; congruence).
    assert (E' := f_equal (fun o => match o with Ok x => x | _ => c' end) E). cbv beta iota in E'. subst c'.
    apply ctracks_omega; destruct (I_ind I); auto; try (apply ctracks_bindE; auto); apply consistent_set; auto.
Qed.
