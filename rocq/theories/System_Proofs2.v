From Verif Require Import System_Model System_Spec Force_Spec Force_Proofs Chain_Proofs System_Proofs.
Open Scope R_scope.

Lemma tolist_nth {A} n (f : nat -> A) i d : (i < n)%nat -> nth i (tolist n f) d = f i.
Proof.
  intros H. unfold tolist. rewrite nth_indep with (d' := f 0%nat) by (rewrite map_length, seq_length; auto).
  rewrite map_nth, seq_nth; auto.
Qed.
Lemma tolist_length {A} n (f : nat -> A) : length (tolist n f) = n.
Proof. unfold tolist. rewrite map_length, seq_length; auto. Qed.

(** * conservation *)
Lemma net_force_add m a b : length b = length a -> net_force m (vladd a b) = vadd (net_force m a) (net_force m b).
Proof.
  intros H. unfold net_force. rewrite <- vsum_add. apply vsum_ext. intros i _. rewrite vladd_nth by auto. apply vscal_vadd.
Qed.
Lemma net_torque_add m p a b : length b = length a -> net_torque m p (vladd a b) = vadd (net_torque m p a) (net_torque m p b).
Proof.
  intros H. unfold net_torque. rewrite <- vsum_add. apply vsum_ext. intros i _. rewrite vladd_nth, cross_vadd_r by auto. apply vscal_vadd.
Qed.
Lemma conserves_refl s : conserves s s.
Proof. repeat split; auto. rewrite Rminus_diag_eq, vscal_0_l, vadd_0_r; auto. Qed.
Lemma conserves_trans a b c : conserves a b -> conserves b c -> conserves a c.
Proof.
  intros (A1 & A2 & A3 & A4) (B1 & B2 & B3 & B4). repeat split; try congruence.
  rewrite B4, A4, A1. generalize (moment a), (momentum a), (s_t a), (s_t b), (s_t c). intros; vring.
Qed.
Lemma conserves_drift s h : length (s_v s) = length (s_p s) -> conserves s (drift s h).
Proof.
  intros H. unfold conserves, momentum, angular, moment, npart, drift. cbn [s_m s_p s_v s_t]. repeat split; auto.
  - apply vsum_ext. intros i _. rewrite advance_nth by auto.
    generalize (nth i (s_m s) 0), (nth i (s_p s) vzero), (nth i (s_v s) vzero). intros; vring.
  - rewrite <- vsum_scal, <- vsum_add. apply vsum_ext. intros i _. rewrite advance_nth by auto.
    generalize (nth i (s_m s) 0), (nth i (s_p s) vzero), (nth i (s_v s) vzero), (s_t s). intros; vring.
Qed.
Lemma conserves_kick_vel s a h : length a = length (s_v s) -> net_force (s_m s) a = vzero -> net_torque (s_m s) (s_p s) a = vzero ->
  conserves s (kick_vel s a h).
Proof.
  intros H HF HT. unfold conserves, momentum, angular, moment, npart, kick_vel. cbn [s_m s_p s_v s_t]. repeat split; auto.
  - rewrite (vsum_ext _ (fun i => vadd (vscal (nth i (s_m s) 0) (nth i (s_v s) vzero)) (vscal h (vscal (nth i (s_m s) 0) (nth i a vzero))))).
    + rewrite vsum_add, vsum_scal. unfold net_force in HF. rewrite HF, vscal_0, vadd_0_r; auto.
    + intros i _. rewrite advance_nth by auto. generalize (nth i (s_m s) 0), (nth i (s_v s) vzero), (nth i a vzero). intros; vring.
  - rewrite (vsum_ext _ (fun i => vadd (vscal (nth i (s_m s) 0) (cross (nth i (s_p s) vzero) (nth i (s_v s) vzero)))
                                       (vscal h (vscal (nth i (s_m s) 0) (cross (nth i (s_p s) vzero) (nth i a vzero)))))).
    + rewrite vsum_add, vsum_scal. unfold net_torque in HT. rewrite HT, vscal_0, vadd_0_r; auto.
    + intros i _. rewrite advance_nth by auto.
      generalize (nth i (s_m s) 0), (nth i (s_v s) vzero), (nth i a vzero), (nth i (s_p s) vzero). intros; vring.
  - rewrite Rminus_diag_eq, vscal_0_l, vadd_0_r; auto.
Qed.
(** A change of anything but time, masses, positions and velocities. *)
Lemma conserves_other s s' : s_m s' = s_m s -> s_p s' = s_p s -> s_v s' = s_v s -> s_t s' = s_t s -> conserves s s'.
Proof.
  intros E1 E2 E3 E4. unfold conserves, momentum, angular, moment, npart. rewrite E1, E2, E3, E4. repeat split; auto.
  rewrite Rminus_diag_eq, vscal_0_l, vadd_0_r; auto.
Qed.
Lemma balanced_vi I s : sized I -> balanced I -> length (s_p s) = npart s ->
  (net_force (s_m s) (tot_vi I (s_m s) (s_p s)) = vzero /\ net_torque (s_m s) (s_p s) (tot_vi I (s_m s) (s_p s)) = vzero) /\
  (net_force (s_m s) (vi_of I (s_m s) (s_p s)) = vzero /\ net_torque (s_m s) (s_p s) (vi_of I (s_m s) (s_p s)) = vzero).
Proof.
  intros HI HB Hp. destruct (HB (s_m s) (s_p s) (s_p s) Hp Hp) as ((A & B) & C & _).
  destruct (HI (s_m s) (s_p s) (s_p s) Hp Hp) as (L1 & L2 & _).
  unfold tot_vi, vi_of. destruct (I_ind I); [|auto]. destruct (C eq_refl) as [C1 C2].
  rewrite !net_force_add, !net_torque_add, A, B, C1, C2 by congruence. rewrite vadd_0_l. auto.
Qed.
Lemma conserves_real I vi s h : sized I -> balanced I -> I_dep I = true ->
  length (s_p s) = npart s -> length (s_v s) = npart s -> length (s_w s) = npart s -> length vi = npart s ->
  net_force (s_m s) vi = vzero -> net_torque (s_m s) (s_p s) vi = vzero -> conserves s (kick_real_vel I vi s h).
Proof.
  intros HI HB Hd Hp Hv Hw Hvi HF HT. unfold kick_real_vel.
  destruct (HB (s_m s) (s_p s) (s_w s) Hp Hw) as (_ & _ & C). destruct (C Hd) as [C1 C2].
  destruct (HI (s_m s) (s_p s) (s_w s) Hp Hw) as (_ & _ & L).
  assert (length (I_vd I (s_m s) (s_p s) (s_w s)) = length vi) by (rewrite Hvi; auto).
  apply conserves_kick_vel.
  - rewrite vd_len; auto.
  - rewrite net_force_add, HF, C1, vadd_0_l; auto.
  - rewrite net_torque_add, HT, C2, vadd_0_l; auto.
Qed.
Lemma conserves_kick I e s h : sized I -> balanced I -> well_sized I e s -> conserves s (kick I s h).
Proof.
  intros HI HB W. assert (HV : length (tot_vi I (s_m s) (s_p s)) = npart s) by (apply tot_vi_length; auto; apply W).
  destruct (balanced_vi I s HI HB (proj1 W)) as ((F & T) & _).
  unfold kick, eval_total. destruct (I_dep I) eqn:Hd.
  - cbv zeta. set (vi := tot_vi I (s_m s) (s_p s)) in *.
    assert (W1 : well_sized I e (kick_real_vel I vi s (0.5 * h))) by (apply ws_real; auto).
    assert (W2 : well_sized I e (kick_pseu_vel I vi (kick_real_vel I vi s (0.5 * h)) h)) by (apply ws_pseu; auto).
    destruct W as (P1 & P2 & P3 & _).
    eapply conserves_trans; [apply (conserves_real I vi s (0.5 * h)); auto|].
    eapply conserves_trans; [apply (conserves_other _ (kick_pseu_vel I vi (kick_real_vel I vi s (0.5 * h)) h)); reflexivity|].
    destruct W2 as (Q1 & Q2 & Q3 & _). apply conserves_real; auto.
  - apply conserves_kick_vel; auto. destruct W as (_ & ? & _). congruence.
Qed.
Lemma conserves_rkick_body I e r s dt : sized I -> balanced I -> well_sized I e s -> conserves s (rkick_body I r s dt).
Proof.
  intros HI HB W. pose proof (vi_of_length I s HI (proj1 W)) as HV.
  destruct (balanced_vi I s HI HB (proj1 W)) as (_ & F & T).
  unfold rkick_body. cbv zeta. fold (vi_of I (s_m s) (s_p s)).
  set (newt := I_newt I (s_m s) (s_p s)). set (ext := I_vi I (s_m s) (s_p s)). set (vi := vi_of I (s_m s) (s_p s)) in *.
  destruct (I_dep I) eqn:Hd.
  - set (s1 := kick_real_vel I vi s (0.5 * dt)). set (s2 := rkick_pseu I r vi newt ext s1 dt).
    assert (W1 : well_sized I e s1) by (apply ws_real; auto).
    assert (W2 : well_sized I e s2) by (apply ws_rpseu; auto).
    assert (E : s_m s2 = s_m s1 /\ s_p s2 = s_p s1 /\ s_v s2 = s_v s1 /\ s_t s2 = s_t s1).
    { unfold s2, rkick_pseu. cbv zeta. destruct (I_ind I); auto. }
    destruct E as (E1 & E2 & E3 & E4).
    destruct W as (P1 & P2 & P3 & _).
    eapply conserves_trans; [apply (conserves_real I vi s (0.5 * dt)); auto|]. fold s1.
    eapply conserves_trans; [apply (conserves_other s1 s2); auto|].
    destruct W2 as (Q1 & Q2 & Q3 & _). apply conserves_real; auto.
    + rewrite HV. unfold npart. rewrite E1. reflexivity.
    + rewrite E1. auto.
    + rewrite E1, E2. auto.
  - set (s2 := if I_ind I then advance_bindE I r (advance_omega I r s newt (0.5 * dt)) ext (0.5 * dt) else advance_omega I r s newt (0.5 * dt)).
    assert (E : s_m s2 = s_m s /\ s_p s2 = s_p s /\ s_v s2 = s_v s /\ s_t s2 = s_t s) by (unfold s2; destruct (I_ind I); auto).
    destruct E as (E1 & E2 & E3 & E4).
    eapply conserves_trans; [apply (conserves_other s s2); auto|].
    eapply conserves_trans; [apply (conserves_kick_vel s2 vi dt)|].
    + rewrite E3, HV. symmetry; apply W.
    + rewrite E1; auto.
    + rewrite E1, E2; auto.
    + apply conserves_other; destruct (I_ind I); reflexivity.
Qed.
Lemma conserves_rdrift r s h : length (s_v s) = length (s_p s) -> conserves s (rdrift r s h).
Proof.
  intros H. rewrite rdrift_eq. eapply conserves_trans; [apply conserves_drift; auto|]. apply conserves_other; reflexivity.
Qed.
Lemma conserves_rkick I e r s h : sized I -> balanced I -> well_sized I e s -> conserves s (rkick I r s h).
Proof.
  intros HI HB W. rewrite rkick_eq, rkick_body_sc. eapply conserves_trans; [eapply conserves_rkick_body; eauto|].
  apply conserves_other; reflexivity.
Qed.
Lemma simple_conserves I l s h : sized I -> balanced I -> well_sized I 1 s -> conserves s (integrate drift (kick I) l s h).
Proof.
  intros HI HB W. apply (integrate_P drift (kick I) (fun s' => well_sized I 1 s' /\ conserves s s')); [| |split; auto; apply conserves_refl].
  - intros s' k [W' C]. split; [apply ws_drift; auto|]. eapply conserves_trans; eauto. apply conserves_drift.
    destruct W' as (? & ? & _); congruence.
  - intros s' k [W' C]. split; [apply ws_kick; auto|]. eapply conserves_trans; eauto. eapply conserves_kick; eauto.
Qed.
Lemma regu_conserves I r l s h : sized I -> balanced I -> well_sized I 3 s ->
  conserves s (integrate (rdrift r) (rkick I r) l s h).
Proof.
  intros HI HB W. apply (integrate_P (rdrift r) (rkick I r) (fun s' => well_sized I 3 s' /\ conserves s s')); [| |split; auto; apply conserves_refl].
  - intros s' k [W' C]. split; [apply ws_rdrift; auto|]. eapply conserves_trans; eauto. apply conserves_rdrift.
    destruct W' as (? & ? & _); congruence.
  - intros s' k [W' C]. split; [apply ws_rkick; auto|]. eapply conserves_trans; eauto. eapply conserves_rkick; eauto.
Qed.

(** Newton's forces are sized and balanced. *)
Lemma newton_sized : sized newton_only.
Proof. intros m p v Hp Hv. simpl. unfold newton_acc. rewrite tolist_length. auto. Qed.
Lemma newton_balanced : balanced newton_only.
Proof.
  intros m p v Hp Hv. simpl. split; [|split; discriminate]. unfold newton_acc. cbv zeta. set (s := sys_of m p []).
  split.
  - unfold net_force. rewrite (vsum_ext _ (fun k => vscal (sm s k) (add_acc (newton_pair (sm s)) (direct_calls s) (fun _ => vzero) k))).
    + change (length m) with (sn s). rewrite newton_momentum. rewrite (vsum_ext _ (fun _ => vzero)); [apply vsum_zero|intros; apply vscal_0].
    + intros i Hi. rewrite tolist_nth by auto. reflexivity.
  - unfold net_torque. rewrite (vsum_ext _ (fun k => vscal (sm s k) (cross (sp s k) (add_acc (newton_pair (sm s)) (direct_calls s) (fun _ => vzero) k)))).
    + change (length m) with (sn s). rewrite newton_torque. rewrite (vsum_ext _ (fun _ => vzero)); [apply vsum_zero|].
      intros. rewrite cross_0_r. apply vscal_0.
    + intros i Hi. rewrite tolist_nth by auto. reflexivity.
Qed.

(** * time *)
Lemma kick_time I s h : s_t (kick I s h) = s_t s.
Proof. unfold kick. destruct (I_dep I); reflexivity. Qed.
Lemma integrate_time I l s h : s_t (integrate drift (kick I) l s h) = s_t s + drift_sum l * h.
Proof.
  unfold integrate. revert s. induction l as [|[c|c] l IH]; intros s; simpl; [ring| |]; rewrite IH; simpl.
  - ring.
  - rewrite kick_time. ring.
Qed.

(** * serialisation *)
Lemma to_vecs_coords l r : to_vecs (length l) (coords l ++ r) = l.
Proof. induction l as [|[x y z] l IH]; simpl; auto. f_equal. apply IH. Qed.
Lemma skipn_coords l r n : n = (3 * length l)%nat -> skipn n (coords l ++ r) = r.
Proof. intros ->. rewrite <- coords_length. rewrite skipn_app, Nat.sub_diag, skipn_all. reflexivity. Qed.
Lemma coords_to_vecs k l : (3 * k <= length l)%nat -> coords (to_vecs k l) = firstn (3 * k) l.
Proof.
  revert l. induction k as [|k IH]; intros l H; simpl; auto.
  destruct l as [|x [|y [|z t]]]; simpl in H; try lia.
  replace (k + S (k + S (k + 0)))%nat with (S (S (3 * k))) by lia. simpl. do 3 f_equal. rewrite IH by (simpl; lia). reflexivity.
Qed.
Lemma to_vecs_length k l : (3 * k <= length l)%nat -> length (to_vecs k l) = k.
Proof.
  revert l. induction k as [|k IH]; intros l H; simpl; auto.
  destruct l as [|x [|y [|z t]]]; simpl in H; try lia. simpl. rewrite IH; auto. simpl; lia.
Qed.
Lemma skipn_add {A} a b (l : list A) : skipn (a + b) l = skipn b (skipn a l).
Proof. revert l. induction a as [|a IH]; intros l; simpl; auto. destruct l; auto. destruct b; auto. Qed.
Definition pack (t : R) (a b c : list vec) (tl : list R) : list R := t :: coords a ++ coords b ++ coords c ++ tl.
Lemma pack_length t a b c tl : length (pack t a b c tl) = (1 + 3 * length a + 3 * length b + 3 * length c + length tl)%nat.
Proof. unfold pack. simpl. rewrite !app_length, !coords_length. lia. Qed.
Lemma load_a t a b c tl n : length a = n -> load_coords (pack t a b c tl) pos_offset (vel_offset n) = a.
Proof.
  intros H. unfold load_coords, pack, pos_offset, vel_offset. simpl skipn.
  replace ((n * 3 + 1 - 1) / 3)%nat with (length a).
  - apply to_vecs_coords.
  - replace (n * 3 + 1 - 1)%nat with (n * 3)%nat by lia. rewrite Nat.div_mul by lia. auto.
Qed.
Lemma load_b t a b c tl n : length a = n -> length b = n -> load_coords (pack t a b c tl) (vel_offset n) (aux_offset n) = b.
Proof.
  intros H H2. unfold load_coords, pack, vel_offset, aux_offset.
  replace (n * 3 + 1)%nat with (S (3 * length a)) by lia. cbn [skipn]. rewrite skipn_coords by auto.
  replace ((n * 6 + 1 - S (3 * length a)) / 3)%nat with (length b).
  - apply to_vecs_coords.
  - replace (n * 6 + 1 - S (3 * length a))%nat with (n * 3)%nat by lia. rewrite Nat.div_mul by lia. auto.
Qed.
Lemma load_c t a b c tl n : length a = n -> length b = n -> length c = n -> (length tl < 3)%nat ->
  load_coords (pack t a b c tl) (aux_offset n) (length (pack t a b c tl)) = c.
Proof.
  intros H H2 H3 H4. rewrite pack_length. unfold load_coords, pack, aux_offset.
  replace (n * 6 + 1)%nat with (S (3 * length b + 3 * length a)) by lia. cbn [skipn].
  replace (3 * length b + 3 * length a)%nat with (3 * length a + 3 * length b)%nat by lia.
  rewrite skipn_add. rewrite skipn_coords by auto. rewrite skipn_coords by auto.
  match goal with |- to_vecs (?x / 3) _ = _ => replace x with (length tl + n * 3)%nat by lia end.
  rewrite Nat.div_add by lia. rewrite (Nat.div_small (length tl)) by lia. rewrite Nat.add_0_l. rewrite <- H3. apply to_vecs_coords.
Qed.
Definition auxl (I : inter) (w : list vec) : list vec := if I_dep I then w else [].
Lemma write_pack I s : write I s = pack (s_t s) (s_p s) (s_v s) (auxl I (s_w s)) [].
Proof. unfold write, pack, auxl. destruct (I_dep I); simpl; rewrite ?app_nil_r; reflexivity. Qed.
Lemma rwrite_pack I s : rwrite I s = pack (s_t s) (s_p s) (s_v s) (auxl I (s_w s)) [s_om s; s_be s].
Proof.
  unfold rwrite. rewrite write_pack. unfold pack. rewrite app_nil_r. cbn [app]. f_equal. rewrite <- !app_assoc. reflexivity.
Qed.
Lemma cwrite_pack I c : cwrite I c = pack (s_t (c_st c)) (c_cp c) (c_cv c) (auxl I (c_cw c)) [].
Proof. unfold cwrite, pack, auxl. destruct (I_dep I); simpl; rewrite ?app_nil_r; reflexivity. Qed.
Lemma arwrite_pack I c : arwrite I c = pack (s_t (c_st c)) (c_cp c) (c_cv c) (auxl I (c_cw c)) [s_om (c_st c); s_be (c_st c)].
Proof.
  unfold arwrite. rewrite cwrite_pack. unfold pack. rewrite app_nil_r. cbn [app]. f_equal. rewrite <- !app_assoc. reflexivity.
Qed.
Lemma pack_varnum I t a b w tl n : length a = n -> length b = n -> (I_dep I = true -> length w = n) ->
  length (pack t a b (auxl I w) tl) = variable_number I (1 + length tl) n.
Proof.
  intros H1 H2 H3. rewrite pack_length. unfold variable_number, auxl. destruct (I_dep I); simpl Nat.b2n; simpl length; [rewrite H3 by auto|]; nia.
Qed.
Lemma pack_tail t a b w x y I n : length a = n -> length b = n -> (I_dep I = true -> length w = n) ->
  aget (pack t a b (auxl I w) [x; y]) (omega_offset I n) = Ok x /\ aget (pack t a b (auxl I w) [x; y]) (bindE_offset I n) = Ok y.
Proof.
  intros H1 H2 H3. unfold aget, pack.
  assert (L : length (coords a ++ coords b ++ coords (auxl I w)) = (n * 3 * (2 + Nat.b2n (I_dep I)))%nat).
  { rewrite !app_length, !coords_length. unfold auxl. destruct (I_dep I); simpl Nat.b2n; simpl length; [rewrite H3 by auto|]; nia. }
  unfold omega_offset, bindE_offset. rewrite <- L. set (u := coords a ++ coords b ++ coords (auxl I w)).
  replace (coords a ++ coords b ++ coords (auxl I w) ++ [x; y]) with (u ++ [x; y]) by (unfold u; rewrite <- !app_assoc; reflexivity).
  rewrite (Nat.add_comm _ 1), (Nat.add_comm _ 2). split.
  - change (nth_error (t :: u ++ [x; y]) (1 + length u)) with (nth_error (u ++ [x; y]) (length u)).
    rewrite nth_error_app2, Nat.sub_diag by lia. reflexivity.
  - change (nth_error (t :: u ++ [x; y]) (2 + length u)) with (nth_error (u ++ [x; y]) (S (length u))).
    rewrite nth_error_app2 by lia. replace (S (length u) - length u)%nat with 1%nat by lia. reflexivity.
Qed.

Lemma read_write I s s0 : well_sized I 1 s -> s_m s0 = s_m s ->
  read I s0 (write I s) = Ok (mkSt (s_m s0) (s_t s) (s_p s) (s_v s) (if I_dep I then s_w s else s_w s0)
                                   (s_om s0) (s_be s0) (s_sc s0) (s_inc s0) (s_sync s0)).
Proof.
  intros (P & V & W & _) Em. unfold read, npart. rewrite Em. fold (npart s). rewrite write_pack.
  rewrite pack_varnum with (n := npart s); auto. cbn [length Nat.add]. rewrite Nat.eqb_refl.
  change (aget (pack (s_t s) (s_p s) (s_v s) (auxl I (s_w s)) []) time_offset) with (Ok (s_t s)). cbn [obind].
  rewrite load_a, load_b by auto. f_equal. f_equal. destruct (I_dep I) eqn:Hd; auto.
  unfold auxl. rewrite Hd. replace (variable_number I 1 (npart s)) with (length (pack (s_t s) (s_p s) (s_v s) (s_w s) [])).
  - apply load_c; auto; simpl; lia.
  - pose proof (pack_varnum I (s_t s) (s_p s) (s_v s) (s_w s) [] (npart s) P V (fun _ => W eq_refl)) as E. unfold auxl in E. rewrite Hd in E. auto.
Qed.
Lemma rread_rwrite I s s0 : well_sized I 3 s -> s_m s0 = s_m s ->
  rread I s0 (rwrite I s) = Ok (mkSt (s_m s0) (s_t s) (s_p s) (s_v s) (if I_dep I then s_w s else s_w s0)
                                   (s_om s) (s_be s) (s_sc s0) (s_inc s0) (s_sync s0)).
Proof.
  intros (P & V & W & _) Em. unfold rread, npart. rewrite Em. fold (npart s). rewrite rwrite_pack.
  rewrite pack_varnum with (n := npart s); auto. cbn [length Nat.add]. rewrite Nat.eqb_refl.
  destruct (pack_tail (s_t s) (s_p s) (s_v s) (s_w s) (s_om s) (s_be s) I (npart s) P V W) as [E1 E2].
  change (aget (pack (s_t s) (s_p s) (s_v s) (auxl I (s_w s)) [s_om s; s_be s]) time_offset) with (Ok (s_t s)). cbn [obind].
  rewrite E1, E2. cbn [obind].
  rewrite load_a, load_b by auto. f_equal. f_equal. destruct (I_dep I) eqn:Hd; auto.
  unfold auxl. rewrite Hd. replace (variable_number I 3 (npart s)) with (length (pack (s_t s) (s_p s) (s_v s) (s_w s) [s_om s; s_be s])).
  - apply load_c; auto; simpl; lia.
  - pose proof (pack_varnum I (s_t s) (s_p s) (s_v s) (s_w s) [s_om s; s_be s] (npart s) P V (fun _ => W eq_refl)) as E. unfold auxl in E. rewrite Hd in E. auto.
Qed.

(** Any array of the right length is a pack. *)
Lemma firstn_skipn_coords y k r : (3 * k <= length y)%nat -> r = skipn (3 * k) y -> y = coords (to_vecs k y) ++ r.
Proof. intros H ->. rewrite coords_to_vecs by auto. symmetry; apply firstn_skipn. Qed.
Lemma unpack I e n y : (1 <= e)%nat -> length y = variable_number I e n -> exists t a b c tl, y = pack t a b (auxl I c) tl /\
  length a = n /\ length b = n /\ length c = n /\ length tl = (e - 1)%nat.
Proof.
  intros He H. unfold variable_number in H. destruct y as [|t y]; [simpl in H; lia|]. simpl in H.
  exists t. set (d := I_dep I) in *.
  set (y1 := skipn (3 * n) y). set (y2 := skipn (3 * n) y1). set (y3 := skipn (3 * n) y2).
  assert (L1 : length y1 = (length y - 3 * n)%nat) by apply skipn_length.
  assert (L2 : length y2 = (length y1 - 3 * n)%nat) by apply skipn_length.
  assert (L3 : length y3 = (length y2 - 3 * n)%nat) by apply skipn_length.
  assert (B : (length y = n * 3 * (2 + Nat.b2n d) + (e - 1))%nat) by lia. clear H.
  exists (to_vecs n y), (to_vecs n y1). unfold auxl. fold d. destruct d; simpl Nat.b2n in B.
  - exists (to_vecs n y2), y3. rewrite !to_vecs_length by lia. repeat split; try lia.
    unfold pack. f_equal. rewrite <- (firstn_skipn_coords y2 n y3) by (auto; lia).
    rewrite <- (firstn_skipn_coords y1 n y2) by (auto; lia). apply firstn_skipn_coords; auto; lia.
  - exists (repeat vzero n), y2. rewrite !to_vecs_length, repeat_length by lia. repeat split; try lia.
    unfold pack. f_equal. cbn [coords flat_map app].
    rewrite <- (firstn_skipn_coords y1 n y2) by (auto; lia). apply firstn_skipn_coords; auto; lia.
Qed.
Lemma write_read I s0 y s' : read I s0 y = Ok s' -> write I s' = y.
Proof.
  unfold read. destruct (Nat.eqb_spec (length y) (variable_number I 1 (npart s0))) as [H|]; [|discriminate].
  destruct (unpack I 1 (npart s0) y ltac:(lia) H) as (t & a & b & c & tl & E & La & Lb & Lc & Lt).
  destruct tl; [|simpl in Lt; lia].
  subst y. rewrite (load_a t a b (auxl I c) []), (load_b t a b (auxl I c) []) by auto.
  change (aget (pack t a b (auxl I c) []) time_offset) with (Ok t). cbn [obind]. intros X. assert (X' := f_equal (fun o => match o with Ok x => x | _ => s0 end) X).
  simpl in X'. subst s'. rewrite write_pack. cbn [s_t s_p s_v s_w]. f_equal.
  unfold auxl. destruct (I_dep I); auto. rewrite load_c; auto.
Qed.
Lemma rwrite_rread I s0 y s' : rread I s0 y = Ok s' -> rwrite I s' = y.
Proof.
  unfold rread. destruct (Nat.eqb_spec (length y) (variable_number I 3 (npart s0))) as [H|]; [|discriminate].
  destruct (unpack I 3 (npart s0) y ltac:(lia) H) as (t & a & b & c & tl & E & La & Lb & Lc & Lt).
  destruct tl as [|om [|be [|]]]; try (simpl in Lt; lia).
  destruct (pack_tail t a b c om be I (npart s0) La Lb (fun _ => Lc)) as [E1 E2].
  subst y. rewrite E1, E2. rewrite (load_a t a b (auxl I c)), (load_b t a b (auxl I c)) by auto.
  change (aget (pack t a b (auxl I c) [om; be]) time_offset) with (Ok t). cbn [obind]. intros X. assert (X' := f_equal (fun o => match o with Ok x => x | _ => s0 end) X).
  simpl in X'. subst s'. rewrite rwrite_pack. cbn [s_t s_p s_v s_w s_om s_be]. f_equal.
  unfold auxl. destruct (I_dep I); auto. rewrite load_c; auto.
Qed.

(** * increments *)
Lemma zip_add_length a b : length b = length a -> length (zip_add a b) = length a.
Proof. revert b. induction a as [|x a IH]; intros [|y b] H; simpl in *; auto; try lia. Qed.
Lemma zip_add_nth a b i : length b = length a -> nth i (zip_add a b) 0 = nth i a 0 + nth i b 0.
Proof.
  revert b i. induction a as [|x a IH]; intros [|y b] i H; simpl in *; try lia.
  - destruct i; simpl; ring.
  - destruct i; simpl; auto.
Qed.
Lemma zip_add_at y off ds inc : length inc = length y -> zip_add y (add_at off ds inc) = add_at off ds (zip_add y inc).
Proof.
  intros H. apply rlist_ext.
  - rewrite zip_add_length, add_at_length, zip_add_length; auto. rewrite add_at_length; auto.
  - intros i Hi. rewrite zip_add_length in Hi by (rewrite add_at_length; auto).
    rewrite zip_add_nth by (rewrite add_at_length; auto). rewrite add_at_nth by lia.
    rewrite add_at_nth by (rewrite zip_add_length; auto). rewrite zip_add_nth by auto. ring.
Qed.
Lemma zip_add_zero y (k : list R) : length k = length y -> zip_add y (map (fun _ => 0) k) = y.
Proof. revert k. induction y as [|x y IH]; intros [|z k] H; simpl in *; try lia; auto. f_equal; [ring|]. apply IH; lia. Qed.
Lemma add_at_app2 off ds a b : (length a <= off)%nat -> add_at off ds (a ++ b) = a ++ add_at (off - length a) ds b.
Proof.
  revert off. induction a as [|x a IH]; intros off H; simpl in *; [rewrite Nat.sub_0_r; auto|].
  destruct off as [|o]; [lia|]. simpl. f_equal. apply IH. lia.
Qed.
Lemma coords_advance a b h rest : length b = length a ->
  add_at 0 (scaled b h) (coords a ++ rest) = coords (advance a b h) ++ rest.
Proof.
  revert b. induction a as [|u a IH]; intros [|w b] H; simpl in *; try lia.
  - unfold scaled. simpl. destruct rest; auto.
  - unfold scaled. cbn [map coords flat_map app]. cbn [add_at]. unfold advance. cbn [combine map coords flat_map app].
    match goal with |- ?a :: ?b :: ?c :: ?l = _ :: _ :: _ :: ?l' => assert (E : l = l') by (apply IH; lia); rewrite E end. reflexivity.
Qed.
Lemma pack_t t a b c tl d : add_at 0 [d] (pack t a b c tl) = pack (t + d) a b c tl.
Proof. unfold pack. simpl. destruct (coords a ++ coords b ++ coords c ++ tl); reflexivity. Qed.
Lemma pack_a t a b c tl x h n : length a = n -> length x = n ->
  add_at pos_offset (scaled x h) (pack t a b c tl) = pack t (advance a x h) b c tl.
Proof. intros H1 H2. unfold pack, pos_offset. cbn [add_at]. f_equal. apply coords_advance. congruence. Qed.
Lemma pack_b t a b c tl x h n : length a = n -> length b = n -> length x = n ->
  add_at (vel_offset n) (scaled x h) (pack t a b c tl) = pack t a (advance b x h) c tl.
Proof.
  intros H1 H2 H3. unfold pack, vel_offset. rewrite (Nat.add_comm _ 1). cbn [Nat.add add_at]. f_equal.
  rewrite add_at_app2 by (rewrite coords_length; lia). f_equal. rewrite coords_length.
  replace (n * 3 - 3 * length a)%nat with 0%nat by lia. apply coords_advance. congruence.
Qed.
Lemma pack_c t a b c tl x h n : length a = n -> length b = n -> length c = n -> length x = n ->
  add_at (aux_offset n) (scaled x h) (pack t a b c tl) = pack t a b (advance c x h) tl.
Proof.
  intros H1 H2 H3 H4. unfold pack, aux_offset. rewrite (Nat.add_comm _ 1). cbn [Nat.add add_at]. f_equal.
  rewrite add_at_app2 by (rewrite coords_length; lia). f_equal. rewrite coords_length.
  rewrite add_at_app2 by (rewrite coords_length; lia). f_equal. rewrite coords_length.
  replace (n * 6 - 3 * length a - 3 * length b)%nat with 0%nat by lia. apply coords_advance. congruence.
Qed.
Lemma pack_om I t a b w x y d n : length a = n -> length b = n -> (I_dep I = true -> length w = n) ->
  add_at (omega_offset I n) [d] (pack t a b (auxl I w) [x; y]) = pack t a b (auxl I w) [x + d; y] /\
  add_at (bindE_offset I n) [d] (pack t a b (auxl I w) [x; y]) = pack t a b (auxl I w) [x; y + d].
Proof.
  intros H1 H2 H3.
  assert (L : (length (coords a) + length (coords b) + length (coords (auxl I w)) = n * 3 * (2 + Nat.b2n (I_dep I)))%nat).
  { rewrite !coords_length. unfold auxl. destruct (I_dep I); simpl Nat.b2n; simpl length; [rewrite H3 by auto|]; nia. }
  unfold pack, omega_offset, bindE_offset. rewrite (Nat.add_comm _ 1), (Nat.add_comm _ 2). rewrite <- L. cbn [Nat.add add_at].
  split; f_equal.
  - rewrite add_at_app2 by lia. f_equal. rewrite add_at_app2 by lia. f_equal. rewrite add_at_app2 by lia. f_equal.
    match goal with |- add_at ?k _ _ = _ => replace k with 0%nat by lia end. reflexivity.
  - rewrite add_at_app2 by lia. f_equal. rewrite add_at_app2 by lia. f_equal. rewrite add_at_app2 by lia. f_equal.
    match goal with |- add_at ?k _ _ = _ => replace k with 1%nat by lia end. reflexivity.
Qed.
(** The general pack of a Cartesian state; [e] = 1 or 3. *)
Definition gwrite (I : inter) (e : nat) (s : st) : list R :=
  pack (s_t s) (s_p s) (s_v s) (auxl I (s_w s)) (if (e =? 3)%nat then [s_om s; s_be s] else []).
(** [tracks y0 s]: the increment array is what has to be added to y0 to get the state array. *)
Definition tracks (I : inter) (e : nat) (y0 : list R) (s : st) : Prop :=
  s_sync s = true /\ length (s_inc s) = length y0 /\ gwrite I e s = zip_add y0 (s_inc s).
Lemma tracks_drift I e y0 s h : well_sized I e s -> tracks I e y0 s -> tracks I e y0 (drift s h).
Proof.
  intros (P & V & _) (S & L & E). unfold tracks, drift. cbn [s_sync s_inc]. unfold sync. rewrite S.
  rewrite !add_at_length. split; auto. split; auto. rewrite !zip_add_at by (rewrite ?add_at_length; auto). rewrite <- E.
  unfold gwrite. cbn [s_t s_p s_v s_w s_om s_be]. unfold time_offset. rewrite pack_t. rewrite pack_a with (n := npart s) by auto. reflexivity.
Qed.
Lemma tracks_kick_vel I e y0 s a h : well_sized I e s -> length a = npart s -> tracks I e y0 s -> tracks I e y0 (kick_vel s a h).
Proof.
  intros (P & V & _) Ha (S & L & E). unfold tracks, kick_vel. cbn [s_sync s_inc]. unfold sync. rewrite S.
  rewrite !add_at_length. split; auto. split; auto. rewrite !zip_add_at by (rewrite ?add_at_length; auto). rewrite <- E.
  unfold gwrite. cbn [s_t s_p s_v s_w s_om s_be]. rewrite pack_b by auto. reflexivity.
Qed.
Lemma tracks_kick_aux I e y0 s a h : I_dep I = true -> well_sized I e s -> length a = npart s -> tracks I e y0 s -> tracks I e y0 (kick_aux s a h).
Proof.
  intros Hd (P & V & W & _) Ha (S & L & E). unfold tracks, kick_aux. cbn [s_sync s_inc]. unfold sync. rewrite S.
  rewrite !add_at_length. split; auto. split; auto. rewrite !zip_add_at by (rewrite ?add_at_length; auto). rewrite <- E.
  unfold gwrite. cbn [s_t s_p s_v s_w s_om s_be]. unfold auxl. rewrite Hd. rewrite pack_c by auto. reflexivity.
Qed.
Lemma tracks_omega I r y0 s a h : well_sized I 3 s -> tracks I 3 y0 s -> tracks I 3 y0 (advance_omega I r s a h).
Proof.
  intros (P & V & W & _) (S & L & E). unfold tracks, advance_omega. cbn [s_sync s_inc]. unfold sync. rewrite S.
  rewrite !add_at_length. split; auto. split; auto. rewrite !zip_add_at by (rewrite ?add_at_length; auto). rewrite <- E.
  unfold gwrite. cbn [s_t s_p s_v s_w s_om s_be Nat.eqb].
  rewrite (proj1 (pack_om I (s_t s) (s_p s) (s_v s) (s_w s) (s_om s) (s_be s) _ (npart s) P V W)). reflexivity.
Qed.
Lemma tracks_bindE I r y0 s a h : well_sized I 3 s -> tracks I 3 y0 s -> tracks I 3 y0 (advance_bindE I r s a h).
Proof.
  intros (P & V & W & _) (S & L & E). unfold tracks, advance_bindE. cbn [s_sync s_inc]. unfold sync. rewrite S.
  rewrite !add_at_length. split; auto. split; auto. rewrite !zip_add_at by (rewrite ?add_at_length; auto). rewrite <- E.
  unfold gwrite. cbn [s_t s_p s_v s_w s_om s_be Nat.eqb].
  rewrite (proj2 (pack_om I (s_t s) (s_p s) (s_v s) (s_w s) (s_om s) (s_be s) _ (npart s) P V W)). reflexivity.
Qed.
Lemma tracks_real I e y0 vi s h : sized I -> I_dep I = true -> length vi = npart s -> well_sized I e s -> tracks I e y0 s ->
  tracks I e y0 (kick_real_vel I vi s h).
Proof. intros HI Hd Hvi W T. apply tracks_kick_vel; auto. destruct W as (? & ? & ? & ?). apply vd_len; auto. Qed.
Lemma tracks_kick I e y0 s h : sized I -> well_sized I e s -> tracks I e y0 s -> tracks I e y0 (kick I s h).
Proof.
  intros HI W T. assert (HV : length (tot_vi I (s_m s) (s_p s)) = npart s) by (apply tot_vi_length; auto; apply W).
  unfold kick, eval_total. destruct (I_dep I) eqn:Hd; [|apply tracks_kick_vel; auto].
  cbv zeta. set (vi := tot_vi I (s_m s) (s_p s)) in *.
  assert (W1 : well_sized I e (kick_real_vel I vi s (0.5 * h))) by (apply ws_real; auto).
  assert (W2 : well_sized I e (kick_pseu_vel I vi (kick_real_vel I vi s (0.5 * h)) h)) by (apply ws_pseu; auto).
  apply tracks_real; auto. apply tracks_kick_aux; auto.
  - destruct W1 as (? & ? & ? & ?). apply vd_len; auto.
  - apply tracks_real; auto.
Qed.
Lemma tracks_sc I e y0 s k : tracks I e y0 s -> tracks I e y0 (set_sc s k). Proof. auto. Qed.
Lemma tracks_rkick I r y0 s h : sized I -> well_sized I 3 s -> tracks I 3 y0 s -> tracks I 3 y0 (rkick I r s h).
Proof.
  intros HI W T. rewrite rkick_eq, rkick_body_sc. apply tracks_sc. set (dt := vdt r s h). clearbody dt.
  pose proof (vi_of_length I s HI (proj1 W)) as HV. unfold rkick_body. cbv zeta. fold (vi_of I (s_m s) (s_p s)).
  set (newt := I_newt I (s_m s) (s_p s)). set (ext := I_vi I (s_m s) (s_p s)). set (vi := vi_of I (s_m s) (s_p s)) in *.
  destruct (I_dep I) eqn:Hd.
  - set (s1 := kick_real_vel I vi s (0.5 * dt)).
    assert (W1 : well_sized I 3 s1) by (apply ws_real; auto).
    assert (T1 : tracks I 3 y0 s1) by (apply tracks_real; auto).
    assert (W2 : well_sized I 3 (rkick_pseu I r vi newt ext s1 dt)) by (apply ws_rpseu; auto).
    assert (N2 : npart (rkick_pseu I r vi newt ext s1 dt) = npart s) by (unfold rkick_pseu; cbv zeta; destruct (I_ind I); reflexivity).
    apply tracks_real; auto; [rewrite N2; auto|].
    unfold rkick_pseu. cbv zeta. set (vd := I_vd I (s_m s1) (s_p s1) (s_v s1)).
    assert (Lv : length (vladd vi vd) = npart s1). { destruct W1 as (? & ? & ? & ?). apply vd_len; auto. }
    assert (W3 : well_sized I 3 (kick_aux s1 (vladd vi vd) dt)) by (apply ws_kick_aux; auto).
    assert (T3 : tracks I 3 y0 (kick_aux s1 (vladd vi vd) dt)) by (apply tracks_kick_aux; auto).
    destruct (I_ind I); apply tracks_bindE, tracks_omega; auto using ws_omega.
  - assert (W1 := ws_omega I 3 r s newt (0.5 * dt) W). assert (T1 := tracks_omega I r y0 s newt (0.5 * dt) W T).
    destruct (I_ind I) eqn:Hi.
    + assert (W2 := ws_bindE I 3 r _ ext (0.5 * dt) W1). assert (T2 := tracks_bindE I r y0 _ ext (0.5 * dt) W1 T1).
      assert (W3 : well_sized I 3 (kick_vel (advance_bindE I r (advance_omega I r s newt (0.5 * dt)) ext (0.5 * dt)) vi dt)) by (apply ws_kick_vel; auto).
      apply tracks_omega; [apply ws_bindE; auto|]. apply tracks_bindE; auto. apply tracks_kick_vel; auto.
    + assert (W3 : well_sized I 3 (kick_vel (advance_omega I r s newt (0.5 * dt)) vi dt)) by (apply ws_kick_vel; auto).
      apply tracks_omega; auto. apply tracks_kick_vel; auto.
Qed.
Lemma tracks_rdrift I r y0 s h : well_sized I 3 s -> tracks I 3 y0 s -> tracks I 3 y0 (rdrift r s h).
Proof. intros W T. rewrite rdrift_eq. apply tracks_sc, tracks_drift; auto. Qed.
Lemma clear_tracks I e s : (e = 1 \/ e = 3)%nat -> well_sized I e s -> s_sync s = true ->
  tracks I e (gwrite I e s) (clear_increment s) /\ well_sized I e (clear_increment s).
Proof.
  intros He (P & V & W & L) S.
  assert (G : length (gwrite I e s) = variable_number I e (npart s)).
  { unfold gwrite. rewrite pack_varnum with (n := npart s); auto. destruct He; subst; reflexivity. }
  split.
  - unfold tracks, clear_increment. cbn [s_sync s_inc]. rewrite map_length. split; auto. split; [congruence|].
    rewrite zip_add_zero by congruence. reflexivity.
  - unfold well_sized, npart, clear_increment in *. cbn [s_m s_t s_p s_v s_w s_om s_be s_sc s_inc s_sync]. rewrite map_length. auto.
Qed.
