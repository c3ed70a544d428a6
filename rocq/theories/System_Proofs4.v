(** Serialisation of the chain systems, and whole-run versions of the increment lemmas. *)
From Verif Require Import System_Model System_Spec Force_Spec Force_Proofs Chain_Proofs Chain_Spec System_Proofs System_Proofs2 System_Proofs3.
Open Scope R_scope.

Lemma cread_gen_pack I e c cp cv cw p v w t tl : (e = 1 \/ e = 3)%nat -> let n := npart (c_st c) in
  (1 <= n)%nat -> is_index n (c_idx c) -> length (s_p (c_st c)) = n -> length (s_v (c_st c)) = n ->
  (I_dep I = true -> length (s_w (c_st c)) = n) ->
  length p = n -> length v = n -> (I_dep I = true -> length w = n) ->
  chain_of n (c_idx c) p = Ok cp -> chain_of n (c_idx c) v = Ok cv -> (I_dep I = true -> chain_of n (c_idx c) w = Ok cw) ->
  length tl = (e - 1)%nat ->
  cread_gen I e c (pack t cp cv (auxl I cw) tl) =
    Ok (mkCst (mkSt (s_m (c_st c)) t p v (if I_dep I then w else s_w (c_st c))
                    (if (e =? 3)%nat then nth 0 tl 0 else s_om (c_st c)) (if (e =? 3)%nat then nth 1 tl 0 else s_be (c_st c))
                    (s_sc (c_st c)) (s_inc (c_st c)) (s_sync (c_st c)))
              cp cv (if I_dep I then cw else c_cw c) (c_idx c)).
Proof.
  intros He n H1 H2 Lp0 Lv0 Lw0 Lp Lv Lw Ep Ev Ew Lt.
  assert (Lcp : length cp = n) by (eapply (proj1 (chain_of_nth n _ p cp H1 H2 Lp Ep))).
  assert (Lcv : length cv = n) by (eapply (proj1 (chain_of_nth n _ v cv H1 H2 Lv Ev))).
  assert (Lcw : I_dep I = true -> length cw = n).
  { intros Hd. eapply (proj1 (chain_of_nth n _ w cw H1 H2 (Lw Hd) (Ew Hd))). }
  unfold cread_gen. cbv zeta. fold n.
  assert (VN : length (pack t cp cv (auxl I cw) tl) = variable_number I e n).
  { rewrite pack_varnum with (n := n) by auto. replace (1 + length tl)%nat with e by lia. reflexivity. }
  assert (LC : I_dep I = true -> load_coords (pack t cp cv (auxl I cw) tl) (aux_offset n) (length (pack t cp cv (auxl I cw) tl)) = cw).
  { intros Hd. unfold auxl. rewrite Hd. apply load_c; auto. lia. }
  rewrite VN in LC. rewrite VN. rewrite Nat.eqb_refl.
  change (aget (pack t cp cv (auxl I cw) tl) time_offset) with (@Ok R t). cbn [obind].
  rewrite load_a by auto. rewrite load_b by auto.
  rewrite (chain_back n (c_idx c) p) by auto. cbn [obind].
  rewrite (chain_back n (c_idx c) v) by auto. cbn [obind].
  set (E1 := if I_dep I then _ else _).
  assert (X : E1 = Ok (if I_dep I then cw else c_cw c, if I_dep I then w else s_w (c_st c))).
  { unfold E1, auxl. destruct (I_dep I) eqn:Hd; auto. unfold auxl in LC. rewrite Hd in LC. rewrite LC by auto.
    rewrite (chain_back n (c_idx c) w); auto. }
  rewrite X. cbn [obind]. clear X E1.
  destruct He; subst e; cbn [Nat.eqb]; [reflexivity|].
  destruct tl as [|om [|be [|]]]; simpl in Lt; try lia.
  destruct (pack_tail t cp cv cw om be I n Lcp Lcv Lcw) as [-> ->]. cbn [obind]. reflexivity.
Qed.

Lemma gcwrite_length I e c : (e = 1 \/ e = 3)%nat -> consistent I c -> length (gcwrite I e c) = variable_number I e (npart (c_st c)).
Proof.
  intros He C. destruct (consistent_chain_len I c C) as (A & B & D). unfold gcwrite.
  rewrite pack_varnum with (n := npart (c_st c)) by auto. destruct He; subst; reflexivity.
Qed.
Definition cclear (c : cst) : cst := cset_st c (clear_increment (c_st c)).
Lemma cclear_tracks I e c : (e = 1 \/ e = 3)%nat -> consistent I c -> length (s_inc (c_st c)) = variable_number I e (npart (c_st c)) ->
  s_sync (c_st c) = true -> ctracks I e (gcwrite I e c) (cclear c) /\ consistent I (cclear c).
Proof.
  intros He C L S. split; [|apply consistent_set; auto].
  split; auto. cbn [cclear cset_st c_st clear_increment s_inc]. rewrite map_length. split; [rewrite gcwrite_length; auto|].
  rewrite zip_add_zero; [reflexivity|]. rewrite gcwrite_length; auto.
Qed.
Lemma ointegrate_inv (P : cst -> Prop) (cdr cki : cst -> R -> outcome cst) l c h c' :
  (forall c h, P c -> exists c', cdr c h = Ok c' /\ P c') -> (forall c h, P c -> exists c', cki c h = Ok c' /\ P c') ->
  P c -> ointegrate cdr cki l c h = Ok c' -> P c'.
Proof.
  intros Hd Hk. unfold ointegrate. revert c. induction l as [|o l IH]; intros c Pc E; cbn [fold_left] in E; [congruence|].
  destruct o as [x|x]; cbn [orun_op obind] in E.
  - destruct (Hd c (x * h) Pc) as (c1 & E1 & P1). rewrite E1 in E. eauto.
  - destruct (Hk c (x * h) Pc) as (c1 & E1 & P1). rewrite E1 in E. eauto.
Qed.
