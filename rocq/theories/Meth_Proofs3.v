(** Bulirsch-Stoer on chain systems. *)
From Verif Require Export Meth_Proofs2 Build_Proofs BS_Proofs3.
From Verif Require Import System_Proofs System_Proofs2 System_Proofs3 System_Proofs4 System_Props BS_Props Meth_Spec Chain_Spec.
Import System_Spec Chain_Spec.
Open Scope R_scope.

Lemma comb_diff k x y x' y' : comb k (x - y) (x' - y') = comb k x x' - comb k y y'. Proof. unfold comb. ring. Qed.
Lemma add_diff' x y x' y' : Rplus (x - y) (x' - y') = Rplus x x' - Rplus y y'. Proof. ring. Qed.
(** Preconditions of a call. *)
Lemma fit_start I e n c : (e = 1 \/ e = 3)%nat -> (2 <= n)%nat -> chain_ready I e n c -> let c0 := cpre_iter I c in
  consistent I c0 /\ well_sized I e (c_st c0) /\ npart (c_st c0) = n /\ is_index n (c_idx c0) /\
  Lock I e n (c_idx c0) (ccollect c0 true) (set_sync (c_st c0) true).
Proof.
  intros He Hn (C & N & L) c0. assert (C0 : consistent I c0) by (apply cart_ok_pre; auto).
  assert (N0 : npart (c_st c0) = n) by (unfold c0; rewrite st_pre, npart_pre; auto).
  assert (L0 : s_inc (c_st c0) = s_inc (c_st c)) by (unfold c0; rewrite st_pre; unfold pre_iter; destruct (I_dep I); reflexivity).
  assert (W : well_sized I e (c_st c0)).
  { destruct (consistent_sized I c0 C0) as (A & B & D). unfold well_sized. rewrite L0, N0 in *. repeat split; auto. }
  split; auto. split; auto. split; auto. split; [destruct C0 as (_ & X & _); rewrite N0 in X; exact X|].
  split; [apply consistent_set; auto|]. split; [reflexivity|]. split; [reflexivity|]. split; [exact N0|]. split; [exact W|].
  split; [cbn; rewrite L0; auto|]. auto.
Qed.
Section Inst.
  Context (I : inter) (CI : cinter) (HI : sized I) (n : nat) (A : agree I CI n) (Hn : (2 <= n)%nat).
  Lemma lock_fin e idx c s : Lock I e n idx c s -> Mate I n e idx (ccollect c false) (set_sync s false).
  Proof.
    intros (C & Ei & Es & Ns & W & Li & S1 & S2). split; [apply consistent_set; auto|]. split; [exact Ei|]. split; [exact Es|]. split; [exact Ns|].
    split; [exact W|exact Li].
  Qed.
  Lemma chain_iterate_sim tn M kdk err next lim b c h : chain_ready I 1 n c -> let c0 := cpre_iter I c in let T := chain_array I n (c_idx c0) in
    orel (Rit cst st T (variable_number I 1 n) (Mate I n 1 (c_idx c0)))
      (iterate tn M kdk cst (cwrite I) (cread I) ccollect (chain_run I CI kdk) err next lim b c0 h)
      (iterate tn M kdk st (write I) (read I) set_sync (simple_run I kdk) (errQ err T) next lim b (c_st c0) h).
  Proof.
    intros F c0 T. destruct (fit_start I 1 n c (or_introl eq_refl) Hn F) as (C0 & W & N0 & Hi & LK). fold c0 in C0, W, N0, Hi, LK.
    assert (H1 : (1 <= n)%nat) by lia.
    apply (iterate_sim M kdk cst st (cwrite I) (write I) (cread I) (read I) ccollect set_sync (chain_run I CI kdk) (simple_run I kdk) err (errQ err T) next lim T
             (variable_number I 1 n) (Lock I 1 n (c_idx c0)) (Mate I n 1 (c_idx c0))).
    - intros a b0 k La Lb. apply (chain_array_zip I 1); auto. apply comb_diff.
    - intros a b0 La Lb. apply (chain_array_zip I 1); auto. apply add_diff'.
    - intros p q y L Ly. apply (lock_read I 1 n (c_idx c0) p q y); auto.
    - intros p q h0 k L Hk. destruct (lock_run_chain I CI n (c_idx c0) kdk p q h0 k) as (p' & q' & dy & X1 & X2 & X3 & X4); auto. exists p', q', dy. auto.
    - intros p q. apply lock_fin.
    - reflexivity.
    - exists (b_ext b). split; [destruct b; reflexivity|]. split; auto. intros; lia.
    - transitivity (gcwrite I 1 c0); [apply cwrite_pack|]. rewrite (gcwrite_form I 1 c0 C0), N0, gwrite1. reflexivity.
    - rewrite <- gwrite1, (gw_length I 1 (or_introl eq_refl) _ W), N0. reflexivity.
    - exact LK.
  Qed.
  Lemma archain_iterate_sim r tn M kdk err next lim b c h : chain_ready I 3 n c -> let c0 := cpre_iter I c in let T := chain_array I n (c_idx c0) in
    orel (Rit cst st T (variable_number I 3 n) (Mate I n 3 (c_idx c0)))
      (iterate tn M kdk cst (arwrite I) (arread I) ccollect (archain_run I CI r kdk) err next lim b c0 h)
      (iterate tn M kdk st (rwrite I) (rread I) set_sync (regu_run I r kdk) (errQ err T) next lim b (c_st c0) h).
  Proof.
    intros F c0 T. destruct (fit_start I 3 n c (or_intror eq_refl) Hn F) as (C0 & W & N0 & Hi & LK). fold c0 in C0, W, N0, Hi, LK.
    assert (H1 : (1 <= n)%nat) by lia.
    apply (iterate_sim M kdk cst st (arwrite I) (rwrite I) (arread I) (rread I) ccollect set_sync (archain_run I CI r kdk) (regu_run I r kdk) err (errQ err T) next lim T
             (variable_number I 3 n) (Lock I 3 n (c_idx c0)) (Mate I n 3 (c_idx c0))).
    - intros a b0 k La Lb. apply (chain_array_zip I 3); auto. apply comb_diff.
    - intros a b0 La Lb. apply (chain_array_zip I 3); auto. apply add_diff'.
    - intros p q y L Ly. apply (lock_read I 3 n (c_idx c0) p q y); auto.
    - intros p q h0 k L Hk. destruct (lock_run_archain I CI r n (c_idx c0) kdk p q h0 k) as (p' & q' & dy & X1 & X2 & X3 & X4); auto. exists p', q', dy. auto.
    - intros p q. apply lock_fin.
    - reflexivity.
    - exists (b_ext b). split; [destruct b; reflexivity|]. split; auto. intros; lia.
    - transitivity (gcwrite I 3 c0); [apply arwrite_pack|]. rewrite (gcwrite_form I 3 c0 C0), N0, gwrite3. reflexivity.
    - rewrite <- gwrite3, (gw_length I 3 (or_intror eq_refl) _ W), N0. reflexivity.
    - exact LK.
  Qed.
End Inst.

(** * one call, including the re-indexing *)
Lemma drifts_refl s : drifts s s.
Proof. split; auto. split; auto. generalize (momentum s) (moment s). intros [a b c] [d f g]. vunf. f_equal; ring. Qed.
Lemma drifts_trans a b c : drifts a b -> drifts b c -> drifts a c.
Proof.
  intros (M1 & P1 & Q1) (M2 & P2 & Q2). split; [congruence|]. split; [congruence|]. rewrite Q2, Q1, P1.
  generalize (momentum a) (moment a) (s_t a) (s_t b) (s_t c). intros [x y z] [u v w] p q r. vunf. f_equal; ring.
Qed.
Lemma drifts_eq s0 s0' s s' : same_physics s0 s0' -> same_physics s s' -> drifts s0 s -> drifts s0' s'.
Proof.
  intros (A1 & A2 & A3 & A4) (B1 & B2 & B3 & B4). unfold drifts, momentum, moment, npart. rewrite A1, A2, A3, A4, B1, B2, B3, B4. auto.
Qed.
Lemma same_refl s : same_physics s s. Proof. repeat split. Qed.
Lemma same_sym s s' : same_physics s s' -> same_physics s' s. Proof. intros (A & B & D & F). repeat split; auto. Qed.
Lemma same_pre I s : same_physics (pre_iter I s) s. Proof. unfold pre_iter. destruct (I_dep I); repeat split. Qed.
Lemma same_strip s s' : strip s = strip s' -> same_physics s s'.
Proof.
  intros E. assert (X : forall A (f : st -> A), f (strip s) = f (strip s')) by (intros; rewrite E; auto).
  split; [exact (X _ s_m)|]. split; [exact (X _ s_t)|]. split; [exact (X _ s_p)|exact (X _ s_v)].
Qed.
Lemma same_trans a b c : same_physics a b -> same_physics b c -> same_physics a c.
Proof. intros (A & B & D & F) (A' & B' & D' & F'). repeat split; congruence. Qed.

Lemma rit_sizes T n Rf M b' c1 h1 b2 s2 h2 : Rit cst st T n Rf (b', c1, h1) (b2, s2, h2) -> sizes M b2 -> sizes M b'.
Proof.
  intros (_ & (eP & E & (L & _)) & _). cbn [fst snd] in E, L. subst b'. unfold sizes. cbn [fst set_row b_ext b_ideal b_cpl] in *. rewrite L. auto.
Qed.
Lemma rit_safe T n Rf M b' c1 h1 b2 s2 h2 : Rit cst st T n Rf (b', c1, h1) (b2, s2, h2) -> safe M b2 /\ b_first b2 = false -> safe M b' /\ b_first b' = false.
Proof.
  intros H [(S & Rk) F]. pose proof (rit_sizes _ _ _ M _ _ _ _ _ _ H S) as S'. destruct H as (_ & (eP & E & _) & _). cbn [fst snd] in E. subst b'.
  cbn [fst set_row b_ext b_ideal b_cpl b_rank b_first] in *. split; auto. split; auto.
Qed.
Section Calls.
  Context (I : inter) (CI : cinter) (HI : sized I) (n : nat) (A : agree I CI n) (Hn : (2 <= n)%nat).
  Lemma after_reindex e idx b' c1 h1 s' o : Mate I n e idx c1 s' -> then_reindex (Ok (b', c1, h1)) o ->
    exists c', o = Ok (b', c', h1) /\ chain_ready I e n c' /\ c_st c' = c_st c1 /\ strip (c_st c') = strip s'.
  Proof.
    intros (C1 & Ei & Es & Ns & W & L) (o1 & Ho & ->).
    assert (N1 : npart (c_st c1) = n) by (rewrite <- npart_strip, Es, npart_strip; auto).
    destruct (reindex_ok c1 o1 (cart_ok_of I c1 C1)) as (c' & -> & C' & E'); [lia|auto|]. cbn [obind]. exists c'. split; auto.
    rewrite E'. split; [|auto]. split; auto. rewrite E'. auto.
  Qed.
  Lemma idx_pre c : c_idx (cpre_iter I c) = c_idx c. Proof. unfold cpre_iter. destruct (I_dep I); reflexivity. Qed.

  Lemma chain_call tn M kdk err next lim b c h o : (1 <= M)%nat -> chain_ready I 1 n c -> sizes M b -> bs_chain I CI tn M kdk err next lim b c h o ->
    match o with
    | Ok (b', c', h1) => sizes M b' /\ chain_ready I 1 n c' /\ exists s' y hk k,
        accepted_step M kdk (write I) drift (kick I) (errQ err (chain_array I n (c_idx c))) lim (pre_iter I (c_st c)) h s' h1 y hk k /\
        same_physics (c_st c') s' /\ s_t (c_st c') = s_t (c_st c) + hk /\ s_m (c_st c') = s_m (c_st c) /\
        (balanced I -> drifts (c_st c) (c_st c'))
    | _ => True
    end.
  Proof.
    intros HM F S H. unfold bs_chain in H. pose proof (chain_iterate_sim I CI HI n A Hn tn M kdk err next lim b c h F) as X. cbv zeta in X.
    destruct (fit_start I 1 n c (or_introl eq_refl) Hn F) as (C0 & W0 & N0 & _ & _).
    destruct (iterate tn M kdk cst (cwrite I) (cread I) ccollect (chain_run I CI kdk) err next lim b (cpre_iter I c) h) as [[[b' c1] h1]| |].
    2: cbn in H; subst o; exact Logic.I. 2: cbn in H; subst o; exact Logic.I.
    rewrite idx_pre, st_pre in X. rewrite st_pre in W0.
    destruct (iterate tn M kdk st (write I) (read I) set_sync (simple_run I kdk) (errQ err (chain_array I n (c_idx c))) next lim b (pre_iter I (c_st c)) h) as [[[b2 s2] h2]| |] eqn:E; try contradiction.
    cbn [orel] in X. destruct (BS_Proofs3.simple_step I tn M kdk _ next lim b _ h b2 s2 h2 HM HI W0 S E) as (S2 & F2 & W2 & y & hk & k & AC & T & CO).
    pose proof (rit_sizes _ _ _ M _ _ _ _ _ _ X S2) as S'. destruct X as (Eh & _ & FN). cbn [fst snd] in Eh, FN. subst h2.
    destruct (after_reindex 1 (c_idx c) b' c1 h1 s2 o FN H) as (c' & -> & F' & E1 & E2). split; auto. split; auto.
    exists s2, y, hk, k. split; auto. pose proof (same_strip _ _ E2) as SP. split; auto.
    pose proof (same_pre I (c_st c)) as (Z1 & Z2 & Z3 & Z4). destruct SP as (Y1 & Y2 & Y3 & Y4).
    split; [rewrite Y2, T, Z2; reflexivity|]. split; [rewrite Y1; destruct AC as (_ & _ & _ & _ & _ & _ & Q & _); congruence|].
    intros HB. destruct (CO HB) as [CO1 CO2]. apply (drifts_eq (pre_iter I (c_st c)) _ s2); [apply same_pre|apply same_sym; repeat split; auto|].
    split; [destruct AC as (_ & _ & _ & _ & _ & _ & Q & _); congruence|]. split; auto. rewrite CO2, T. f_equal. f_equal. lra.
  Qed.
  Lemma archain_call r tn M kdk err next lim b c h o : (1 <= M)%nat -> chain_ready I 3 n c -> sizes M b -> bs_archain I CI r tn M kdk err next lim b c h o ->
    match o with
    | Ok (b', c', h1) => sizes M b' /\ chain_ready I 3 n c' /\ exists s' y hk k,
        accepted_step M kdk (rwrite I) (rdrift r) (rkick I r) (errQ err (chain_array I n (c_idx c))) lim (pre_iter I (c_st c)) h s' h1 y hk k /\
        same_physics (c_st c') s' /\ s_om (c_st c') = s_om s' /\ s_be (c_st c') = s_be s' /\ s_m (c_st c') = s_m (c_st c) /\
        (balanced I -> drifts (c_st c) (c_st c'))
    | _ => True
    end.
  Proof.
    intros HM F S H. unfold bs_archain in H. pose proof (archain_iterate_sim I CI HI n A Hn r tn M kdk err next lim b c h F) as X. cbv zeta in X.
    destruct (fit_start I 3 n c (or_intror eq_refl) Hn F) as (C0 & W0 & N0 & _ & _).
    destruct (iterate tn M kdk cst (arwrite I) (arread I) ccollect (archain_run I CI r kdk) err next lim b (cpre_iter I c) h) as [[[b' c1] h1]| |].
    2: cbn in H; subst o; exact Logic.I. 2: cbn in H; subst o; exact Logic.I.
    rewrite idx_pre, st_pre in X. rewrite st_pre in W0.
    destruct (iterate tn M kdk st (rwrite I) (rread I) set_sync (regu_run I r kdk) (errQ err (chain_array I n (c_idx c))) next lim b (pre_iter I (c_st c)) h) as [[[b2 s2] h2]| |] eqn:E; try contradiction.
    cbn [orel] in X. destruct (BS_Proofs3.regu_step I r tn M kdk _ next lim b _ h b2 s2 h2 HM HI W0 S E) as (S2 & F2 & W2 & y & hk & k & AC & CO).
    pose proof (rit_sizes _ _ _ M _ _ _ _ _ _ X S2) as S'. destruct X as (Eh & _ & FN). cbn [fst snd] in Eh, FN. subst h2.
    destruct (after_reindex 3 (c_idx c) b' c1 h1 s2 o FN H) as (c' & -> & F' & E1 & E2). split; auto. split; auto.
    exists s2, y, hk, k. split; auto. pose proof (same_strip _ _ E2) as SP. split; auto.
    pose proof (same_pre I (c_st c)) as (Z1 & Z2 & Z3 & Z4). destruct SP as (Y1 & Y2 & Y3 & Y4).
    split; [exact (f_equal s_om E2)|]. split; [exact (f_equal s_be E2)|]. split; [rewrite Y1; destruct AC as (_ & _ & _ & _ & _ & _ & Q & _); congruence|].
    intros HB. destruct (CO HB) as [CO1 CO2]. apply (drifts_eq (pre_iter I (c_st c)) _ s2); [apply same_pre|apply same_sym; repeat split; auto|].
    split; [destruct AC as (_ & _ & _ & _ & _ & _ & Q & _); congruence|]. split; auto.
  Qed.
  (** no undefined behaviour *)
  Lemma chain_defined tn M kdk err next lim b c h o : (3 <= M)%nat -> chain_ready I 1 n c -> safe M b -> b_first b = false ->
    bs_chain I CI tn M kdk err next lim b c h o ->
    match o with Ok (b', c', _) => safe M b' /\ b_first b' = false | Abort => True | UB => False end.
  Proof.
    intros HM F S Fb H. unfold bs_chain in H. pose proof (chain_iterate_sim I CI HI n A Hn tn M kdk err next lim b c h F) as X. cbv zeta in X.
    destruct (fit_start I 1 n c (or_introl eq_refl) Hn F) as (C0 & W0 & N0 & _ & _).
    destruct (proj1 (C32_systems_replay I NoReg kdk (c_st (cpre_iter I c)) HI) W0) as (Inv & row & RP & IV & RD).
    pose proof (C33_in_bounds tn M kdk st (write I) (read I) set_sync (simple_run I kdk) (errQ err (chain_array I n (c_idx (cpre_iter I c)))) next lim Inv row b _ h HM S Fb RP IV RD) as Y.
    destruct (iterate tn M kdk cst (cwrite I) (cread I) ccollect (chain_run I CI kdk) err next lim b (cpre_iter I c) h) as [[[b' c1] h1]| |];
    destruct (iterate tn M kdk st (write I) (read I) set_sync (simple_run I kdk) (errQ err (chain_array I n (c_idx (cpre_iter I c)))) next lim b (c_st (cpre_iter I c)) h) as [[[b2 s2] h2]| |]; try contradiction.
    - cbn [orel] in X. pose proof (rit_safe _ _ _ M _ _ _ _ _ _ X Y) as Z. destruct X as (_ & _ & FN). cbn [fst snd] in FN.
      destruct (after_reindex 1 _ b' c1 h1 s2 o FN H) as (c' & -> & _). exact Z.
    - cbn in H. subst o. exact Logic.I.
  Qed.
  Lemma archain_defined r tn M kdk err next lim b c h o : (3 <= M)%nat -> chain_ready I 3 n c -> safe M b -> b_first b = false ->
    bs_archain I CI r tn M kdk err next lim b c h o ->
    match o with Ok (b', c', _) => safe M b' /\ b_first b' = false | Abort => True | UB => False end.
  Proof.
    intros HM F S Fb H. unfold bs_archain in H. pose proof (archain_iterate_sim I CI HI n A Hn r tn M kdk err next lim b c h F) as X. cbv zeta in X.
    destruct (fit_start I 3 n c (or_intror eq_refl) Hn F) as (C0 & W0 & N0 & _ & _).
    destruct (proj2 (C32_systems_replay I r kdk (c_st (cpre_iter I c)) HI) W0) as (Inv & row & RP & IV & RD).
    pose proof (C33_in_bounds tn M kdk st (rwrite I) (rread I) set_sync (regu_run I r kdk) (errQ err (chain_array I n (c_idx (cpre_iter I c)))) next lim Inv row b _ h HM S Fb RP IV RD) as Y.
    destruct (iterate tn M kdk cst (arwrite I) (arread I) ccollect (archain_run I CI r kdk) err next lim b (cpre_iter I c) h) as [[[b' c1] h1]| |];
    destruct (iterate tn M kdk st (rwrite I) (rread I) set_sync (regu_run I r kdk) (errQ err (chain_array I n (c_idx (cpre_iter I c)))) next lim b (c_st (cpre_iter I c)) h) as [[[b2 s2] h2]| |]; try contradiction.
    - cbn [orel] in X. pose proof (rit_safe _ _ _ M _ _ _ _ _ _ X Y) as Z. destruct X as (_ & _ & FN). cbn [fst snd] in FN.
      destruct (after_reindex 3 _ b' c1 h1 s2 o FN H) as (c' & -> & _). exact Z.
    - cbn in H. subst o. exact Logic.I.
  Qed.
End Calls.
(** histories *)
Lemma calls_inv {Y X} (step : Y -> X -> R -> Y -> X -> Prop) (G : Y -> X -> Prop) (view : X -> st) (D : st -> st -> Prop) :
  (forall s, D s s) -> (forall a b c, D a b -> D b c -> D a c) ->
  (forall y x h y1 x1, G y x -> step y x h y1 x1 -> G y1 x1 /\ D (view x) (view x1)) ->
  forall y x y' x', calls step y x y' x' -> G y x -> G y' x' /\ D (view x) (view x').
Proof.
  intros Rf Tr H y x y' x' C. induction C as [y x|y x h y1 x1 y2 x2 S _ IH]; intros g; [split; auto|].
  destruct (H _ _ _ _ _ g S) as [g1 d1]. destruct (IH g1) as [g2 d2]. split; auto. eapply Tr; eauto.
Qed.
