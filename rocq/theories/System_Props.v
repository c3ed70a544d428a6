(** Properties C25-C30: particle systems and symplectic integrators. *)
From Verif Require Import System_Model System_Spec Force_Spec Force_Proofs Chain_Proofs Chain_Spec.
From Verif Require Import System_Proofs System_Proofs2 System_Proofs3 System_Proofs4.
Open Scope R_scope.

(** * C25: conservation *)
(** Any list of drifts and kicks: [integrate] with arbitrary coefficients. *)
Theorem C25_simple_conserves_newton l s h : well_sized newton_only 1 s ->
  conserves s (integrate drift (kick newton_only) l s h).
Proof. intros; apply simple_conserves; auto; [apply newton_sized|apply newton_balanced]. Qed.
Theorem C25_regularised_conserves_newton r l s h : well_sized newton_only 3 s ->
  conserves s (integrate (rdrift r) (rkick newton_only r) l s h).
Proof. intros; apply regu_conserves; auto; [apply newton_sized|apply newton_balanced]. Qed.
(** The same for every interaction that obeys the third law. *)
Theorem C25_simple_conserves I l s h : sized I -> balanced I -> well_sized I 1 s ->
  conserves s (integrate drift (kick I) l s h).
Proof. apply simple_conserves. Qed.
Theorem C25_regularised_conserves I r l s h : sized I -> balanced I -> well_sized I 3 s ->
  conserves s (integrate (rdrift r) (rkick I r) l s h).
Proof. apply regu_conserves. Qed.
(** Chain systems: the run succeeds and conserves. *)
Theorem C25_chain_conserves_newton l c h : (2 <= npart (c_st c))%nat -> consistent newton_only c -> well_sized newton_only 1 (c_st c) ->
  exists c', ointegrate cdrift (ckick newton_only chain_newton_only) l c h = Ok c' /\ conserves (c_st c) (c_st c') /\
             consistent newton_only c'.
Proof.
  intros Hn C W. destruct (chain_sim newton_only chain_newton_only l c h newton_sized (newton_agree _ Hn) C) as (c' & E & (C' & S) & _).
  exists c'. split; auto. split; auto.
  change (conserves (c_st c) (strip (c_st c'))). rewrite S. apply (C25_simple_conserves_newton l (c_st c) h W).
Qed.
Theorem C25_archain_conserves_newton r l c h : (2 <= npart (c_st c))%nat -> consistent newton_only c -> well_sized newton_only 3 (c_st c) ->
  exists c', ointegrate (ardrift r) (arkick newton_only chain_newton_only r) l c h = Ok c' /\ conserves (c_st c) (c_st c') /\
             consistent newton_only c'.
Proof.
  intros Hn C W. destruct (archain_sim newton_only chain_newton_only r l c h newton_sized (newton_agree _ Hn) C Hn) as (c' & E & (C' & S) & _).
  exists c'. split; auto. split; auto.
  change (conserves (c_st c) (strip (c_st c'))). rewrite S. apply (C25_regularised_conserves_newton r l (c_st c) h W).
Qed.

(** * The chain systems move the particles exactly like the Cartesian ones (used by C25, C26). *)
Theorem C25_chain_refines_simple I CI l c h : sized I -> agree I CI (npart (c_st c)) -> consistent I c ->
  exists c', ointegrate cdrift (ckick I CI) l c h = Ok c' /\ strip (c_st c') = strip (integrate drift (kick I) l (c_st c) h) /\
             consistent I c' /\ c_idx c' = c_idx c.
Proof. intros HI A C. destruct (chain_sim I CI l c h HI A C) as (c' & E & (C' & S) & X). eauto 6. Qed.
Theorem C25_archain_refines_regularised I CI r l c h : sized I -> agree I CI (npart (c_st c)) -> consistent I c -> (2 <= npart (c_st c))%nat ->
  exists c', ointegrate (ardrift r) (arkick I CI r) l c h = Ok c' /\
             strip (c_st c') = strip (integrate (rdrift r) (rkick I r) l (c_st c) h) /\ consistent I c' /\ c_idx c' = c_idx c.
Proof. intros HI A C Hn. destruct (archain_sim I CI r l c h HI A C Hn) as (c' & E & (C' & S) & X). eauto 6. Qed.
(** Re-indexing the chain after a step moves no particle. *)
Theorem C25_reindex_moves_nothing I c new_idx : consistent I c -> I_dep I = false -> Permutation new_idx (seq 0 (npart (c_st c))) ->
  exists c', post_iter new_idx c = Ok c' /\ consistent I c' /\ c_idx c' = new_idx /\ c_st c' = c_st c.
Proof. apply post_iter_sim. Qed.

(** * C26: time reversal *)
Theorem C26_palindromic l : In l schemes -> rev l = l.
Proof. intros H. repeat (destruct H as [<-|H]; [reflexivity|]). destruct H. Qed.
Theorem C26_simple_reversible I l s h : In l schemes -> sized I -> well_sized I 1 s ->
  integrate drift (kick I) l (integrate drift (kick I) l s h) (- h) = s.
Proof. intros Hl HI W. rewrite <- (C26_palindromic l Hl) at 1. apply simple_reversible; auto. Qed.
Theorem C26_regularised_reversible I r l s h : In l schemes -> sized I -> well_sized I 3 s ->
  same_but_scale (integrate (rdrift r) (rkick I r) l (integrate (rdrift r) (rkick I r) l s h) (- h)) s.
Proof. intros Hl HI W. rewrite <- (C26_palindromic l Hl) at 1. apply regu_reversible; auto. Qed.
Theorem C26_chain_reversible I CI l c h : In l schemes -> sized I -> agree I CI (npart (c_st c)) -> consistent I c -> well_sized I 1 (c_st c) ->
  exists c1 c2, ointegrate cdrift (ckick I CI) l c h = Ok c1 /\ ointegrate cdrift (ckick I CI) l c1 (- h) = Ok c2 /\
                chain_same I eq c2 c.
Proof.
  intros Hl HI A C W. destruct (chain_sim I CI l c h HI A C) as (c1 & E1 & (C1 & S1) & X1).
  assert (N1 : npart (c_st c1) = npart (c_st c)).
  { change (npart (c_st c1)) with (npart (strip (c_st c1))). rewrite S1, strip_integrate by (intros; try apply strip_kick; reflexivity).
    change (npart (c_st c)) with (npart (strip (c_st c))). apply (integrate_P drift (kick I) (fun s => npart s = npart (strip (c_st c)))); auto.
    intros. rewrite npart_kick; auto. }
  destruct (chain_sim I CI l c1 (- h) HI) as (c2 & E2 & (C2 & S2) & X2); auto; [rewrite N1; auto|].
  exists c1, c2. split; auto. split; auto.
  assert (S : strip (c_st c2) = strip (c_st c)).
  { rewrite S2. rewrite strip_integrate by (intros; try apply strip_kick; reflexivity). rewrite S1.
    rewrite <- strip_integrate by (intros; try apply strip_kick; reflexivity). rewrite C26_simple_reversible; auto. }
  split; auto. split; [congruence|]. apply consistent_unique; auto; congruence.
Qed.
Theorem C26_archain_reversible I CI r l c h : In l schemes -> sized I -> agree I CI (npart (c_st c)) -> consistent I c -> (2 <= npart (c_st c))%nat ->
  well_sized I 3 (c_st c) ->
  exists c1 c2, ointegrate (ardrift r) (arkick I CI r) l c h = Ok c1 /\ ointegrate (ardrift r) (arkick I CI r) l c1 (- h) = Ok c2 /\
                chain_same I same_but_scale c2 c.
Proof.
  intros Hl HI A C Hn W. destruct (archain_sim I CI r l c h HI A C Hn) as (c1 & E1 & (C1 & S1) & X1).
  assert (N1 : npart (c_st c1) = npart (c_st c)).
  { change (npart (c_st c1)) with (npart (strip (c_st c1))). rewrite S1, strip_integrate by (intros; try apply strip_rkick; apply strip_rdrift).
    change (npart (c_st c)) with (npart (strip (c_st c))). apply (integrate_P (rdrift r) (rkick I r) (fun s => npart s = npart (strip (c_st c)))); auto.
    - intros. rewrite npart_rdrift; auto.
    - intros. rewrite npart_rkick; auto. }
  destruct (archain_sim I CI r l c1 (- h) HI) as (c2 & E2 & (C2 & S2) & X2); auto; [rewrite N1; auto|rewrite N1; auto|].
  exists c1, c2. split; auto. split; auto.
  assert (S : same_but_scale (strip (c_st c2)) (strip (c_st c))).
  { rewrite S2. rewrite strip_integrate by (intros; try apply strip_rkick; apply strip_rdrift). rewrite S1.
    rewrite <- strip_integrate by (intros; try apply strip_rkick; apply strip_rdrift).
    pose proof (C26_regularised_reversible I r l (c_st c) h Hl HI W) as Q. unfold same_but_scale in *.
    match goal with |- set_sc (strip ?a) 0 = set_sc (strip ?b) 0 => change (strip (set_sc a 0) = strip (set_sc b 0)) end. rewrite Q. reflexivity. }
  split; auto. split; [congruence|].
  assert (S' : strip (c_st (cset_st c2 (set_sc (c_st c2) 0))) = strip (c_st (cset_st c (set_sc (c_st c) 0)))).
  { unfold same_but_scale in S. exact S. }
  destruct (consistent_unique I (cset_st c2 (set_sc (c_st c2) 0)) (cset_st c (set_sc (c_st c) 0))) as (Q1 & Q2 & Q3); auto.
  simpl. congruence.
Qed.

(** * C27: time *)
Theorem C27_time_advance I l s h : s_t (integrate drift (kick I) l s h) = s_t s + drift_sum l * h.
Proof. apply integrate_time. Qed.
Theorem C27_chain_time_advance I CI l c h : sized I -> agree I CI (npart (c_st c)) -> consistent I c ->
  exists c', ointegrate cdrift (ckick I CI) l c h = Ok c' /\ s_t (c_st c') = s_t (c_st c) + drift_sum l * h.
Proof.
  intros HI A C. destruct (chain_sim I CI l c h HI A C) as (c' & E & (C' & S) & _). exists c'. split; auto.
  rewrite <- integrate_time with (I := I). change (s_t (c_st c')) with (s_t (strip (c_st c'))). rewrite S. reflexivity.
Qed.
Theorem C27_sums_exact l : In l [leapfrog_dkd; leapfrog_kdk; symplectic4] -> drift_sum l = 1 /\ kick_sum l = 1.
Proof.
  intros H. repeat (destruct H as [<-|H]; [unfold leapfrog_dkd, leapfrog_kdk, symplectic4; cbn [drift_sum kick_sum]; split; lra|]). destruct H.
Qed.
Theorem C27_sums_close l : In l schemes -> Rabs (drift_sum l - 1) < 1e-14 /\ Rabs (kick_sum l - 1) < 1e-14.
Proof.
  intros H. repeat (destruct H as [<-|H]; [unfold leapfrog_dkd, leapfrog_kdk, symplectic4, symplectic6, symplectic8, symplectic10;
    cbn [drift_sum kick_sum]; split; apply Rabs_def1; lra|]). destruct H.
Qed.
(** Whole steps: the time error of one step is below 1e-14 |h|. *)
Theorem C27_step_time_error I l s h : In l schemes -> Rabs (s_t (integrate drift (kick I) l s h) - (s_t s + h)) <= 1e-14 * Rabs h.
Proof.
  intros H. rewrite integrate_time. replace (s_t s + drift_sum l * h - (s_t s + h)) with ((drift_sum l - 1) * h) by ring.
  rewrite Rabs_mult. apply Rmult_le_compat_r; [apply Rabs_pos|]. destruct (C27_sums_close l H). lra.
Qed.

(** * C28: serialisation round trips *)
Theorem C28_length I s c : 
  (well_sized I 1 s -> length (write I s) = variable_number I 1 (npart s)) /\
  (well_sized I 3 s -> length (rwrite I s) = variable_number I 3 (npart s)) /\
  (consistent I c -> length (cwrite I c) = variable_number I 1 (npart (c_st c)) /\
                     length (arwrite I c) = variable_number I 3 (npart (c_st c))).
Proof.
  split; [|split].
  - intros (P & V & W & _). rewrite write_pack. apply (pack_varnum I (s_t s) (s_p s) (s_v s) (s_w s) [] (npart s)); auto.
  - intros (P & V & W & _). rewrite rwrite_pack. apply (pack_varnum I (s_t s) (s_p s) (s_v s) (s_w s) [s_om s; s_be s] (npart s)); auto.
  - intros C. split; [rewrite cwrite_pack; apply (gcwrite_length I 1 c); auto|rewrite arwrite_pack; apply (gcwrite_length I 3 c); auto].
Qed.
(** What is written from [s] and read into any system [s0] with the same masses. *)
Theorem C28_simple_round_trip I s s0 : well_sized I 1 s -> s_m s0 = s_m s ->
  exists s', read I s0 (write I s) = Ok s' /\ s_t s' = s_t s /\ s_p s' = s_p s /\ s_v s' = s_v s /\ s_m s' = s_m s0 /\
             (I_dep I = true -> s_w s' = s_w s) /\ write I s' = write I s.
Proof.
  intros W E. pose proof (read_write I s s0 W E) as R. eexists. split; [exact R|]. cbn [s_t s_p s_v s_m s_w].
  repeat split; auto; [intros ->; auto|eapply write_read; eauto].
Qed.
Theorem C28_regularised_round_trip I s s0 : well_sized I 3 s -> s_m s0 = s_m s ->
  exists s', rread I s0 (rwrite I s) = Ok s' /\ s_t s' = s_t s /\ s_p s' = s_p s /\ s_v s' = s_v s /\ s_m s' = s_m s0 /\
             s_om s' = s_om s /\ s_be s' = s_be s /\ (I_dep I = true -> s_w s' = s_w s) /\ rwrite I s' = rwrite I s.
Proof.
  intros W E. pose proof (rread_rwrite I s s0 W E) as R. eexists. split; [exact R|]. cbn [s_t s_p s_v s_m s_w s_om s_be].
  repeat split; auto; [intros ->; auto|eapply rwrite_rread; eauto].
Qed.
(** Chain systems: Cartesian coordinates are restored too, through the chain index. *)
Theorem C28_chain_round_trip I c c0 : consistent I c -> consistent I c0 -> s_m (c_st c0) = s_m (c_st c) -> c_idx c0 = c_idx c ->
  exists c', cread I c0 (cwrite I c) = Ok c' /\ s_t (c_st c') = s_t (c_st c) /\ s_p (c_st c') = s_p (c_st c) /\
             s_v (c_st c') = s_v (c_st c) /\ s_m (c_st c') = s_m (c_st c0) /\ (I_dep I = true -> s_w (c_st c') = s_w (c_st c)) /\
             c_cp c' = c_cp c /\ c_cv c' = c_cv c /\ c_idx c' = c_idx c /\ cwrite I c' = cwrite I c.
Proof.
  intros (H1 & H2 & Hp & Hv & Ep & Ev & Hw) (H1' & H2' & Hp' & Hv' & _ & _ & Hw') Em Ei.
  unfold cread. rewrite cwrite_pack.
  assert (N : npart (c_st c0) = npart (c_st c)) by (unfold npart; congruence).
  rewrite (cread_gen_pack I 1 c0 (c_cp c) (c_cv c) (c_cw c) (s_p (c_st c)) (s_v (c_st c)) (s_w (c_st c))); cbv zeta; rewrite ?N, ?Ei; auto;
    try congruence; try (intros Hd; destruct (Hw Hd); destruct (Hw' Hd); auto; congruence).
  eexists. split; [reflexivity|]. cbn [c_st s_t s_p s_v s_m s_w c_cp c_cv c_idx]. repeat split; auto; [intros ->; auto|].
  rewrite cwrite_pack. cbn [c_st c_cp c_cv c_cw s_t]. unfold auxl. destruct (I_dep I); auto.
Qed.
Theorem C28_archain_round_trip I c c0 : consistent I c -> consistent I c0 -> s_m (c_st c0) = s_m (c_st c) -> c_idx c0 = c_idx c ->
  exists c', arread I c0 (arwrite I c) = Ok c' /\ s_t (c_st c') = s_t (c_st c) /\ s_p (c_st c') = s_p (c_st c) /\
             s_v (c_st c') = s_v (c_st c) /\ s_m (c_st c') = s_m (c_st c0) /\ s_om (c_st c') = s_om (c_st c) /\ s_be (c_st c') = s_be (c_st c) /\
             (I_dep I = true -> s_w (c_st c') = s_w (c_st c)) /\
             c_cp c' = c_cp c /\ c_cv c' = c_cv c /\ c_idx c' = c_idx c /\ arwrite I c' = arwrite I c.
Proof.
  intros (H1 & H2 & Hp & Hv & Ep & Ev & Hw) (H1' & H2' & Hp' & Hv' & _ & _ & Hw') Em Ei.
  unfold arread. rewrite arwrite_pack.
  assert (N : npart (c_st c0) = npart (c_st c)) by (unfold npart; congruence).
  rewrite (cread_gen_pack I 3 c0 (c_cp c) (c_cv c) (c_cw c) (s_p (c_st c)) (s_v (c_st c)) (s_w (c_st c))); cbv zeta; rewrite ?N, ?Ei; auto;
    try congruence; try (intros Hd; destruct (Hw Hd); destruct (Hw' Hd); auto; congruence).
  eexists. split; [reflexivity|]. cbn [c_st s_t s_p s_v s_m s_w s_om s_be c_cp c_cv c_idx Nat.eqb nth]. repeat split; auto; [intros ->; auto|].
  rewrite arwrite_pack. cbn [c_st c_cp c_cv c_cw s_t s_om s_be Nat.eqb nth]. unfold auxl. destruct (I_dep I); auto.
Qed.
(** Arrays of any other length are refused; arrays of the right length are read and written back unchanged. *)
Theorem C28_wrong_length_aborts I s c y :
  (length y <> variable_number I 1 (npart s) -> read I s y = Abort) /\
  (length y <> variable_number I 3 (npart s) -> rread I s y = Abort) /\
  (length y <> variable_number I 1 (npart (c_st c)) -> cread I c y = Abort) /\
  (length y <> variable_number I 3 (npart (c_st c)) -> arread I c y = Abort).
Proof.
  unfold read, rread, cread, arread, cread_gen. cbv zeta.
  split; [|split; [|split]]; intros H; apply Nat.eqb_neq in H; rewrite H; reflexivity.
Qed.
Theorem C28_read_then_write I s y s' : 
  (read I s y = Ok s' -> write I s' = y) /\ (rread I s y = Ok s' -> rwrite I s' = y).
Proof. split; [apply write_read|apply rwrite_rread]. Qed.

(** * C29: the collected increment *)
Theorem C29_simple_increment I l s h : sized I -> well_sized I 1 s -> s_sync s = true ->
  let s' := integrate drift (kick I) l (clear_increment s) h in
  write I s' = zip_add (write I s) (s_inc s') /\ length (s_inc s') = length (write I s).
Proof.
  intros HI W S s'. destruct (clear_tracks I 1 s (or_introl eq_refl) W S) as [T W'].
  assert (Q : well_sized I 1 s' /\ tracks I 1 (gwrite I 1 s) s').
  { apply (integrate_P drift (kick I) (fun z => well_sized I 1 z /\ tracks I 1 (gwrite I 1 s) z)); auto.
    - intros z k [Wz Tz]. split; [apply ws_drift; auto|apply tracks_drift; auto].
    - intros z k [Wz Tz]. split; [apply ws_kick; auto|apply tracks_kick; auto]. }
  destruct Q as (_ & _ & L & E). rewrite !write_pack. auto.
Qed.
Theorem C29_regularised_increment I r l s h : sized I -> well_sized I 3 s -> s_sync s = true ->
  let s' := integrate (rdrift r) (rkick I r) l (clear_increment s) h in
  rwrite I s' = zip_add (rwrite I s) (s_inc s') /\ length (s_inc s') = length (rwrite I s).
Proof.
  intros HI W S s'. destruct (clear_tracks I 3 s (or_intror eq_refl) W S) as [T W'].
  assert (Q : well_sized I 3 s' /\ tracks I 3 (gwrite I 3 s) s').
  { apply (integrate_P (rdrift r) (rkick I r) (fun z => well_sized I 3 z /\ tracks I 3 (gwrite I 3 s) z)); auto.
    - intros z k [Wz Tz]. split; [apply ws_rdrift; auto|apply tracks_rdrift; auto].
    - intros z k [Wz Tz]. split; [apply ws_rkick; auto|apply tracks_rkick; auto]. }
  destruct Q as (_ & _ & L & E). rewrite !rwrite_pack. auto.
Qed.
Theorem C29_chain_increment I CI l c h : sized I -> agree I CI (npart (c_st c)) -> consistent I c ->
  length (s_inc (c_st c)) = variable_number I 1 (npart (c_st c)) -> s_sync (c_st c) = true ->
  exists c', ointegrate cdrift (ckick I CI) l (cset_st c (clear_increment (c_st c))) h = Ok c' /\
             cwrite I c' = zip_add (cwrite I c) (s_inc (c_st c')).
Proof.
  intros HI A C L S. destruct (cclear_tracks I 1 c (or_introl eq_refl) C L S) as [T C0]. change (cset_st c (clear_increment (c_st c))) with (cclear c).
  destruct (chain_sim I CI l (cclear c) h HI) as (c' & E & _); auto.
  exists c'. split; auto.
  assert (Q : consistent I c' /\ npart (c_st c') = npart (c_st c) /\ ctracks I 1 (gcwrite I 1 c) c').
  { apply (ointegrate_inv (fun z => consistent I z /\ npart (c_st z) = npart (c_st c) /\ ctracks I 1 (gcwrite I 1 c) z) cdrift (ckick I CI) l (cclear c) h); auto.
    - intros z k (Cz & Nz & Tz). destruct (cdrift_sim I z k Cz) as (z' & Ez & Sz & _). exists z'. split; auto. split; [apply Sz|]. split.
      + rewrite (sim_npart _ _ _ Sz). exact Nz.
      + eapply ctracks_drift; [exact Cz|exact Ez|exact Tz].
    - intros z k (Cz & Nz & Tz). destruct (ckick_sim I CI z k HI) as (z' & Ez & Sz & _); auto; [rewrite Nz; auto|].
      exists z'. split; auto. split; [apply Sz|]. split.
      + rewrite (sim_npart _ _ _ Sz). change (npart (kick I (c_st z) k) = npart (c_st c)). rewrite npart_kick. auto.
      + eapply (ctracks_kick I CI 1 _ z k z'); auto. rewrite Nz; auto. }
  destruct Q as (_ & _ & _ & _ & Q). rewrite !cwrite_pack. exact Q.
Qed.
Theorem C29_archain_increment I CI r l c h : sized I -> agree I CI (npart (c_st c)) -> consistent I c -> (2 <= npart (c_st c))%nat ->
  length (s_inc (c_st c)) = variable_number I 3 (npart (c_st c)) -> s_sync (c_st c) = true ->
  exists c', ointegrate (ardrift r) (arkick I CI r) l (cset_st c (clear_increment (c_st c))) h = Ok c' /\
             arwrite I c' = zip_add (arwrite I c) (s_inc (c_st c')).
Proof.
  intros HI A C Hn L S. destruct (cclear_tracks I 3 c (or_intror eq_refl) C L S) as [T C0]. change (cset_st c (clear_increment (c_st c))) with (cclear c).
  destruct (archain_sim I CI r l (cclear c) h HI) as (c' & E & _); auto.
  exists c'. split; auto.
  assert (Q : consistent I c' /\ npart (c_st c') = npart (c_st c) /\ ctracks I 3 (gcwrite I 3 c) c').
  { apply (ointegrate_inv (fun z => consistent I z /\ npart (c_st z) = npart (c_st c) /\ ctracks I 3 (gcwrite I 3 c) z) (ardrift r) (arkick I CI r) l (cclear c) h); auto.
    - intros z k (Cz & Nz & Tz). destruct (ardrift_sim I r z k Cz) as (z' & Ez & Sz & _). exists z'. split; auto. split; [apply Sz|]. split.
      + rewrite (sim_npart _ _ _ Sz). change (npart (rdrift r (c_st z) k) = npart (c_st c)). rewrite npart_rdrift. auto.
      + eapply ctracks_ardrift; [exact Cz|exact Ez|exact Tz].
    - intros z k (Cz & Nz & Tz). destruct (arkick_sim I CI r z k HI) as (z' & Ez & Sz & _); auto; [rewrite Nz; auto|rewrite Nz; auto|].
      exists z'. split; auto. split; [apply Sz|]. split.
      + rewrite (sim_npart _ _ _ Sz). change (npart (rkick I r (c_st z) k) = npart (c_st c)). rewrite npart_rkick. auto.
      + eapply (ctracks_arkick I CI r _ z k z'); auto; rewrite Nz; auto. }
  destruct Q as (_ & _ & _ & _ & Q). rewrite !arwrite_pack. exact Q.
Qed.
(** Every range of the increment array that an operation adds to lies inside the array. *)
Theorem C29_increment_in_bounds I n : let V e := variable_number I e n in
  (forall e, (1 <= e)%nat -> time_offset + 1 <= V e /\ pos_offset + 3 * n <= V e /\ vel_offset n + 3 * n <= V e /\
                             (I_dep I = true -> aux_offset n + 3 * n <= V e))%nat /\
  (omega_offset I n + 1 <= V 3 /\ bindE_offset I n + 1 <= V 3)%nat.
Proof.
  unfold variable_number, time_offset, pos_offset, vel_offset, aux_offset, omega_offset, bindE_offset. cbv zeta.
  split; [|destruct (I_dep I); simpl Nat.b2n; lia]. intros e He. destruct (I_dep I); simpl Nat.b2n; repeat split; intros; try discriminate; lia.
Qed.

(** * C30: rate of change of the binding energy *)
Lemma contract_power m v a : contract m v a = power m v a.
Proof. unfold contract, power. apply rsum_ext. intros; ring. Qed.
Lemma power_vladd m v a b : length b = length a -> power m v (vladd a b) = power m v a + power m v b.
Proof.
  intros H. unfold power. rewrite <- rsum_add. apply rsum_ext. intros i _. rewrite vladd_nth by auto. unfold dot, vadd; simpl. ring.
Qed.
(** Kick: the binding energy changes by minus the power of the external accelerations only
    (without velocity-dependent forces: the average of the powers before and after the kick). *)
Theorem C30_kick_uses_external_power I s h : I_dep I = false -> I_ind I = true ->
  let dt := h / - pot s in let ext := I_vi I (s_m s) (s_p s) in
  let v' := s_v (rkick I LogH s h) in
  s_be (rkick I LogH s h) = s_be s - dt * (power (s_m s) (s_v s) ext + power (s_m s) v' ext) / 2.
Proof.
  intros Hd Hi. cbv zeta. unfold rkick. cbn [vel_phy]. cbv zeta. rewrite Hd, Hi.
  set (dt := h / - pot s).
  unfold calc_dbindE_dt. cbn [set_sc kick_vel advance_omega advance_bindE s_m s_t s_p s_v s_w s_om s_be s_sc].
  unfold calc_dbindE_dt. rewrite Hi. cbn [orb]. rewrite !contract_power.
  set (P1 := power _ (s_v s) _). set (P2 := power _ (advance _ _ _) _). lra.
Qed.
(** With velocity-dependent forces: the power of the external accelerations at the middle of the kick. *)
Theorem C30_kick_uses_external_power_dep I s h : I_dep I = true ->
  let dt := h / - pot s in
  let vi := if I_ind I then vladd (I_vi I (s_m s) (s_p s)) (I_newt I (s_m s) (s_p s)) else I_newt I (s_m s) (s_p s) in
  let vmid := advance (s_v s) (vladd vi (I_vd I (s_m s) (s_p s) (s_w s))) (0.5 * dt) in
  let vd := I_vd I (s_m s) (s_p s) vmid in
  let ext := if I_ind I then vladd (I_vi I (s_m s) (s_p s)) vd else vd in
  s_be (rkick I LogH s h) = s_be s - dt * power (s_m s) vmid ext.
Proof.
  intros Hd. cbv zeta. unfold rkick. cbn [vel_phy]. cbv zeta. rewrite Hd. set (dt := h / - pot s).
  unfold rkick_pseu, kick_real_vel. cbv zeta.
  destruct (I_ind I) eqn:Hi; cbn [set_sc kick_vel kick_aux advance_omega advance_bindE s_m s_t s_p s_v s_w s_om s_be s_sc];
    unfold calc_dbindE_dt; rewrite Hi, Hd; cbn [orb]; rewrite contract_power; ring.
Qed.
Lemma power_extra I m p v : sized I -> length p = length m -> length v = length m -> I_ind I || I_dep I = true ->
  power m v (eval_extra I m p v) = power m v (external_acc I m p v).
Proof. intros HI Lp Lv Hx. unfold power. apply rsum_ext. intros i Hi. rewrite extra_external by auto. reflexivity. Qed.
(** Reported derivative: the power of the total acceleration. *)
Theorem C30_derivative_uses_total_power I s d : sized I -> well_sized I 3 s -> I_ind I || I_dep I = true ->
  last (rderivative I LogH s) d = / - pot s * - power (s_m s) (s_v s) (total_acc I (s_m s) (s_p s) (s_v s)).
Proof.
  intros HI (Lp & Lv & _) Hx. unfold rderivative. cbv zeta. cbn [vel_phy pos_phy fst]. rewrite Hx. cbn [calc_domega_dt].
  unfold calc_dbindE_dt. rewrite Hx. rewrite contract_power.
  assert (L : forall (x : R) a b c u w, last (x :: a ++ b ++ c ++ [u; w]) d = w).
  { intros. rewrite !app_assoc. change [u; w] with ([u] ++ [w]). rewrite app_assoc, app_comm_cons. apply last_last. }
  rewrite L. destruct (HI (s_m s) (s_p s) (s_v s) Lp Lv) as (L1 & L2 & L3).
  rewrite power_vladd by (unfold eval_extra; destruct (I_dep I), (I_ind I); rewrite ?vladd_length; congruence).
  rewrite power_extra by auto. replace (power (s_m s) (s_v s) (total_acc I (s_m s) (s_p s) (s_v s))) with
    (power (s_m s) (s_v s) (external_acc I (s_m s) (s_p s) (s_v s)) + power (s_m s) (s_v s) (I_newt I (s_m s) (s_p s))); [unfold Rdiv; ring|].
  unfold power. rewrite <- rsum_add. apply rsum_ext. intros i Hi. rewrite total_nth by auto. unfold dot, vadd; simpl. ring.
Qed.
(** So the reported rate is the rate the kick applies (the external power) exactly when the
    Newtonian power vanishes: the claim that the two always agree is refuted. *)
Theorem C30_rates_agree_iff I s d : sized I -> well_sized I 3 s -> I_ind I || I_dep I = true -> pot s <> 0 ->
  (last (rderivative I LogH s) d = / - pot s * - power (s_m s) (s_v s) (external_acc I (s_m s) (s_p s) (s_v s)) <->
   power (s_m s) (s_v s) (I_newt I (s_m s) (s_p s)) = 0).
Proof.
  intros HI W Hx Hu. rewrite C30_derivative_uses_total_power by auto.
  replace (power (s_m s) (s_v s) (total_acc I (s_m s) (s_p s) (s_v s))) with
    (power (s_m s) (s_v s) (external_acc I (s_m s) (s_p s) (s_v s)) + power (s_m s) (s_v s) (I_newt I (s_m s) (s_p s))).
  2:{ unfold power. rewrite <- rsum_add. apply rsum_ext. intros i Hi. rewrite total_nth by auto. unfold dot, vadd; simpl. ring. }
  assert (/ - pot s <> 0) by (apply Rinv_neq_0_compat; lra).
  set (a := power _ _ (external_acc _ _ _ _)). set (b := power _ _ (I_newt _ _ _)). set (k := / - pot s) in *. split; intros E.
  - assert (k * b = 0) by lra. destruct (Rmult_integral _ _ H0); [contradiction|auto].
  - rewrite E. ring.
Qed.
(** A uniform external field on an infalling pair. *)
Definition pair_state : st :=
  mkSt [1; 1] 0 [mkV 0 0 0; mkV 1 0 0] [mkV 1 0 0; mkV 0 0 0] [] 1 0 1 (repeat 0 15) false.
Definition with_field : inter := mkI false true newton_acc (fun m _ => map (fun _ => mkV 0 0 1) m) (fun m _ _ => map (fun _ => vzero) m).
Lemma with_field_sized : sized with_field.
Proof.
  intros m p v _ _. simpl. rewrite !map_length. repeat split. unfold newton_acc. cbv zeta. apply tolist_length.
Qed.
Theorem C30_rates_agree_refuted :
  sized with_field /\ well_sized with_field 3 pair_state /\ last (rderivative with_field LogH pair_state) 0 <>
  / - pot pair_state * - power (s_m pair_state) (s_v pair_state) (external_acc with_field (s_m pair_state) (s_p pair_state) (s_v pair_state)).
Proof.
  assert (W : well_sized with_field 3 pair_state) by (repeat split; auto; discriminate).
  split; [apply with_field_sized|]. split; [exact W|].
  assert (N1 : sqrt ((0 - 1) * (0 - 1) + (0 - 0) * (0 - 0) + (0 - 0) * (0 - 0)) = 1).
  { replace ((0 - 1) * (0 - 1) + (0 - 0) * (0 - 0) + (0 - 0) * (0 - 0)) with 1 by ring. apply sqrt_1. }
  assert (N2 : sqrt ((1 - 0) * (1 - 0) + (0 - 0) * (0 - 0) + (0 - 0) * (0 - 0)) = 1).
  { replace ((1 - 0) * (1 - 0) + (0 - 0) * (0 - 0) + (0 - 0) * (0 - 0)) with 1 by ring. apply sqrt_1. }
  assert (U : pot pair_state = - 1).
  { unfold pot, potential_energy, pair_state, sys_of, all_pairs; simpl. unfold norm, norm2, dot, vsub; simpl. rewrite N1. unfold Gc. field. }
  intros E. apply C30_rates_agree_iff in E; auto; [|apply with_field_sized|rewrite U; lra].
  revert E. unfold power, pair_state, with_field, newton_acc, sys_of, tolist, all_pairs, direct_calls; simpl.
  unfold add_acc, apply_pair, newton_pair, upd; simpl. unfold norm, norm2, dot, vsub, vadd, vzero, vneg; simpl. rewrite N2. intros E.
  field_simplify in E. lra.
Qed.

(** * Non-vacuity *)
(** A three-body state of the simple, and of the regularised system. *)
Definition three_st (e : nat) : st :=
  mkSt [1; 2; 3] 0 [mkV 0 0 0; mkV 1 0 0; mkV 0 2 0] [mkV 0 1 0; mkV 0 0 1; mkV (- (1 / 3)) 0 0] [] 5 1 1 (repeat 0 (18 + e)) true.
Example C25_ex e : (e = 1 \/ e = 3)%nat -> well_sized newton_only e (three_st e) /\ sized newton_only /\ balanced newton_only.
Proof.
  intros H. split; [|split; [apply newton_sized|apply newton_balanced]].
  repeat split; try discriminate; destruct H; subst; reflexivity.
Qed.
(** Velocity-dependent forces: linear friction on every particle, auxiliary velocities present. *)
Definition friction : inter :=
  mkI true false newton_acc (fun _ p => p) (fun _ _ v => map (vscal (-1)) v).
Definition three_dep : st :=
  mkSt [1; 2; 3] 0 [mkV 0 0 0; mkV 1 0 0; mkV 0 2 0] [mkV 0 1 0; mkV 0 0 1; mkV 1 0 0] [mkV 0 1 0; mkV 0 0 1; mkV 1 0 0] 5 1 1 (repeat 0 28) true.
Example C26_ex_dep : sized friction /\ well_sized friction 1 three_dep.
Proof.
  split; [|repeat split].
  intros m p v Hp Hv. simpl. rewrite map_length. repeat split; auto. unfold newton_acc. cbv zeta. apply tolist_length.
Qed.
(** Consistent chains exist for every Cartesian state and index. *)
Lemma chain_exists I s idx : (1 <= npart s)%nat -> Permutation idx (seq 0 (npart s)) -> length (s_p s) = npart s -> length (s_v s) = npart s ->
  (I_dep I = true -> length (s_w s) = npart s) -> exists c, c_st c = s /\ c_idx c = idx /\ consistent I c.
Proof.
  intros H1 H2 Lp Lv Lw. destruct (chain_of_ok (npart s) idx (s_p s)) as (cp & Ep & _); auto.
  destruct (chain_of_ok (npart s) idx (s_v s)) as (cv & Ev & _); auto.
  destruct (I_dep I) eqn:Hd.
  - destruct (chain_of_ok (npart s) idx (s_w s)) as (cw & Ew & _); auto.
    exists (mkCst s cp cv cw idx). split; auto. split; auto. unfold consistent. sdc. repeat split; auto.
  - exists (mkCst s cp cv [] idx). split; auto. split; auto. unfold consistent. sdc. repeat split; auto; congruence.
Qed.
Example C25_ex_chain : exists c, consistent newton_only c /\ c_st c = three_st 1 /\ c_idx c = [2; 0; 1]%nat /\ (2 <= npart (c_st c))%nat /\
  agree newton_only chain_newton_only (npart (c_st c)) /\ well_sized newton_only 1 (c_st c).
Proof.
  destruct (chain_exists newton_only (three_st 1) [2; 0; 1]%nat) as (c & E & X & C); auto; try (simpl; lia); try discriminate.
  - unfold npart; simpl; lia.
  - change (Permutation [2; 0; 1]%nat [0; 1; 2]%nat).
    apply (Permutation_trans (l' := [0; 2; 1]%nat)); [apply perm_swap|apply perm_skip, perm_swap].
  - exists c. rewrite E. split; [exact C|]. split; [auto|]. split; [auto|]. split; [unfold npart; simpl; lia|]. split; [|repeat split; discriminate]. rewrite <- E.
    apply newton_agree. rewrite E. unfold npart; simpl. lia.
Qed.
(** The whole-step theorems at work: the 8th order integrator on that chain. *)
Example C26_ex_chain : exists c c1 c2, c_st c = three_st 1 /\
  ointegrate cdrift (ckick newton_only chain_newton_only) symplectic8 c 0.01 = Ok c1 /\
  ointegrate cdrift (ckick newton_only chain_newton_only) symplectic8 c1 (- (0.01)) = Ok c2 /\ s_p (c_st c2) = s_p (three_st 1).
Proof.
  destruct C25_ex_chain as (c & C & E & _ & Hn & A & W).
  destruct (C26_chain_reversible newton_only chain_newton_only symplectic8 c 0.01) as (c1 & c2 & E1 & E2 & S & _); auto.
  - simpl; auto 10.
  - apply newton_sized.
  - exists c, c1, c2. split; [exact E|]. split; [exact E1|]. split; [exact E2|]. rewrite <- E. change (s_p (strip (c_st c2)) = s_p (c_st c)). rewrite S. reflexivity.
Qed.

Print Assumptions C25_simple_conserves_newton.
Print Assumptions C25_regularised_conserves_newton.
Print Assumptions C25_chain_conserves_newton.
Print Assumptions C25_archain_conserves_newton.
Print Assumptions C25_chain_refines_simple.
Print Assumptions C25_archain_refines_regularised.
Print Assumptions C25_reindex_moves_nothing.
Print Assumptions C26_simple_reversible.
Print Assumptions C26_regularised_reversible.
Print Assumptions C26_chain_reversible.
Print Assumptions C26_archain_reversible.
Print Assumptions C27_time_advance.
Print Assumptions C27_sums_exact.
Print Assumptions C27_sums_close.
Print Assumptions C28_chain_round_trip.
Print Assumptions C28_archain_round_trip.
Print Assumptions C29_archain_increment.
Print Assumptions C30_rates_agree_iff.
Print Assumptions C30_rates_agree_refuted.
