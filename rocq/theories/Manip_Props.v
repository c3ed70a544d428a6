(** C43 (moving clusters of particles) and C44 (cluster helpers). *)
From Verif Require Import Vec Orbit_Model Orbit_Spec Orbit_Proofs Orbit_Proofs2 Orbit_Props Anom_Proofs2 Anom_Props Ctrl_Model Manip_Model Manip_Spec Manip_Proofs.
From Coq Require Import List Lra.
Import ListNotations.
Open Scope R_scope.

(** * C43 *)
(** After move_particles(pos, vel, cluster) the centre of mass is at pos with velocity vel; every particle was shifted
    by the same two vectors and nothing else changed. *)
Theorem C43_move pos vel c : total_mass (members c) <> 0 ->
  let c' := move_particles pos vel c in
  COM_p c' = pos /\ COM_v c' = vel /\
  is_centre pt_p (members c') pos /\ is_centre pt_v (members c') vel /\
  (exists dp dv, rigidly_moved dp dv (members c) (members c')) /\
  M_tot c' = total_mass (members c) /\ E_inner c' = E_inner c /\ E_p c' = E_p c /\
  (match c, c' with One _, One _ | Many _, Many _ => True | _, _ => False end).
Proof.
  intros HM c'. pose proof (move_rigid pos vel c) as RG. fold c' in RG.
  pose proof (rigid_mass _ _ _ _ RG) as ME. assert (HT : M_tot c <> 0) by (rewrite M_tot_spec; auto).
  assert (HT' : M_tot c' <> 0) by (rewrite M_tot_spec, ME; auto).
  assert (AP : is_centre pt_p (members c') pos).
  { pose proof (rigid_centre_p _ _ _ _ _ RG (COM_p_centre c HT)) as A.
    replace (vadd (COM_p c) (vsub pos (COM_p c))) with pos in A by (generalize (COM_p c); intros; vring). exact A. }
  assert (AV : is_centre pt_v (members c') vel).
  { pose proof (rigid_centre_v _ _ _ _ _ RG (COM_v_centre c HT)) as A.
    replace (vadd (COM_v c) (vsub vel (COM_v c))) with vel in A by (generalize (COM_v c); intros; vring). exact A. }
  assert (EP : COM_p c' = pos) by (apply (centre_unique pt_p (members c')); [rewrite ME; auto|apply COM_p_centre; auto|auto]).
  assert (EV : COM_v c' = vel) by (apply (centre_unique pt_v (members c')); [rewrite ME; auto|apply COM_v_centre; auto|auto]).
  split; auto. split; auto. split; auto. split; auto. split; [eauto|].
  split; [rewrite M_tot_spec; auto|].
  assert (PE : E_p c' = E_p c) by (rewrite !E_p_spec; eapply rigid_potential; eauto).
  split.
  - rewrite !E_inner_spec by auto. rewrite (rigid_potential _ _ _ _ RG). f_equal. rewrite EV.
    rewrite <- (rigid_kinetic _ _ _ _ (COM_v c) RG). f_equal. generalize (COM_v c); intros; vring.
  - split; auto. destruct c; simpl; auto.
Qed.
(** Moving only positions or only velocities. *)
Theorem C43_move_pos pos c : total_mass (members c) <> 0 ->
  let c' := move_particles_pos pos c in
  COM_p c' = pos /\ COM_v c' = COM_v c /\ exists dp, rigidly_moved dp vzero (members c) (members c').
Proof.
  intros HM c'. assert (RG : rigidly_moved (vsub pos (COM_p c)) vzero (members c) (members c')).
  { unfold rigidly_moved, c', move_particles_pos. rewrite members_on. apply map_ext. intros [m p v r]. unfold add_p; simpl. f_equal. vring. }
  pose proof (rigid_mass _ _ _ _ RG) as ME. assert (HT : M_tot c <> 0) by (rewrite M_tot_spec; auto).
  assert (HT' : M_tot c' <> 0) by (rewrite M_tot_spec, ME; auto).
  split; [|split; [|eauto]].
  - apply (centre_unique pt_p (members c')); [rewrite ME; auto|apply COM_p_centre; auto|].
    pose proof (rigid_centre_p _ _ _ _ _ RG (COM_p_centre c HT)) as A.
    replace (vadd (COM_p c) (vsub pos (COM_p c))) with pos in A by (generalize (COM_p c); intros; vring). exact A.
  - apply (centre_unique pt_v (members c')); [rewrite ME; auto|apply COM_v_centre; auto|].
    pose proof (rigid_centre_v _ _ _ _ _ RG (COM_v_centre c HT)) as A.
    replace (vadd (COM_v c) vzero) with (COM_v c) in A by (generalize (COM_v c); intros; vring). exact A.
Qed.
Theorem C43_move_vel vel c : total_mass (members c) <> 0 ->
  let c' := move_particles_vel vel c in
  COM_v c' = vel /\ COM_p c' = COM_p c /\ exists dv, rigidly_moved vzero dv (members c) (members c').
Proof.
  intros HM c'. assert (RG : rigidly_moved vzero (vsub vel (COM_v c)) (members c) (members c')).
  { unfold rigidly_moved, c', move_particles_vel. rewrite members_on. apply map_ext. intros [m p v r]. unfold add_v; simpl. f_equal. vring. }
  pose proof (rigid_mass _ _ _ _ RG) as ME. assert (HT : M_tot c <> 0) by (rewrite M_tot_spec; auto).
  assert (HT' : M_tot c' <> 0) by (rewrite M_tot_spec, ME; auto).
  split; [|split; [|eauto]].
  - apply (centre_unique pt_v (members c')); [rewrite ME; auto|apply COM_v_centre; auto|].
    pose proof (rigid_centre_v _ _ _ _ _ RG (COM_v_centre c HT)) as A.
    replace (vadd (COM_v c) (vsub vel (COM_v c))) with vel in A by (generalize (COM_v c); intros; vring). exact A.
  - apply (centre_unique pt_p (members c')); [rewrite ME; auto|apply COM_p_centre; auto|].
    pose proof (rigid_centre_p _ _ _ _ _ RG (COM_p_centre c HT)) as A.
    replace (vadd (COM_p c) vzero) with (COM_p c) in A by (generalize (COM_p c); intros; vring). exact A.
Qed.
(** Passing the particles one by one is the same as passing them in a container. *)
Theorem C43_variadic p1 p2 ps :
  M_tot_var p1 p2 ps = M_tot (Many (p1 :: p2 :: ps)) /\
  COM_p_var p1 p2 ps = COM_p (Many (p1 :: p2 :: ps)) /\ COM_v_var p1 p2 ps = COM_v (Many (p1 :: p2 :: ps)) /\
  (forall pos vel, trip (move_particles_var pos vel p1 p2 ps) = move_particles pos vel (Many (p1 :: p2 :: ps))) /\
  (forall pos, trip (move_particles_pos_var pos p1 p2 ps) = move_particles_pos pos (Many (p1 :: p2 :: ps))) /\
  (forall vel, trip (move_particles_vel_var vel p1 p2 ps) = move_particles_vel vel (Many (p1 :: p2 :: ps))) /\
  (forall o, trip (move_particles_orbit_var o p1 p2 ps) = move_particles_orbit o (Many (p1 :: p2 :: ps))) /\
  trip (move_to_COM_frame_var p1 p2 ps) = move_to_COM_frame (Many (p1 :: p2 :: ps)).
Proof.
  split; [apply M_tot_var_eq|]. split; [apply COM_p_var_eq|]. split; [apply COM_v_var_eq|].
  split; [intros; apply move_var_eq|]. split; [|split; [|split; [|apply move_var_eq]]]; intros.
  - unfold move_particles_pos_var, move_particles_pos, trip, on_members. rewrite COM_p_var_eq. reflexivity.
  - unfold move_particles_vel_var, move_particles_vel, trip, on_members. rewrite COM_v_var_eq. reflexivity.
  - unfold move_particles_orbit_var, move_particles_orbit. destruct (orbit_to_coord o). apply move_var_eq.
Qed.
(** In the centre of mass frame the total momentum and the mass-weighted position sum vanish. *)
Theorem C43_com_frame c : total_mass (members c) <> 0 ->
  lvsum (fun p => vscal (pt_m p) (pt_v p)) (members (move_to_COM_frame c)) = vzero /\
  lvsum (fun p => vscal (pt_m p) (pt_p p)) (members (move_to_COM_frame c)) = vzero /\
  E_k (move_to_COM_frame c) + E_p (move_to_COM_frame c) = E_inner c.
Proof.
  intros HM. destruct (C43_move vzero vzero c HM) as (A & B & C & D & _ & F & G & H & _).
  unfold is_centre in C, D. change (move_particles vzero vzero c) with (move_to_COM_frame c) in *.
  split; [rewrite <- D; vring|]. split; [rewrite <- C; vring|].
  rewrite <- G. unfold E_inner, E_tot, E_k_COM. rewrite B. vunf. lra.
Qed.

Lemma norm_vneg v : norm (vneg v) = norm v.
Proof. unfold norm. f_equal. destruct v. vring. Qed.
Lemma total_app l l' : total_mass (l ++ l') = total_mass l + total_mass l'.
Proof. apply lsum_app. Qed.

(** Setting up a hierarchy: c1 at the origin, c2 moved onto an orbit about it, then everything moved to the common
    centre of mass frame.  The relative orbit of the two moved clusters is the one asked for. *)
Theorem C43_hierarchy o c1 c2 l1 l2 :
  members c1 = l1 -> members c2 = l2 ->
  o_m1 o = total_mass l1 -> o_m2 o = total_mass l2 -> o_m1 o <> 0 -> o_m2 o <> 0 ->
  0 < o_m1 o + o_m2 o -> 0 < o_p o -> 0 <= o_e o -> 0 < 1 + o_e o * cos (o_nu o) ->
  let k1 := move_to_COM_frame c1 in
  let k2 := move_particles_orbit o c2 in
  let all := members (move_to_COM_frame (Many (members k1 ++ members k2))) in
  let d1 := Many (firstn (length l1) all) in
  let d2 := Many (skipn (length l1) all) in
  lvsum (fun p => vscal (pt_m p) (pt_v p)) all = vzero /\ lvsum (fun p => vscal (pt_m p) (pt_p p)) all = vzero /\
  M_tot d1 = o_m1 o /\ M_tot d2 = o_m2 o /\ E_inner d1 = E_inner c1 /\ E_inner d2 = E_inner c2 /\
  (COM_p d2 = vadd (COM_p d1) (fst (orbit_to_coord o)) /\ COM_v d2 = vadd (COM_v d1) (snd (orbit_to_coord o))) /\
  calc_eccentricity_clusters d2 d1 = o_e o /\ calc_eccentricity_clusters d1 d2 = o_e o /\
  (o_e o <> 1 -> calc_a_e_clusters d2 d1 = (o_p o / (1 - o_e o * o_e o), o_e o) /\
                 calc_semi_major_axis_clusters d2 d1 = o_p o / (1 - o_e o * o_e o)).
Proof.
  intros L1 L2 M1 M2 N1 N2 Hm Hp He Hr k1 k2 all d1 d2.
  assert (T1 : total_mass (members c1) <> 0) by (rewrite L1; congruence).
  assert (T2 : total_mass (members c2) <> 0) by (rewrite L2; congruence).
  destruct (orbit_to_coord o) as [op ov] eqn:EO.
  assert (K2 : k2 = move_particles op ov c2) by (unfold k2, move_particles_orbit; rewrite EO; auto).
  pose proof (move_rigid vzero vzero c1) as R1. fold (move_to_COM_frame c1) in R1. fold k1 in R1.
  pose proof (move_rigid op ov c2) as R2. rewrite <- K2 in R2.
  set (J := Many (members k1 ++ members k2)) in *.
  assert (MJ : total_mass (members J) = o_m1 o + o_m2 o).
  { unfold J, members at 1. rewrite total_app, (rigid_mass _ _ _ _ R1), (rigid_mass _ _ _ _ R2), L1, L2. lra. }
  assert (TJ : total_mass (members J) <> 0) by lra.
  pose proof (move_rigid vzero vzero J) as RJ. fold (move_to_COM_frame J) in RJ. fold all in RJ.
  destruct (C43_com_frame J TJ) as (Z1 & Z2 & _). fold all in Z1, Z2.
  set (dp := vsub vzero (COM_p J)) in *. set (dv := vsub vzero (COM_v J)) in *.
  assert (LEN : length (members k1) = length l1) by (unfold rigidly_moved in R1; rewrite R1, map_length, L1; auto).
  assert (AE : all = map (fun p => mkP (pt_m p) (vadd (pt_p p) dp) (vadd (pt_v p) dv) (pt_R p)) (members k1) ++
                     map (fun p => mkP (pt_m p) (vadd (pt_p p) dp) (vadd (pt_v p) dv) (pt_R p)) (members k2)).
  { unfold rigidly_moved in RJ. rewrite RJ. unfold J, members at 1. apply map_app. }
  assert (D1 : rigidly_moved dp dv (members k1) (members d1)).
  { unfold rigidly_moved, d1, members at 1. rewrite AE, firstn_app, map_length, LEN, Nat.sub_diag. simpl. rewrite app_nil_r.
    rewrite <- LEN. rewrite <- (map_length (fun p => mkP (pt_m p) (vadd (pt_p p) dp) (vadd (pt_v p) dv) (pt_R p)) (members k1)). apply firstn_all. }
  assert (D2 : rigidly_moved dp dv (members k2) (members d2)).
  { unfold rigidly_moved, d2, members at 1. rewrite AE, skipn_app, map_length, LEN, Nat.sub_diag. simpl.
    rewrite skipn_all2; [auto|]. rewrite map_length, LEN. auto. }
  destruct (C43_move vzero vzero c1 T1) as (P1 & V1 & _ & _ & _ & F1 & I1 & _). fold (move_to_COM_frame c1) in *. fold k1 in P1, V1, F1, I1.
  destruct (C43_move op ov c2 T2) as (P2 & V2 & _ & _ & _ & F2 & I2 & _). rewrite <- K2 in P2, V2, F2, I2.
  assert (G : forall k d, rigidly_moved dp dv (members k) (members d) -> M_tot k <> 0 ->
     M_tot d = M_tot k /\ COM_p d = vadd (COM_p k) dp /\ COM_v d = vadd (COM_v k) dv /\ E_inner d = E_inner k).
  { intros k d RG NM. pose proof (rigid_mass _ _ _ _ RG) as ME.
    assert (NM' : M_tot d <> 0) by (rewrite M_tot_spec, ME, <- M_tot_spec; auto).
    assert (X1 : COM_p d = vadd (COM_p k) dp).
    { apply (centre_unique pt_p (members d)); [rewrite <- M_tot_spec; auto|apply COM_p_centre; auto|].
      apply (rigid_centre_p _ _ _ _ _ RG). apply COM_p_centre; auto. }
    assert (X2 : COM_v d = vadd (COM_v k) dv).
    { apply (centre_unique pt_v (members d)); [rewrite <- M_tot_spec; auto|apply COM_v_centre; auto|].
      apply (rigid_centre_v _ _ _ _ _ RG). apply COM_v_centre; auto. }
    split; [rewrite !M_tot_spec; auto|]. split; auto. split; auto.
    rewrite !E_inner_spec by auto. rewrite (rigid_potential _ _ _ _ RG), X2. f_equal. apply (rigid_kinetic _ _ _ _ _ RG). }
  destruct (G k1 d1 D1) as (A1 & B1 & C1 & E1); [rewrite F1; auto|].
  destruct (G k2 d2 D2) as (A2 & B2 & C2 & E2); [rewrite F2; auto|].
  rewrite P1 in B1. rewrite V1 in C1. rewrite P2 in B2. rewrite V2 in C2.
  assert (Q1 : M_tot d1 = o_m1 o) by (rewrite A1, F1, L1; auto).
  assert (Q2 : M_tot d2 = o_m2 o) by (rewrite A2, F2, L2; auto).
  assert (RP : rel_p d2 d1 = op) by (unfold rel_p; rewrite B1, B2; clearbody dp; destruct op; vring).
  assert (RV : rel_v d2 d1 = ov) by (unfold rel_v; rewrite C1, C2; clearbody dv; destruct ov; vring).
  assert (RP' : rel_p d1 d2 = vneg op) by (unfold rel_p; rewrite B1, B2; clearbody dp; destruct op; vring).
  assert (RV' : rel_v d1 d2 = vneg ov) by (unfold rel_v; rewrite C1, C2; clearbody dv; destruct ov; vring).
  destruct (C41_helpers o op ov) as (H1 & H2 & H3); auto.
  split; auto. split; auto. split; auto. split; auto. split; [congruence|]. split; [congruence|].
  split. { cbn [fst snd]. rewrite B1, B2, C1, C2. clearbody dp dv. destruct op, ov. split; vring. }
  unfold calc_eccentricity_clusters, calc_a_e_clusters, calc_semi_major_axis_clusters.
  rewrite RP, RV, RP', RV', Q1, Q2. replace (Gc * (o_m2 o + o_m1 o)) with (o_m1 o + o_m2 o) by (unfold Gc; ring).
  replace (Gc * (o_m1 o + o_m2 o)) with (o_m1 o + o_m2 o) by (unfold Gc; ring).
  split; auto. split; auto.
  rewrite <- H1. unfold calc_eccentricity. f_equal.
  replace (norm2 (vneg ov)) with (norm2 ov) by (clear; destruct ov; vring). rewrite norm_vneg.
  generalize (norm2 ov - (o_m1 o + o_m2 o) * / norm op). intros k. clear.
  rewrite <- (norm_vneg (vsub (vscal k op) (vscal (dot op ov) ov))). f_equal. destruct op, ov. vring.
Qed.

Definition pA := mkP 1 (mkV 1 0 0) (mkV 0 1 0) (Some 2).
Definition pB := mkP 3 (mkV 4 4 0) (mkV 0 0 5) None.
Example C43_case : total_mass (members (Many [pA; pB])) = 4 /\
  map pt_p (members (move_particles (mkV 0 0 0) (mkV 0 0 0) (Many [pA; pB]))) = [mkV (- (9 / 4)) (-3) 0; mkV (3 / 4) 1 0].
Proof.
  split; [unfold total_mass; simpl; lra|]. simpl.
  f_equal; [apply vec_eq; simpl; lra|]. f_equal; apply vec_eq; simpl; lra.
Qed.
Example C43_hierarchy_case : exists o c1 c2, o_m1 o = total_mass (members c1) /\ o_m2 o = total_mass (members c2) /\ o_m1 o <> 0 /\ o_m2 o <> 0 /\
  0 < o_m1 o + o_m2 o /\ 0 < o_p o /\ 0 <= o_e o /\ 0 < 1 + o_e o * cos (o_nu o) /\ o_e o <> 1 /\ length (members c2) = 2%nat.
Proof.
  exists (mkO 1 4 1 (1/2) 0 0 0 0 Ellipse), (One pA), (Many [pA; pB]). unfold total_mass. simpl. rewrite cos_0. repeat split; lra.
Qed.
Print Assumptions C43_move.
Print Assumptions C43_move_pos.
Print Assumptions C43_move_vel.
Print Assumptions C43_variadic.
Print Assumptions C43_com_frame.
Print Assumptions C43_hierarchy.

(** * C44 *)
(** Energies of a cluster are the textbook sums; the inner energy is what remains without the motion of the centre of
    mass, and no common shift of positions or velocities changes it. *)
Theorem C44_energies c :
  E_k c = kinetic vzero (members c) /\ E_p c = potential (members c) /\ E_tot c = kinetic vzero (members c) + potential (members c) /\
  (total_mass (members c) <> 0 -> E_inner c = kinetic (COM_v c) (members c) + potential (members c)).
Proof.
  split; [apply E_k_spec|]. split; [apply E_p_spec|]. split; [unfold E_tot; rewrite E_k_spec, E_p_spec; auto|].
  intros. apply E_inner_spec. rewrite M_tot_spec; auto.
Qed.
Theorem C44_inner_invariant c c' dp dv : total_mass (members c) <> 0 -> rigidly_moved dp dv (members c) (members c') ->
  E_inner c' = E_inner c.
Proof.
  intros H RG. pose proof (rigid_mass _ _ _ _ RG) as ME. rewrite !E_inner_spec by (rewrite M_tot_spec; congruence).
  rewrite (rigid_potential _ _ _ _ RG). f_equal.
  assert (X : COM_v c' = vadd (COM_v c) dv).
  { apply (centre_unique pt_v (members c')); [congruence|apply COM_v_centre; rewrite M_tot_spec; congruence|].
    apply (rigid_centre_v _ _ _ _ _ RG). apply COM_v_centre. rewrite M_tot_spec; auto. }
  rewrite X. apply (rigid_kinetic _ _ _ _ _ RG).
Qed.
(** The size of two or more particles is the largest distance of a pair; of a single particle, its radius (0 if it has
    none). *)
Theorem C44_size l : (2 <= length l)%nat ->
  (forall p q, In (p, q) (pairs l) -> norm (vsub (pt_p p) (pt_p q)) <= cluster_size (Many l)) /\
  (exists p q, In (p, q) (pairs l) /\ cluster_size (Many l) = norm (vsub (pt_p p) (pt_p q))).
Proof.
  intros Hl. destruct l as [|a [|b l]]; [simpl in Hl; exfalso; inversion Hl|simpl in Hl; exfalso; inversion Hl; inversion H0|].
  unfold cluster_size. set (L := a :: b :: l). destruct (size_loop_spec L 0) as (A & B & C). split; auto.
  destruct C as [C|C]; auto. exists a, b. split; [simpl; auto|]. apply Rle_antisym.
  - rewrite C. apply sqrt_pos.
  - apply B. simpl; auto.
Qed.
Theorem C44_size_single p : cluster_size (One p) = match pt_R p with Some r => r | None => 0 end /\ cluster_size (Many [p]) = cluster_size (One p).
Proof. split; reflexivity. Qed.

(** The tidal factor of two clusters with explicit sizes is the ratio of tidal to self gravity of either cluster. *)
Theorem C44_tidal_sizes c1 c2 R1 R2 : let d := norm (vsub (COM_p c1) (COM_p c2)) in let m1 := total_mass (members c1) in let m2 := total_mass (members c2) in
  d <> 0 ->
  tidal_factor_sizes c1 c2 R1 R2 = (Fin (m2 / m1 * ((R1 / d) * (R1 / d) * (R1 / d))), Fin (m1 / m2 * ((R2 / d) * (R2 / d) * (R2 / d)))).
Proof.
  intros d m1 m2 Hd. unfold tidal_factor_sizes, tidal_factor_ext, ediv. fold d. rewrite !M_tot_spec. fold m1 m2.
  destruct (Req_EM_T d 0); [contradiction|]. unfold emul. f_equal; f_equal; ring.
Qed.
(** The overload that determines the sizes itself passes the first cluster twice: masses, position and velocity of the
    second cluster never matter, the separation is always zero, and the result is infinite (or NaN for size 0). *)
Theorem C44_tidal_factor_refuted c1 c2 : 0 < total_mass (members c1) ->
  (forall c2', cluster_size c2' = cluster_size c2 -> tidal_factor_clusters c1 c2' = tidal_factor_clusters c1 c2) /\
  (0 < cluster_size c1 -> 0 < cluster_size c2 -> tidal_factor_clusters c1 c2 = (PInf, PInf)) /\
  (cluster_size c1 = 0 -> fst (tidal_factor_clusters c1 c2) = NaN) /\ (cluster_size c2 = 0 -> snd (tidal_factor_clusters c1 c2) = NaN).
Proof.
  intros HM. split.
  - intros c2' E. unfold tidal_factor_clusters. rewrite E. auto.
  - unfold tidal_factor_clusters, tidal_factor_sizes, tidal_factor_ext. rewrite M_tot_spec.
    replace (norm (vsub (COM_p c1) (COM_p c1))) with 0.
    2:{ symmetry. replace (vsub (COM_p c1) (COM_p c1)) with vzero by (destruct (COM_p c1); vring). unfold norm. replace (norm2 vzero) with 0 by vring. apply sqrt_0. }
    unfold ediv. destruct (Req_EM_T 0 0) as [_|]; [|contradiction].
    replace (total_mass (members c1) / total_mass (members c1)) with 1 by (field; lra).
    unfold esgn. split; [|split].
    + intros A B. destruct (Rlt_dec 0 (cluster_size c1)); [|contradiction]. destruct (Rlt_dec 0 (cluster_size c2)); [|contradiction].
      simpl. unfold esgn. destruct (Rlt_dec 0 1); [|lra]. auto.
    + intros ->. destruct (Rlt_dec 0 0); [lra|]. auto.
    + intros ->. destruct (Rlt_dec 0 0); [lra|]. auto.
Qed.
(** Likewise the tidal radius is r with f * (own gravity at the surface of cluster2) = tide of cluster1. *)
Theorem C44_tidal_radius f c1 c2 : let m1 := total_mass (members c1) in let m2 := total_mass (members c2) in let S := cluster_size c2 in
  0 < f -> 0 < m1 -> 0 < m2 -> 0 < S ->
  let r := tidal_radius_clusters f c1 c2 in 0 < r /\ m1 / m2 * ((S / r) * (S / r) * (S / r)) = f.
Proof.
  intros m1 m2 S Hf H1 H2 HS. unfold tidal_radius_clusters, tidal_radius1. rewrite !M_tot_spec. fold m1 m2 S.
  assert (Q : 0 < m1 / (f * m2)) by (apply Rdiv_lt_0_compat; nra).
  unfold pow13. destruct (Rlt_dec 0 (m1 / (f * m2))) as [r0|]; [|contradiction].
  set (w := Rpower (m1 / (f * m2)) (1 / 3)). set (r := w * S). assert (W : 0 < w) by apply exp_pos.
  assert (W3 : w * w * w = m1 / (f * m2)).
  { unfold w. rewrite <- !Rpower_plus. replace (1 / 3 + 1 / 3 + 1 / 3) with 1 by field. apply Rpower_1; auto. }
  split; [unfold r; nra|]. unfold r. replace (m1 / m2 * (S / (w * S) * (S / (w * S)) * (S / (w * S)))) with (m1 / m2 / (w * w * w)) by (field; lra).
  rewrite W3. field. lra.
Qed.

(** A cluster of total mass zero raises no tide: the tidal radius is zero. *)
Theorem C44_tidal_radius_massless f c1 c2 : total_mass (members c1) = 0 -> tidal_radius_clusters f c1 c2 = 0.
Proof.
  intros E. unfold tidal_radius_clusters, tidal_radius1. rewrite !M_tot_spec, E. unfold Rdiv. rewrite Rmult_0_l. unfold pow13.
  destruct (Rlt_dec 0 0); [lra|]. ring.
Qed.
Print Assumptions C44_tidal_radius_massless.

(** time_to_periapsis of two clusters on an orbit with true anomaly nu in [-pi,pi] is the time at |nu|: positive for
    approaching and receding bodies alike. *)
Lemma acos_abs x : - PI <= x <= PI -> acos (cos x) = Rabs x.
Proof.
  intros H. unfold Rabs. destruct (Rcase_abs x).
  - rewrite <- cos_neg. apply acos_cos. lra.
  - apply acos_cos. lra.
Qed.
Theorem C44_time_to_periapsis eps o c1 c2 :
  0 < o_m1 o + o_m2 o -> 0 < o_p o -> 0 < o_e o -> 0 < 1 + o_e o * cos (o_nu o) -> - PI <= o_nu o <= PI ->
  o_type o = classify_orbit eps (o_e o) -> (o_type o = Parabola -> o_e o = 1) -> (o_type o <> Parabola -> o_e o <> 1) ->
  M_tot c1 = o_m1 o -> M_tot c2 = o_m2 o -> orbit_to_coord o = (rel_p c1 c2, rel_v c1 c2) ->
  forall t, time_to_periapsis_orbit eps (at_nu o (Rabs (o_nu o))) = Ok t ->
  time_to_periapsis_clusters eps c1 c2 = Ok (match o_type o with Ellipse => t | _ => - t end).
Proof.
  intros Hm Hp He Hr Hn Ht HP HNP M1 M2 EO t. unfold time_to_periapsis_clusters. rewrite M1, M2.
  set (dr := rel_p c1 c2) in *. set (dv := rel_v c1 c2) in *.
  destruct (C41_helpers o dr dv) as (H1 & H2 & H3); auto; [lra|].
  destruct (C41_orbit o dr dv) as (O1 & O2 & O3 & O4); auto; [lra|].
  unfold ttp_state. replace (Gc * (o_m1 o + o_m2 o)) with (o_m1 o + o_m2 o) by (unfold Gc; ring).
  set (u := o_m1 o + o_m2 o) in *.
  assert (ND : dr <> vzero).
  { intros Z. rewrite Z in O1. assert (0 < o_p o / (1 + o_e o * cos (o_nu o))) by (apply Rdiv_lt_0_compat; auto).
    unfold norm in O1. replace (norm2 vzero) with 0 in O1 by vring. rewrite sqrt_0 in O1. lra. }
  destruct (C41_state_invariants u dr dv Hm ND) as (S1 & S2 & S3 & S4). rewrite S3, H1. rewrite <- Ht.
  change (dot (cross dr dv) (cross dr dv)) with (norm2 (cross dr dv)). rewrite O2, O1.
  replace ((u * o_p o / u / (o_p o / (1 + o_e o * cos (o_nu o))) - 1) / o_e o) with (cos (o_nu o)).
  2:{ field. repeat split; lra. }
  rewrite acos_abs by auto. unfold time_to_periapsis_orbit. cbn [at_nu o_nu o_e o_type o_p o_m1 o_m2].
  destruct (obind (T_to_E eps (Rabs (o_nu o)) (o_e o)) (fun E => E_to_M eps E (o_e o))) as [M| |]; cbn [obind]; try discriminate.
  replace (Gc * (o_m1 o + o_m2 o)) with u by (unfold Gc, u; ring).
  assert (AV : o_type o <> Parabola -> - u / (2 * specific_energy u dr dv) = o_p o / (1 - o_e o * o_e o)).
  { intros N. destruct (H3 (HNP N)) as (_ & X). congruence. }
  destruct (o_type o) eqn:T; intros X; inversion X as [Y]; subst.
  - rewrite AV by congruence. auto.
  - replace (u * o_p o / u) with (o_p o) by (field; lra). simpl. f_equal. lra.
  - rewrite AV by congruence. simpl. f_equal. lra.
Qed.
Example C44_time_case : exists o c1 c2 eps t, 0 < eps /\ o_nu o < 0 /\ 0 < o_m1 o + o_m2 o /\ 0 < o_p o /\ 0 < o_e o /\ 0 < 1 + o_e o * cos (o_nu o) /\
  o_type o = Ellipse /\ M_tot c1 = o_m1 o /\ M_tot c2 = o_m2 o /\ orbit_to_coord o = (rel_p c1 c2, rel_v c1 c2) /\
  time_to_periapsis_clusters eps c1 c2 = Ok t.
Proof.
  set (o := mkO 1 2 1 (1 / 2) 0 0 0 (- (PI / 2)) Ellipse).
  assert (G1 : cos (o_nu o) = 0) by (unfold o; cbn [o_nu]; rewrite cos_neg; apply cos_PI2).
  pose proof PI_RGT_0 as PP.
  set (c1 := One (mkP 1 (fst (orbit_to_coord o)) (snd (orbit_to_coord o)) None)).
  set (c2 := One (mkP 2 vzero vzero None)).
  assert (EO : orbit_to_coord o = (rel_p c1 c2, rel_v c1 c2)).
  { rewrite (surjective_pairing (orbit_to_coord o)) at 1. unfold rel_p, rel_v. simpl.
    generalize (fst (orbit_to_coord o)), (snd (orbit_to_coord o)). intros. f_equal; vring. }
  destruct (C64_ellipse (1 / 1000) o) as (t & T0 & TT); try (unfold o; simpl; lra); auto.
  destruct (TT (Rabs (o_nu o))) as (T1 & _).
  { unfold o; cbn [o_nu]. rewrite Rabs_Ropp, Rabs_pos_eq; lra. }
  exists o, c1, c2, (1 / 1000), (t (Rabs (o_nu o))).
  rewrite G1. split; [lra|]. split; [unfold o; simpl; lra|]. split; [unfold o; simpl; lra|]. split; [unfold o; simpl; lra|].
  split; [unfold o; simpl; lra|]. split; [unfold o; simpl; lra|]. split; [reflexivity|]. split; [reflexivity|]. split; [reflexivity|]. split; auto.
  apply (C44_time_to_periapsis (1 / 1000) o c1 c2); auto; try (unfold o; simpl; lra); try (rewrite G1; lra); try discriminate.
  - unfold o; cbn [o_type o_e]. unfold classify_orbit. rewrite by_ecc_ell by lra. auto.
Qed.
(** So reversing the motion does not change the answer. *)
Theorem C44_sign_blind_refuted eps m1 m2 dr dv : ttp_state eps m1 m2 dr (vneg dv) = ttp_state eps m1 m2 dr dv.
Proof.
  unfold ttp_state, calc_a_e. rewrite norm_vneg.
  replace (cross dr (vneg dv)) with (vneg (cross dr dv)) by (destruct dr, dv; vring).
  replace (dot (vneg (cross dr dv)) (vneg (cross dr dv))) with (dot (cross dr dv) (cross dr dv)) by (destruct (cross dr dv); vring).
  replace (vscal (dot dr (vneg dv)) (vneg dv)) with (vscal (dot dr dv) dv) by (destruct dr, dv; vring).
  reflexivity.
Qed.
Example C44_case : cluster_size (Many [pA; pB]) = 5 /\ E_k (Many [pA; pB]) = 38 /\ E_p (Many [pA; pB]) = - (3 / 5).
Proof.
  assert (N : norm (vsub (pt_p pA) (pt_p pB)) = 5).
  { unfold norm. replace (norm2 _) with (5 * 5) by (vunf; simpl; lra). apply sqrt_square. lra. }
  split.
  - unfold cluster_size. cbn [size_loop fold_left]. rewrite N. cbv zeta. destruct (Rlt_dec 0 5); lra.
  - split; [unfold E_k; simpl; vunf; simpl; lra|]. unfold E_p. cbn [E_p_loop fold_left]. rewrite N. unfold Gc. simpl. lra.
Qed.
Print Assumptions C44_energies.
Print Assumptions C44_inner_invariant.
Print Assumptions C44_size.
Print Assumptions C44_tidal_sizes.
Print Assumptions C44_tidal_factor_refuted.
Print Assumptions C44_tidal_radius.
Print Assumptions C44_time_to_periapsis.
Print Assumptions C44_sign_blind_refuted.
