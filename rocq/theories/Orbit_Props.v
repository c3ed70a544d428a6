(** C40 (rotation), C41 (orbit_to_coord), C62 (conversion there and back), C63 (semi-latus rectum of a state). *)
From Verif Require Import Orbit_Model Orbit_Spec Orbit_Proofs Orbit_Proofs2 Orbit_Proofs3.
From Verif Require Import Ctrl_Model.
Open Scope R_scope.

(** * C40 *)
(** euler_rotate is the z-x-z composition of elementary rotations. *)
Theorem C40_composition v phi theta psi : euler_rotate v phi theta psi = Rz phi (Rx theta (Rz psi v)).
Proof. apply euler_comp. Qed.
Theorem C40_rigid a b phi theta psi :
  dot (euler_rotate a phi theta psi) (euler_rotate b phi theta psi) = dot a b /\
  norm (euler_rotate a phi theta psi) = norm a /\
  cross (euler_rotate a phi theta psi) (euler_rotate b phi theta psi) = euler_rotate (cross a b) phi theta psi.
Proof. split; [apply eu_dot|]. split; [apply eu_norm|apply eu_cross]. Qed.
Theorem C40_identity v : euler_rotate v 0 0 0 = v.
Proof. destruct v. unfold euler_rotate. cbv zeta. rewrite sin_0, cos_0. apply vec_eq; simpl; ring. Qed.
Theorem C40_inverse v phi theta psi : euler_rotate (euler_rotate v phi theta psi) (- psi) (- theta) (- phi) = v.
Proof. rewrite !euler_comp, Rz_inv, Rx_inv, Rz_inv. auto. Qed.
Example C40_case : euler_rotate (mkV 1 0 0) (PI / 2) 0 0 = mkV 0 1 0.
Proof. unfold euler_rotate. cbv zeta. rewrite sin_0, cos_0, sin_PI2, cos_PI2. apply vec_eq; simpl; ring. Qed.
Print Assumptions C40_composition.
Print Assumptions C40_rigid.
Print Assumptions C40_identity.
Print Assumptions C40_inverse.

(** * C41 *)
Theorem C41_orbit o pos vel : let u := o_m1 o + o_m2 o in
  0 < u -> 0 < o_p o -> 0 <= o_e o -> 0 < 1 + o_e o * cos (o_nu o) ->
  orbit_to_coord o = (pos, vel) ->
  norm pos = o_p o / (1 + o_e o * cos (o_nu o)) /\
  norm2 (cross pos vel) = u * o_p o /\
  specific_energy u pos vel = u * (o_e o * o_e o - 1) / (2 * o_p o) /\
  dot pos vel = sqrt (u * o_p o) * (o_e o * sin (o_nu o)) / (1 + o_e o * cos (o_nu o)).
Proof.
  intros u Hu Hp He Hr E. assert (G : good o) by (repeat split; auto).
  assert (UU : oU o = u) by (unfold oU, Gc, u; ring).
  pose proof (f_equal fst E) as E1. pose proof (f_equal snd E) as E2. cbn [fst snd] in E1, E2. subst pos vel.
  split; [apply o2c_pos_norm; auto|]. split; [|split].
  - rewrite o2c_cross by auto. rewrite <- norm_sq, norm_vscal, normal_norm, pV, UU by auto.
    rewrite Rabs_right by (apply Rle_ge, sqrt_pos). rewrite !Rmult_1_r. apply sqrt_sqrt. nra.
  - rewrite <- UU. apply o2c_energy; auto.
  - rewrite o2c_eq. cbn [fst snd]. rewrite eu_dot, pv0_dot. rewrite <- UU, <- pV by auto. unfold oR. field. lra.
Qed.
(** The helper functions read the requested eccentricity and semi-major axis back. *)
Theorem C41_helpers o pos vel : let u := o_m1 o + o_m2 o in
  0 < u -> 0 < o_p o -> 0 <= o_e o -> 0 < 1 + o_e o * cos (o_nu o) ->
  orbit_to_coord o = (pos, vel) ->
  calc_eccentricity u pos vel = o_e o /\
  norm (calc_runge_lenz_vector u pos vel) = o_e o /\
  (o_e o <> 1 -> calc_a_e u pos vel = (o_p o / (1 - o_e o * o_e o), o_e o) /\
                 calc_semi_major_axis u pos vel = o_p o / (1 - o_e o * o_e o)).
Proof.
  intros u Hu Hp He Hr E. assert (G : good o) by (repeat split; auto).
  assert (UU : oU o = u) by (unfold oU, Gc, u; ring).
  pose proof (f_equal fst E) as E1. pose proof (f_equal snd E) as E2. cbn [fst snd] in E1, E2. subst pos vel.
  rewrite calc_ecc_eq by auto. rewrite <- UU at 1 2. split; [apply o2c_ecc; auto|]. split; [apply o2c_ecc; auto|].
  intros N. rewrite calc_a_e_eq. rewrite calc_sma_eq by (apply rt_ne; auto).
  rewrite <- UU. rewrite o2c_energy, o2c_ecc by auto.
  assert (Q : - oU o / (2 * (oU o * (o_e o * o_e o - 1) / (2 * o_p o))) = o_p o / (1 - o_e o * o_e o)).
  { assert (o_e o * o_e o <> 1) by nra. rewrite UU. field. repeat split; lra. }
  rewrite Q. auto.
Qed.
(** Plane and directions: the orbital angular momentum points along the textbook normal for (Omega, i); the position
    is opposite to the textbook direction for argument of latitude omega+nu, the periapsis opposite to that for omega. *)
Theorem C41_orientation o pos vel : let u := o_m1 o + o_m2 o in
  0 < u -> 0 < o_p o -> 0 <= o_e o -> 0 < 1 + o_e o * cos (o_nu o) ->
  orbit_to_coord o = (pos, vel) ->
  cross pos vel = vscal (sqrt (u * o_p o)) (elements_normal (o_Om o) (o_i o)) /\
  pos = vscal (- (o_p o / (1 + o_e o * cos (o_nu o)))) (elements_dir (o_Om o) (o_i o) (o_om o + o_nu o)) /\
  calc_runge_lenz_vector u pos vel = vscal (- o_e o) (elements_dir (o_Om o) (o_i o) (o_om o)).
Proof.
  intros u Hu Hp He Hr E. assert (G : good o) by (repeat split; auto).
  assert (UU : oU o = u) by (unfold oU, Gc, u; ring).
  pose proof (f_equal fst E) as E1. pose proof (f_equal snd E) as E2. cbn [fst snd] in E1, E2. subst pos vel.
  rewrite o2c_cross, pV, UU by auto. split; auto. split; [apply o2c_pos_dir|]. rewrite <- UU. apply o2c_rl; auto.
Qed.
(** For all states: e^2 = 1 + 2 (energy) |L|^2/u^2, a = -u/(2 energy). *)
Theorem C41_state_invariants u dr dv : 0 < u -> dr <> vzero ->
  calc_eccentricity u dr dv * calc_eccentricity u dr dv = 1 + 2 * specific_energy u dr dv * norm2 (cross dr dv) / (u * u) /\
  calc_semi_major_axis u dr dv = - u / (2 * specific_energy u dr dv) /\
  calc_a_e u dr dv = (- u / (2 * specific_energy u dr dv), calc_eccentricity u dr dv) /\
  calc_a_RL_vector u dr dv = (- u / (2 * specific_energy u dr dv), calc_runge_lenz_vector u dr dv).
Proof.
  intros U N. rewrite calc_ecc_eq by auto. split; [rewrite norm_sq; apply rl_norm2; auto; lra|].
  split; [apply calc_sma_eq; auto|]. split; [apply calc_a_e_eq|apply calc_a_RL_eq].
Qed.

Definition ex_orbit : orbit := mkO 1 2 1 (1 / 2) (PI / 3) 1 2 (PI / 2) Ellipse.
Lemma ex_good : good ex_orbit.
Proof. unfold good, ex_orbit; simpl. rewrite cos_PI2. repeat split; lra. Qed.
Example C41_case : let '(pos, vel) := orbit_to_coord ex_orbit in norm pos = 1 /\ fst (calc_a_e 3 pos vel) = 4 / 3.
Proof.
  destruct (orbit_to_coord ex_orbit) as [pos vel] eqn:E. destruct ex_good as (A & B & C & D).
  pose proof (C41_orbit ex_orbit pos vel) as P. pose proof (C41_helpers ex_orbit pos vel) as Q. cbv zeta in P, Q.
  destruct P as (P & _); auto. destruct Q as (_ & _ & Q); auto.
  destruct Q as (Q & _); [simpl; lra|]. simpl in Q. replace (1 + 2) with 3 in Q by ring. rewrite Q, P. simpl. rewrite cos_PI2.
  split; field.
Qed.
Print Assumptions C41_orbit.
Print Assumptions C41_helpers.
Print Assumptions C41_orientation.
Print Assumptions C41_state_invariants.

(** * C62: coord_to_orbit after orbit_to_coord *)
(** [back eps o]: the orbit read back from the coordinates of o. *)
Definition back (eps : R) (o : orbit) : orbit :=
  coord_to_orbit eps (o_m1 o) (o_m2 o) (fst (orbit_to_coord o)) (snd (orbit_to_coord o)).
Lemma back_again eps o : back eps o = again eps o.
Proof. unfold back, again. destruct (orbit_to_coord o); auto. Qed.

(** Size, shape and plane are recovered for every orbit. *)
Theorem C62_shape eps o : 0 < eps ->
  0 < o_m1 o + o_m2 o -> 0 < o_p o -> 0 <= o_e o -> 0 < 1 + o_e o * cos (o_nu o) -> 0 <= o_i o <= PI ->
  o_m1 (back eps o) = o_m1 o /\ o_m2 (back eps o) = o_m2 o /\ o_p (back eps o) = o_p o /\ o_e (back eps o) = o_e o /\
  o_i (back eps o) = o_i o /\ o_type (back eps o) = classify_orbit eps (o_e o).
Proof.
  intros He Hm Hp H0 Hr Hi. assert (G : good o) by (repeat split; auto). rewrite back_again.
  destruct (again_shape eps o He G) as (A1 & A2 & A3 & A4 & A5). pose proof (again_i eps o G Hi). auto 10.
Qed.
(** Eccentric inclined orbits: node and true anomaly are recovered, the argument of periapsis comes back shifted by
    pi, so converting again yields the reflected position and velocity. *)
Theorem C62_inclined eps o : 0 < eps ->
  0 < o_m1 o + o_m2 o -> 0 < o_p o -> 0 < o_e o -> 0 < 1 + o_e o * cos (o_nu o) -> 0 < o_i o < PI ->
  same_angle (o_Om (back eps o)) (o_Om o) /\ same_angle (o_nu (back eps o)) (o_nu o) /\
  same_angle (o_om (back eps o)) (o_om o + PI) /\
  orbit_to_coord (back eps o) = (vneg (fst (orbit_to_coord o)), vneg (snd (orbit_to_coord o))).
Proof.
  intros He Hm Hp H0 Hr Hi. assert (G : good o) by (repeat split; auto; lra). rewrite back_again.
  assert (S : 0 < sin (o_i o)) by (apply sin_gt_0; lra).
  split; [apply again_Om; auto|]. split; [apply again_nu; auto; lra|]. split; [apply again_om; auto; lra|].
  destruct (again_neg eps o He G) as (A & B); auto; [lra|]. rewrite (surjective_pairing (orbit_to_coord (again eps o))). congruence.
Qed.
(** Eccentric orbits in the reference plane: node and periapsis both come back as Omega+omega, so the result is
    turned by Omega+omega about the z axis. *)
Theorem C62_planar eps o : 0 < eps ->
  0 < o_m1 o + o_m2 o -> 0 < o_p o -> 0 < o_e o -> 0 < 1 + o_e o * cos (o_nu o) -> o_i o = 0 ->
  orbit_to_coord (back eps o) = (Rz (o_Om o + o_om o) (fst (orbit_to_coord o)), Rz (o_Om o + o_om o) (snd (orbit_to_coord o))).
Proof.
  intros He Hm Hp H0 Hr Hi. assert (G : good o) by (repeat split; auto; lra). rewrite back_again.
  destruct (again_planar_coords eps o He G) as (A & B); auto; [lra|].
  rewrite (surjective_pairing (orbit_to_coord (again eps o))). congruence.
Qed.
(** Circular inclined orbits: the position comes back perpendicular to where it was. *)
Theorem C62_circular eps o : 0 < eps ->
  0 < o_m1 o + o_m2 o -> 0 < o_p o -> o_e o = 0 -> 0 < o_i o < PI ->
  dot (fst (orbit_to_coord (back eps o))) (fst (orbit_to_coord o)) = 0.
Proof.
  intros He Hm Hp H0 Hi. assert (G : good o) by (repeat split; auto; rewrite H0; lra). rewrite back_again.
  apply again_circular_coords; auto.
Qed.
Theorem C62_circular_planar eps o : 0 < eps ->
  0 < o_m1 o + o_m2 o -> 0 < o_p o -> o_e o = 0 -> o_i o = 0 ->
  fst (orbit_to_coord (back eps o)) = vneg (fst (orbit_to_coord o)).
Proof.
  intros He Hm Hp H0 Hi. assert (G : good o) by (repeat split; auto; rewrite H0; lra). rewrite back_again.
  apply again_circular_planar_coords; auto.
Qed.
(** Hence converting to an orbit and back is not the identity on coordinates; on eccentric inclined orbits it never is. *)
Theorem C62_roundtrip_refuted eps o : 0 < eps ->
  0 < o_m1 o + o_m2 o -> 0 < o_p o -> 0 < o_e o -> 0 < 1 + o_e o * cos (o_nu o) -> 0 < o_i o < PI ->
  fst (orbit_to_coord (back eps o)) <> fst (orbit_to_coord o).
Proof.
  intros He Hm Hp H0 Hr Hi X. assert (G : good o) by (repeat split; auto; lra).
  destruct (C62_inclined eps o) as (_ & _ & _ & E); auto. rewrite E in X. cbn [fst] in X.
  apply (rt_ne o G). destruct (fst (orbit_to_coord o)) as [a b c]. vunf. injection X as X1 X2 X3.
  apply vec_eq; cbn [Vec.vx Vec.vy Vec.vz]; lra.
Qed.
Example C62_case : fst (orbit_to_coord (back (1 / 1000) ex_orbit)) <> fst (orbit_to_coord ex_orbit) /\ o_e (back (1 / 1000) ex_orbit) = 1 / 2.
Proof.
  destruct ex_good as (A & B & C & D). pose proof PI_RGT_0. split.
  - apply C62_roundtrip_refuted; auto; simpl; lra.
  - destruct (C62_shape (1 / 1000) ex_orbit) as (_ & _ & _ & E & _); auto; simpl; lra.
Qed.
Print Assumptions C62_shape.
Print Assumptions C62_inclined.
Print Assumptions C62_planar.
Print Assumptions C62_circular.
Print Assumptions C62_circular_planar.
Print Assumptions C62_roundtrip_refuted.

(** * C63: the semi-latus rectum read from a state *)
(** The overload returning an orbit gives |L|^2/u for every non-radial state. *)
Theorem C63_value_overload eps m1 m2 dr dv : 0 < eps -> 0 < m1 + m2 -> dr <> vzero -> cross dr dv <> vzero ->
  o_p (coord_to_orbit eps m1 m2 dr dv) = norm2 (cross dr dv) / (m1 + m2).
Proof. intros. rewrite c2o_p by auto. unfold Gc. rewrite Rmult_1_r. auto. Qed.
(** The overload filling an existing orbit gives the same number for every state of non-zero energy, but NaN for every
    parabolic state. *)
Theorem C63_reference_overload eps m1 m2 dr dv : 0 < eps -> 0 < m1 + m2 -> dr <> vzero -> cross dr dv <> vzero ->
  (specific_energy (m1 + m2) dr dv <> 0 -> c2o_ref_p eps m1 m2 dr dv = Fin (norm2 (cross dr dv) / (m1 + m2))) /\
  (specific_energy (m1 + m2) dr dv = 0 -> c2o_ref_p eps m1 m2 dr dv = NaN).
Proof.
  intros He Hm N L. pose proof (c2o_ref_p_value eps m1 m2 dr dv He Hm N L) as P. cbv zeta in P.
  replace ((m1 + m2) * Gc) with (m1 + m2) in P by (unfold Gc; ring). exact P.
Qed.
Theorem C63_parabola_refuted : exists m1 m2 dr dv, 0 < m1 + m2 /\ dr <> vzero /\ cross dr dv <> vzero /\
  forall eps, 0 < eps -> c2o_ref_p eps m1 m2 dr dv = NaN /\ o_p (coord_to_orbit eps m1 m2 dr dv) = 2.
Proof.
  exists 1, 1, (mkV 1 0 0), (mkV 0 2 0).
  assert (A : mkV 1 0 0 <> vzero) by (intros X; injection X; lra).
  assert (B : cross (mkV 1 0 0) (mkV 0 2 0) <> vzero) by (intros X; unfold cross in X; simpl in X; injection X; lra).
  split; [lra|]. split; auto. split; auto. intros eps He. split.
  - apply C63_reference_overload; auto; [lra|]. unfold specific_energy, norm.
    replace (norm2 (mkV 1 0 0)) with 1 by vring. rewrite sqrt_1. vunf. field.
  - rewrite C63_value_overload by (auto; lra). vunf. field.
Qed.
Print Assumptions C63_value_overload.
Print Assumptions C63_reference_overload.
Print Assumptions C63_parabola_refuted.
