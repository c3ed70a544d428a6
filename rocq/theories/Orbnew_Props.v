(** C69: orbit constructors. *)
From Verif Require Import Orbnew_Model Orbit_Spec Orbit_Proofs Orbit_Proofs2 Orbit_Props Anom_Props Scat_Props Manip_Model Manip_Spec Manip_Proofs Manip_Props.
Open Scope R_scope.

Lemma type_cases eps e : 0 < eps <= 1 ->
  (e < 0 /\ classify_orbit eps e = NoOrbit) \/ (0 <= e < 1 /\ classify_orbit eps e = Ellipse) \/ (e = 1 /\ classify_orbit eps e = Parabola) \/ (1 < e /\ classify_orbit eps e = Hyperbola).
Proof.
  intros He. destruct (C42_classify eps e He) as (A & B & C & D & _). assert (Q : e < 0 \/ 0 <= e < 1 \/ e = 1 \/ 1 < e) by lra.
  destruct Q as [Q|[Q|[Q|Q]]]; [left|right; left|right; right; left|right; right; right]; split; auto; [apply D|apply A|apply B|apply C]; auto.
Qed.

(** C69.  An orbit is built exactly for positive semi-latus rectum and non-negative eccentricity (otherwise the program
    aborts); it stores the masses, p, e and the given angles, and the type the eccentricity implies.  A random true
    anomaly is accepted for ellipses only: it solves Kepler's equation for the drawn mean anomaly. *)
Theorem C69_kepler_orbit : forall eps m1 m2 p e i Om om nu, 0 < eps <= 1 ->
  (p <= 0 \/ e < 0 -> forall res, kepler_make eps m1 m2 p e i Om om nu res <-> res = Abort) /\
  (0 < p -> 0 <= e -> forall x, nu = Given x -> exists o, (forall res, kepler_make eps m1 m2 p e i Om om nu res <-> res = Ok o) /\
     o_m1 o = m1 /\ o_m2 o = m2 /\ o_p o = p /\ o_e o = e /\ o_nu o = x /\
     (forall y, i = Given y -> o_i o = y) /\ (forall y, Om = Given y -> o_Om o = y) /\ (forall y, om = Given y -> o_om o = y) /\
     (o_type o = Ellipse <-> e < 1) /\ (o_type o = Parabola <-> e = 1) /\ (o_type o = Hyperbola <-> 1 < e)) /\
  (0 < p -> 1 <= e -> forall M, nu = Random M -> forall res, kepler_make eps m1 m2 p e i Om om nu res <-> res = Abort) /\
  (0 < p -> 0 <= e < 1 -> forall M, nu = Random M -> Rabs M <= PI ->
     exists o E r, (forall res, kepler_make eps m1 m2 p e i Om om nu res <-> res = Ok o) /\
       o_m1 o = m1 /\ o_m2 o = m2 /\ o_p o = p /\ o_e o = e /\ o_type o = Ellipse /\
       E - e * sin E = M /\ Rabs (r - E) <= (if Rle_dec (Rabs M) eps then eps / (1 - e) else eps * Rabs r) /\
       cos (o_nu o) = (cos r - e) / (1 - e * cos r) /\ sin (o_nu o) = sqrt (1 - e * e) * sin r / (1 - e * cos r)).
Proof.
  intros eps m1 m2 p e i Om om nu He. pose proof (type_cases eps e He) as TC. unfold kepler_make. split; [|split; [|split]].
  - intros H res. destruct (Rle_dec p 0) as [P|P]; [reflexivity|]. destruct TC as [(Q & ->)|[(Q & ->)|[(Q & ->)|(Q & ->)]]]; [reflexivity|lra|lra|lra].
  - intros Hp H x ->. destruct (Rle_dec p 0) as [P|P]; [lra|]. exists (mkO m1 m2 p e (pick_i i) (pick Om) (pick om) x (classify_orbit eps e)).
    cbn [o_m1 o_m2 o_p o_e o_i o_Om o_om o_nu o_type].
    assert (G : forall y a, a = Given y -> pick_i a = y /\ pick a = y) by (intros y a ->; auto).
    destruct TC as [(Q & E)|[(Q & E)|[(Q & E)|(Q & E)]]]; [lra| | |]; rewrite E; (split; [reflexivity|]); repeat (split; [reflexivity|]); (split; [intros y Hy; apply G; auto|]); (split; [intros y Hy; apply G; auto|]); (split; [intros y Hy; apply G; auto|]); repeat split; intros; try discriminate; auto; lra.
  - intros Hp H M -> res. destruct (Rle_dec p 0) as [P|P]; [lra|]. destruct TC as [(Q & E)|[(Q & E)|[(Q & E)|(Q & E)]]]; [lra|lra| |]; rewrite E; cbv zeta; unfold shuffle_nu; cbn [o_type]; reflexivity.
  - intros Hp H M -> HM. destruct (Rle_dec p 0) as [P|P]; [lra|]. destruct TC as [(Q & E)|[(Q & E)|[(Q & E)|(Q & E)]]]; [lra| |lra|lra]. rewrite E. cbv zeta. unfold shuffle_nu. cbn [o_type o_e o_m1 o_m2 o_p o_i o_Om o_om].
    destruct (C42_kepler_ellipse eps M e He H HM) as (E' & r & K & _ & _ & MR & D). destruct (C42_ellipse_E_to_T eps r e H) as (nu & EN & _ & C & S).
    exists (mkO m1 m2 p e (pick_i i) (pick Om) (pick om) nu Ellipse), E', r. cbn [o_m1 o_m2 o_p o_e o_i o_Om o_om o_nu o_type].
    split; [|repeat (split; [reflexivity|]); auto].
    intros res. split.
    + intros (E0 & HE & ->). apply MR in HE. subst E0. cbn [obind]. rewrite EN. reflexivity.
    + intros ->. exists (Ok r). split; [apply MR; reflexivity|]. cbn [obind]. rewrite EN. reflexivity.
Qed.
Print Assumptions C69_kepler_orbit.

(** C69.  A random inclination is isotropic: for a draw w it is at most t exactly if w >= cos t, and lies in [0,pi];
    node and periapsis are the draws. *)
Theorem C69_isotropic : forall w t, -1 <= w <= 1 -> 0 <= t <= PI ->
  0 <= pick_i (Random w) <= PI /\ (pick_i (Random w) <= t <-> cos t <= w) /\ pick (Random w) = w.
Proof.
  intros w t Hw Ht. unfold pick_i, pick. pose proof (acos_bound w) as B. split; [auto|]. split; [|reflexivity].
  pose proof (cos_acos w Hw) as C. split; intros H.
  - rewrite <- C. destruct (Req_dec (acos w) t) as [->|N]; [lra|]. left. apply cos_decreasing_1; lra.
  - destruct (Rle_lt_dec (acos w) t) as [L|L]; auto. exfalso. assert (cos (acos w) < cos t) by (apply cos_decreasing_1; lra). lra.
Qed.
Print Assumptions C69_isotropic.

(** C69.  An elliptic orbit is built exactly for positive semi-major axis and eccentricity in [0,1); read back from the
    coordinates it starts from, its semi-major axis and eccentricity are the requested ones, and its period obeys Kepler's
    third law. *)
Theorem C69_elliptic : forall eps m1 m2 a e i Om om x, 0 < eps <= 1 -> 0 < m1 + m2 ->
  (~ (0 < a /\ 0 <= e < 1) -> forall res, elliptic_make eps m1 m2 a e i Om om (Given x) res <-> res = Abort) /\
  (0 < a -> 0 <= e < 1 -> exists o, (forall res, elliptic_make eps m1 m2 a e i Om om (Given x) res <-> res = Ok (o, a)) /\
     o_type o = Ellipse /\
     (forall pos vel, orbit_to_coord o = (pos, vel) -> calc_a_e (m1 + m2) pos vel = (a, e) /\ norm pos = a * (1 - e * e) / (1 + e * cos x)) /\
     exists P, period_orbit o = Ok P /\ 0 < P /\ P * P * (m1 + m2) = 4 * PI * PI * (a * a * a)).
Proof.
  intros eps m1 m2 a e i Om om x He Hm. destruct (C69_kepler_orbit eps m1 m2 (a * (1 - e * e)) e i Om om (Given x) He) as (KA & KO & _). split.
  - intros N res. unfold elliptic_make.
    destruct (Rle_dec (a * (1 - e * e)) 0) as [P|P]; [|destruct (Rlt_dec e 0) as [Q|Q]].
    + split; [intros (r & Hr & ->); apply KA in Hr; [|auto]; subst r; reflexivity|]. intros ->. exists Abort. split; [apply KA; auto|reflexivity].
    + split; [intros (r & Hr & ->); apply KA in Hr; [|auto]; subst r; reflexivity|]. intros ->. exists Abort. split; [apply KA; auto|reflexivity].
    + assert (E1 : ~ e < 1). { intros L. apply N. split; [|lra]. destruct (Rlt_dec 0 a) as [A|A]; auto. exfalso. apply P. assert (0 < 1 - e * e) by nra. nra. }
      destruct (KO ltac:(lra) ltac:(lra) x eq_refl) as (o & HO & _ & _ & _ & _ & _ & _ & _ & _ & TE & _).
      assert (T : o_type o <> Ellipse) by (intros T; apply TE in T; lra).
      split.
      * intros (r & Hr & ->). apply HO in Hr. subst r. cbn [obind]. destruct (o_type o); congruence.
      * intros ->. exists (Ok o). split; [apply HO; auto|]. cbn [obind]. destruct (o_type o); congruence.
  - intros Ha H. assert (H1 : 0 < 1 - e * e) by nra. assert (Hp : 0 < a * (1 - e * e)) by (apply Rmult_lt_0_compat; auto). destruct (KO Hp ltac:(lra) x eq_refl) as (o & HO & M1 & M2 & Hpp & Hee & Hnu & _ & _ & _ & TE & _).
    assert (T : o_type o = Ellipse) by (apply TE; lra). exists o. split; [|split; [auto|split]].
    + intros res. unfold elliptic_make. split.
      * intros (r & Hr & ->). apply HO in Hr. subst r. cbn [obind]. rewrite T. reflexivity.
      * intros ->. exists (Ok o). split; [apply HO; auto|]. cbn [obind]. rewrite T. reflexivity.
    + intros pos vel EC. assert (D : 0 < 1 + o_e o * cos (o_nu o)) by (rewrite Hee, Hnu; pose proof (COS_bound x); nra).
      destruct (C41_helpers o pos vel) as (_ & _ & Q); try (rewrite ?M1, ?M2, ?Hpp, ?Hee; lra); auto.
      destruct (C41_orbit o pos vel) as (NP & _); try (rewrite ?M1, ?M2, ?Hpp, ?Hee; lra); auto.
      rewrite M1, M2, Hpp, Hee in Q. destruct (Q ltac:(lra)) as (Q1 & _). split; [|rewrite NP, Hpp, Hee, Hnu; auto]. rewrite Q1. f_equal. field. nra.
    + destruct (C64_period o) as (PP & _); try (rewrite ?M1, ?M2, ?Hpp, ?Hee; lra).
      destruct (PP ltac:(rewrite Hee; lra)) as (P & E & P0 & K & _). exists P. split; [auto|]. split; [auto|]. rewrite M1, M2, Hpp, Hee in K. rewrite K. field. nra.
Qed.
Print Assumptions C69_elliptic.

(** C69.  A hyperbolic orbit with random orientation is the one with the drawn orientation (to which C45 applies). *)
Theorem C69_hyperbolic : forall eps m1 m2 v b i Om om r inw, 0 < eps <= 1 ->
  forall res, hyperbolic_make eps m1 m2 v b i Om om r inw res <-> res = hyperbolic_new m1 m2 v b (pick_i i) (pick Om) (pick om) r inw.
Proof.
  intros eps m1 m2 v b i Om om r inw He res. unfold hyperbolic_make, kepler_make.
  destruct (Rle_dec 1 0); [lra|]. destruct (type_cases eps 0 He) as [(Q & E)|[(Q & E)|[(Q & E)|(Q & E)]]]; try lra. rewrite E. cbv zeta. split.
  - intros (o0 & -> & ->). reflexivity.
  - intros ->. eexists; split; [reflexivity|]. reflexivity.
Qed.
Print Assumptions C69_hyperbolic.

(** C42.  Mean to true anomaly, ellipse: the two conversions in a row. *)
Theorem C42_mean_to_true : forall eps M e, 0 < eps <= 1 -> 0 <= e < 1 -> Rabs M <= PI ->
  exists E r T, E - e * sin E = M /\ Rabs (r - E) <= (if Rle_dec (Rabs M) eps then eps / (1 - e) else eps * Rabs r) /\
    (forall res, M_to_T eps M e res <-> res = Ok T) /\
    cos T = (cos r - e) / (1 - e * cos r) /\ sin T = sqrt (1 - e * e) * sin r / (1 - e * cos r).
Proof.
  intros eps M e He H HM. destruct (C42_kepler_ellipse eps M e He H HM) as (E & r & K & _ & _ & MR & D). destruct (C42_ellipse_E_to_T eps r e H) as (T & EN & _ & C & S).
  exists E, r, T. split; [auto|]. split; [auto|]. split; [|auto]. intros res. unfold M_to_T. split.
  - intros (x & Hx & ->). apply MR in Hx. subst x. cbn [obind]. exact EN.
  - intros ->. exists (Ok r). split; [apply MR; auto|]. cbn [obind]. auto.
Qed.
Print Assumptions C42_mean_to_true.

(** C41.  calc_a_e_L: semi-major axis from the energy, Runge-Lenz vector, and the angular momentum of the pair in its
    centre-of-mass frame. *)
Theorem C41_a_e_L : forall m1 m2 dr dv, 0 < m1 + m2 -> dr <> vzero ->
  calc_a_e_L m1 m2 dr dv = (- (m1 + m2) / (2 * specific_energy (m1 + m2) dr dv), calc_runge_lenz_vector (m1 + m2) dr dv, vscal (m1 * m2 / (m1 + m2)) (cross dr dv)) /\
  forall p1 p2 v1 v2, dr = vsub p1 p2 -> dv = vsub v1 v2 -> vadd (vscal m1 p1) (vscal m2 p2) = vzero -> vadd (vscal m1 v1) (vscal m2 v2) = vzero ->
    snd (calc_a_e_L m1 m2 dr dv) = vadd (vscal m1 (cross p1 v1)) (vscal m2 (cross p2 v2)).
Proof.
  intros m1 m2 dr dv Hm N. assert (E : calc_a_e_L m1 m2 dr dv = (- (m1 + m2) / (2 * specific_energy (m1 + m2) dr dv), calc_runge_lenz_vector (m1 + m2) dr dv, vscal (m1 * m2 / (m1 + m2)) (cross dr dv))).
  { unfold calc_a_e_L. unfold Gc. rewrite Rmult_1_r. destruct (C41_state_invariants (m1 + m2) dr dv Hm N) as (_ & _ & _ & ->). reflexivity. }
  split; auto. intros p1 p2 v1 v2 -> -> HP HV. rewrite E. cbn [snd].
  assert (EP : forall a b : vec, vadd (vscal m1 a) (vscal m2 b) = vzero -> a = vscal (m2 / (m1 + m2)) (vsub a b) /\ b = vscal (- m1 / (m1 + m2)) (vsub a b)).
  { intros [ax ay az] [bx by_ bz] H. unfold vadd, vscal, vzero in H. cbn in H. injection H as H1 H2 H3.
    assert (K : forall x y, m1 * x + m2 * y = 0 -> x = m2 / (m1 + m2) * (x - y) /\ y = - m1 / (m1 + m2) * (x - y)).
    { intros x y Q. split; apply (Rmult_eq_reg_r (m1 + m2)); try lra; field_simplify; lra. }
    destruct (K _ _ H1), (K _ _ H2), (K _ _ H3). unfold vscal, vsub. cbn. split; f_equal; assumption. }
  destruct (EP p1 p2 HP) as (P1 & P2). destruct (EP v1 v2 HV) as (V1 & V2).
  set (d := vsub p1 p2) in *. set (w := vsub v1 v2) in *. rewrite P1, P2, V1, V2. destruct d as [dx dy dz], w as [wx wy wz]. unfold cross, vscal, vadd. cbn. f_equal; field; lra.
Qed.
Print Assumptions C41_a_e_L.
(** C40.  The guarded arc cosine gives an angle whatever rounding does to its argument. *)
Theorem C62_guarded_acos : forall x, 0 <= myacos x <= PI /\ (-1 <= x <= 1 -> cos (myacos x) = x) /\ (1 <= x -> myacos x = 0) /\ (x <= -1 -> myacos x = PI).
Proof.
  intros x. split; [apply acos_bound|]. unfold myacos. split; [|split].
  - intros H. rewrite clamp_id by auto. apply cos_acos; auto.
  - intros H. assert (E : clamp (-1) x 1 = 1) by (unfold clamp; destruct (Rlt_dec x (-1)); [lra|]; destruct (Rlt_dec 1 x); lra). rewrite E. apply acos_1.
  - intros H. assert (E : clamp (-1) x 1 = -1) by (unfold clamp; destruct (Rlt_dec x (-1)); [destruct (Rlt_dec 1 (-1)); lra|]; destruct (Rlt_dec 1 x); lra). rewrite E. rewrite <- (acos_cos PI); [rewrite cos_PI; auto|]. pose proof PI_RGT_0. lra.
Qed.
Print Assumptions C62_guarded_acos.
(** C45.  The impact parameter limit from a tidal factor: the periapsis of the limiting orbit is the tidal radius. *)
Theorem C45_b_max_tidal : forall M1 M2 R1 R2 v f b i Om om r inw o, 0 < f -> 0 < M1 -> 0 < M2 -> 0 <= R1 -> 0 <= R2 -> 0 < R1 \/ 0 < R2 -> v <> 0 ->
  hyperbolic_new M1 M2 v b i Om om r inw = Ok o ->
  let q := o_p o / (1 + o_e o) in let tf := tidal_factor q M1 M2 R1 R2 in
  (Rabs b <= b_max_tidal M1 M2 R1 R2 v f <-> q <= tidal_radius f M1 M2 R1 R2) /\
  (Rabs b = b_max_tidal M1 M2 R1 R2 v f -> Rmax (fst tf) (snd tf) = f).
Proof.
  intros M1 M2 R1 R2 v f b i Om om r inw o Hf H1 H2 HR1 HR2 HR Hv HO q tf.
  destruct (C45_tidal_radius f M1 M2 R1 R2 Hf H1 H2 HR1 HR2 HR) as (T0 & TF).
  destruct (C45_b_max M1 M2 v b i Om om r inw o (tidal_radius f M1 M2 R1 R2) ltac:(lra) Hv T0 HO) as (A & B). unfold b_max_tidal.
  split; [symmetry; exact A|]. intros E. apply B in E. unfold tf, q. rewrite E. exact TF.
Qed.
Print Assumptions C45_b_max_tidal.
(** C44.  The period of two clusters about each other: Kepler's third law for their relative orbit, abort if unbound. *)
Theorem C44_period : forall c1 c2, let u := total_mass (members c1) + total_mass (members c2) in
  let dr := vsub (COM_p c1) (COM_p c2) in let dv := vsub (COM_v c1) (COM_v c2) in 0 < u -> dr <> vzero ->
  (specific_energy u dr dv < 0 -> exists P, period_clusters c1 c2 = Ok P /\ 0 < P /\ P * P * u = 4 * PI * PI * (let a := - u / (2 * specific_energy u dr dv) in a * a * a)) /\
  (0 <= specific_energy u dr dv -> period_clusters c1 c2 = Abort).
Proof.
  intros c1 c2 u dr dv Hu Hd. unfold period_clusters, calc_semi_major_axis_clusters. rewrite !M_tot_spec. fold u. unfold Gc. rewrite Rmult_1_l. fold dr dv.
  destruct (C41_state_invariants u dr dv Hu Hd) as (_ & E & _). unfold rel_p, rel_v. fold dr dv. rewrite E. set (a := - u / (2 * specific_energy u dr dv)).
  unfold period. fold u. unfold Gc. rewrite Rmult_1_r. split; intros H.
  - assert (Ha : 0 < a). { unfold a. replace (- u / (2 * specific_energy u dr dv)) with (u / (2 * - specific_energy u dr dv)) by (field; lra). apply Rdiv_lt_0_compat; lra. }
    clearbody a. destruct (Rlt_dec 0 a); [|contradiction]. eexists; split; [reflexivity|]. pose proof PI_RGT_0.
    assert (P1 : 0 < a * a * a / u) by (apply Rdiv_lt_0_compat; [repeat apply Rmult_lt_0_compat; auto|auto]). set (S := sqrt (a * a * a / u)).
    assert (S0 : 0 < S) by (apply sqrt_lt_R0; auto). assert (SS : S * S = a * a * a / u) by (apply sqrt_sqrt; lra). split; [apply Rmult_lt_0_compat; [lra|auto]|].
    cbv zeta. replace (2 * PI * S * (2 * PI * S) * u) with (4 * PI * PI * (S * S) * u) by ring. rewrite SS. field. lra.
  - destruct (Rlt_dec 0 a) as [L|L]; [|reflexivity]. exfalso. unfold a in L. destruct (Req_dec (specific_energy u dr dv) 0) as [Z|N].
    + rewrite Z, Rmult_0_r in L. unfold Rdiv in L. rewrite Rinv_0 in L. lra.
    + assert (0 < specific_energy u dr dv) by lra. assert (0 < u / (2 * specific_energy u dr dv)) by (apply Rdiv_lt_0_compat; lra). replace (- u / (2 * specific_energy u dr dv)) with (- (u / (2 * specific_energy u dr dv))) in L by (field; lra). lra.
Qed.
Print Assumptions C44_period.
Example C69_case : exists o, elliptic_make (1/1000) 1 2 4 (1/2) (Given 1) (Random 2) (Given 3) (Given 0) (Ok (o, 4)) /\ o_Om o = 2.
Proof.
  destruct (C69_elliptic (1/1000) 1 2 4 (1/2) (Given 1) (Random 2) (Given 3) 0 ltac:(lra) ltac:(lra)) as (_ & H). destruct (H ltac:(lra) ltac:(lra)) as (o & HO & _). exists o. split; [apply HO; auto|].
  assert (Q : elliptic_make (1 / 1000) 1 2 4 (1 / 2) (Given 1) (Random 2) (Given 3) (Given 0) (Ok (mkO 1 2 (4 * (1 - 1 / 2 * (1 / 2))) (1/2) 1 2 3 0 Ellipse, 4))).
  { unfold elliptic_make, kepler_make. destruct (Rle_dec _ 0); [lra|]. destruct (type_cases (1/1000) (1/2) ltac:(lra)) as [(Q & E)|[(Q & E)|[(Q & E)|(Q & E)]]]; try lra. rewrite E. eexists; split; [reflexivity|]. reflexivity. }
  apply HO in Q. injection Q as <-. reflexivity.
Qed.
