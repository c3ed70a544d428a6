(** C45 (scattering geometry) and C46 (Kozai-Lidov time-scale). *)
From Verif Require Import Orbit_Model Orbit_Spec Orbit_Proofs Orbit_Proofs2 Anom_Proofs Anom_Proofs2 Scat_Proofs.
From Coq Require Import Lra.
Open Scope R_scope.

(** * C45 *)
(** The constructor of a hyperbolic orbit succeeds exactly for r not below the pericentre; the body is then at
    distance r, with energy v^2/2 and angular momentum |b v|, approaching (in) or receding (out). *)
Theorem C45_hyperbolic m1 m2 v b i Om om r (inw : bool) :
  0 < m1 + m2 -> v <> 0 -> b <> 0 ->
  match hyperbolic_new m1 m2 v b i Om om r inw with
  | Ok o => let '(pos, vel) := orbit_to_coord o in
      norm pos = r /\ specific_energy (m1 + m2) pos vel = v * v / 2 /\ norm (cross pos vel) = Rabs (b * v) /\
      (if inw then dot pos vel <= 0 else 0 <= dot pos vel) /\
      o_i o = i /\ o_Om o = Om /\ o_om o = om /\ o_type o = Hyperbola /\ 1 < o_e o /\ o_p o / (1 + o_e o) <= r
  | Abort => forall pos vel, specific_energy (m1 + m2) pos vel = v * v / 2 -> norm (cross pos vel) = Rabs (b * v) ->
      pos <> vzero -> norm pos <> r
  | UB => False
  end.
Proof.
  intros Hm Hv Hb.
  pose proof (hyperbolic_new_eq m1 m2 v b i Om om r inw Hm Hv Hb) as (OK & AB). cbv zeta in OK, AB.
  pose proof (hy_p m1 m2 v b Hm Hv Hb) as P0. pose proof (hy_e m1 m2 v b Hm Hv Hb) as E1. pose proof (hy_energy m1 m2 v b Hm Hv Hb) as EN.
  pose proof (hy_e2' m1 m2 v b Hm Hv Hb) as E2.
  rewrite hy_u in *. set (u := m1 + m2) in *.
  set (e := sqrt (1 + b * b / (- u / (v * v) * (- u / (v * v))))) in *. set (p := b * v * (b * v) / u) in *.
  destruct (Rle_lt_dec (p / (1 + e)) r) as [L|L].
  - rewrite OK by auto. destruct (hyp_nu p e r E1 P0 L) as (R0 & B & C).
    set (nu := if inw then - acos ((p - r) / (e * r)) else acos ((p - r) / (e * r))).
    assert (CN : 1 + e * cos nu = p / r) by (unfold nu; destruct inw; rewrite ?cos_neg; auto).
    set (o := mkO m1 m2 p e i Om om nu Hyperbola).
    assert (G : good o).
    { split; [exact Hm|]. split; [exact P0|]. split; [simpl; lra|]. cbn [o o_e o_nu]. rewrite CN. apply Rdiv_lt_0_compat; auto. }
    assert (U : oU o = u) by (unfold oU, Gc; simpl; fold u; ring).
    rewrite (surjective_pairing (orbit_to_coord o)).
    split. { rewrite o2c_pos_norm by auto. unfold oR. cbn [o o_e o_nu o_p]. rewrite CN. field. split; lra. }
    split. { rewrite <- U, o2c_energy, U by auto. cbn [o o_e o_p]. exact EN. }
    split. { rewrite o2c_cross, norm_vscal, normal_norm, Rmult_1_r by auto. rewrite pV, U by auto. cbn [o o_p].
             rewrite (Rabs_right (sqrt _)) by (apply Rle_ge, sqrt_pos). replace (u * p) with ((b * v) * (b * v)) by (unfold p; field; apply Rgt_not_eq; exact Hm).
             apply (sqrt_Rsqr_abs (b * v)). }
    split.
    { rewrite o2c_eq. cbn [fst snd]. rewrite eu_dot, pv0_dot. cbn [o o_e o_nu].
      pose proof (oR_pos o G) as R1. pose proof (oV_pos o G) as V1. pose proof (acos_bound ((p - r) / (e * r))) as AB2.
      assert (0 <= sin (acos ((p - r) / (e * r)))) by (apply sin_ge_0; lra).
      assert (0 < oR o * oV o) by nra.
      unfold nu. destruct inw; rewrite ?sin_neg.
      - assert (0 <= oR o * oV o * (e * sin (acos ((p - r) / (e * r))))) by (apply Rmult_le_pos; [lra|apply Rmult_le_pos; lra]). lra.
      - apply Rmult_le_pos; [lra|apply Rmult_le_pos; lra]. }
    repeat (split; [reflexivity|]). split; auto.
  - rewrite AB by auto. intros pos vel H1 H2 Np Hr. unfold specific_energy in H1. rewrite Hr in H1.
    assert (R0 : 0 < r) by (rewrite <- Hr; apply norm_pos; auto).
    assert (CS : norm (cross pos vel) <= norm pos * norm vel).
    { assert (Q : norm2 (cross pos vel) + dot pos vel * dot pos vel = norm2 pos * norm2 vel).
      { destruct pos, vel. vunf. ring. }
      apply Rsqr_incr_0_var; [|apply Rmult_le_pos; apply sqrt_pos]. unfold Rsqr.
      replace (norm pos * norm vel * (norm pos * norm vel)) with ((norm pos * norm pos) * (norm vel * norm vel)) by ring.
      rewrite !norm_sq. nra. }
    rewrite H2, Hr in CS.
    assert (V2 : norm vel * norm vel = v * v + 2 * u / r) by (rewrite norm_sq; replace (2 * u / r) with (2 * (u / r)) by (field; lra); lra).
    assert (B2 : (b * v) * (b * v) <= r * r * (v * v + 2 * u / r)).
    { rewrite <- V2. replace (r * r * (norm vel * norm vel)) with ((r * norm vel) * (r * norm vel)) by ring.
      rewrite <- (Rabs_right (b * v * (b * v))) by (apply Rle_ge, Rle_0_sqr). rewrite Rabs_mult.
      pose proof (Rabs_pos (b * v)). apply Rmult_le_compat; auto. }
    destruct (b_of_peri m1 m2 v b Hm Hv Hb) as (Q0 & QB). fold u e p in Q0, QB. set (q := p / (1 + e)) in *.
    assert (Vp : 0 < v * v) by nra.
    assert (b * b <= r * r + 2 * u * r / (v * v)).
    { apply Rmult_le_reg_r with (v * v); auto.
      replace ((r * r + 2 * u * r / (v * v)) * (v * v)) with (r * r * (v * v + 2 * u / r)) by (field; split; lra). lra. }
    rewrite QB in H. apply peri_mono in H; auto; lra.
Qed.
(** A vanishing impact parameter (a head-on orbit) is refused. *)
Theorem C45_head_on m1 m2 v i Om om r inw : hyperbolic_new m1 m2 v 0 i Om om r inw = Abort.
Proof. unfold hyperbolic_new. replace (0 * v * (0 * v) / (Gc * (m1 + m2))) with 0 by (unfold Rdiv; ring). destruct (Rle_dec 0 0); [auto|lra]. Qed.

(** b_max: a hyperbolic orbit of impact parameter b has pericentre at most rp iff |b| <= b_max, with equality together. *)
Theorem C45_b_max m1 m2 v b i Om om r inw o rp :
  0 < m1 + m2 -> v <> 0 -> 0 < rp -> hyperbolic_new m1 m2 v b i Om om r inw = Ok o ->
  (o_p o / (1 + o_e o) <= rp <-> Rabs b <= b_max (m1 + m2) v rp) /\
  (o_p o / (1 + o_e o) = rp <-> Rabs b = b_max (m1 + m2) v rp).
Proof.
  intros Hm Hv Hrp H. assert (Hb : b <> 0) by (intros ->; rewrite C45_head_on in H; discriminate).
  pose proof (hyperbolic_new_eq m1 m2 v b i Om om r inw Hm Hv Hb) as (OK & AB). cbv zeta in OK, AB.
  destruct (b_of_peri m1 m2 v b Hm Hv Hb) as (Q0 & QB). cbv zeta in Q0, QB.
  set (u := m1 + m2) in *. set (e := sqrt (1 + b * b / (- u / (v * v) * (- u / (v * v))))) in *. set (p := b * v * (b * v) / u) in *.
  destruct (Rle_lt_dec (p / (1 + e)) r) as [L|L]; [rewrite OK in H by auto|rewrite AB in H by auto; discriminate].
  injection H as <-. cbn [o_p o_e]. set (q := p / (1 + e)) in *.
  pose proof (b_max_sq u v rp Hm Hv ltac:(lra)) as BM. assert (B0 : 0 <= b_max u v rp) by apply sqrt_pos.
  assert (AB2 : Rabs b * Rabs b = b * b) by (rewrite <- Rabs_mult; apply Rabs_right, Rle_ge, Rle_0_sqr).
  pose proof (Rabs_pos b) as A0.
  assert (E1 : Rabs b <= b_max u v rp <-> b * b <= b_max u v rp * b_max u v rp) by (split; intros; nra).
  assert (E2 : b_max u v rp <= Rabs b <-> b_max u v rp * b_max u v rp <= b * b) by (split; intros; nra).
  pose proof (peri_mono u v q rp Hm Hv ltac:(lra) ltac:(lra)) as M1.
  pose proof (peri_mono u v rp q Hm Hv ltac:(lra) ltac:(lra)) as M2.
  rewrite BM, QB in E1, E2.
  split; [rewrite M1, E1; reflexivity|].
  split; intros X.
  - apply Rle_antisym; [apply E1, M1; lra|apply E2, M2; lra].
  - apply Rle_antisym; [apply M1, E1; lra|apply M2, E2; lra].
Qed.
Theorem C45_b_max_increasing m v r1 r2 : 0 < m -> v <> 0 -> 0 <= r1 < r2 -> b_max m v r1 < b_max m v r2.
Proof.
  intros Hm Hv Hr. pose proof (b_max_sq m v r1 Hm Hv ltac:(lra)). pose proof (b_max_sq m v r2 Hm Hv ltac:(lra)).
  assert (0 <= b_max m v r1) by apply sqrt_pos. assert (0 <= b_max m v r2) by apply sqrt_pos.
  pose proof (peri_mono m v r2 r1 Hm Hv ltac:(lra) ltac:(lra)) as (_ & M).
  destruct (Rlt_le_dec (b_max m v r1) (b_max m v r2)) as [L|L]; auto.
  assert (r2 <= r1); [|lra]. apply M. rewrite <- H, <- H0. nra.
Qed.
(** tidal_radius is the distance at which the larger of the two tidal factors equals the given factor. *)
Theorem C45_tidal_radius f m1 m2 R1 R2 : 0 < f -> 0 < m1 -> 0 < m2 -> 0 <= R1 -> 0 <= R2 -> 0 < R1 \/ 0 < R2 ->
  let r := tidal_radius f m1 m2 R1 R2 in
  0 < r /\ Rmax (fst (tidal_factor r m1 m2 R1 R2)) (snd (tidal_factor r m1 m2 R1 R2)) = f.
Proof.
  intros Hf H1 H2 HR1 HR2 HR r.
  pose proof (tidal_radius1_nonneg f m1 m2 R2 Hf H1 H2 HR2) as A. pose proof (tidal_radius1_nonneg f m2 m1 R1 Hf H2 H1 HR1) as B.
  assert (R0 : 0 < r).
  { unfold r, tidal_radius. destruct HR as [P|P]; [eapply Rlt_le_trans; [|apply Rmax_r]|eapply Rlt_le_trans; [|apply Rmax_l]]; apply tidal_radius1_pos; auto. }
  split; auto. unfold tidal_factor. cbn [fst snd].
  rewrite (factor_at f m2 m1 R1 r), (factor_at f m1 m2 R2 r) by auto.
  set (s := tidal_radius1 f m1 m2 R2) in *. set (t := tidal_radius1 f m2 m1 R1) in *.
  assert (E : r = Rmax s t) by reflexivity. pose proof (Rmax_l s t). pose proof (Rmax_r s t). rewrite <- E in *.
  pose proof (factor_le f t r Hf B ltac:(lra) R0). pose proof (factor_le f s r Hf A ltac:(lra) R0).
  assert (NZ : r * r * r <> 0) by (assert (0 < r * r) by nra; nra).
  assert (C : s = r \/ t = r) by (rewrite E; unfold Rmax; destruct (Rle_dec s t); auto).
  apply Rle_antisym; [apply Rmax_lub; auto|].
  destruct C as [C|C]; [eapply Rle_trans; [|apply Rmax_r]|eapply Rle_trans; [|apply Rmax_l]]; rewrite C; right; field; auto; lra.
Qed.
(** Incident orbits of two clusters: for a starting tidal factor up to 0.02 the orbit is always built (every non-zero
    drawn impact parameter within the limit), starts at the tidal radius and comes closer than the interaction radius. *)
Theorem C45_incident_clusters M1 M2 R1 R2 v f b2 w :
  0 < M1 -> 0 < M2 -> 0 <= R1 -> 0 <= R2 -> 0 < R1 \/ 0 < R2 -> v <> 0 -> 0 < f <= 0.02 ->
  0 < b2 <= incident_b2_max M1 M2 R1 R2 v ->
  exists o, incident_orbit_clusters M1 M2 R1 R2 v f b2 w = Ok o /\
    norm (fst (orbit_to_coord o)) = tidal_radius f M1 M2 R1 R2 /\
    o_p o / (1 + o_e o) <= tidal_radius 0.02 M1 M2 R1 R2.
Proof.
  intros H1 H2 HR1 HR2 HR Hv Hf Hb. unfold incident_orbit_clusters, incident_orbit.
  set (r := tidal_radius f M1 M2 R1 R2). set (rp := tidal_radius 0.02 M1 M2 R1 R2).
  assert (Hm : 0 < M1 + M2) by lra.
  destruct (sq_pos b2) as (B0 & B1); [lra|]. assert (Hs : sqrt b2 <> 0) by lra.
  assert (RP : 0 < rp) by (apply (C45_tidal_radius 0.02 M1 M2 R1 R2); auto; lra).
  assert (RR : rp <= r).
  { unfold rp, r, tidal_radius. apply Rmax_lub; [eapply Rle_trans; [|apply Rmax_l]|eapply Rle_trans; [|apply Rmax_r]]; apply tidal_radius1_mono; lra. }
  set (b := sqrt b2) in *.
  pose proof (hyperbolic_new_eq M1 M2 v b w 0 0 r true Hm Hv Hs) as (OK & _). cbv zeta in OK.
  destruct (b_of_peri M1 M2 v b Hm Hv Hs) as (Q0 & QB). cbv zeta in Q0, QB.
  pose proof (C45_hyperbolic M1 M2 v b w 0 0 r true Hm Hv Hs) as C.
  set (e := sqrt (1 + b * b / (- (M1 + M2) / (v * v) * (- (M1 + M2) / (v * v))))) in *.
  set (p := b * v * (b * v) / (M1 + M2)) in *.
  assert (QR : p / (1 + e) <= rp).
  { apply (peri_mono (M1 + M2) v (p / (1 + e)) rp); auto; try lra. rewrite <- QB. unfold incident_b2_max in Hb. cbv zeta in Hb. fold rp in Hb.
    rewrite b_max_sq in Hb by lra. lra. }
  rewrite OK in C |- * by lra.
  eexists; split; [reflexivity|]. destruct (orbit_to_coord _) as [pos vel]. destruct C as (C & _). split; [exact C|exact QR].
Qed.
(** Starting closer (factor above 0.02) some admissible impact parameters make the construction abort. *)
Theorem C45_incident_close_start_refuted M1 M2 R1 R2 v f w :
  0 < M1 -> 0 < M2 -> 0 < R1 -> 0 < R2 -> v <> 0 -> 0.02 < f ->
  exists b2, 0 < b2 < incident_b2_max M1 M2 R1 R2 v /\ incident_orbit_clusters M1 M2 R1 R2 v f b2 w = Abort.
Proof.
  intros H1 H2 HR1 HR2 Hv Hf. unfold incident_orbit_clusters, incident_orbit.
  set (r := tidal_radius f M1 M2 R1 R2). set (rp := tidal_radius 0.02 M1 M2 R1 R2).
  assert (Hm : 0 < M1 + M2) by lra.
  assert (RP : 0 < r) by (apply (C45_tidal_radius f M1 M2 R1 R2); auto; lra).
  assert (RR : r < rp).
  { unfold rp, r, tidal_radius. apply Rmax_lub_lt; [eapply Rlt_le_trans; [|apply Rmax_l]|eapply Rlt_le_trans; [|apply Rmax_r]]; apply tidal_radius1_strict; lra. }
  set (q := (r + rp) / 2).
  set (b := b_max (M1 + M2) v q).
  assert (B2 : b * b = q * q + 2 * (M1 + M2) * q / (v * v)) by (apply b_max_sq; auto; unfold q; lra).
  assert (Bp : 0 < b).
  { unfold b. eapply Rle_lt_trans; [|apply (C45_b_max_increasing (M1 + M2) v 0 q); auto; unfold q; lra]. apply sqrt_pos. }
  exists (b * b). rewrite sqrt_square by lra. split.
  - split; [nra|]. unfold incident_b2_max. cbv zeta. fold rp.
    assert (b < b_max (M1 + M2) v rp) by (apply C45_b_max_increasing; auto; unfold q; lra). nra.
  - destruct (b_of_peri M1 M2 v b Hm Hv ltac:(lra)) as (Q0 & QB). cbv zeta in Q0, QB.
    pose proof (hyperbolic_new_eq M1 M2 v b w 0 0 r true Hm Hv ltac:(lra)) as (_ & AB). cbv zeta in AB. apply AB.
    set (q' := b * v * (b * v) / (M1 + M2) / (1 + sqrt (1 + b * b / (- (M1 + M2) / (v * v) * (- (M1 + M2) / (v * v)))))) in *.
    assert (q <= q'); [|unfold q in *; lra].
    apply (peri_mono (M1 + M2) v q q'); auto; try (unfold q; lra); rewrite <- B2, <- QB; lra.
Qed.
(** critical_vel: the relative speed at which the total energy vanishes. *)
Theorem C45_critical_vel m1 m2 E1 E2 : 0 < m1 -> 0 < m2 -> E1 + E2 <= 0 ->
  let v := critical_vel m1 m2 E1 E2 in 0 <= v /\ / 2 * (m1 * m2 / (m1 + m2)) * (v * v) + E1 + E2 = 0.
Proof.
  intros H1 H2 HE v. split; [apply sqrt_pos|]. unfold v, critical_vel. cbv zeta.
  assert (0 < m1 * m2 / (m1 + m2)) by (apply Rdiv_lt_0_compat; nra).
  rewrite sqrt_sqrt; [field; repeat split; lra|]. apply Rmult_le_pos; [lra|apply Rlt_le, Rinv_0_lt_compat; auto].
Qed.
(** hard_radius: a binary of that separation has binding energy G m1 m2/(2 r) = m_env sigma^2 / 2. *)
Theorem C45_hard_radius m1 m2 me s : 0 < m1 -> 0 < m2 -> 0 < me -> s <> 0 ->
  m1 * m2 / (2 * hard_radius m1 m2 me s) = / 2 * me * (s * s).
Proof. intros. unfold hard_radius, Gc. field. repeat split; lra. Qed.
Example C45_case : exists o, hyperbolic_new 1 1 1 2 0 0 0 10 true = Ok o /\ norm (fst (orbit_to_coord o)) = 10.
Proof.
  pose proof (C45_hyperbolic 1 1 1 2 0 0 0 10 true ltac:(lra) ltac:(lra) ltac:(lra)) as C.
  pose proof (hyperbolic_new_eq 1 1 1 2 0 0 0 10 true ltac:(lra) ltac:(lra) ltac:(lra)) as (OK & _). cbv zeta in OK.
  rewrite OK in C |- *.
  - eexists; split; [reflexivity|]. destruct (orbit_to_coord _). apply C.
  - replace (1 + 1) with 2 by ring. set (q := sqrt (1 + 2 * 2 / (- (2) / (1 * 1) * (- (2) / (1 * 1))))).
    assert (0 <= q) by apply sqrt_pos. assert (2 * 1 * (2 * 1) / 2 / (1 + q) <= 2); [|lra].
    apply Rmult_le_reg_r with (1 + q); [lra|]. unfold Rdiv. rewrite !Rmult_assoc, Rinv_l by lra. lra.
  - replace (1 + 1) with 2 by ring. set (q := sqrt (1 + 2 * 2 / (- (2) / (1 * 1) * (- (2) / (1 * 1))))).
    assert (0 <= q) by apply sqrt_pos. assert (2 * 1 * (2 * 1) / 2 / (1 + q) <= 2); [|lra].
    apply Rmult_le_reg_r with (1 + q); [lra|]. unfold Rdiv. rewrite !Rmult_assoc, Rinv_l by lra. lra.
Qed.
Print Assumptions C45_hyperbolic.
Print Assumptions C45_head_on.
Print Assumptions C45_b_max.
Print Assumptions C45_b_max_increasing.
Print Assumptions C45_tidal_radius.
Print Assumptions C45_incident_clusters.
Print Assumptions C45_incident_close_start_refuted.
Print Assumptions C45_critical_vel.
Print Assumptions C45_hard_radius.

(** * C46 *)
(** The time-scale with Kepler's period. *)
Definition kozai_time (m1 m2 m3 a1 a2 e2 : R) : outcome R :=
  obind (period m1 m2 a1) (fun P => let x := a2 * sqrt (1 - e2 * e2) / a1 in Ok (P * (m1 + m2) / m3 * (x * x * x))).
(** ELK_quad_timescale is that number times the inner mass ... *)
Theorem C46_factor m1 m2 m3 a1 a2 e2 : 0 < m1 + m2 -> 0 < a1 ->
  exists t, kozai_time m1 m2 m3 a1 a2 e2 = Ok t /\ ELK_quad_timescale m1 m2 m3 a1 a2 e2 = (m1 + m2) * t.
Proof.
  intros Hm Ha. unfold kozai_time, period. destruct (Rlt_dec 0 a1); [|contradiction]. cbn [obind].
  eexists; split; [reflexivity|]. unfold ELK_quad_timescale. cbv zeta. unfold Gc.
  assert (A3 : 0 < a1 * a1 * a1) by (assert (0 < a1 * a1) by nra; nra).
  assert (Q : sqrt (a1 * a1 * a1 / 1 * (m1 + m2)) = (m1 + m2) * sqrt (a1 * a1 * a1 / ((m1 + m2) * 1))).
  { apply sq_eq; [apply sqrt_pos|apply Rmult_le_pos; [lra|apply sqrt_pos]|].
    replace ((m1 + m2) * sqrt (a1 * a1 * a1 / ((m1 + m2) * 1)) * ((m1 + m2) * sqrt (a1 * a1 * a1 / ((m1 + m2) * 1)))) with
      ((m1 + m2) * (m1 + m2) * (sqrt (a1 * a1 * a1 / ((m1 + m2) * 1)) * sqrt (a1 * a1 * a1 / ((m1 + m2) * 1)))) by ring.
    rewrite !sqrt_sqrt; [field; lra| |].
    - apply Rlt_le, Rdiv_lt_0_compat; lra.
    - apply Rmult_le_pos; [|lra]. unfold Rdiv. rewrite Rinv_1. lra. }
  rewrite Q. unfold Rdiv. ring.
Qed.
(** ... hence right exactly when the inner mass is 1 in code units. *)
Theorem C46_wrong_unless_unit_mass_refuted m1 m2 m3 a1 a2 e2 : 0 < m1 + m2 -> 0 < m3 -> 0 < a1 -> 0 < a2 -> 0 <= e2 < 1 ->
  (kozai_time m1 m2 m3 a1 a2 e2 = Ok (ELK_quad_timescale m1 m2 m3 a1 a2 e2) <-> m1 + m2 = 1).
Proof.
  intros Hm H3 Ha H2 He. destruct (C46_factor m1 m2 m3 a1 a2 e2 Hm Ha) as (t & K & E).
  assert (T0 : 0 < t).
  { unfold kozai_time, period in K. destruct (Rlt_dec 0 a1); [|contradiction]. cbn [obind] in K. injection K as <-.
    pose proof PIp. assert (0 < sqrt (a1 * a1 * a1 / ((m1 + m2) * Gc))).
    { apply sqrt_lt_R0. unfold Gc. apply Rdiv_lt_0_compat; [|lra]. assert (0 < a1 * a1) by nra. nra. }
    assert (0 < a2 * sqrt (1 - e2 * e2) / a1). { apply Rdiv_lt_0_compat; auto. apply Rmult_lt_0_compat; auto. apply sqrt_lt_R0. nra. }
    apply Rmult_lt_0_compat; [|apply Rmult_lt_0_compat; [apply Rmult_lt_0_compat|]; auto].
    apply Rdiv_lt_0_compat; auto. apply Rmult_lt_0_compat; auto. apply Rmult_lt_0_compat; auto. lra. }
  rewrite K, E. split; intros X; [injection X as X; nra|rewrite X, Rmult_1_l; auto].
Qed.
Example C46_case : kozai_time 1 1 1 1 10 0 <> Ok (ELK_quad_timescale 1 1 1 1 10 0).
Proof. intros H. apply C46_wrong_unless_unit_mass_refuted in H; lra. Qed.
Print Assumptions C46_factor.
Print Assumptions C46_wrong_unless_unit_mass_refuted.
