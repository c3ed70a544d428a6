From Verif Require Import Orbit_Model Orbit_Spec Orbit_Proofs.
From Verif Require Import Ctrl_Model.
Open Scope R_scope.

(** * Angles recovered through sgn and acos *)
Lemma clamp_id x : -1 <= x <= 1 -> clamp (-1) x 1 = x.
Proof. intros H. unfold clamp. destruct (Rlt_dec x (-1)); [lra|]. destruct (Rlt_dec 1 x); lra. Qed.
Lemma myacos_id x : -1 <= x <= 1 -> myacos x = acos x.
Proof. intros H. unfold myacos. rewrite clamp_id; auto. Qed.
Lemma myacos_cos x : myacos (cos x) = acos (cos x).
Proof. apply myacos_id. apply COS_bound. Qed.
Lemma sgn_cases x : (0 < x /\ sgn x = 1) \/ (x <= 0 /\ sgn x = -1).
Proof. unfold sgn. destruct (Rlt_dec 0 x); [left|right]; split; lra. Qed.

Lemma sin_acos_cos x : sin (acos (cos x)) = Rabs (sin x).
Proof.
  rewrite sin_acos by apply COS_bound. rewrite <- sqrt_Rsqr_abs. f_equal. unfold Rsqr. pose proof (sc2 x). lra.
Qed.
(** The angle with cosine [cos x] and the sign of its sine taken from y. *)
Lemma signed_acos y x : (0 < y -> 0 <= sin x) -> (y <= 0 -> sin x <= 0) -> same_angle (sgn y * acos (cos x)) x.
Proof.
  intros P N. unfold same_angle.
  assert (C : cos (acos (cos x)) = cos x) by (apply cos_acos, COS_bound).
  pose proof (sin_acos_cos x) as S.
  destruct (sgn_cases y) as [(Y & ->)|(Y & ->)].
  - replace (1 * acos (cos x)) with (acos (cos x)) by ring. rewrite C, S. split; auto. apply Rabs_right. apply Rle_ge; auto.
  - replace (-1 * acos (cos x)) with (- acos (cos x)) by ring. rewrite cos_neg, sin_neg, C, S. split; auto.
    rewrite Rabs_left1 by auto. ring.
Qed.
Lemma same_angle_cos_sin a b : same_angle a b -> forall t, cos (t + a) = cos (t + b) /\ sin (t + a) = sin (t + b).
Proof. intros (C & S) t. rewrite !cos_plus, !sin_plus, C, S. auto. Qed.

(** * Classification *)
Lemma by_ecc_ell {A} eps e (a b c d : A) : 0 <= e < 1 -> by_ecc eps e a b c d = a.
Proof. intros H. unfold by_ecc. destruct (Rle_dec 0 e); [|lra]. destruct (Rlt_dec e 1); [auto|lra]. Qed.
Lemma by_ecc_hyp {A} eps e (a b c d : A) : 1 < e -> by_ecc eps e a b c d = b.
Proof. intros H. unfold by_ecc. destruct (Rle_dec 0 e); [|lra]. destruct (Rlt_dec e 1); [lra|]. destruct (Rlt_dec 1 e); [auto|lra]. Qed.
Lemma by_ecc_par {A} eps (a b c d : A) : 0 < eps -> by_ecc eps 1 a b c d = c.
Proof.
  intros H. unfold by_ecc, iseq. destruct (Rle_dec 0 1); [|lra]. destruct (Rlt_dec 1 1); [lra|].
  replace (1 - 1) with 0 by ring. rewrite Rabs_R0. destruct (Rlt_dec 0 eps); [auto|lra].
Qed.
Lemma by_ecc_bad {A} eps e (a b c d : A) : eps <= 1 -> e < 0 -> by_ecc eps e a b c d = d.
Proof.
  intros H N. unfold by_ecc, iseq. destruct (Rle_dec 0 e); [lra|]. destruct (Rlt_dec 1 e); [lra|].
  rewrite Rabs_left by lra. destruct (Rlt_dec (- (e - 1)) eps); [lra|auto].
Qed.
Lemma classify_cases eps e : 0 < eps -> 0 <= e ->
  (e < 1 /\ classify_orbit eps e = Ellipse) \/ (e = 1 /\ classify_orbit eps e = Parabola) \/ (1 < e /\ classify_orbit eps e = Hyperbola).
Proof.
  intros H N. unfold classify_orbit. destruct (Rtotal_order e 1) as [L|[->|G]].
  - left. split; auto. apply by_ecc_ell; lra.
  - right; left. split; auto. apply by_ecc_par; auto.
  - right; right. split; auto. apply by_ecc_hyp; auto.
Qed.

(** * The semi-latus rectum of a state *)
Lemma energy_den u dr dv : dr <> vzero -> norm dr * norm2 dv - 2 * u = 2 * norm dr * specific_energy u dr dv.
Proof. intros N. pose proof (norm_pos dr N). unfold specific_energy. field. lra. Qed.

Lemma c2o_p eps m1 m2 dr dv : 0 < eps -> 0 < m1 + m2 -> dr <> vzero -> cross dr dv <> vzero ->
  o_p (coord_to_orbit eps m1 m2 dr dv) = norm2 (cross dr dv) / ((m1 + m2) * Gc).
Proof.
  intros He Hm N L. unfold coord_to_orbit. cbv zeta. destruct (c2o_angles _ _ _ _ _ _) as [[[? ?] ?] ?]. cbn [o_p].
  set (u := (m1 + m2) * Gc) in *. assert (U : 0 < u) by (unfold u, Gc; lra).
  set (E := calc_runge_lenz_vector u dr dv). rewrite norm_sq.
  pose proof (norm_nonneg E) as E0. pose proof (norm_sq E) as E2. unfold E in E2 at 3. rewrite rl_norm2 in E2 by (auto; lra).
  pose proof (norm_pos dr N) as R. pose proof (norm2_pos _ L) as Lp.
  assert (Q : norm E <> 1 -> semi_latus_rectum (- u * norm dr / (norm dr * norm2 dv - 2 * u)) (norm E) = norm2 (cross dr dv) / u).
  { intros X. unfold semi_latus_rectum. rewrite energy_den by auto. rewrite E2.
    assert (S : specific_energy u dr dv <> 0).
    { intros Z. rewrite Z in E2. replace (1 + 2 * 0 * norm2 (cross dr dv) / (u * u)) with 1 in E2 by (field; lra).
      apply X. nra. }
    field. repeat split; try lra. }
  destruct (classify_cases eps (norm E) He E0) as [(A & ->)|[(A & ->)|(A & ->)]]; auto; apply Q; lra.
Qed.

Lemma c2o_ref_p_value eps m1 m2 dr dv : 0 < eps -> 0 < m1 + m2 -> dr <> vzero -> cross dr dv <> vzero ->
  let u := (m1 + m2) * Gc in
  (specific_energy u dr dv <> 0 -> c2o_ref_p eps m1 m2 dr dv = Fin (norm2 (cross dr dv) / u)) /\
  (specific_energy u dr dv = 0 -> c2o_ref_p eps m1 m2 dr dv = NaN).
Proof.
  intros He Hm N L u. unfold c2o_ref_p. cbv zeta. fold u. assert (U : 0 < u) by (unfold u, Gc; lra).
  set (E := calc_runge_lenz_vector u dr dv). rewrite !norm_sq.
  pose proof (norm_nonneg E) as E0. pose proof (norm_sq E) as E2. unfold E in E2 at 3. rewrite rl_norm2 in E2 by (auto; lra).
  pose proof (norm_pos dr N) as R. pose proof (norm2_pos _ L) as Lp.
  assert (D : ediv (Fin (norm2 (cross dr dv))) (Fin u) = Fin (norm2 (cross dr dv) / u)).
  { unfold ediv. destruct (Req_EM_T u 0); [lra|auto]. }
  assert (W : norm2 E = 1 + 2 * specific_energy u dr dv * norm2 (cross dr dv) / (u * u)) by (rewrite <- norm_sq; auto).
  split; intros S.
  - assert (X : norm E <> 1).
    { intros X. rewrite X in E2. apply S.
      assert (Y : 2 * specific_energy u dr dv * norm2 (cross dr dv) / (u * u) = 0) by lra.
      apply Rmult_eq_reg_r with (2 * norm2 (cross dr dv) / (u * u)).
      - rewrite Rmult_0_l. rewrite <- Y. field. lra.
      - apply Rgt_not_eq. apply Rdiv_lt_0_compat; nra. }
    destruct (classify_cases eps (norm E) He E0) as [(A & ->)|[(A & ->)|(A & ->)]]; auto. lra.
  - assert (X : norm2 E = 1) by (rewrite W, S; field; lra).
    assert (Y : norm E = 1) by (unfold norm; rewrite X; apply sqrt_1).
    rewrite Y. unfold classify_orbit. rewrite by_ecc_par by auto. rewrite X.
    rewrite energy_den, S by auto. replace (2 * norm dr * 0) with 0 by ring. replace (1 - 1) with 0 by ring.
    unfold ediv. destruct (Req_EM_T 0 0); [|lra]. unfold esgn. 
    destruct (Rlt_dec 0 (- u * norm dr)); [nra|]. destruct (Rlt_dec (- u * norm dr) 0); [|nra].
    simpl. unfold esgn. destruct (Rlt_dec 0 0); [lra|auto].
Qed.

Lemma norm_vzero : norm vzero = 0.
Proof. unfold norm. replace (norm2 vzero) with 0 by vring. apply sqrt_0. Qed.

(** * Round trip *)
Definition again (eps : R) (o : orbit) : orbit :=
  let '(dr, dv) := orbit_to_coord o in coord_to_orbit eps (o_m1 o) (o_m2 o) dr dv.

Section RoundTrip.
  Variables (eps : R) (o : orbit).
  Hypothesis (He : 0 < eps) (G : good o).
  Let dr := fst (orbit_to_coord o).
  Let dv := snd (orbit_to_coord o).
  Let h := o_p o * oV o.
  Let U := (o_m1 o + o_m2 o) * Gc.
  Let Lv := cross dr dv.
  Let Nv := cross (mkV 0 0 1) Lv.
  Let Ev := calc_runge_lenz_vector U dr dv.

  Lemma rt_h : 0 < h. Proof. unfold h. apply Rmult_lt_0_compat; [apply G|apply oV_pos, G]. Qed.
  Lemma rt_L : Lv = vscal h (elements_normal (o_Om o) (o_i o)).
  Proof. apply o2c_cross, G. Qed.
  Lemma rt_l : norm Lv = h.
  Proof. rewrite rt_L, norm_vscal, normal_norm, Rabs_right; [ring|]. apply Rle_ge, Rlt_le, rt_h. Qed.
  Lemma rt_N : Nv = vscal (h * sin (o_i o)) (mkV (cos (o_Om o)) (sin (o_Om o)) 0).
  Proof. unfold Nv. rewrite rt_L. unfold elements_normal. vunf. apply vec_eq; cbn [Vec.vx Vec.vy Vec.vz]; ring. Qed.
  Lemma rt_n : 0 <= sin (o_i o) -> norm Nv = h * sin (o_i o).
  Proof.
    intros S. rewrite rt_N, norm_vscal. unfold norm. replace (norm2 (mkV (cos (o_Om o)) (sin (o_Om o)) 0)) with 1.
    - rewrite sqrt_1, Rabs_right; [ring|]. pose proof rt_h. nra.
    - vunf. pose proof (sc2 (o_Om o)). lra.
  Qed.
  Lemma rt_E : Ev = vscal (- o_e o) (elements_dir (o_Om o) (o_i o) (o_om o)).
  Proof. apply o2c_rl, G. Qed.
  Lemma rt_e : norm Ev = o_e o.
  Proof. apply o2c_ecc, G. Qed.
  Lemma rt_r : norm dr = oR o. Proof. apply o2c_pos_norm, G. Qed.
  Lemma rt_dr : dr = vscal (- oR o) (elements_dir (o_Om o) (o_i o) (o_om o + o_nu o)). Proof. apply o2c_pos_dir. Qed.
  Lemma rt_rv : dot dr dv = oR o * oV o * (o_e o * sin (o_nu o)).
  Proof. unfold dr, dv. rewrite o2c_eq. cbn [fst snd]. rewrite eu_dot. apply pv0_dot. Qed.
  Lemma rt_ne : dr <> vzero.
  Proof. intros Z. pose proof rt_r as R. rewrite Z in R. rewrite norm_vzero in R. pose proof (oR_pos o G). lra. Qed.
  Lemma rt_Lne : Lv <> vzero.
  Proof. intros Z. pose proof rt_l as R. rewrite Z in R. rewrite norm_vzero in R. pose proof rt_h. lra. Qed.

  Lemma again_eq : again eps o = coord_to_orbit eps (o_m1 o) (o_m2 o) dr dv.
  Proof. unfold again, dr, dv. destruct (orbit_to_coord o); auto. Qed.

  Lemma again_shape : o_m1 (again eps o) = o_m1 o /\ o_m2 (again eps o) = o_m2 o /\ o_p (again eps o) = o_p o /\
    o_e (again eps o) = o_e o /\ o_type (again eps o) = classify_orbit eps (o_e o).
  Proof.
    rewrite again_eq. split; [|split; [|split]].
    - unfold coord_to_orbit. cbv zeta. destruct (c2o_angles _ _ _ _ _ _) as [[[? ?] ?] ?]; auto.
    - unfold coord_to_orbit. cbv zeta. destruct (c2o_angles _ _ _ _ _ _) as [[[? ?] ?] ?]; auto.
    - rewrite c2o_p; [|auto|apply G|apply rt_ne|apply rt_Lne].
      fold Lv. rewrite <- norm_sq, rt_l. unfold h. fold U.
      transitivity (o_p o * o_p o * (oV o * oV o) / U); [unfold Rdiv; ring|]. rewrite oV_sq by apply G.
      change (oU o) with U. field. destruct G as (A & B & _). unfold U, Gc. split; lra.
    - unfold coord_to_orbit. cbv zeta. destruct (c2o_angles _ _ _ _ _ _) as [[[? ?] ?] ?]; cbn [o_e o_type].
      fold U Ev. rewrite rt_e. auto.
  Qed.

  Lemma again_angles : (o_i (again eps o), o_Om (again eps o), o_om (again eps o), o_nu (again eps o))
    = c2o_angles dr dv Lv Nv Ev (o_e o).
  Proof.
    rewrite again_eq. unfold coord_to_orbit. cbv zeta. fold U Ev Lv Nv. rewrite rt_e.
    destruct (c2o_angles _ _ _ _ _ _) as [[[? ?] ?] ?]; auto.
  Qed.

  Lemma again_i : 0 <= o_i o <= PI -> o_i (again eps o) = o_i o.
  Proof.
    intros I. transitivity (acos (vz Lv / norm Lv)).
    - pose proof again_angles as A. unfold c2o_angles in A. cbv zeta in A.
      destruct (Req_EM_T (o_e o) 0), (Req_EM_T (norm Nv) 0); inversion A; auto.
    - rewrite rt_l, rt_L. unfold elements_normal, vscal; cbn [vz].
      replace (h * cos (o_i o) / h) with (cos (o_i o)) by (field; pose proof rt_h; lra). apply acos_cos, I.
  Qed.

  Lemma dirs_dot a b : dot (elements_dir (o_Om o) (o_i o) a) (elements_dir (o_Om o) (o_i o) b) = cos (a - b).
  Proof.
    rewrite cos_minus. unfold elements_dir. vunf.
    transitivity ((sin (o_Om o) * sin (o_Om o) + cos (o_Om o) * cos (o_Om o)) * (cos a * cos b + sin a * sin b * (cos (o_i o) * cos (o_i o)))
       + sin a * sin b * (sin (o_i o) * sin (o_i o))); [ring|]. rewrite sc2, (s2 (o_i o)). ring.
  Qed.

  Lemma again_nu_val : o_e o <> 0 -> o_nu (again eps o) = sgn (dot dr dv) * acos (cos (o_nu o)).
  Proof.
    intros E. pose proof again_angles as A. unfold c2o_angles in A. cbv zeta in A.
    destruct (Req_EM_T (o_e o) 0); [contradiction|].
    assert (D : dot (vscal (/ o_e o) Ev) (vscal (/ norm dr) dr) = cos (o_nu o)).
    { rewrite rt_E, rt_r, rt_dr. pose proof (oR_pos o G).
      transitivity ((/ o_e o * - o_e o) * (/ oR o * - oR o) * dot (elements_dir (o_Om o) (o_i o) (o_om o)) (elements_dir (o_Om o) (o_i o) (o_om o + o_nu o))).
      - vunf. ring.
      - rewrite dirs_dot. replace (o_om o - (o_om o + o_nu o)) with (- o_nu o) by ring. rewrite cos_neg. field. split; lra. }
    rewrite D, myacos_cos in A. destruct (Req_EM_T (norm Nv) 0); inversion A; auto.
  Qed.
  Lemma again_nu : o_e o <> 0 -> same_angle (o_nu (again eps o)) (o_nu o).
  Proof.
    intros E. rewrite again_nu_val by auto. apply signed_acos; rewrite rt_rv; intros H;
      pose proof (oR_pos o G); pose proof (oV_pos o G); pose proof G as (_ & _ & E0 & _).
    - apply Rnot_lt_le. intros N. assert (0 < oR o * oV o) by nra. assert (o_e o * sin (o_nu o) <= 0) by nra. nra.
    - apply Rnot_lt_le. intros N. assert (0 < oR o * oV o) by nra. assert (0 < o_e o * sin (o_nu o)) by nra. nra.
  Qed.

  (** Inclined orbits. *)
  Lemma again_Om : 0 < sin (o_i o) -> same_angle (o_Om (again eps o)) (o_Om o).
  Proof.
    intros S. pose proof again_angles as A. unfold c2o_angles in A. cbv zeta in A.
    assert (n0 : norm Nv <> 0) by (rewrite rt_n by lra; pose proof rt_h; nra).
    destruct (Req_EM_T (norm Nv) 0); [contradiction|].
    assert (V : o_Om (again eps o) = sgn (vy Nv) * myacos (vx Nv / norm Nv)).
    { destruct (Req_EM_T (o_e o) 0); inversion A; auto. }
    rewrite V, rt_n, rt_N by lra. unfold vscal; cbn [vx vy].
    replace (h * sin (o_i o) * cos (o_Om o) / (h * sin (o_i o))) with (cos (o_Om o)) by (field; pose proof rt_h; split; lra).
    rewrite myacos_cos. pose proof rt_h. assert (0 < h * sin (o_i o)) by nra.
    apply signed_acos; intros; nra.
  Qed.
  Lemma again_om : o_e o <> 0 -> 0 < sin (o_i o) -> same_angle (o_om (again eps o)) (o_om o + PI).
  Proof.
    intros E S. pose proof again_angles as A. unfold c2o_angles in A. cbv zeta in A.
    assert (n0 : norm Nv <> 0) by (rewrite rt_n by lra; pose proof rt_h; nra).
    destruct (Req_EM_T (norm Nv) 0); [contradiction|]. destruct (Req_EM_T (o_e o) 0); [contradiction|].
    assert (V : o_om (again eps o) = sgn (vz Ev) * myacos (dot (vscal (/ o_e o) Ev) (vscal (/ norm Nv) Nv))) by congruence.
    clear A. rewrite V. rewrite rt_n, rt_N, rt_E by lra.
    match goal with |- context [myacos ?d] => replace d with (cos (o_om o + PI)) end.
    - rewrite myacos_cos. pose proof G as (_ & _ & E0 & _).
      assert (E1 : 0 < o_e o) by lra. assert (0 < o_e o * sin (o_i o)) by nra.
      apply signed_acos; rewrite neg_sin; unfold elements_dir, vscal; cbn [vz]; intros H1.
      + apply Rnot_lt_le; intros X.
        assert (0 < (o_e o * sin (o_i o)) * sin (o_om o)) by (apply Rmult_lt_0_compat; lra). simpl in H1. lra.
      + apply Rnot_lt_le; intros X.
        assert (0 < (o_e o * sin (o_i o)) * - sin (o_om o)) by (apply Rmult_lt_0_compat; lra). simpl in H1. lra.
    - rewrite neg_cos. unfold elements_dir. vunf. pose proof rt_h.
      transitivity (- ((sin (o_Om o) * sin (o_Om o) + cos (o_Om o) * cos (o_Om o)) * cos (o_om o))); [rewrite sc2; ring|].
      field. repeat split; lra.
  Qed.

  (** Coordinates depend on the angles through their sines and cosines only. *)
  Lemma o2c_same a b : o_m1 a = o_m1 b -> o_m2 a = o_m2 b -> o_p a = o_p b -> o_e a = o_e b -> o_i a = o_i b ->
    same_angle (o_Om a) (o_Om b) -> same_angle (o_nu a) (o_nu b) -> same_angle (o_om a) (o_om b) ->
    orbit_to_coord a = orbit_to_coord b.
  Proof.
    intros E1 E2 E3 E4 E5 (C1 & S1) (C2 & S2) (C3 & S3). unfold orbit_to_coord, euler_rotate. cbv zeta.
    rewrite !neg_cos, !neg_sin. rewrite E1, E2, E3, E4, E5, C1, S1, C2, S2, C3, S3. reflexivity.
  Qed.
End RoundTrip.
