From Verif Require Import Orbit_Model Orbit_Spec Orbit_Proofs Orbit_Proofs2.
Open Scope R_scope.

Lemma neg_coords a b : o_m1 a = o_m1 b -> o_m2 a = o_m2 b -> o_p a = o_p b -> o_e a = o_e b -> o_i a = o_i b ->
  same_angle (o_Om a) (o_Om b) -> same_angle (o_nu a) (o_nu b) -> same_angle (o_om a) (o_om b + PI) ->
  fst (orbit_to_coord a) = vneg (fst (orbit_to_coord b)) /\ snd (orbit_to_coord a) = vneg (snd (orbit_to_coord b)).
Proof.
  intros E1 E2 E3 E4 E5 (C1 & S1) (C2 & S2) (C3 & S3). rewrite neg_cos in C3. rewrite neg_sin in S3.
  unfold orbit_to_coord, euler_rotate, vneg. cbv zeta. cbn [fst snd].
  rewrite !neg_cos, !neg_sin. rewrite E1, E2, E3, E4, E5, C1, S1, C2, S2, C3, S3.
  unfold vscal; cbn [Vec.vx Vec.vy Vec.vz]. split; apply vec_eq; cbn [Vec.vx Vec.vy Vec.vz]; ring.
Qed.

Section Cases.
  Variables (eps : R) (o : orbit).
  Hypothesis (He : 0 < eps) (G : good o).

  Lemma again_neg : o_e o <> 0 -> 0 < o_i o < PI ->
    fst (orbit_to_coord (again eps o)) = vneg (fst (orbit_to_coord o)) /\
    snd (orbit_to_coord (again eps o)) = vneg (snd (orbit_to_coord o)).
  Proof.
    intros E I. assert (S : 0 < sin (o_i o)) by (apply sin_gt_0; lra).
    destruct (again_shape eps o He G) as (A1 & A2 & A3 & A4 & A5).
    apply neg_coords; auto.
    - apply again_i; auto; lra.
    - apply again_Om; auto.
    - apply again_nu; auto.
    - apply again_om; auto.
  Qed.

  (** Planar, prograde. *)
  Lemma again_planar : o_e o <> 0 -> o_i o = 0 ->
    same_angle (o_om (again eps o)) (o_Om o + o_om o) /\ o_Om (again eps o) = o_om (again eps o).
  Proof.
    intros E I. pose proof (again_angles eps o G) as A. cbv zeta in A. unfold c2o_angles in A. cbv zeta in A.
    destruct (Req_EM_T (o_e o) 0) as [|_]; [contradiction|].
    pose proof (rt_n o G) as Hn. cbv zeta in Hn. rewrite I, sin_0 in Hn. specialize (Hn ltac:(lra)).
    rewrite Rmult_0_r in Hn. rewrite Hn in A. destruct (Req_EM_T 0 0) as [_|Z]; [|lra].
    pose proof (rt_E o G) as HE. cbv zeta in HE. rewrite HE in A. clear HE Hn.
    remember (sgn (dot _ _) * _) as q. clear Heqq.
    remember (acos _) as q2. clear Heqq2.
    assert (V : o_om (again eps o) = - sgn (vy (vscal (- o_e o) (elements_dir (o_Om o) (o_i o) (o_om o)))) *
      myacos (- vx (vscal (- o_e o) (elements_dir (o_Om o) (o_i o) (o_om o))) / o_e o)) by congruence.
    assert (W : o_Om (again eps o) = - sgn (vy (vscal (- o_e o) (elements_dir (o_Om o) (o_i o) (o_om o)))) *
      myacos (- vx (vscal (- o_e o) (elements_dir (o_Om o) (o_i o) (o_om o))) / o_e o)) by congruence.
    split; [|congruence]. clear A W. rewrite V. rewrite I. unfold elements_dir, vscal; cbn [Vec.vx Vec.vy Vec.vz]. rewrite cos_0.
    match goal with |- context [myacos ?d] => replace d with (cos (o_Om o + o_om o)) by (rewrite cos_plus; field; auto) end.
    match goal with |- context [sgn ?d] => replace d with (- o_e o * sin (o_Om o + o_om o)) by (rewrite sin_plus; ring) end.
    rewrite myacos_cos. set (w := o_Om o + o_om o). pose proof G as (_ & _ & E0 & _). assert (E1 : 0 < o_e o) by lra.
    unfold same_angle.
    assert (C : cos (acos (cos w)) = cos w) by (apply cos_acos, COS_bound).
    pose proof (sin_acos_cos w) as Sn.
    destruct (sgn_cases (- o_e o * sin w)) as [(Y & ->)|(Y & ->)].
    - replace (Ropp 1 * acos (cos w)) with (- acos (cos w)) by ring. rewrite cos_neg, sin_neg, C, Sn. split; auto.
      rewrite Rabs_left1 by nra. ring.
    - replace (- -1 * acos (cos w)) with (acos (cos w)) by ring. rewrite C, Sn. split; auto.
      apply Rabs_right. nra.
  Qed.
  Lemma again_planar_coords : o_e o <> 0 -> o_i o = 0 ->
    fst (orbit_to_coord (again eps o)) = Rz (o_Om o + o_om o) (fst (orbit_to_coord o)) /\
    snd (orbit_to_coord (again eps o)) = Rz (o_Om o + o_om o) (snd (orbit_to_coord o)).
  Proof.
    intros E I. destruct (again_planar E I) as ((C & S) & O).
    destruct (again_shape eps o He G) as (A1 & A2 & A3 & A4 & A5).
    assert (A6 : o_i (again eps o) = 0) by (rewrite again_i; auto; rewrite I; pose proof PI_RGT_0; lra).
    destruct (again_nu eps o G E) as (C2 & S2).
    unfold orbit_to_coord. cbv zeta. rewrite A1, A2, A3, A4, A6, O, I. cbn [fst snd].
    unfold euler_rotate, Rz, vscal. cbv zeta. cbn [Vec.vx Vec.vy Vec.vz]. rewrite !neg_cos, !neg_sin, C, S, C2, S2, cos_0, sin_0.
    rewrite !cos_plus, !sin_plus.
    split; apply vec_eq; cbn [Vec.vx Vec.vy Vec.vz]; ring.
  Qed.

  (** Circular, inclined: the position comes back a quarter turn ahead. *)
  Lemma again_circular_nu : o_e o = 0 -> 0 < sin (o_i o) ->
    o_om (again eps o) = 0 /\ same_angle (o_nu (again eps o)) (o_om o + o_nu o + PI / 2).
  Proof.
    intros E S. pose proof (again_angles eps o G) as A. cbv zeta in A. unfold c2o_angles in A. cbv zeta in A.
    destruct (Req_EM_T (o_e o) 0) as [_|]; [|contradiction].
    pose proof (rt_n o G) as Hn. cbv zeta in Hn. specialize (Hn ltac:(lra)).
    pose proof (rt_h o G) as Hh. cbv zeta in Hh. pose proof (oR_pos o G) as Hr.
    pose proof (rt_L o G) as HL. cbv zeta in HL. pose proof (rt_N o G) as HN. cbv zeta in HN.
    pose proof (rt_r o G) as HR. cbv zeta in HR. pose proof (rt_dr o) as HD. cbv zeta in HD.
    set (dr := fst (orbit_to_coord o)) in *. set (dv := snd (orbit_to_coord o)) in *.
    set (h := o_p o * oV o) in *.
    assert (NZ : norm (cross (mkV 0 0 1) (cross dr dv)) <> 0) by (rewrite Hn; nra).
    destruct (Req_EM_T (norm (cross (mkV 0 0 1) (cross dr dv))) 0) as [|_]; [contradiction|].
    rewrite HN in A. rewrite HL in A.
    remember (acos _) as q2. clear Heqq2. remember (sgn (vy _) * _) as q3. clear Heqq3.
    split; [congruence|].
    set (Nv := vscal (h * sin (o_i o)) (mkV (cos (o_Om o)) (sin (o_Om o)) 0)) in *.
    assert (V : o_nu (again eps o) = - sgn (dot Nv dr) *
      myacos (dot (vscal (/ norm (cross (vscal h (elements_normal (o_Om o) (o_i o))) Nv)) (cross (vscal h (elements_normal (o_Om o) (o_i o))) Nv))
        (vscal (/ norm dr) dr))) by congruence.
    clear A. rewrite V. set (w := o_om o + o_nu o) in *.
    assert (P : cross (vscal h (elements_normal (o_Om o) (o_i o))) Nv = vscal (h * h * sin (o_i o)) (elements_dir (o_Om o) (o_i o) (PI / 2))).
    { unfold Nv, elements_normal, elements_dir. rewrite cos_PI2, sin_PI2. vunf. apply vec_eq; cbn [Vec.vx Vec.vy Vec.vz]; try ring.
      transitivity (h * h * sin (o_i o) * (sin (o_i o) * (sin (o_Om o) * sin (o_Om o) + cos (o_Om o) * cos (o_Om o)))); [ring|rewrite sc2; ring]. }
    rewrite P. rewrite norm_vscal, dir_norm, Rabs_right by (apply Rle_ge; nra).
    assert (D1 : dot (vscal (/ (h * h * sin (o_i o) * 1)) (vscal (h * h * sin (o_i o)) (elements_dir (o_Om o) (o_i o) (PI / 2)))) (vscal (/ norm dr) dr)
       = cos (w + PI / 2)).
    { rewrite HR, HD. transitivity ((/ (h * h * sin (o_i o) * 1) * (h * h * sin (o_i o))) * (/ oR o * - oR o) *
        dot (elements_dir (o_Om o) (o_i o) (PI / 2)) (elements_dir (o_Om o) (o_i o) w)).
      - unfold w. vunf. ring.
      - rewrite (dirs_dot o). replace (cos (PI / 2 - w)) with (- cos (w + PI / 2)).
        + field. split; [lra|]. split; lra.
        + rewrite cos_plus, cos_minus, cos_PI2, sin_PI2. ring. }
    rewrite D1, myacos_cos.
    assert (D2 : dot Nv dr = - (h * sin (o_i o) * oR o) * cos w).
    { rewrite HD. unfold Nv, elements_dir. fold w. vunf.
      transitivity (- (h * sin (o_i o) * oR o) * (cos w * (sin (o_Om o) * sin (o_Om o) + cos (o_Om o) * cos (o_Om o)))); [ring|rewrite sc2; ring]. }
    rewrite D2. assert (Q : 0 < h * sin (o_i o) * oR o) by (apply Rmult_lt_0_compat; [apply Rmult_lt_0_compat; lra|lra]).
    assert (Sw : sin (w + PI / 2) = cos w) by (rewrite sin_plus, cos_PI2, sin_PI2; ring).
    set (y := w + PI / 2) in *.
    assert (C : cos (acos (cos y)) = cos y) by (apply cos_acos, COS_bound).
    pose proof (sin_acos_cos y) as Sn. unfold same_angle.
    destruct (sgn_cases (- (h * sin (o_i o) * oR o) * cos w)) as [(Y & ->)|(Y & ->)].
    - replace (Ropp 1 * acos (cos y)) with (- acos (cos y)) by ring. rewrite cos_neg, sin_neg, C, Sn, Sw. split; auto.
      rewrite Rabs_left1 by nra. ring.
    - replace (- -1 * acos (cos y)) with (acos (cos y)) by ring. rewrite C, Sn, Sw. split; auto.
      apply Rabs_right. nra.
  Qed.
  Lemma again_circular_coords : o_e o = 0 -> 0 < o_i o < PI ->
    dot (fst (orbit_to_coord (again eps o))) (fst (orbit_to_coord o)) = 0.
  Proof.
    intros E I. assert (S : 0 < sin (o_i o)) by (apply sin_gt_0; lra).
    destruct (again_circular_nu E S) as (Ow & (C & Sn)). destruct (again_Om eps o G S) as (C1 & S1).
    rewrite !o2c_pos_dir. rewrite (again_i eps o G) by lra.
    assert (D : elements_dir (o_Om (again eps o)) (o_i o) (o_om (again eps o) + o_nu (again eps o)) =
      elements_dir (o_Om o) (o_i o) (o_om o + o_nu o + PI / 2)).
    { unfold elements_dir. rewrite C1, S1, Ow, Rplus_0_l, C, Sn. reflexivity. }
    rewrite D.
    transitivity (oR (again eps o) * oR o * dot (elements_dir (o_Om o) (o_i o) (o_om o + o_nu o + PI / 2)) (elements_dir (o_Om o) (o_i o) (o_om o + o_nu o))).
    { vunf; ring. }
    rewrite (dirs_dot o). replace (o_om o + o_nu o + PI / 2 - (o_om o + o_nu o)) with (PI / 2) by ring. rewrite cos_PI2. ring.
  Qed.

  (** Circular, planar. *)
  Lemma again_circular_planar : o_e o = 0 -> o_i o = 0 ->
    o_Om (again eps o) = 0 /\ o_om (again eps o) = 0 /\ same_angle (o_nu (again eps o)) (o_Om o + (o_om o + o_nu o) + PI).
  Proof.
    intros E I. pose proof (again_angles eps o G) as A. cbv zeta in A. unfold c2o_angles in A. cbv zeta in A.
    destruct (Req_EM_T (o_e o) 0) as [_|]; [|contradiction].
    pose proof (rt_n o G) as Hn. cbv zeta in Hn. rewrite I, sin_0 in Hn. specialize (Hn ltac:(lra)).
    rewrite Rmult_0_r in Hn. rewrite Hn in A. destruct (Req_EM_T 0 0) as [_|Z]; [|lra].
    pose proof (oR_pos o G) as Hr.
    pose proof (rt_r o G) as HR. cbv zeta in HR. pose proof (rt_dr o) as HD. cbv zeta in HD.
    set (dr := fst (orbit_to_coord o)) in *.
    remember (acos (vz _ / _)) as q2. clear Heqq2.
    split; [congruence|]. split; [congruence|].
    assert (V : o_nu (again eps o) = sgn (vy dr) * acos (dot (mkV 1 0 0) (vscal (/ norm dr) dr))) by congruence.
    clear A Hn. rewrite V. rewrite HR, HD, I. set (w := o_om o + o_nu o).
    unfold elements_dir. rewrite cos_0, sin_0. vunf.
    match goal with |- context [acos ?d] => replace d with (cos (o_Om o + w + PI)) by (rewrite neg_cos, cos_plus; field; lra) end.
    match goal with |- context [sgn ?d] => replace d with (oR o * sin (o_Om o + w + PI)) by (rewrite neg_sin, sin_plus; ring) end.
    apply signed_acos; intros; nra.
  Qed.
  Lemma again_circular_planar_coords : o_e o = 0 -> o_i o = 0 ->
    fst (orbit_to_coord (again eps o)) = vneg (fst (orbit_to_coord o)).
  Proof.
    intros E I. destruct (again_circular_planar E I) as (O1 & O2 & (C & S)).
    destruct (again_shape eps o He G) as (A1 & A2 & A3 & A4 & A5).
    rewrite !o2c_pos_dir. rewrite (again_i eps o G), I by (rewrite I; pose proof PI_RGT_0; lra).
    unfold oR. rewrite A3, A4, E, O1, O2. unfold elements_dir. rewrite !Rplus_0_l, cos_0, sin_0, C, S, neg_cos, neg_sin.
    generalize (o_om o + o_nu o). intros w. rewrite cos_plus, sin_plus.
    rewrite !(Rmult_0_l (cos _)). vunf. apply vec_eq; cbn [Vec.vx Vec.vy Vec.vz]; field.
  Qed.
End Cases.
