From Verif Require Import Orbit_Model Orbit_Spec.
Open Scope R_scope.

Lemma sc2 t : sin t * sin t + cos t * cos t = 1.
Proof. pose proof (sin2_cos2 t) as H. unfold Rsqr in H. exact H. Qed.
Lemma s2 t : sin t * sin t = 1 - cos t * cos t. Proof. pose proof (sc2 t); lra. Qed.

(** * Rotations *)
Lemma euler_comp v phi theta psi : euler_rotate v phi theta psi = Rz phi (Rx theta (Rz psi v)).
Proof. unfold euler_rotate, Rz, Rx. cbv zeta. apply vec_eq; cbn [Vec.vx Vec.vy Vec.vz]; ring. Qed.

Lemma Rz_dot t a b : dot (Rz t a) (Rz t b) = dot a b.
Proof.
  destruct a as [a1 a2 a3], b as [b1 b2 b3]. unfold Rz, dot; cbn [Vec.vx Vec.vy Vec.vz].
  transitivity ((sin t * sin t + cos t * cos t) * (a1 * b1 + a2 * b2) + a3 * b3); [ring|rewrite sc2; ring].
Qed.
Lemma Rx_dot t a b : dot (Rx t a) (Rx t b) = dot a b.
Proof.
  destruct a as [a1 a2 a3], b as [b1 b2 b3]. unfold Rx, dot; cbn [Vec.vx Vec.vy Vec.vz].
  transitivity (a1 * b1 + (sin t * sin t + cos t * cos t) * (a2 * b2 + a3 * b3)); [ring|rewrite sc2; ring].
Qed.
Lemma Rz_cross t a b : cross (Rz t a) (Rz t b) = Rz t (cross a b).
Proof.
  destruct a as [a1 a2 a3], b as [b1 b2 b3]. unfold Rz, cross; cbn [Vec.vx Vec.vy Vec.vz]. apply vec_eq; cbn [Vec.vx Vec.vy Vec.vz]; try ring.
  transitivity ((sin t * sin t + cos t * cos t) * (a1 * b2 - a2 * b1)); [ring|rewrite sc2; ring].
Qed.
Lemma Rx_cross t a b : cross (Rx t a) (Rx t b) = Rx t (cross a b).
Proof.
  destruct a as [a1 a2 a3], b as [b1 b2 b3]. unfold Rx, cross; cbn [Vec.vx Vec.vy Vec.vz]. apply vec_eq; cbn [Vec.vx Vec.vy Vec.vz]; try ring.
  transitivity ((sin t * sin t + cos t * cos t) * (a2 * b3 - a3 * b2)); [ring|rewrite sc2; ring].
Qed.
Lemma Rz_inv t v : Rz (- t) (Rz t v) = v.
Proof.
  destruct v as [a b c]. unfold Rz; cbn [Vec.vx Vec.vy Vec.vz]. rewrite cos_neg, sin_neg. apply vec_eq; cbn [Vec.vx Vec.vy Vec.vz]; auto.
  - transitivity ((sin t * sin t + cos t * cos t) * a); [ring|rewrite sc2; ring].
  - transitivity ((sin t * sin t + cos t * cos t) * b); [ring|rewrite sc2; ring].
Qed.
Lemma Rx_inv t v : Rx (- t) (Rx t v) = v.
Proof.
  destruct v as [a b c]. unfold Rx; cbn [Vec.vx Vec.vy Vec.vz]. rewrite cos_neg, sin_neg. apply vec_eq; cbn [Vec.vx Vec.vy Vec.vz]; auto.
  - transitivity ((sin t * sin t + cos t * cos t) * b); [ring|rewrite sc2; ring].
  - transitivity ((sin t * sin t + cos t * cos t) * c); [ring|rewrite sc2; ring].
Qed.

Notation rot v o := (euler_rotate v (o_Om o) (o_i o) (o_om o + PI)).
Lemma eu_dot a b p t s : dot (euler_rotate a p t s) (euler_rotate b p t s) = dot a b.
Proof. rewrite !euler_comp, Rz_dot, Rx_dot, Rz_dot. auto. Qed.
Lemma eu_cross a b p t s : cross (euler_rotate a p t s) (euler_rotate b p t s) = euler_rotate (cross a b) p t s.
Proof. rewrite !euler_comp, Rz_cross, Rx_cross, Rz_cross. auto. Qed.
Lemma eu_norm2 a p t s : norm2 (euler_rotate a p t s) = norm2 a.
Proof. apply eu_dot. Qed.
Lemma eu_norm a p t s : norm (euler_rotate a p t s) = norm a.
Proof. unfold norm. rewrite eu_norm2. auto. Qed.
Lemma eu_scal k a p t s : euler_rotate (vscal k a) p t s = vscal k (euler_rotate a p t s).
Proof. destruct a. unfold euler_rotate, vscal. cbv zeta. apply vec_eq; cbn [Vec.vx Vec.vy Vec.vz]; ring. Qed.
Lemma eu_sub a b p t s : euler_rotate (vsub a b) p t s = vsub (euler_rotate a p t s) (euler_rotate b p t s).
Proof. destruct a, b. unfold euler_rotate, vsub. cbv zeta. apply vec_eq; cbn [Vec.vx Vec.vy Vec.vz]; ring. Qed.

Lemma rl_rot u a b p t s :
  calc_runge_lenz_vector u (euler_rotate a p t s) (euler_rotate b p t s) = euler_rotate (calc_runge_lenz_vector u a b) p t s.
Proof. unfold calc_runge_lenz_vector. rewrite eu_norm2, eu_norm, eu_dot, !eu_scal, eu_sub, !eu_scal. auto. Qed.

(** * The orbit in its own plane *)
Definition oU (o : orbit) := (o_m1 o + o_m2 o) * Gc.
Definition oR (o : orbit) := o_p o / (1 + o_e o * cos (o_nu o)).
Definition oV (o : orbit) := sqrt (oU o / o_p o).
Definition pos0 (o : orbit) := vscal (oR o) (mkV (cos (o_nu o)) (sin (o_nu o)) 0).
Definition vel0 (o : orbit) := vscal (oV o) (mkV (- sin (o_nu o)) (o_e o + cos (o_nu o)) 0).
Definition good (o : orbit) : Prop := 0 < o_m1 o + o_m2 o /\ 0 < o_p o /\ 0 <= o_e o /\ 0 < 1 + o_e o * cos (o_nu o).

Lemma o2c_eq o : orbit_to_coord o = (rot (pos0 o) o, rot (vel0 o) o).
Proof. reflexivity. Qed.

Lemma oU_pos o : good o -> 0 < oU o. Proof. unfold good, oU, Gc. intros; lra. Qed.
Lemma oR_pos o : good o -> 0 < oR o. Proof. intros (A & B & C & D). unfold oR. apply Rdiv_lt_0_compat; auto. Qed.
Lemma oV_pos o : good o -> 0 < oV o. Proof. intros G. unfold oV. apply sqrt_lt_R0, Rdiv_lt_0_compat; [apply oU_pos; auto|apply G]. Qed.
Lemma oV_sq o : good o -> oV o * oV o = oU o / o_p o.
Proof. intros G. unfold oV. apply sqrt_sqrt. apply Rlt_le, Rdiv_lt_0_compat; [apply oU_pos; auto|apply G]. Qed.
Lemma oR_mul o : good o -> oR o * (1 + o_e o * cos (o_nu o)) = o_p o.
Proof. intros (A & B & C & D). unfold oR. field. lra. Qed.

Lemma pos0_norm2 o : norm2 (pos0 o) = oR o * oR o.
Proof.
  unfold pos0. vunf. transitivity (oR o * oR o * (sin (o_nu o) * sin (o_nu o) + cos (o_nu o) * cos (o_nu o))); [ring|].
  rewrite sc2; ring.
Qed.
Lemma pos0_norm o : good o -> norm (pos0 o) = oR o.
Proof. intros G. unfold norm. rewrite pos0_norm2. apply sqrt_square, Rlt_le, oR_pos, G. Qed.
Lemma vel0_norm2 o : norm2 (vel0 o) = oV o * oV o * (1 + 2 * o_e o * cos (o_nu o) + o_e o * o_e o).
Proof.
  unfold vel0. vunf. transitivity (oV o * oV o * ((sin (o_nu o) * sin (o_nu o) + cos (o_nu o) * cos (o_nu o)) + 2 * o_e o * cos (o_nu o) + o_e o * o_e o)); [ring|].
  rewrite sc2; ring.
Qed.
Lemma pv0_dot o : dot (pos0 o) (vel0 o) = oR o * oV o * (o_e o * sin (o_nu o)).
Proof. unfold pos0, vel0. vunf. ring. Qed.
Lemma pv0_cross o : good o -> cross (pos0 o) (vel0 o) = mkV 0 0 (o_p o * oV o).
Proof.
  intros G. unfold pos0, vel0. vunf. apply vec_eq; cbn [Vec.vx Vec.vy Vec.vz]; try ring.
  rewrite <- (oR_mul o G).
  transitivity (oR o * oV o * ((sin (o_nu o) * sin (o_nu o) + cos (o_nu o) * cos (o_nu o)) + o_e o * cos (o_nu o))); [ring|].
  rewrite sc2; ring.
Qed.
Lemma rl0 o : good o -> calc_runge_lenz_vector (oU o) (pos0 o) (vel0 o) = mkV (o_e o) 0 0.
Proof.
  intros G. unfold calc_runge_lenz_vector. rewrite vel0_norm2, pos0_norm, pv0_dot, oV_sq by auto.
  pose proof (oU_pos o G) as HU. pose proof G as (A & B & C & D).
  assert (HV := oV_sq o G). 
  unfold pos0, vel0. unfold oR. vunf.
  set (c := cos (o_nu o)) in *. set (s := sin (o_nu o)) in *.
  assert (S : s * s = 1 - c * c) by apply s2.
  set (V := oV o) in *. set (e := o_e o) in *. set (u := oU o) in *. set (p := o_p o) in *.
  apply vec_eq; cbn [Vec.vx Vec.vy Vec.vz].
  - transitivity (/ u * ((u / p * (1 + 2 * e * c + e * e) - u * / (p / (1 + e * c))) * (p / (1 + e * c) * c)
                 + p / (1 + e * c) * e * ((V * V) * (s * s)))); [ring|].
    rewrite HV, S. field. repeat split; lra.
  - transitivity (/ u * ((u / p * (1 + 2 * e * c + e * e) - u * / (p / (1 + e * c))) * (p / (1 + e * c) * s)
                 - p / (1 + e * c) * e * s * ((V * V) * (e + c)))); [ring|].
    rewrite HV. field. repeat split; lra.
  - ring.
Qed.

(** * Consequences for the rotated coordinates *)
Lemma o2c_pos_norm o : good o -> norm (fst (orbit_to_coord o)) = oR o.
Proof. intros G. rewrite o2c_eq. cbn [fst]. rewrite eu_norm. apply pos0_norm, G. Qed.
Lemma o2c_cross o : good o -> cross (fst (orbit_to_coord o)) (snd (orbit_to_coord o)) = vscal (o_p o * oV o) (elements_normal (o_Om o) (o_i o)).
Proof.
  intros G. rewrite o2c_eq. cbn [fst snd]. rewrite eu_cross, pv0_cross by auto.
  unfold euler_rotate, elements_normal, vscal. cbv zeta. apply vec_eq; cbn [Vec.vx Vec.vy Vec.vz]; ring.
Qed.
Lemma pV o : good o -> o_p o * oV o = sqrt (oU o * o_p o).
Proof.
  intros G. pose proof (oV_pos o G). pose proof G as (A & B & C & D).
  symmetry. rewrite <- (sqrt_square (o_p o * oV o)) by nra. f_equal.
  transitivity (o_p o * o_p o * (oV o * oV o)); [rewrite oV_sq by auto; field; lra|ring].
Qed.
Lemma normal_unit Om i : norm2 (elements_normal Om i) = 1.
Proof.
  unfold elements_normal. vunf.
  transitivity ((sin Om * sin Om + cos Om * cos Om) * (sin i * sin i) + cos i * cos i); [ring|]. rewrite sc2, s2; ring.
Qed.
Lemma o2c_rl o : good o -> calc_runge_lenz_vector (oU o) (fst (orbit_to_coord o)) (snd (orbit_to_coord o))
  = vscal (- o_e o) (elements_dir (o_Om o) (o_i o) (o_om o)).
Proof.
  intros G. rewrite o2c_eq. cbn [fst snd]. rewrite rl_rot, rl0 by auto.
  unfold euler_rotate, elements_dir, vscal. cbv zeta. rewrite neg_cos, neg_sin. apply vec_eq; cbn [Vec.vx Vec.vy Vec.vz]; ring.
Qed.
Lemma dir_unit Om i w : norm2 (elements_dir Om i w) = 1.
Proof.
  unfold elements_dir. vunf.
  transitivity ((sin Om * sin Om + cos Om * cos Om) * (cos w * cos w + sin w * sin w * (cos i * cos i)) + sin w * sin w * (sin i * sin i)); [ring|].
  rewrite sc2, (s2 i). pose proof (sc2 w). nra.
Qed.
Lemma o2c_pos_dir o : fst (orbit_to_coord o) = vscal (- oR o) (elements_dir (o_Om o) (o_i o) (o_om o + o_nu o)).
Proof.
  rewrite o2c_eq. cbn [fst]. unfold pos0. rewrite eu_scal.
  unfold euler_rotate, elements_dir, vscal. cbv zeta. rewrite neg_cos, neg_sin, cos_plus, sin_plus. apply vec_eq; cbn [Vec.vx Vec.vy Vec.vz]; ring.
Qed.
Lemma o2c_energy o : good o -> specific_energy (oU o) (fst (orbit_to_coord o)) (snd (orbit_to_coord o)) = oU o * (o_e o * o_e o - 1) / (2 * o_p o).
Proof.
  intros G. unfold specific_energy. rewrite o2c_pos_norm by auto. rewrite o2c_eq. cbn [snd].
  rewrite eu_norm2, vel0_norm2, oV_sq by auto. unfold oR. pose proof G as (A & B & C & D). field. lra.
Qed.
Lemma norm_vscal k v : norm (vscal k v) = Rabs k * norm v.
Proof.
  unfold norm. replace (norm2 (vscal k v)) with (Rsqr k * norm2 v) by (destruct v; unfold Rsqr; vunf; ring).
  rewrite sqrt_mult_alt by apply Rle_0_sqr. rewrite sqrt_Rsqr_abs. auto.
Qed.
Lemma dir_norm Om i w : norm (elements_dir Om i w) = 1.
Proof. unfold norm. rewrite dir_unit. apply sqrt_1. Qed.
Lemma normal_norm Om i : norm (elements_normal Om i) = 1.
Proof. unfold norm. rewrite normal_unit. apply sqrt_1. Qed.
Lemma o2c_ecc o : good o -> norm (calc_runge_lenz_vector (oU o) (fst (orbit_to_coord o)) (snd (orbit_to_coord o))) = o_e o.
Proof.
  intros G. rewrite o2c_rl by auto. rewrite norm_vscal, dir_norm, Rabs_Ropp, Rabs_right; [ring|]. destruct G as (_ & _ & G & _); lra.
Qed.

(** The helper functions agree with the Runge-Lenz vector and the energy for all states. *)
Lemma calc_ecc_eq u dr dv : 0 < u -> calc_eccentricity u dr dv = norm (calc_runge_lenz_vector u dr dv).
Proof.
  intros U. unfold calc_eccentricity, calc_runge_lenz_vector. rewrite norm_vscal, Rabs_right by (apply Rle_ge, Rlt_le, Rinv_0_lt_compat; auto).
  unfold Rdiv. ring.
Qed.
Lemma calc_a_RL_eq u dr dv : calc_a_RL_vector u dr dv = (- u / (2 * specific_energy u dr dv), calc_runge_lenz_vector u dr dv).
Proof.
  unfold calc_a_RL_vector, calc_runge_lenz_vector, specific_energy. cbv zeta. rewrite norm_sq.
  replace (norm2 dv - 2 * u / norm dr) with (2 * (norm2 dv / 2 - u / norm dr)) by (unfold Rdiv; lra). reflexivity.
Qed.
Lemma calc_a_e_eq u dr dv : calc_a_e u dr dv = (- u / (2 * specific_energy u dr dv), norm (calc_runge_lenz_vector u dr dv)).
Proof.
  unfold calc_a_e, calc_runge_lenz_vector, specific_energy. cbv zeta. rewrite norm_sq.
  replace (norm2 dv - 2 * u / norm dr) with (2 * (norm2 dv / 2 - u / norm dr)) by (unfold Rdiv; lra). reflexivity.
Qed.
Lemma calc_sma_eq u dr dv : dr <> vzero -> calc_semi_major_axis u dr dv = - u / (2 * specific_energy u dr dv).
Proof.
  intros N. pose proof (norm_pos dr N) as P. unfold calc_semi_major_axis, specific_energy. cbv zeta.
  destruct (Req_EM_T (norm dr * norm2 dv - 2 * u) 0) as [Z|Z].
  - rewrite Z. replace (2 * (norm2 dv / 2 - u / norm dr)) with 0.
    + unfold Rdiv. rewrite !Rinv_0. ring.
    + apply Rmult_eq_reg_l with (norm dr); [|lra]. field_simplify; lra.
  - field. repeat split; lra.
Qed.
(** The size of the Runge-Lenz vector: e^2 = 1 + 2 (energy) |L|^2 / u^2. *)
Lemma rl_norm2 u dr dv : u <> 0 -> dr <> vzero ->
  norm2 (calc_runge_lenz_vector u dr dv) = 1 + 2 * specific_energy u dr dv * norm2 (cross dr dv) / (u * u).
Proof.
  intros U N. pose proof (norm_pos dr N) as P. unfold calc_runge_lenz_vector, specific_energy.
  assert (Q := norm_sq dr). set (r := norm dr) in *.
  replace (norm2 (vscal (/ u) (vsub (vscal (norm2 dv - u * / r) dr) (vscal (dot dr dv) dv))))
    with (/ u * / u * ((norm2 dv - u * / r) * (norm2 dv - u * / r) * norm2 dr - 2 * (norm2 dv - u * / r) * (dot dr dv * dot dr dv) + dot dr dv * dot dr dv * norm2 dv))
    by (generalize (/u) (norm2 dv - u * / r); intros; destruct dr, dv; vunf; ring).
  replace (norm2 (cross dr dv)) with (norm2 dr * norm2 dv - dot dr dv * dot dr dv) by (destruct dr, dv; vunf; ring).
  rewrite <- Q. generalize (norm2 dv) (dot dr dv). intros. field. repeat split; lra.
Qed.
