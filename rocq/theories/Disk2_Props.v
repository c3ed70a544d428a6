(** Properties C24, C55 and C68: the gas a star meets (its velocity, its density, the units), stated by the equations of a thin Keplerian disk. *)
From Verif Require Import Base Vec Force_Model Force_Proofs Force_Props Disk_Model Disk_Spec Disk_Proofs Disk_Proofs2 Disk_Props Alpha_Proofs.
From Coq Require Import Psatz.
Open Scope R_scope.

(** w is the velocity of a circular counter-clockwise orbit in the plane z = const about a mass M (G = 1) at the place d from it. *)
Definition circular (M : R) (d w : vec) : Prop :=
  vz w = 0 /\ vx d * vx w + vy d * vy w = 0 /\ 0 < vx d * vy w - vy d * vx w /\ norm2 w * sqrt (vx d * vx d + vy d * vy d) = M.
(** There is exactly one such velocity, and it is the one the disks use: a star moving with it feels no wind. *)
Theorem C68_gas_velocity : forall s i w, let d := vsub (sp s i) (sp s 0%nat) in 0 < sm s 0%nat -> 0 < vx d * vx d + vy d * vy d ->
  circular (sm s 0%nat) d w ->
  alpha_v_rel s i = vsub (vsub (sv s i) (sv s 0%nat)) w /\ capture_v_rel s i = vsub (vsub (sv s i) (sv s 0%nat)) w.
Proof.
  intros s i w d HM HR (Wz & Wp & Ws & Wn).
  assert (E : disk_v d (sm s 0%nat) = w); [|unfold alpha_v_rel, capture_v_rel; fold d; rewrite E; auto].
  clearbody d. set (M := sm s 0%nat) in *. clearbody M. unfold disk_v. set (r2 := vx d * vx d + vy d * vy d) in *. set (r := sqrt r2) in *.
  assert (Hr : 0 < r) by (apply sqrt_lt_R0; auto). assert (Hrr : r * r = r2) by (apply sqrt_sqrt; lra).
  set (a := (vx d * vy w - vy d * vx w) / r2). assert (Ha : 0 < a) by (apply Rdiv_lt_0_compat; auto).
  assert (X : vx w = - a * vy d).
  { apply Rmult_eq_reg_r with r2; [|lra]. unfold a. replace (- ((vx d * vy w - vy d * vx w) / r2) * vy d * r2) with (- (vx d * vy w - vy d * vx w) * vy d) by (field; lra). unfold r2.
    replace (vx w * (vx d * vx d + vy d * vy d)) with (vx d * (vx d * vx w) + vy d * vy d * vx w) by ring. replace (vx d * vx w) with (- (vy d * vy w)) by lra. ring. }
  assert (Y : vy w = a * vx d).
  { apply Rmult_eq_reg_r with r2; [|lra]. unfold a. replace ((vx d * vy w - vy d * vx w) / r2 * vx d * r2) with ((vx d * vy w - vy d * vx w) * vx d) by (field; lra). unfold r2.
    replace (vy w * (vx d * vx d + vy d * vy d)) with (vy d * (vy d * vy w) + vx d * vx d * vy w) by ring. replace (vy d * vy w) with (- (vx d * vx w)) by lra. ring. }
  assert (N : norm2 w = a * r * (a * r)). { unfold norm2, dot. rewrite X, Y, Wz. transitivity (a * a * r2); [unfold r2; ring|rewrite <- Hrr; ring]. }
  assert (V : sqrt (M / r) = a * r). { rewrite <- Wn, N. replace (a * r * (a * r) * r / r) with (a * r * (a * r)) by (field; lra). apply sqrt_square. nra. }
  rewrite V. apply vec_eq; cbn [vx vy vz]; [rewrite X|rewrite Y|rewrite Wz; reflexivity]; field; lra.
Qed.
(** Moving or boosting the whole system changes neither the wind nor the force of either disk. *)
Theorem C68_moved_system : forall c s rad i d w,
  alpha_v_rel (shifted d w s) i = alpha_v_rel s i /\ alpha_f c (shifted d w s) rad i = alpha_f c s rad i /\
  capture_v_rel (shifted d w s) i = capture_v_rel s i /\ capture_f (shifted d w s) rad i = capture_f s rad i.
Proof.
  intros c s rad i d w. assert (V : forall a b e : vec, vsub (vadd a e) (vadd b e) = vsub a b) by (intros; apply vec_eq; cbn; ring).
  assert (A : alpha_v_rel (shifted d w s) i = alpha_v_rel s i) by (unfold alpha_v_rel, shifted; cbn [sp sv sm]; rewrite !V; reflexivity).
  assert (B : capture_v_rel (shifted d w s) i = capture_v_rel s i) by (unfold capture_v_rel, shifted; cbn [sp sv sm]; rewrite !V; reflexivity).
  split; [exact A|]. split; [unfold alpha_f; rewrite A; unfold shifted; cbn [sp sm]; rewrite !V; reflexivity|].
  split; [exact B|]. unfold capture_f. rewrite B. unfold shifted; cbn [sp sm]; rewrite !V. reflexivity.
Qed.
Lemma third_power x : 0 < x -> Rpower x (1 / 3) * Rpower x (1 / 3) * Rpower x (1 / 3) = x.
Proof. intros H. rewrite <- !Rpower_plus. replace (1 / 3 + 1 / 3 + 1 / 3) with 1 by lra. apply Rpower_1. auto. Qed.
(** The scale height balances the accretion rate: H^3 * 2 alpha M Omega = Q * Mdot * R^3. *)
Theorem C68_scale_height : forall c r M Omega Mdot, 0 < polar_radius r -> 0 < M -> 0 < a_Q c -> 0 < a_alpha c -> 0 < a_lambda c ->
  0 < Omega -> Omega * Omega * (polar_radius r * polar_radius r * polar_radius r) = M -> Mdot * (2 * PI) * 10000000 = a_lambda c * 0.22 * M ->
  let H := alpha_H c r M in
  0 < H /\ H * H * H * (2 * a_alpha c * M * Omega) = a_Q c * Mdot * (polar_radius r * polar_radius r * polar_radius r).
Proof.
  intros c r M Om Md HR HM HQ Ha Hl HO O2 HMd H. pose proof PI_RGT_0 as Hpi.
  assert (EO : alpha_Omega r M = Om). { unfold alpha_Omega. cbv zeta. rewrite <- O2. replace (Om * Om * (polar_radius r * polar_radius r * polar_radius r) / (polar_radius r * polar_radius r * polar_radius r)) with (Om * Om) by (field; lra). apply sqrt_square. lra. }
  assert (EM : a_lambda c * 0.22 * (M / 1e7) / (2 * PI) = Md). { replace 1e7 with 10000000 by lra. apply Rmult_eq_reg_r with (2 * PI * 10000000); [|nra]. replace (Md * (2 * PI * 10000000)) with (Md * (2 * PI) * 10000000) by ring. rewrite HMd. field. lra. }
  assert (PMd : 0 < Md). { assert (0 < a_lambda c * 0.22 * M) by (apply Rmult_lt_0_compat; [lra|auto]). rewrite <- HMd in H0. destruct (Rle_dec Md 0); [|lra]. exfalso. assert (Md * (2 * PI) <= 0) by nra. lra. }
  set (q := a_Q c / 2 / a_alpha c * Md / M / Om). assert (PQ : 0 < q) by (unfold q; repeat apply Rdiv_lt_0_compat; auto; try apply Rmult_lt_0_compat; auto; repeat apply Rdiv_lt_0_compat; auto; lra).
  assert (EH : H = Rpower q (1 / 3) * polar_radius r). { unfold H, alpha_H. rewrite EO, EM. fold q. unfold cbrt. destruct (Rlt_dec 0 q); [reflexivity|lra]. }
  rewrite EH. split; [apply Rmult_lt_0_compat; [apply exp_pos|auto]|].
  transitivity (Rpower q (1 / 3) * Rpower q (1 / 3) * Rpower q (1 / 3) * (polar_radius r * polar_radius r * polar_radius r) * (2 * a_alpha c * M * Om)); [ring|].
  rewrite third_power by auto. unfold q. field. repeat split; lra.
Qed.
(** Without accretion (lambda = 0) the disk is a sheet of thickness zero. *)
Theorem C68_no_accretion_no_height : forall c r M, a_lambda c = 0 -> alpha_H c r M = 0.
Proof.
  intros c r M H. unfold alpha_H. rewrite H. cbv zeta. replace (0 * 0.22 * (M / 1e7) / (2 * PI)) with 0 by (unfold Rdiv; ring).
  replace (a_Q c / 2 / a_alpha c * 0 / M / alpha_Omega r M) with 0 by (unfold Rdiv; ring). unfold cbrt. destruct (Rlt_dec 0 0); [lra|]. ring.
Qed.
(** The density of the capture disk: M/(2 pi R^3) in the plane, falling as exp(-z^2/2H^2) with the scale height of an alpha disk with
    Q = alpha = 1, accreting at the Eddington rate with efficiency 1. *)
Theorem C24_capture_density : forall r M Omega Mdot, let R := polar_radius r in 0 < R -> 0 < M ->
  0 < Omega -> Omega * Omega * (R * R * R) = M -> Mdot * (2 * PI) * 10000000 = 0.22 * M ->
  exists H, 0 < H /\ H * H * H * (2 * M * Omega) = Mdot * (R * R * R) /\ disk_rho r M = M / (2 * PI * (R * R * R)) * exp (- (vz r * vz r) / (2 * (H * H))).
Proof.
  intros r M Om Md RR HR HM HO O2 HMd. pose proof PI_RGT_0 as Hpi.
  assert (EO : sqrt (M / (RR * RR * RR)) = Om). { rewrite <- O2. replace (Om * Om * (RR * RR * RR) / (RR * RR * RR)) with (Om * Om) by (field; lra). apply sqrt_square. lra. }
  assert (EM : 1 * 0.22 * (M / 10000000) / (2 * PI) = Md). { apply Rmult_eq_reg_r with (2 * PI * 10000000); [|nra]. replace (Md * (2 * PI * 10000000)) with (Md * (2 * PI) * 10000000) by ring. rewrite HMd. field. lra. }
  assert (PMd : 0 < Md). { destruct (Rle_dec Md 0); [|lra]. exfalso. assert (Md * (2 * PI) <= 0) by nra. lra. }
  set (q := 1 / 2 / 1 * Md / M / Om). assert (PQ : 0 < q) by (unfold q; repeat apply Rdiv_lt_0_compat; auto; apply Rmult_lt_0_compat; lra).
  exists (Rpower q (1 / 3) * RR). split; [apply Rmult_lt_0_compat; [apply exp_pos|auto]|]. split.
  - transitivity (Rpower q (1 / 3) * Rpower q (1 / 3) * Rpower q (1 / 3) * (RR * RR * RR) * (2 * M * Om)); [ring|]. rewrite third_power by auto. unfold q. field. split; lra.
  - unfold disk_rho. fold (polar_radius r). fold RR. cbv zeta. rewrite EO, EM. fold q. f_equal; [field; split; lra|]. f_equal. f_equal. ring.
Qed.
(** * C55: units.  The radius is looked up in centimetres (1 au = 149597870.7 km); the height tables are in centimetres, but are
    divided by 1.5e13, not by the number of centimetres in the same au. *)
Theorem C55_units : forall r, 0 < polar_radius r ->
  ten_to (lgR_cgs r) = polar_radius r * (149597870.7 * 1000 * 100) /\
  (exists y, disk_value (lgR_cgs r) t_lgr t_lgH = Ok y /\ mag_H r = Ok (ten_to y / 1.5e13)) /\
  (exists y, disk_value (lgR_cgs r) t_lgr t_lgrho = Ok y /\ mag_rho r = Ok (ten_to y / 5.893333333333333e-07)) /\
  149597870.7 * 1000 * 100 <> 1.5e13.
Proof.
  intros r HR. split.
  - unfold lgR_cgs, lg, ten_to, Rpower. assert (L10 : 0 < ln 10) by (rewrite <- ln_1; apply ln_increasing; lra).
    replace (ln (polar_radius r / unit_cm) / ln 10 * ln 10) with (ln (polar_radius r / unit_cm)) by (field; lra).
    assert (U : polar_radius r / unit_cm = polar_radius r * (149597870.7 * 1000 * 100)) by (unfold unit_cm; field; lra).
    rewrite exp_ln; [exact U|]. rewrite U. nra.
  - split; [|split; [|lra]].
    + unfold mag_H. destruct (dv_total mag_lgH_digits mag_lgH lgH_len (lgR_cgs r)) as (y & E). exists y. split; [exact E|]. unfold t_lgH. rewrite E. reflexivity.
    + unfold mag_rho. destruct (dv_total mag_lgrho_digits mag_lgrho lgrho_len (lgR_cgs r)) as (y & E). exists y. split; [exact E|]. unfold t_lgrho. rewrite E. reflexivity.
Qed.
Example C68_gas_case : circular 8 (mkV 0 2 5) (mkV (-2) 0 0) /\ 0 < vx (mkV 0 2 5) * vx (mkV 0 2 5) + vy (mkV 0 2 5) * vy (mkV 0 2 5).
Proof.
  unfold circular, norm2, dot. cbn [vx vy vz]. replace (0 * 0 + 2 * 2) with (2 * 2) by ring. rewrite sqrt_square by lra. repeat split; lra.
Qed.
Example C68_height_case : exists Omega Mdot, let r := mkV 3 4 1 in polar_radius r = 5 /\ 0 < Omega /\ Omega * Omega * (5 * 5 * 5) = 1 /\ Mdot * (2 * PI) * 10000000 = 1 * 0.22 * 1.
Proof.
  exists (sqrt (1 / 125)), (0.22 / (2 * PI) / 10000000). pose proof PI_RGT_0. split; [|split; [apply sqrt_lt_R0; lra|split]].
  - unfold polar_radius. cbn [vx vy]. replace (3 * 3 + 4 * 4) with (5 * 5) by ring. apply sqrt_square. lra.
  - rewrite sqrt_sqrt by lra. lra.
  - field. lra.
Qed.
Print Assumptions C68_gas_velocity. Print Assumptions C68_moved_system. Print Assumptions C68_scale_height. Print Assumptions C68_no_accretion_no_height. Print Assumptions C24_capture_density. Print Assumptions C55_units.
