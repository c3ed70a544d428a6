(** C68: the friction of the alpha disk. *)
From Verif Require Import Disk_Model Alpha_Spec Alpha_Proofs Force_Spec Force_Props.
Open Scope R_scope.

(** C68.  The coefficient: Mach/3 below 0.1, Ostriker's two branches, joined on [1-e^-2, 1+e^-2]; never negative. *)
Theorem C68_coefficient : forall M,
  (M < 0.1 -> alpha_I M = M / 3) /\
  (0.1 < M <= 1 - width -> alpha_I M = ostriker_subsonic M) /\
  (1 + width <= M -> alpha_I M = ostriker_supersonic M) /\
  (0 <= M -> 0 <= alpha_I M).
Proof.
  intros M. assert (W : width = eps_a). { unfold width. rewrite eps_eq, <- exp_plus, <- exp_Ropp. apply f_equal. lra. }
  assert (X1 : x1a = 1 - eps_a) by reflexivity. assert (X2 : x2a = 1 + eps_a) by reflexivity. pose proof eps_lo. pose proof eps_hi. pose proof dx_pos.
  rewrite W. split; [apply aI_low|]. split; [|split; [|apply alpha_I_nonneg]].
  - intros HM. assert (E : I_sub M = ostriker_subsonic M) by (unfold I_sub, ostriker_subsonic; set (L := ln _); replace 0.5 with (1 / 2) by lra; field; lra).
    destruct (Req_dec M x1a) as [->|N]; [rewrite aI_mid, (proj1 connect_x1) by lra; exact E|]. rewrite aI_sub by lra. exact E.
  - intros HM. rewrite aI_sup by lra. unfold I_sup, ostriker_supersonic, logR. replace (1 / (M * M)) with (1 / M / M) by (field; lra). set (L := ln _). replace 0.5 with (1 / 2) by lra. field. lra.
Qed.
Print Assumptions C68_coefficient.

(** C68.  Above Mach 0.1 the coefficient is continuously differentiable, also where the branches meet. *)
Theorem C68_smooth : C1_above alpha_I 0.1.
Proof. exists alpha_slope. intros x Hx. split; [apply aI_deriv; auto|apply slope_cont; auto]. Qed.
Print Assumptions C68_smooth.

(** C68.  At Mach exactly 0.1 no branch below the join applies, and the join is extrapolated: the coefficient is above 1
    there, while every smaller Mach number has one below 0.04. *)
Theorem C68_continuous_at_a_tenth_refuted : 1 < alpha_I 0.1 /\ (forall M, M < 0.1 -> alpha_I M < 0.04) /\ ~ continuity_pt alpha_I 0.1.
Proof.
  assert (A : 1 < alpha_I 0.1) by (rewrite aI_01; apply connect_01). assert (B : forall M, M < 0.1 -> alpha_I M < 0.04) by (intros M H; rewrite aI_low by auto; lra).
  split; auto. split; auto. intros C. destruct (C 0.5 ltac:(lra)) as (d & Hd & H). simpl in H. unfold R_dist in H.
  set (x := 0.1 - d / 2). assert (X : x < 0.1) by (unfold x; lra). specialize (H x). unfold D_x, no_cond in H.
  assert (Q : Rabs (alpha_I x - alpha_I 0.1) < 0.5). { apply H. split; [split; [auto|lra]|]. unfold x. rewrite Rabs_left; lra. }
  specialize (B x X). apply Rabs_def2 in Q. lra.
Qed.
Print Assumptions C68_continuous_at_a_tenth_refuted.

Lemma alpha_H_nonneg c r M : 0 <= alpha_H c r M.
Proof. unfold alpha_H. cbv zeta. apply Rmult_le_pos; [|apply sqrt_pos]. unfold cbrt. destruct (Rlt_dec _ _); [left; apply exp_pos|lra]. Qed.
Lemma alpha_rho_nonneg c r M H : 0 <= M -> 0 <= a_Q c -> 0 <= alpha_rho c r M H.
Proof.
  intros HM HQ. unfold alpha_rho. cbv zeta. pose proof PI_RGT_0 as P. assert (RR : 0 <= polar_radius r) by apply sqrt_pos.
  apply Rmult_le_pos; [|lra]. apply Rmult_le_pos; [|left; apply exp_pos]. set (q := 2 * a_Q c * PI * _ * _ * _).
  assert (Q : 0 <= q). { unfold q. repeat (apply Rmult_le_pos; [|lra]); lra. } unfold Rdiv. apply Rmult_le_pos; auto.
  destruct (Req_dec q 0) as [->|N]; [rewrite Rinv_0; lra|left; apply Rinv_0_lt_compat; lra].
Qed.
Lemma alpha_mach_nonneg c s i : let dr := vsub (sp s i) (sp s 0%nat) in
  0 <= sqrt (dot (alpha_v_rel s i) (alpha_v_rel s i)) / (alpha_Omega dr (sm s 0%nat) * alpha_H c dr (sm s 0%nat)).
Proof.
  intros dr. set (q := alpha_Omega _ _ * _). assert (Q : 0 <= q) by (apply Rmult_le_pos; [apply sqrt_pos|apply alpha_H_nonneg]).
  apply Rmult_le_pos; [apply sqrt_pos|]. destruct (Req_dec q 0) as [->|N]; [rewrite Rinv_0; lra|left; apply Rinv_0_lt_compat; lra].
Qed.
(** C68.  What the switch "force" selects: 1 friction only, -1 (and below) ram pressure only, otherwise both. *)
Theorem C68_force_switch : forall c s rad i,
  (a_force c = 1%Z -> alpha_f c s rad i = friction c s i alpha_I) /\
  ((a_force c <= -1)%Z -> alpha_f c s rad i = ram c s rad i) /\
  ((a_force c = 0 \/ 1 < a_force c)%Z -> alpha_f c s rad i = friction c s i alpha_I + ram c s rad i).
Proof.
  intros c s rad i. unfold alpha_f, friction, ram, norm. cbv zeta. change (norm2 (alpha_v_rel s i)) with (dot (alpha_v_rel s i) (alpha_v_rel s i)).
  set (M := sqrt _ / _). split; [|split]; intros H.
  - rewrite H. simpl. unfold Rdiv. ring.
  - destruct (Z.leb_spec 0 (a_force c)); [lia|]. destruct (Z.eqb_spec (a_force c) 1); [lia|]. destruct (Z.eqb_spec (a_force c) (-1)); unfold Rdiv; ring.
  - destruct (Z.leb_spec 0 (a_force c)); [|lia]. destruct (Z.eqb_spec (a_force c) 1); [lia|]. destruct (Z.eqb_spec (a_force c) (-1)); [lia|]. unfold Rdiv; ring.
Qed.
Print Assumptions C68_force_switch.

(** C68.  Whatever the switch, for non-negative Q the disk never accelerates a star along its motion relative to the gas,
    and the central body takes up the momentum. *)
Theorem C68_drag : forall c s rad acc, (1 <= sn s)%nat -> (forall i, (i < sn s)%nat -> 0 < sm s i) -> 0 <= a_Q c ->
  total_force s (add_alpha c s rad acc) = total_force s acc /\
  forall i, (1 <= i < sn s)%nat -> exists q, 0 <= q /\ add_alpha c s rad acc i = vsub (acc i) (vscal q (alpha_v_rel s i)).
Proof.
  intros c s rad acc Hn Hm HQ. apply C24_disk_drag; auto. intros i. assert (M0 : 0 < sm s 0%nat) by (apply Hm; lia).
  pose proof (alpha_rho_nonneg c (vsub (sp s i) (sp s 0%nat)) (sm s 0%nat) (alpha_H c (vsub (sp s i) (sp s 0%nat)) (sm s 0%nat)) ltac:(lra) HQ) as R0.
  pose proof (alpha_I_nonneg _ (alpha_mach_nonneg c s i)) as I0. pose proof PI_RGT_0.
  assert (F : 0 <= friction c s i alpha_I).
  { unfold friction. cbv zeta. unfold norm. change (norm2 (alpha_v_rel s i)) with (dot (alpha_v_rel s i) (alpha_v_rel s i)).
    set (cs := alpha_Omega _ _ * _) in *. assert (G : 0 <= Gc) by (unfold Gc; lra). assert (S2 : 0 <= sm s i * sm s i) by nra.
    assert (Ic : 0 <= / (cs * cs)). { destruct (Req_dec (cs * cs) 0) as [->|N]; [rewrite Rinv_0; lra|]. left. apply Rinv_0_lt_compat. nra. }
    unfold Rdiv at 1. repeat (apply Rmult_le_pos; [|lra]); lra. }
  assert (A : 0 <= ram c s rad i).
  { unfold ram. cbv zeta. assert (S2 : 0 <= rad i * rad i) by nra. assert (V2 : 0 <= norm2 (alpha_v_rel s i)) by (unfold norm2, dot; nra). repeat (apply Rmult_le_pos; [|lra]); lra. }
  destruct (C68_force_switch c s rad i) as (S1 & S2 & S3).
  destruct (Z.le_gt_cases (a_force c) (-1)) as [L|L]; [rewrite S2; auto|]. destruct (Z.eq_dec (a_force c) 1) as [E|E]; [rewrite S1; auto|]. rewrite S3 by lia. lra.
Qed.
Print Assumptions C68_drag.

(** C68.  The gas density is symmetric about the plane, falls with the height (as exp(-z^2/2H^2)), and is largest in the
    plane. *)
Theorem C68_density : forall c r M H z, 0 <= M -> 0 < a_Q c ->
  alpha_rho c (mkV (vx r) (vy r) (- z)) M H = alpha_rho c (mkV (vx r) (vy r) z) M H /\
  alpha_rho c (mkV (vx r) (vy r) z) M H = alpha_rho c (mkV (vx r) (vy r) 0) M H * exp (- (z * z) / (2 * H * H)) /\
  (0 < H -> forall z', z * z <= z' * z' -> alpha_rho c (mkV (vx r) (vy r) z') M H <= alpha_rho c (mkV (vx r) (vy r) z) M H).
Proof.
  intros c r M H z HM HQ. 
  assert (E : forall z, alpha_rho c (mkV (vx r) (vy r) z) M H = alpha_rho c (mkV (vx r) (vy r) 0) M H * exp (- (z * z) / (2 * H * H))).
  { intros y. unfold alpha_rho, polar_radius. cbn [vx vy vz]. cbv zeta. replace (- (0 * 0) / (2 * H * H)) with 0 by (unfold Rdiv; ring). rewrite exp_0. ring. }
  split; [|split; [apply E|]].
  - rewrite (E (- z)), (E z). do 3 f_equal. ring.
  - intros HH z' Hz. rewrite (E z), (E z'). apply Rmult_le_compat_l; [apply alpha_rho_nonneg; lra|].
    destruct (Req_dec (z * z) (z' * z')) as [<-|N]; [lra|]. left. apply exp_increasing. unfold Rdiv. assert (P : 0 < / (2 * H * H)) by (apply Rinv_0_lt_compat; nra). nra.
Qed.
Print Assumptions C68_density.

(** C68.  The angular frequency obeys Kepler's third law for the central mass (G = 1), the gas moves with the circular
    speed of that frequency, in the plane and counter-clockwise. *)
Theorem C68_keplerian_gas : forall r M, 0 < polar_radius r -> 0 <= M ->
  let w := alpha_Omega r M in let u := disk_v r M in
  0 <= w /\ w * w * (polar_radius r * polar_radius r * polar_radius r) = M /\
  vz u = 0 /\ vx r * vx u + vy r * vy u = 0 /\ norm u = w * polar_radius r /\
  vx r * vy u - vy r * vx u = polar_radius r * norm u.
Proof.
  intros r M HR HM w u. assert (S : polar_radius r * polar_radius r = vx r * vx r + vy r * vy r) by (unfold polar_radius; apply sqrt_sqrt; nra).
  set (R := polar_radius r) in *. assert (R3 : 0 < R * R * R) by (apply Rmult_lt_0_compat; [apply Rmult_lt_0_compat|]; auto).
  assert (W0 : 0 <= M / (R * R * R)) by (apply Rmult_le_pos; [auto|left; apply Rinv_0_lt_compat; auto]).
  assert (W : w * w = M / (R * R * R)) by (unfold w, alpha_Omega; cbv zeta; fold R; apply sqrt_sqrt; auto).
  assert (Wp : 0 <= w) by apply sqrt_pos. split; [auto|]. split; [rewrite W; field; lra|].
  assert (V : sqrt (M / R) = w * R). { unfold w, alpha_Omega. cbv zeta. fold R. transitivity (sqrt (M / (R * R * R)) * sqrt (R * R)); [|rewrite (sqrt_square R) by lra; reflexivity]. rewrite <- sqrt_mult by (auto; nra). f_equal. field. lra. }
  unfold u, disk_v. fold (polar_radius r). fold R. rewrite V. cbn [vx vy vz]. set (v := w * R). assert (Vp : 0 <= v) by (unfold v; nra).
  assert (N : norm (mkV (- v * vy r / R) (v * vx r / R) 0) = v).
  { unfold norm. replace (norm2 (mkV (- v * vy r / R) (v * vx r / R) 0)) with (v * v); [apply sqrt_square; auto|].
    unfold norm2, dot. cbn [vx vy vz]. replace (- v * vy r / R * (- v * vy r / R) + v * vx r / R * (v * vx r / R) + 0 * 0) with (v * v * (vx r * vx r + vy r * vy r) / (R * R)) by (field; lra). rewrite <- S. field. lra. }
  split; [reflexivity|]. split; [field; lra|]. cbv zeta. split; [exact N|]. rewrite N.
  replace (vx r * (v * vx r / R) - vy r * (- v * vy r / R)) with (v * (vx r * vx r + vy r * vy r) / R) by (field; lra). rewrite <- S. field. lra.
Qed.
Print Assumptions C68_keplerian_gas.

(** Non-vacuity. *)
Example C68_case : exists c s, (1 <= sn s)%nat /\ (forall i, (i < sn s)%nat -> 0 < sm s i) /\ 0 <= a_Q c /\
  0 < alpha_rho c (vsub (sp s 1%nat) (sp s 0%nat)) (sm s 0%nat) 1 /\ 0.1 < 0.5 <= 1 - width.
Proof.
  exists (mkA 1 1 1 0), (mkS 2 (fun _ => 1) (fun i => mkV (INR i) 0 0) (fun _ => vzero)). simpl. split; [lia|]. split; [intros; lra|]. split; [lra|]. split.
  - unfold alpha_rho. cbv zeta. unfold polar_radius. cbn. replace ((1 - 0) * (1 - 0) + (0 - 0) * (0 - 0)) with 1 by ring. rewrite sqrt_1.
    pose proof PI_RGT_0. apply Rmult_lt_0_compat; [|lra]. apply Rmult_lt_0_compat; [|apply exp_pos]. apply Rdiv_lt_0_compat; lra.
  - assert (W : width = eps_a). { unfold width. rewrite eps_eq, <- exp_plus, <- exp_Ropp. apply f_equal. lra. } rewrite W. pose proof eps_hi. lra.
Qed.
