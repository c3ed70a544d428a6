(** Lemmas on the scattering helpers of Orbit_Model. *)
From Verif Require Import Orbit_Model Orbit_Spec Orbit_Proofs Orbit_Proofs2 Anom_Proofs Anom_Proofs2.
From Coq Require Import Lra.
Open Scope R_scope.

(** Elements of the hyperbolic orbit. *)
Section Hyp.
Variables (m1 m2 v b : R).
Hypothesis (Hm : 0 < m1 + m2) (Hv : v <> 0) (Hb : b <> 0).
Let u := m1 + m2.
Let a := - (Gc * (m1 + m2)) / (v * v).
Let e := sqrt (1 + b * b / (a * a)).
Let p := (b * v) * (b * v) / (Gc * (m1 + m2)).

Lemma hy_u : Gc * (m1 + m2) = u. Proof. unfold Gc, u; ring. Qed.
Lemma hy_v2 : 0 < v * v. Proof. nra. Qed.
Lemma hy_b2 : 0 < b * b. Proof. nra. Qed.
Lemma hy_a : a = - (u / (v * v)). Proof. unfold a. rewrite hy_u. field. auto. Qed.
Lemma hy_uv : 0 < u / (v * v). Proof. apply Rdiv_lt_0_compat; [auto|apply hy_v2]. Qed.
Lemma hy_e2 : e * e = 1 + b * b / (a * a).
Proof.
  unfold e. apply sqrt_sqrt. rewrite hy_a. pose proof hy_uv. pose proof hy_b2.
  assert (0 < b * b / (- (u / (v * v)) * - (u / (v * v)))) by (apply Rdiv_lt_0_compat; nra). lra.
Qed.
Lemma hy_e2' : e * e - 1 = b * b * (v * v) * (v * v) / (u * u).
Proof. rewrite hy_e2, hy_a. field. split; auto. unfold u; lra. Qed.
Lemma hy_e : 1 < e.
Proof.
  assert (0 <= e) by apply sqrt_pos. pose proof hy_e2'. pose proof hy_v2. pose proof hy_b2. assert (0 < u) by (unfold u; auto).
  assert (0 < b * b * (v * v) * (v * v) / (u * u)).
  { apply Rdiv_lt_0_compat; [|nra]. apply Rmult_lt_0_compat; auto. apply Rmult_lt_0_compat; auto. }
  nra.
Qed.
Lemma hy_p : 0 < p.
Proof. unfold p. rewrite hy_u. apply Rdiv_lt_0_compat; auto. pose proof hy_v2; pose proof hy_b2. replace (b * v * (b * v)) with (b * b * (v * v)) by ring. nra. Qed.
Lemma hy_pa : p = - a * (e * e - 1).
Proof. rewrite hy_e2', hy_a. unfold p. rewrite hy_u. field. split; auto. unfold u; lra. Qed.
Lemma hy_peri : a * (1 - e) = p / (1 + e).
Proof. rewrite hy_pa. pose proof hy_e. field. lra. Qed.
Lemma hy_energy : u * (e * e - 1) / (2 * p) = v * v / 2.
Proof. rewrite hy_e2'. unfold p. rewrite hy_u. field. repeat split; auto. unfold u; lra. Qed.
End Hyp.

(** What the constructor returns. *)
Lemma hyperbolic_new_eq m1 m2 v b i Om om r inw : 0 < m1 + m2 -> v <> 0 -> b <> 0 ->
  let u := m1 + m2 in
  let e := sqrt (1 + b * b / ((- u / (v * v)) * (- u / (v * v)))) in
  let p := (b * v) * (b * v) / u in
  (p / (1 + e) <= r -> hyperbolic_new m1 m2 v b i Om om r inw =
     Ok (mkO m1 m2 p e i Om om (if inw then - acos ((p - r) / (e * r)) else acos ((p - r) / (e * r))) Hyperbola)) /\
  (r < p / (1 + e) -> hyperbolic_new m1 m2 v b i Om om r inw = Abort).
Proof.
  intros Hm Hv Hb u e p. unfold hyperbolic_new.
  pose proof (hy_p m1 m2 v b Hm Hv Hb) as P0. pose proof (hy_peri m1 m2 v b Hm Hv Hb) as PE.
  rewrite hy_u in *. fold u in P0, PE |- *. fold e p in P0, PE |- *.
  destruct (Rle_dec p 0); [lra|]. rewrite PE. destruct (Rlt_dec r (p / (1 + e))) as [L|L]; split; intros; try lra; auto.
  f_equal. f_equal. destruct inw; auto. ring.
Qed.
Lemma hyp_nu p e r : 1 < e -> 0 < p -> p / (1 + e) <= r ->
  0 < r /\ -1 <= (p - r) / (e * r) <= 1 /\ 1 + e * cos (acos ((p - r) / (e * r))) = p / r.
Proof.
  intros He Hp Hr. assert (0 < p / (1 + e)) by (apply Rdiv_lt_0_compat; lra). assert (R0 : 0 < r) by lra.
  assert (Q : p <= r * (1 + e)).
  { apply Rmult_le_compat_r with (r := 1 + e) in Hr; [|lra]. unfold Rdiv in Hr. rewrite Rmult_assoc, Rinv_l in Hr by lra. lra. }
  assert (ER : 0 < e * r) by nra.
  assert (B : -1 <= (p - r) / (e * r) <= 1).
  { split; apply Rmult_le_reg_r with (e * r); auto; unfold Rdiv; rewrite ?Rmult_assoc, ?Rinv_l by lra; nra. }
  split; auto. split; auto. rewrite cos_acos by auto. field. split; lra.
Qed.

(** Cubes and pow(x, 1/3). *)
Lemma pow13_pos x : 0 < x -> 0 < pow13 x.
Proof. intros. unfold pow13. destruct (Rlt_dec 0 x); [|contradiction]. unfold Rpower. apply exp_pos. Qed.
Lemma pow13_cube x : 0 < x -> pow13 x * pow13 x * pow13 x = x.
Proof.
  intros H. unfold pow13. destruct (Rlt_dec 0 x); [|contradiction].
  rewrite <- !Rpower_plus. replace (1 / 3 + 1 / 3 + 1 / 3) with 1 by field. apply Rpower_1; auto.
Qed.
Lemma cube_lt a b : 0 <= a -> a < b -> a * a * a < b * b * b.
Proof. intros. assert (a * a < b * b) by nra. nra. Qed.
Lemma cube_le a b : 0 <= a -> a <= b -> a * a * a <= b * b * b.
Proof. intros H [L| ->]; [left; apply cube_lt; auto|right; auto]. Qed.
Lemma cube_le_inv a b : 0 <= b -> a * a * a <= b * b * b -> a <= b.
Proof. intros Hb H. destruct (Rle_lt_dec a b) as [L|L]; auto. apply cube_lt in L; auto. lra. Qed.

Lemma tidal_radius1_pos f m1 m2 R2 : 0 < f -> 0 < m1 -> 0 < m2 -> 0 < R2 -> 0 < tidal_radius1 f m1 m2 R2.
Proof. intros. unfold tidal_radius1. apply Rmult_lt_0_compat; auto. apply pow13_pos, Rdiv_lt_0_compat; auto. nra. Qed.
Lemma tidal_radius1_nonneg f m1 m2 R2 : 0 < f -> 0 < m1 -> 0 < m2 -> 0 <= R2 -> 0 <= tidal_radius1 f m1 m2 R2.
Proof. intros ? ? ? [L| <-]; [left; apply tidal_radius1_pos; auto|right]. unfold tidal_radius1. ring. Qed.
Lemma tidal_radius1_cube f m1 m2 R2 : 0 < f -> 0 < m1 -> 0 < m2 ->
  tidal_radius1 f m1 m2 R2 * tidal_radius1 f m1 m2 R2 * tidal_radius1 f m1 m2 R2 = m1 / (f * m2) * (R2 * R2 * R2).
Proof.
  intros. unfold tidal_radius1. assert (0 < m1 / (f * m2)) by (apply Rdiv_lt_0_compat; auto; nra).
  rewrite <- (pow13_cube (m1 / (f * m2))) at 4 by auto. ring.
Qed.
Lemma tidal_radius1_mono f g m1 m2 R2 : 0 < f -> f <= g -> 0 < m1 -> 0 < m2 -> 0 <= R2 -> tidal_radius1 g m1 m2 R2 <= tidal_radius1 f m1 m2 R2.
Proof.
  intros Hf Hg H1 H2 HR. apply cube_le_inv; [apply tidal_radius1_nonneg; auto|]. rewrite !tidal_radius1_cube by lra.
  apply Rmult_le_compat_r; [assert (0 <= R2 * R2) by nra; nra|]. unfold Rdiv. apply Rmult_le_compat_l; [lra|].
  apply Rinv_le_contravar; nra.
Qed.
Lemma tidal_radius1_strict f g m1 m2 R2 : 0 < f -> f < g -> 0 < m1 -> 0 < m2 -> 0 < R2 -> tidal_radius1 g m1 m2 R2 < tidal_radius1 f m1 m2 R2.
Proof.
  intros Hf Hg H1 H2 HR. destruct (Rlt_le_dec (tidal_radius1 g m1 m2 R2) (tidal_radius1 f m1 m2 R2)) as [L|L]; auto. exfalso.
  apply cube_le in L; [|apply tidal_radius1_nonneg; lra]. rewrite !tidal_radius1_cube in L by lra.
  assert (0 < R2 * R2 * R2) by (assert (0 < R2 * R2) by nra; nra).
  apply Rmult_le_reg_r in L; auto. unfold Rdiv in L. apply Rmult_le_reg_l in L; auto.
  assert (/ (g * m2) < / (f * m2)); [|lra]. apply Rinv_lt_contravar; [|nra]. repeat apply Rmult_lt_0_compat; lra.
Qed.
Lemma factor_at f m1 m2 R2 r : 0 < f -> 0 < m1 -> 0 < m2 -> 0 < r -> 
  m1 / m2 * (R2 / r) * (R2 / r) * (R2 / r) = f * (tidal_radius1 f m1 m2 R2 * tidal_radius1 f m1 m2 R2 * tidal_radius1 f m1 m2 R2) / (r * r * r).
Proof. intros. rewrite tidal_radius1_cube by auto. field. repeat split; lra. Qed.
Lemma factor_le f t r : 0 < f -> 0 <= t -> t <= r -> 0 < r -> f * (t * t * t) / (r * r * r) <= f.
Proof.
  intros Hf Ht L Hr. assert (0 < r * r * r) by (assert (0 < r * r) by nra; nra). apply cube_le in L; auto.
  apply Rmult_le_reg_r with (r * r * r); auto. unfold Rdiv. rewrite Rmult_assoc, Rinv_l by lra. nra.
Qed.

(** Impact parameter and pericentre. *)
Lemma b_of_peri m1 m2 v b : 0 < m1 + m2 -> v <> 0 -> b <> 0 ->
  let u := m1 + m2 in
  let e := sqrt (1 + b * b / ((- u / (v * v)) * (- u / (v * v)))) in
  let p := (b * v) * (b * v) / u in
  let q := p / (1 + e) in 0 < q /\ b * b = q * q + 2 * u * q / (v * v).
Proof.
  intros Hm Hv Hb u e p q.
  pose proof (hy_p m1 m2 v b Hm Hv Hb) as P0. pose proof (hy_e m1 m2 v b Hm Hv Hb) as E1. pose proof (hy_e2' m1 m2 v b Hm Hv Hb) as E2.
  rewrite hy_u in *. fold u in P0, E1, E2. fold p in P0. fold e in E1, E2.
  split; [apply Rdiv_lt_0_compat; lra|].
  assert (pe : p * (e * e - 1) * ((v * v)) = 0 + p * (v * v) * (e * e - 1)) by ring.
  (* p = u (e^2-1)/v^2 *)
  assert (P2 : p = u * (e * e - 1) / (v * v)). { rewrite E2. unfold p. field. split; auto. unfold u; lra. }
  assert (Q : q = u * (e - 1) / (v * v)). { unfold q. rewrite P2. field. split; auto. lra. }
  assert (B : b * b = u * u * (e * e - 1) / (v * v * (v * v))). { rewrite E2. field. split; auto. unfold u; lra. }
  rewrite B, Q. field. auto.
Qed.
Lemma b_max_sq m v rp : 0 < m -> v <> 0 -> 0 <= rp -> b_max m v rp * b_max m v rp = rp * rp + 2 * m * rp / (v * v).
Proof.
  intros Hm Hv Hr. unfold b_max. rewrite sqrt_sqrt; [unfold Gc; field; auto|]. unfold Gc.
  assert (0 < v * v) by nra. assert (0 <= 2 * m * 1 * rp / (v * v)); [|nra].
  apply Rmult_le_pos; [nra|apply Rlt_le, Rinv_0_lt_compat; auto].
Qed.
Lemma peri_mono u v q r : 0 < u -> v <> 0 -> 0 <= q -> 0 <= r ->
  (q <= r <-> q * q + 2 * u * q / (v * v) <= r * r + 2 * u * r / (v * v)).
Proof.
  intros Hu Hv Hq Hr. assert (K : 0 < 2 * u / (v * v)) by (apply Rdiv_lt_0_compat; nra).
  replace (2 * u * q / (v * v)) with (2 * u / (v * v) * q) by (field; auto).
  replace (2 * u * r / (v * v)) with (2 * u / (v * v) * r) by (field; auto). set (k := 2 * u / (v * v)) in *.
  split; intros H; nra.
Qed.
