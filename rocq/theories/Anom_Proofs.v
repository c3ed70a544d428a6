(** Lemmas on the anomaly conversions of Orbit_Model. *)
From Verif Require Import Orbit_Model Orbit_Spec Orbit_Proofs Orbit_Proofs2 Bisect_Proofs.
From Coq Require Import Lra.
Open Scope R_scope.

(** * atan2 *)
Lemma PIp : 0 < PI. Proof. apply PI_RGT_0. Qed.

Lemma atan2_polar r a : 0 < r -> - PI < a <= PI -> atan2 (r * sin a) (r * cos a) = a.
Proof.
  intros Hr Ha. pose proof PIp. unfold atan2.
  assert (Q : cos a <> 0 -> r * sin a / (r * cos a) = tan a) by (intros; unfold tan; field; split; lra).
  destruct (Rlt_dec 0 (r * cos a)) as [P|P].
  - assert (C : 0 < cos a) by nra. rewrite Q by lra.
    apply atan_tan. split.
    + destruct (Rlt_le_dec (-(PI/2)) a); auto. exfalso.
      assert (cos a <= 0); [|lra]. rewrite <- (Ropp_involutive a), cos_neg. apply cos_le_0; lra.
    + destruct (Rlt_le_dec a (PI/2)); auto. exfalso.
      assert (cos a <= 0); [apply cos_le_0; lra|lra].
  - destruct (Rlt_dec (r * cos a) 0) as [N|N].
    + assert (C : cos a < 0) by nra. rewrite Q by lra.
      destruct (Rle_dec 0 (r * sin a)) as [S|S].
      * assert (PI / 2 < a).
        { destruct (Rlt_le_dec (PI/2) a); auto. exfalso.
          destruct (Rlt_le_dec a (-(PI/2))).
          - assert (0 < sin (- a)) by (apply sin_gt_0; lra). rewrite sin_neg in *. nra.
          - assert (0 <= cos a) by (apply cos_ge_0; lra). lra. }
        replace (tan a) with (tan (a - PI)).
        -- rewrite atan_tan by lra. ring.
        -- replace a with (a - PI + PI) at 2 by ring. unfold tan. rewrite neg_sin, neg_cos. field.
           replace (cos (a - PI)) with (- cos a); [lra|]. rewrite cos_minus, cos_PI, sin_PI; ring.
      * assert (a < - (PI / 2)).
        { destruct (Rlt_le_dec a (-(PI/2))); auto. exfalso.
          destruct (Rlt_le_dec (PI/2) a).
          - assert (0 <= sin a) by (apply sin_ge_0; lra). nra.
          - assert (0 <= cos a) by (apply cos_ge_0; lra). lra. }
        replace (tan a) with (tan (a + PI)).
        -- rewrite atan_tan by lra. ring.
        -- unfold tan. rewrite neg_sin, neg_cos. field. lra.
    + assert (C : cos a = 0) by nra.
      assert (S1 : sin a * sin a = 1) by (pose proof (sc2 a); rewrite C in *; lra).
      destruct (Rlt_dec 0 (r * sin a)) as [S|S].
      * assert (0 < sin a) by nra. destruct (Rlt_le_dec a 0) as [A|A].
        { assert (0 < sin (- a)) by (apply sin_gt_0; lra). rewrite sin_neg in *. lra. }
        apply cos_inj; try lra. rewrite cos_PI2; auto.
      * destruct (Rlt_dec (r * sin a) 0) as [T|T]; [|nra].
        assert (sin a < 0) by nra. destruct (Rle_lt_dec 0 a) as [A|A].
        { assert (0 <= sin a) by (apply sin_ge_0; lra). lra. }
        replace a with (- (- a)) by ring. replace (- PI / 2) with (- (PI / 2)) by field. f_equal.
        apply cos_inj; try lra. rewrite cos_neg, cos_PI2; auto.
Qed.

(** Every point has polar coordinates. *)
Lemma polar_exists x y : x <> 0 \/ y <> 0 ->
  exists a, - PI < a <= PI /\ x = sqrt (x * x + y * y) * cos a /\ y = sqrt (x * x + y * y) * sin a.
Proof.
  intros N. pose proof PIp. set (r := sqrt (x * x + y * y)).
  assert (P : 0 < x * x + y * y) by (destruct N; nra).
  assert (R0 : 0 < r) by (apply sqrt_lt_R0; auto).
  assert (RR : r * r = x * x + y * y) by (apply sqrt_sqrt; lra).
  assert (B : -1 <= x / r <= 1).
  { split; [apply Rmult_le_reg_r with r|apply Rmult_le_reg_r with r]; auto; unfold Rdiv; rewrite Rmult_assoc, Rinv_l by lra; nra. }
  pose proof (acos_bound (x / r)) as AB. pose proof (cos_acos (x / r) B) as CA.
  pose proof (sc2 (acos (x / r))) as SC. rewrite CA in SC.
  assert (S0 : 0 <= sin (acos (x / r))) by (apply sin_ge_0; lra).
  assert (SS : (r * sin (acos (x / r))) * (r * sin (acos (x / r))) = y * y).
  { replace (r * sin (acos (x / r)) * (r * sin (acos (x / r)))) with (r * r * (sin (acos (x / r)) * sin (acos (x / r)))) by ring.
    replace (sin (acos (x / r)) * sin (acos (x / r))) with (1 - x / r * (x / r)) by lra.
    replace (r * r * (1 - x / r * (x / r))) with (r * r - x * x) by (field; lra). lra. }
  destruct (Rle_lt_dec 0 y) as [Y|Y].
  - exists (acos (x / r)). split; [lra|]. rewrite CA. split; [field; lra|].
    apply Rsqr_inj; [lra|apply Rmult_le_pos; lra|unfold Rsqr; lra].
  - exists (- acos (x / r)). rewrite cos_neg, sin_neg, CA. split.
    + split; [|lra]. assert (acos (x / r) <> PI); [|lra]. intros E. rewrite E, sin_PI in SS. assert (0 < y * y) by nra. lra.
    + split; [field; lra|]. 
      assert (- y = r * sin (acos (x / r))); [|lra]. apply Rsqr_inj; [lra|apply Rmult_le_pos; lra|unfold Rsqr; lra].
Qed.
Lemma atan2_spec x y : x <> 0 \/ y <> 0 ->
  - PI < atan2 y x <= PI /\ x = sqrt (x * x + y * y) * cos (atan2 y x) /\ y = sqrt (x * x + y * y) * sin (atan2 y x).
Proof.
  intros N. destruct (polar_exists x y N) as (a & Ha & X & Y).
  assert (P : 0 < sqrt (x * x + y * y)) by (apply sqrt_lt_R0; destruct N; nra).
  assert (E : atan2 y x = a).
  { pattern x at 1. rewrite X. pattern y at 1. rewrite Y. 
    remember (sqrt (x * x + y * y)) as r. apply atan2_polar; auto. }
  rewrite E. auto.
Qed.

(** * Ellipse *)
Lemma half_sc t : sin (t / 2) <> 0 \/ cos (t / 2) <> 0.
Proof. pose proof (sc2 (t / 2)). destruct (Req_dec (sin (t/2)) 0) as [E|E]; auto. right. intros C. rewrite E, C in *. lra. Qed.
Lemma cos_half t : cos t = cos (t / 2) * cos (t / 2) - sin (t / 2) * sin (t / 2).
Proof. replace t with (t / 2 + t / 2) at 1 by field. apply cos_plus. Qed.
Lemma sin_half t : sin t = 2 * (sin (t / 2) * cos (t / 2)).
Proof. replace t with (t / 2 + t / 2) at 1 by field. rewrite sin_plus. ring. Qed.

(** The half-angle map with factors s (sine) and c (cosine). *)
Definition hmap (s c t : R) : R := 2 * atan2 (s * sin (t / 2)) (c * cos (t / 2)).
Lemma hmap_range s c t : 0 < s -> 0 < c -> - (2 * PI) < hmap s c t <= 2 * PI.
Proof.
  intros Hs Hc. destruct (atan2_spec (c * cos (t/2)) (s * sin (t/2))) as (A & _).
  - destruct (half_sc t); [right|left]; apply Rmult_integral_contrapositive; split; auto; lra.
  - unfold hmap. lra.
Qed.
Lemma hmap_cs s c t : 0 < s -> 0 < c ->
  let d := c * c * (1 + cos t) + s * s * (1 - cos t) in
  0 < d /\ cos (hmap s c t) = (c * c * (1 + cos t) - s * s * (1 - cos t)) / d /\ sin (hmap s c t) = 2 * s * c * sin t / d.
Proof.
  intros Hs Hc d.
  set (x := c * cos (t/2)). set (y := s * sin (t/2)).
  destruct (atan2_spec x y) as (A & X & Y).
  { unfold x, y. destruct (half_sc t); [right|left]; apply Rmult_integral_contrapositive; split; auto; lra. }
  pose proof (sc2 (t/2)) as SC.
  assert (D : d = 2 * (x * x + y * y)).
  { unfold d, x, y. rewrite (cos_half t). 
    replace 1 with (sin (t/2) * sin (t/2) + cos (t/2) * cos (t/2)). ring. }
  assert (P : 0 < x * x + y * y).
  { destruct (half_sc t) as [N|N]; [assert (y <> 0)|assert (x <> 0)]; try (unfold x, y; apply Rmult_integral_contrapositive; split; auto; lra); nra. }
  split; [lra|].
  unfold hmap. fold x y. set (a := atan2 y x) in *. set (r := sqrt (x * x + y * y)) in *.
  assert (RR : r * r = x * x + y * y) by (apply sqrt_sqrt; lra).
  assert (R0 : 0 < r) by (apply sqrt_lt_R0; auto).
  assert (CA : cos a = x / r) by (apply Rmult_eq_reg_l with r; [rewrite <- X; field; lra|lra]).
  assert (SA : sin a = y / r) by (apply Rmult_eq_reg_l with r; [rewrite <- Y; field; lra|lra]).
  replace (2 * a) with (a + a) by ring. rewrite cos_plus, sin_plus, CA, SA.
  split.
  - replace (c * c * (1 + cos t) - s * s * (1 - cos t)) with (2 * (x * x - y * y)).
    + rewrite D, <- RR. field. lra.
    + unfold x, y. rewrite (cos_half t). replace 1 with (sin (t/2) * sin (t/2) + cos (t/2) * cos (t/2)). ring.
  - rewrite D, <- RR. rewrite (sin_half t).
    replace (2 * s * c * (2 * (sin (t / 2) * cos (t / 2)))) with (4 * (x * y)) by (unfold x, y; ring). field. lra.
Qed.
Lemma hmap_inv s c t : 0 < s -> 0 < c -> - (2 * PI) < t <= 2 * PI -> hmap c s (hmap s c t) = t.
Proof.
  intros Hs Hc Ht.
  set (x := c * cos (t/2)). set (y := s * sin (t/2)).
  assert (N : x <> 0 \/ y <> 0).
  { unfold x, y. destruct (half_sc t); [right|left]; apply Rmult_integral_contrapositive; split; auto; lra. }
  destruct (atan2_spec x y N) as (A & X & Y).
  unfold hmap at 2. fold x y. unfold hmap. replace (2 * atan2 y x / 2) with (atan2 y x) by field.
  set (a := atan2 y x) in *. set (r := sqrt (x * x + y * y)) in *.
  assert (R0 : 0 < r) by (apply sqrt_lt_R0; destruct N; nra).
  assert (CA : cos a = x / r) by (apply Rmult_eq_reg_l with r; [rewrite <- X; field; lra|lra]).
  assert (SA : sin a = y / r) by (apply Rmult_eq_reg_l with r; [rewrite <- Y; field; lra|lra]).
  rewrite CA, SA.
  replace (c * (y / r)) with (s * c / r * sin (t / 2)) by (unfold y; field; lra).
  replace (s * (x / r)) with (s * c / r * cos (t / 2)) by (unfold x; field; lra).
  rewrite atan2_polar; [field| |lra]. apply Rdiv_lt_0_compat; auto. nra.
Qed.
(** Outside the range the map only sees the half angle's direction. *)
Lemma hmap_shift s c t : hmap s c (t + 4 * PI) = hmap s c t.
Proof.
  unfold hmap. replace ((t + 4 * PI) / 2) with (t / 2 + 2 * PI) by field.
  rewrite sin_plus, cos_plus, sin_2PI, cos_2PI. do 2 f_equal; ring.
Qed.

Lemma E_to_T_ell eps E e : 0 <= e < 1 -> E_to_T eps E e = Ok (hmap (sqrt (1 + e)) (sqrt (1 - e)) E).
Proof.
  intros H. unfold E_to_T, hmap. rewrite by_ecc_ell by auto.
  replace (E * 0.5) with (E / 2) by lra. replace (0.5 * E) with (E / 2) by lra. auto.
Qed.
Lemma T_to_E_ell eps T e : 0 <= e < 1 -> T_to_E eps T e = Ok (hmap (sqrt (1 - e)) (sqrt (1 + e)) T).
Proof.
  intros H. unfold T_to_E, hmap. rewrite by_ecc_ell by auto.
  replace (0.5 * T) with (T / 2) by lra. auto.
Qed.
Lemma sq_pos x : 0 < x -> 0 < sqrt x /\ sqrt x * sqrt x = x.
Proof. intros; split; [apply sqrt_lt_R0; auto|apply sqrt_sqrt; lra]. Qed.
Lemma sqrt_prod e : 0 <= e < 1 -> sqrt (1 + e) * sqrt (1 - e) = sqrt (1 - e * e).
Proof. intros. rewrite <- sqrt_mult by lra. f_equal; ring. Qed.

(** * Hyperbolic functions *)
Lemma ch_sh t : cosh t * cosh t - sinh t * sinh t = 1.
Proof.
  unfold cosh, sinh. assert (exp t * exp (- t) = 1) by (rewrite <- exp_plus; replace (t + - t) with 0 by ring; apply exp_0).
  replace ((exp t + exp (- t)) / 2 * ((exp t + exp (- t)) / 2) - (exp t - exp (- t)) / 2 * ((exp t - exp (- t)) / 2)) with (exp t * exp (- t)) by field. auto.
Qed.
Lemma cosh_pos t : 0 < cosh t.
Proof. unfold cosh. pose proof (exp_pos t). pose proof (exp_pos (- t)). lra. Qed.
Lemma cosh_ge_1 t : 1 <= cosh t.
Proof. pose proof (ch_sh t). pose proof (cosh_pos t). nra. Qed.
Lemma cosh_half t : cosh t = cosh (t/2) * cosh (t/2) + sinh (t/2) * sinh (t/2).
Proof.
  unfold cosh, sinh. replace (exp t) with (exp (t/2) * exp (t/2)) by (rewrite <- exp_plus; f_equal; field).
  replace (exp (- t)) with (exp (- (t/2)) * exp (- (t/2))) by (rewrite <- exp_plus; f_equal; field). field.
Qed.
Lemma sinh_half t : sinh t = 2 * (sinh (t/2) * cosh (t/2)).
Proof.
  unfold cosh, sinh. replace (exp t) with (exp (t/2) * exp (t/2)) by (rewrite <- exp_plus; f_equal; field).
  replace (exp (- t)) with (exp (- (t/2)) * exp (- (t/2))) by (rewrite <- exp_plus; f_equal; field). field.
Qed.
Lemma atanh_tanh t : atanh (sinh t / cosh t) = t.
Proof.
  unfold atanh. pose proof (cosh_pos t) as C.
  replace ((1 + sinh t / cosh t) / (1 - sinh t / cosh t)) with (exp (2 * t)).
  - rewrite ln_exp. field.
  - replace ((1 + sinh t / cosh t) / (1 - sinh t / cosh t)) with ((cosh t + sinh t) / (cosh t - sinh t)).
    + unfold cosh, sinh. replace ((exp t + exp (- t)) / 2 + (exp t - exp (- t)) / 2) with (exp t) by field.
      replace ((exp t + exp (- t)) / 2 - (exp t - exp (- t)) / 2) with (exp (- t)) by field.
      rewrite exp_Ropp. replace (2 * t) with (t + t) by ring. rewrite exp_plus. field. apply Rgt_not_eq, exp_pos.
    + assert (cosh t - sinh t <> 0).
      { unfold cosh, sinh. pose proof (exp_pos (- t)). lra. }
      field. repeat split; lra.
Qed.
Lemma tanh_bound t : -1 < sinh t / cosh t < 1.
Proof.
  pose proof (cosh_pos t) as C.
  assert (- cosh t < sinh t < cosh t) by (pose proof (exp_pos t); pose proof (exp_pos (-t)); unfold cosh, sinh in *; lra).
  split; (apply Rmult_lt_reg_r with (cosh t); auto; unfold Rdiv; rewrite ?Rmult_assoc, ?Rinv_l by lra; lra).
Qed.
Lemma tanh_atanh x : -1 < x < 1 -> sinh (atanh x) / cosh (atanh x) = x.
Proof.
  intros Hx. set (w := atanh x).
  assert (Q : exp w * exp w = (1 + x) / (1 - x)).
  { rewrite <- exp_plus. replace (w + w) with (ln ((1 + x) / (1 - x))) by (unfold w, atanh; field).
    apply exp_ln. apply Rdiv_lt_0_compat; lra. }
  pose proof (exp_pos w) as P. unfold sinh, cosh. rewrite exp_Ropp.
  replace ((exp w - / exp w) / 2 / ((exp w + / exp w) / 2)) with ((exp w * exp w - 1) / (exp w * exp w + 1)).
  - rewrite Q. field. lra.
  - field. repeat split; nra.
Qed.

(** * Hyperbola *)
Definition hk (e : R) : R := sqrt ((e - 1) / (e + 1)).
Lemma hk_pos e : 1 < e -> 0 < hk e /\ hk e * hk e = (e - 1) / (e + 1).
Proof. intros. apply sq_pos. apply Rdiv_lt_0_compat; lra. Qed.
Lemma E_to_T_hyp eps E e : 1 < e -> E_to_T eps E e = Ok (2 * atan (sinh (E / 2) / cosh (E / 2) / hk e)).
Proof.
  intros H. unfold E_to_T. rewrite by_ecc_hyp by auto.
  replace (E * 0.5) with (E / 2) by lra. replace (0.5 * E) with (E / 2) by lra.
  pose proof (cosh_pos (E / 2)) as C. destruct (sq_pos (e - 1)) as (S1 & S2); [lra|]. destruct (sq_pos (e + 1)) as (S3 & S4); [lra|].
  unfold atan2. destruct (Rlt_dec 0 (sqrt (e - 1) * cosh (E / 2))) as [P|P]; [|exfalso; apply P; nra].
  do 3 f_equal. unfold hk. rewrite sqrt_div by lra. rewrite (Rplus_comm 1 e). field. repeat split; lra.
Qed.
Lemma T_to_E_hyp eps T e : 1 < e -> T_to_E eps T e =
  (let x := hk e * tan (T / 2) in if Rle_dec x 1 then (if Rle_dec (-1) x then Ok (2 * atanh x) else Abort) else Abort).
Proof. intros H. unfold T_to_E. rewrite by_ecc_hyp by auto. replace (0.5 * T) with (T / 2) by lra. auto. Qed.
Lemma cos_half_pos T : - PI < T < PI -> 0 < cos (T / 2).
Proof. intros. apply cos_gt_0; lra. Qed.
Lemma tan_sec T : - PI < T < PI -> 1 + tan (T/2) * tan (T/2) = / (cos (T/2) * cos (T/2)).
Proof.
  intros H. pose proof (cos_half_pos T H) as C. pose proof (sc2 (T/2)) as S. unfold tan.
  apply Rmult_eq_reg_r with (cos (T/2) * cos (T/2)); [|nra]. rewrite Rinv_l by nra. transitivity (cos (T/2) * cos (T/2) * 1 + sin (T / 2) * sin (T / 2)); [field; lra|lra].
Qed.
Lemma cos_tan T : - PI < T < PI -> cos T = (1 - tan (T/2) * tan (T/2)) / (1 + tan (T/2) * tan (T/2)).
Proof.
  intros H. pose proof (cos_half_pos T H) as C. rewrite tan_sec by auto. rewrite (cos_half T). unfold tan. field. lra.
Qed.
Lemma sin_tan T : - PI < T < PI -> sin T = 2 * tan (T/2) / (1 + tan (T/2) * tan (T/2)).
Proof.
  intros H. pose proof (cos_half_pos T H) as C. rewrite tan_sec by auto. rewrite (sin_half T). unfold tan. field. lra.
Qed.
(** 1 + e cos T has the sign of 1 - (hk tan(T/2))^2. *)
Lemma asym e T : 1 < e -> - PI < T < PI ->
  let x := hk e * tan (T/2) in 1 + e * cos T = (1 + e) * (1 - x * x) / (1 + tan (T/2) * tan (T/2)).
Proof.
  intros H HT x. rewrite cos_tan by auto. destruct (hk_pos e H) as (_ & K).
  set (t := tan (T/2)) in *. assert (0 < 1 + t * t) by nra.
  replace (x * x) with (hk e * hk e * (t * t)) by (unfold x; ring). rewrite K. field. split; lra.
Qed.
