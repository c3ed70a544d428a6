(** C42 (anomaly conversions) and C64 (time to periapsis, period). *)
From Verif Require Import Orbit_Model Orbit_Spec Orbit_Proofs Orbit_Proofs2 Bisect_Proofs Anom_Proofs Anom_Proofs2.
From Coq Require Import Lra.
Open Scope R_scope.

(** * C42 *)
(** Eccentric to true anomaly on an ellipse: the textbook relations, for every E. *)
Theorem C42_ellipse_E_to_T eps E e : 0 <= e < 1 ->
  exists T, E_to_T eps E e = Ok T /\ - (2 * PI) < T <= 2 * PI /\
    cos T = (cos E - e) / (1 - e * cos E) /\ sin T = sqrt (1 - e * e) * sin E / (1 - e * cos E).
Proof.
  intros He. destruct (sq_pos (1 + e)) as (A & A2); [lra|]. destruct (sq_pos (1 - e)) as (B & B2); [lra|].
  rewrite E_to_T_ell by auto. eexists; split; [reflexivity|]. split; [apply hmap_range; auto|].
  destruct (hmap_cs (sqrt (1 + e)) (sqrt (1 - e)) E A B) as (D & C & S). pose proof (p_ell e E He).
  rewrite C, S, A2, B2, <- sqrt_prod by auto. split; field; split; lra.
Qed.
(** True to eccentric anomaly on an ellipse. *)
Theorem C42_ellipse_T_to_E eps T e : 0 <= e < 1 ->
  exists E, T_to_E eps T e = Ok E /\ - (2 * PI) < E <= 2 * PI /\
    cos E = (e + cos T) / (1 + e * cos T) /\ sin E = sqrt (1 - e * e) * sin T / (1 + e * cos T).
Proof.
  intros He. destruct (sq_pos (1 + e)) as (A & A2); [lra|]. destruct (sq_pos (1 - e)) as (B & B2); [lra|].
  rewrite T_to_E_ell by auto. eexists; split; [reflexivity|]. split; [apply hmap_range; auto|].
  destruct (hmap_cs (sqrt (1 - e)) (sqrt (1 + e)) T B A) as (D & C & S).
  assert (0 < 1 + e * cos T) by (pose proof (COS_bound T); nra).
  rewrite C, S, A2, B2, <- sqrt_prod by auto. split; field; split; lra.
Qed.
(** They invert each other on (-2pi, 2pi], in particular on (-pi, pi]. *)
Theorem C42_ellipse_inverse eps x e : 0 <= e < 1 -> - (2 * PI) < x <= 2 * PI ->
  obind (E_to_T eps x e) (fun T => T_to_E eps T e) = Ok x /\
  obind (T_to_E eps x e) (fun E => E_to_T eps E e) = Ok x.
Proof.
  intros He Hx. destruct (sq_pos (1 + e)) as (A & _); [lra|]. destruct (sq_pos (1 - e)) as (B & _); [lra|].
  rewrite E_to_T_ell, T_to_E_ell by auto. simpl. rewrite E_to_T_ell, T_to_E_ell by auto.
  rewrite !hmap_inv by auto. auto.
Qed.
(** Both map (-pi,pi) into itself, with the sign kept. *)
Theorem C42_ellipse_range eps x e : 0 <= e < 1 -> - PI < x < PI ->
  exists y, T_to_E eps x e = Ok y /\ - PI < y < PI /\ (0 < x <-> 0 < y) /\ (x = 0 <-> y = 0).
Proof.
  intros He Hx. rewrite T_to_E_atan by auto. eexists; split; [reflexivity|]. unfold ellE.
  destruct (ek_pos e He) as (K & _). pose proof (atan_bound (ek e * tan (x / 2))). split; [lra|].
  assert (TI : forall a, (0 < a -> a < PI -> 0 < tan (a / 2))).
  { intros a H0 H1. apply tan_gt_0; lra. }
  assert (P : 0 < x -> 0 < atan (ek e * tan (x / 2))).
  { intros P. rewrite <- atan_0. apply atan_increasing. apply Rmult_lt_0_compat; auto. apply TI; lra. }
  assert (N : x < 0 -> atan (ek e * tan (x / 2)) < 0).
  { intros N. rewrite <- atan_0. apply atan_increasing. replace (x / 2) with (- (- x / 2)) by field. rewrite tan_neg.
    assert (0 < tan (- x / 2)) by (apply TI; lra). nra. }
  assert (Z : x = 0 -> atan (ek e * tan (x / 2)) = 0).
  { intros ->. replace (0 / 2) with 0 by field. rewrite tan_0, Rmult_0_r. apply atan_0. }
  destruct (Rtotal_order x 0) as [L|[L|L]]; [specialize (N L)|specialize (Z L)|specialize (P L)]; split; split; intros; lra.
Qed.

(** Hyperbola: every eccentric anomaly has a true anomaly strictly between the asymptotes, and back. *)
Theorem C42_hyperbola_E_to_T eps E e : 1 < e ->
  exists T, E_to_T eps E e = Ok T /\ - PI < T < PI /\ 0 < 1 + e * cos T /\
    cos T = (e - cosh E) / (e * cosh E - 1) /\ sin T = sqrt (e * e - 1) * sinh E / (e * cosh E - 1) /\
    T_to_E eps T e = Ok E.
Proof.
  intros He. rewrite E_to_T_hyp by auto. eexists; split; [reflexivity|].
  destruct (hk_pos e He) as (K0 & K). set (w := sinh (E/2) / cosh (E/2)). set (k := hk e) in *.
  pose proof (tanh_bound (E/2)) as W. fold w in W.
  pose proof (atan_bound (w / k)) as B. assert (HT : - PI < 2 * atan (w / k) < PI) by lra. split; auto.
  assert (TT : tan (2 * atan (w / k) / 2) = w / k) by (replace (2 * atan (w / k) / 2) with (atan (w / k)) by field; apply tan_atan).
  assert (KW : k * tan (2 * atan (w / k) / 2) = w) by (rewrite TT; field; lra).
  assert (A : 0 < 1 + e * cos (2 * atan (w / k))) by (apply asym_iff; auto; fold k; rewrite KW; auto).
  split; auto. pose proof (p_hyp e E He) as PH.
  pose proof (cosh_pos (E/2)) as C0. pose proof (ch_sh (E/2)) as CS.
  assert (CE : cosh E = (1 + w * w) / (1 - w * w) /\ sinh E = 2 * w / (1 - w * w)).
  { pose proof (cosh_2atanh w W) as Q. unfold w in Q. rewrite atanh_tanh in Q. replace (2 * (E / 2)) with E in Q by field. exact Q. }
  destruct CE as (CE & SE).
  assert (W2 : 0 < 1 - w * w) by nra. assert (E1 : 0 < (e - 1) / (e + 1)) by (apply Rdiv_lt_0_compat; lra).
  assert (KK : w / k * (w / k) = w * w * ((e + 1) / (e - 1))).
  { replace (w / k * (w / k)) with (w * w / (k * k)) by (field; lra). rewrite K. field. lra. }
  assert (D1 : e * ((1 + w * w) / (1 - w * w)) - 1 = (e - 1 + (e + 1) * (w * w)) / (1 - w * w)) by (field; lra).
  assert (0 < e - 1 + (e + 1) * (w * w)) by nra.
  split; [|split].
  - rewrite cos_tan, TT, KK, CE, D1 by auto. field. repeat split; try lra; nra.
  - rewrite sin_tan, TT, KK, CE, SE, D1 by auto.
    assert (SQ : sqrt (e * e - 1) = (e - 1) / k).
    { apply sq_eq; [apply sqrt_pos|apply Rlt_le, Rdiv_lt_0_compat; lra|]. rewrite sqrt_sqrt by nra.
      replace ((e - 1) / k * ((e - 1) / k)) with ((e - 1) * (e - 1) / (k * k)) by (field; lra). rewrite K. field. lra. }
    rewrite SQ. field. repeat split; try lra; nra.
  - rewrite T_to_E_in by auto. unfold hypE. fold k. rewrite KW. f_equal. unfold w. rewrite atanh_tanh. field.
Qed.
(** Between the asymptotes true->eccentric->true is the identity; outside them the conversion aborts. *)
Theorem C42_hyperbola_T_to_E eps T e : 1 < e -> - PI < T < PI ->
  (0 < 1 + e * cos T -> exists E, T_to_E eps T e = Ok E /\ E_to_T eps E e = Ok T) /\
  (1 + e * cos T < 0 -> T_to_E eps T e = Abort).
Proof.
  intros He HT. split; [|apply T_to_E_out; auto]. intros A. exists (hypE e T). split; [apply T_to_E_in; auto|].
  rewrite E_to_T_hyp by auto. destruct (hk_pos e He) as (K0 & K). apply asym_iff in A; auto.
  unfold hypE. replace (2 * atanh (hk e * tan (T / 2)) / 2) with (atanh (hk e * tan (T / 2))) by field.
  rewrite tanh_atanh by auto. replace (hk e * tan (T / 2) / hk e) with (tan (T / 2)) by (field; lra).
  rewrite atan_tan by lra. f_equal. field.
Qed.
(** Parabola. *)
Theorem C42_parabola eps : 0 < eps ->
  (forall E, exists T, E_to_T eps E 1 = Ok T /\ - PI < T < PI /\ T_to_E eps T 1 = Ok E) /\
  (forall T, - PI < T < PI -> exists E, T_to_E eps T 1 = Ok E /\ E_to_T eps E 1 = Ok T).
Proof.
  intros He. unfold E_to_T, T_to_E. split.
  - intros E. rewrite by_ecc_par by auto. eexists; split; [reflexivity|]. pose proof (atan_bound E). split; [lra|].
    rewrite by_ecc_par by auto. replace (0.5 * (2 * atan E)) with (atan E) by lra. rewrite tan_atan. auto.
  - intros T HT. rewrite by_ecc_par by auto. eexists; split; [reflexivity|]. rewrite by_ecc_par by auto.
    rewrite atan_tan by lra. f_equal. lra.
Qed.

(** Kepler's equation, ellipse, mean anomaly in [-pi,pi]: the call returns, and what it returns is within relative
    distance eps of the one solution (within eps/(1-e) when it takes the shortcut for |M| <= eps). *)
Theorem C42_kepler_ellipse eps M e : 0 < eps <= 1 -> 0 <= e < 1 -> Rabs M <= PI ->
  exists E r, E - e * sin E = M /\ - PI <= E <= PI /\ (forall E', E' - e * sin E' = M -> E' = E) /\
    (forall res, M_to_E eps M e res <-> res = Ok r) /\
    Rabs (r - E) <= (if Rle_dec (Rabs M) eps then eps / (1 - e) else eps * Rabs r).
Proof.
  intros Heps He HM. pose proof PIp as PP.
  assert (F0 : 0 - e * sin 0 = 0) by (rewrite sin_0; ring).
  assert (FP : PI - e * sin PI = PI) by (rewrite sin_PI; ring).
  assert (FN : - PI - e * sin (- PI) = - PI) by (rewrite sin_neg, sin_PI; ring).
  assert (MB : - PI <= M <= PI) by (revert HM; unfold Rabs; destruct (Rcase_abs M); lra).
  assert (Uniq : forall r, M_to_E eps M e (Ok r) -> forall res, M_to_E eps M e res <-> res = Ok r).
  { intros r H res. split; [intros; eapply M_to_E_det; eauto|intros ->; auto]. }
  destruct (Req_dec M 0) as [Z|NZ].
  - exists 0, 0. subst M. rewrite Rabs_R0 in *.
    split; [auto|]. split; [lra|]. split.
    { intros E' H. apply (F_inj (fun x => x - e * sin x) (fun x => 1 - e * cos x)); [apply d_ell|intros; apply p_ell; auto|lra]. }
    split; [apply Uniq, M_to_E_small; rewrite Rabs_R0; lra|].
    destruct (Rle_dec 0 eps); [|lra]. rewrite Rminus_0_r, Rabs_R0. apply Rlt_le, Rdiv_lt_0_compat; lra.
  - destruct (mono_solve (fun x => x - e * sin x) (fun x => 1 - e * cos x) (d_ell e) (fun x => p_ell e x He) F0 M eps) as
      (E & r & Q & QR & QU & BR & D); auto; [lra|].
    destruct (Rle_dec (Rabs M) eps) as [S|S].
    + exists E, 0. split; [auto|]. split; [auto|]. split; [auto|]. split; [apply Uniq, M_to_E_small; auto|].
      rewrite Rminus_0_l, Rabs_Ropp. pose proof (small_M e M E He Q).
      apply Rmult_le_reg_r with (1 - e); [lra|]. unfold Rdiv. rewrite Rmult_assoc, Rinv_l by lra. lra.
    + exists E, r. split; [auto|]. split; [auto|]. split; [auto|]. split; [|auto]. apply Uniq.
      unfold M_to_E. destruct (Rle_dec (Rabs M) eps); [contradiction|]. rewrite by_ecc_ell by auto. exists r; auto.
Qed.
(** Hence mean and eccentric anomaly conversions invert each other up to that tolerance. *)
Theorem C42_mean_inverse eps E e : 0 < eps <= 1 -> 0 <= e < 1 -> - PI <= E <= PI ->
  exists M r, E_to_M eps E e = Ok M /\ Rabs M <= PI /\ M_to_E eps M e (Ok r) /\
    Rabs (r - E) <= (if Rle_dec (Rabs M) eps then eps / (1 - e) else eps * Rabs r).
Proof.
  intros Heps He HE. pose proof PIp as PP. exists (E - e * sin E).
  assert (B : Rabs (E - e * sin E) <= PI).
  { pose proof (F_le (fun x => x - e * sin x) (fun x => 1 - e * cos x) (d_ell e) (fun x => p_ell e x He) E PI) as U.
    pose proof (F_le (fun x => x - e * sin x) (fun x => 1 - e * cos x) (d_ell e) (fun x => p_ell e x He) (- PI) E) as L.
    cbv beta in U, L. rewrite sin_PI in U. rewrite sin_neg, sin_PI in L. apply Rabs_le. lra. }
  destruct (C42_kepler_ellipse eps (E - e * sin E) e Heps He B) as (E' & r & Q & QR & QU & MR & D).
  exists r. split; [unfold E_to_M; rewrite by_ecc_ell by auto; auto|]. split; auto. split; [apply MR; auto|].
  rewrite <- (QU E eq_refl) in D. exact D.
Qed.
(** A mean anomaly outside [-pi,pi] is not reduced: whatever it is, the answer is (within relative eps) -pi. *)
Theorem C42_unreduced_mean_anomaly_refuted eps M e : 0 < eps <= 1 -> 0 <= e < 1 -> PI < Rabs M ->
  exists r, (forall res, M_to_E eps M e res <-> res = Ok r) /\ Rabs (r - - PI) <= eps * Rabs r.
Proof.
  intros Heps He HM. pose proof PIp as PP.
  assert (FP : PI - e * sin PI = PI) by (rewrite sin_PI; ring).
  assert (FN : - PI - e * sin (- PI) = - PI) by (rewrite sin_neg, sin_PI; ring).
  destruct (mono_outside (fun x => x - e * sin x) (fun x => 1 - e * cos x) (d_ell e) (fun x => p_ell e x He) M eps) as (r & B & D); auto.
  { rewrite FP, FN. revert HM; unfold Rabs; destruct (Rcase_abs M); lra. }
  exists r. split; auto.
  assert (H : M_to_E eps M e (Ok r)).
  { unfold M_to_E. pose proof PI2_3_2. destruct (Rle_dec (Rabs M) eps); [lra|]. rewrite by_ecc_ell by auto. exists r; auto. }
  intros res. split; [intros; eapply M_to_E_det; eauto|intros ->; auto].
Qed.
(** Hyperbola: solved for |M| <= e sinh(pi) - pi; beyond that the answer is again -pi. *)
Theorem C42_kepler_hyperbola eps M e : 0 < eps <= 1 -> 1 < e -> eps < Rabs M ->
  (Rabs M <= e * sinh PI - PI -> exists E r, e * sinh E - E = M /\ - PI <= E <= PI /\ (forall E', e * sinh E' - E' = M -> E' = E) /\
     (forall res, M_to_E eps M e res <-> res = Ok r) /\ Rabs (r - E) <= eps * Rabs r) /\
  (e * sinh PI - PI < Rabs M -> exists r, (forall res, M_to_E eps M e res <-> res = Ok r) /\ Rabs (r - - PI) <= eps * Rabs r).
Proof.
  intros Heps He HM. pose proof PIp as PP.
  assert (F0 : e * sinh 0 - 0 = 0) by (rewrite sinh_0; ring).
  assert (FN : e * sinh (- PI) - - PI = - (e * sinh PI - PI)) by (rewrite sinh_odd; ring).
  assert (H : forall r, bisection eps (fun x => e * sinh x - x - M) (- PI) PI r -> forall res, M_to_E eps M e res <-> res = Ok r).
  { intros r B. assert (H : M_to_E eps M e (Ok r)).
    { unfold M_to_E. destruct (Rle_dec (Rabs M) eps); [lra|]. rewrite by_ecc_hyp by auto. exists r; auto. }
    intros res. split; [intros; eapply M_to_E_det; eauto|intros ->; auto]. }
  split; intros B.
  - assert (NZ : M <> 0) by (intros ->; rewrite Rabs_R0 in HM; lra).
    destruct (mono_solve (fun x => e * sinh x - x) (fun x => e * cosh x - 1) (d_hyp e) (fun x => p_hyp e x He) F0 M eps) as
      (E & r & Q & QR & QU & BR & D); auto.
    { rewrite FN. revert B; unfold Rabs; destruct (Rcase_abs M); lra. }
    exists E, r. split; auto. 
  - destruct (mono_outside (fun x => e * sinh x - x) (fun x => e * cosh x - 1) (d_hyp e) (fun x => p_hyp e x He) M eps) as (r & Br & D); auto.
    { rewrite FN. revert B; unfold Rabs; destruct (Rcase_abs M); lra. }
    exists r. auto.
Qed.
(** Parabola (Barker's equation): solved for |M| <= pi + pi^3/3, -pi beyond. *)
Theorem C42_kepler_parabola eps M : 0 < eps <= 1 -> eps < Rabs M ->
  (Rabs M <= PI + PI * PI * PI / 3 -> exists E r, E + E * E * E / 3 = M /\ - PI <= E <= PI /\ (forall E', E' + E' * E' * E' / 3 = M -> E' = E) /\
     (forall res, M_to_E eps M 1 res <-> res = Ok r) /\ Rabs (r - E) <= eps * Rabs r) /\
  (PI + PI * PI * PI / 3 < Rabs M -> exists r, (forall res, M_to_E eps M 1 res <-> res = Ok r) /\ Rabs (r - - PI) <= eps * Rabs r).
Proof.
  intros Heps HM. pose proof PIp as PP.
  assert (F0 : 0 + 0 * 0 * 0 / 3 = 0) by field.
  assert (FN : - PI + - PI * - PI * - PI / 3 = - (PI + PI * PI * PI / 3)) by field.
  assert (H : forall r, bisection eps (fun x => x + x * x * x / 3 - M) (- PI) PI r -> forall res, M_to_E eps M 1 res <-> res = Ok r).
  { intros r B. assert (H : M_to_E eps M 1 (Ok r)).
    { unfold M_to_E. destruct (Rle_dec (Rabs M) eps); [lra|]. rewrite by_ecc_par by lra. exists r; auto. }
    intros res. split; [intros; eapply M_to_E_det; eauto|intros ->; auto]. }
  split; intros B.
  - assert (NZ : M <> 0) by (intros ->; rewrite Rabs_R0 in HM; lra).
    destruct (mono_solve (fun x => x + x * x * x / 3) (fun x => 1 + x * x) d_par p_par F0 M eps) as
      (E & r & Q & QR & QU & BR & D); auto.
    { rewrite FN. revert B; unfold Rabs; destruct (Rcase_abs M); lra. }
    exists E, r. split; auto. 
  - destruct (mono_outside (fun x => x + x * x * x / 3) (fun x => 1 + x * x) d_par p_par M eps) as (r & Br & D); auto.
    { rewrite FN. revert B; unfold Rabs; destruct (Rcase_abs M); lra. }
    exists r. auto.
Qed.
(** Classification is total and exclusive; negative eccentricities are rejected by every conversion. *)
Theorem C42_classify eps e : 0 < eps <= 1 ->
  (classify_orbit eps e = Ellipse <-> 0 <= e < 1) /\ (classify_orbit eps e = Parabola <-> e = 1) /\
  (classify_orbit eps e = Hyperbola <-> 1 < e) /\ (classify_orbit eps e = NoOrbit <-> e < 0) /\
  (e < 0 -> forall x, E_to_T eps x e = Abort /\ T_to_E eps x e = Abort /\ E_to_M eps x e = Abort /\ T_to_M eps x e = Abort /\
            (eps < Rabs x -> M_to_E eps x e Abort)).
Proof.
  intros He. unfold classify_orbit.
  assert (C : e < 0 \/ 0 <= e < 1 \/ e = 1 \/ 1 < e) by lra.
  destruct C as [C|[C|[C|C]]].
  - rewrite by_ecc_bad by lra. repeat split; try discriminate; try lra; auto; intros;
      unfold E_to_T, T_to_E, E_to_M, T_to_M, M_to_E; try (rewrite by_ecc_bad by lra; reflexivity).
    + unfold T_to_E. rewrite by_ecc_bad by lra. auto.
    + destruct (Rle_dec (Rabs x) eps); [lra|]. rewrite by_ecc_bad by lra. auto.
  - rewrite by_ecc_ell by lra. repeat split; try discriminate; try lra; intros; exfalso; lra.
  - subst e. rewrite by_ecc_par by lra. repeat split; try discriminate; try lra; intros; exfalso; lra.
  - rewrite by_ecc_hyp by lra. repeat split; try discriminate; try lra; intros; exfalso; lra.
Qed.
(** A random anomaly (mean anomaly drawn from [-pi,pi]) is always found for an ellipse, and refused for other types. *)
Theorem C42_shuffle eps M o : 0 < eps <= 1 -> Rabs M <= PI ->
  (o_type o = Ellipse -> 0 <= o_e o < 1 -> exists nu, shuffle_nu eps M o (Ok (mkO (o_m1 o) (o_m2 o) (o_p o) (o_e o) (o_i o) (o_Om o) (o_om o) nu Ellipse))) /\
  (o_type o <> Ellipse -> forall res, shuffle_nu eps M o res <-> res = Abort).
Proof.
  intros He HM. split.
  - intros T E. destruct (C42_kepler_ellipse eps M (o_e o) He E HM) as (E' & r & _ & _ & _ & MR & _).
    destruct (C42_ellipse_E_to_T eps r (o_e o) E) as (nu & EN & _).
    exists nu. unfold shuffle_nu. rewrite T. exists (Ok r). split; [apply MR; auto|]. simpl. rewrite EN. auto.
  - intros N res. unfold shuffle_nu. destruct (o_type o); try contradiction; split; auto.
Qed.
Example C42_case : exists r, M_to_E (1/1000) (PI / 2 - 1 / 2) (1 / 2) (Ok r) /\ Rabs (r - PI / 2) <= Rabs r / 1000.
Proof.
  pose proof PI2_3_2 as P. unfold PI2 in P.
  destruct (C42_mean_inverse (1/1000) (PI / 2) (1 / 2)) as (M & r & EM & B & MR & D); try lra.
  unfold E_to_M in EM. rewrite by_ecc_ell in EM by lra. rewrite sin_PI2 in EM. injection EM as <-.
  replace (PI / 2 - 1 / 2 * 1) with (PI / 2 - 1 / 2) in * by ring.
  exists r. split; auto. destruct (Rle_dec (Rabs (PI / 2 - 1 / 2)) (1 / 1000)) as [S|S]; [|lra].
  rewrite Rabs_right in S by lra. lra.
Qed.
Print Assumptions C42_ellipse_E_to_T.
Print Assumptions C42_ellipse_T_to_E.
Print Assumptions C42_ellipse_inverse.
Print Assumptions C42_ellipse_range.
Print Assumptions C42_hyperbola_E_to_T.
Print Assumptions C42_hyperbola_T_to_E.
Print Assumptions C42_parabola.
Print Assumptions C42_kepler_ellipse.
Print Assumptions C42_mean_inverse.
Print Assumptions C42_unreduced_mean_anomaly_refuted.
Print Assumptions C42_kepler_hyperbola.
Print Assumptions C42_kepler_parabola.
Print Assumptions C42_classify.
Print Assumptions C42_shuffle.

(** * C64 *)
(** The orbit with another true anomaly. *)
Definition at_nu (o : orbit) (nu : R) : orbit := mkO (o_m1 o) (o_m2 o) (o_p o) (o_e o) (o_i o) (o_Om o) (o_om o) nu (o_type o).
(** Kepler's second law: the time spent per true anomaly is r^2/|L|, r and L read from the coordinates of the orbit. *)
Definition sweep_rate (o : orbit) (nu : R) : R :=
  let '(pos, vel) := orbit_to_coord (at_nu o nu) in norm2 pos / norm (cross pos vel).
Lemma sweep_val o nu : good (at_nu o nu) -> let r := o_p o / (1 + o_e o * cos nu) in
  sweep_rate o nu = r * r / sqrt ((o_m1 o + o_m2 o) * o_p o).
Proof.
  intros G r. unfold sweep_rate. rewrite (surjective_pairing (orbit_to_coord (at_nu o nu))). cbv beta iota.
  rewrite <- norm_sq, o2c_pos_norm by auto. unfold oR. cbn [at_nu o_p o_e o_nu]. fold r.
  f_equal. f_equal. rewrite o2c_cross, norm_vscal, normal_norm, pV by auto. rewrite Rabs_right by (apply Rle_ge, sqrt_pos).
  rewrite Rmult_1_r. f_equal. unfold oU, Gc. simpl. ring.
Qed.
(** Ellipse: the function is the time since periapsis. *)
Theorem C64_ellipse eps o : 0 < eps -> 0 < o_m1 o + o_m2 o -> 0 < o_p o -> 0 <= o_e o < 1 -> o_type o = Ellipse ->
  exists t : R -> R, t 0 = 0 /\ (forall nu, - PI < nu < PI -> time_to_periapsis_orbit eps (at_nu o nu) = Ok (t nu) /\
    derivable_pt_lim t nu (sweep_rate o nu)).
Proof.
  intros Heps Hu Hp He Ht. exists (ell_time (o_m1 o + o_m2 o) (o_p o) (o_e o)). split.
  - unfold ell_time, ellE. replace (0 / 2) with 0 by field. rewrite tan_0, Rmult_0_r, atan_0, Rmult_0_r, sin_0. ring.
  - intros nu Hn. split.
    + unfold time_to_periapsis_orbit. cbn [at_nu o_nu o_e o_type o_p o_m1 o_m2]. rewrite T_to_E_atan by auto. cbn [obind].
      unfold E_to_M. rewrite by_ecc_ell by auto. cbn [obind]. rewrite Ht. unfold ell_time, Gc. rewrite Rmult_1_l. auto.
    + rewrite sweep_val; [apply d_ell_time; auto|]. pose proof (COS_bound nu). repeat split; cbn [at_nu o_nu o_e o_type o_p o_m1 o_m2]; auto; try lra; nra.
Qed.
(** Hyperbola and parabola: minus the time since periapsis, i.e. the time until periapsis. *)
Theorem C64_hyperbola eps o : 0 < eps -> 0 < o_m1 o + o_m2 o -> 0 < o_p o -> 1 < o_e o -> o_type o = Hyperbola ->
  exists t : R -> R, t 0 = 0 /\ (forall nu, - PI < nu < PI -> 0 < 1 + o_e o * cos nu ->
    time_to_periapsis_orbit eps (at_nu o nu) = Ok (- t nu) /\ derivable_pt_lim t nu (sweep_rate o nu)).
Proof.
  intros Heps Hu Hp He Ht. exists (hyp_time (o_m1 o + o_m2 o) (o_p o) (o_e o)). split.
  - unfold hyp_time, hypE. replace (0 / 2) with 0 by field. rewrite tan_0, Rmult_0_r.
    replace (2 * atanh 0) with 0; [rewrite sinh_0; ring|]. unfold atanh. replace ((1 + 0) / (1 - 0)) with 1 by field. rewrite ln_1. ring.
  - intros nu Hn HA. split.
    + unfold time_to_periapsis_orbit. cbn [at_nu o_nu o_e o_type o_p o_m1 o_m2]. rewrite T_to_E_in by auto. cbn [obind].
      unfold E_to_M. rewrite by_ecc_hyp by auto. cbn [obind]. rewrite Ht. unfold hyp_time, Gc. rewrite Rmult_1_l. f_equal. ring.
    + rewrite sweep_val; [apply d_hyp_time; auto|]. repeat split; cbn [at_nu o_nu o_e o_type o_p o_m1 o_m2]; auto; lra.
Qed.
Theorem C64_parabola eps o : 0 < eps -> 0 < o_m1 o + o_m2 o -> 0 < o_p o -> o_e o = 1 -> o_type o = Parabola ->
  exists t : R -> R, t 0 = 0 /\ (forall nu, - PI < nu < PI ->
    time_to_periapsis_orbit eps (at_nu o nu) = Ok (- t nu) /\ derivable_pt_lim t nu (sweep_rate o nu)).
Proof.
  intros Heps Hu Hp He Ht. exists (par_time (o_m1 o + o_m2 o) (o_p o)). split.
  - unfold par_time. replace (0 / 2) with 0 by field. rewrite tan_0. field.
  - intros nu Hn. split.
    + unfold time_to_periapsis_orbit. cbn [at_nu o_nu o_e o_type o_p o_m1 o_m2]. unfold T_to_E, E_to_M. rewrite He, !by_ecc_par by auto. cbn [obind].
      rewrite by_ecc_par by auto. cbn [obind]. rewrite Ht. unfold par_time, Gc. rewrite Rmult_1_l. replace (0.5 * nu) with (nu / 2) by lra. f_equal. lra.
    + assert (0 < 1 + cos nu).
      { rewrite cos_tan by auto. set (q := tan (nu / 2)). assert (0 < 1 + q * q) by nra.
        replace (1 + (1 - q * q) / (1 + q * q)) with (2 / (1 + q * q)) by (field; lra). apply Rdiv_lt_0_compat; lra. }
      rewrite sweep_val; [rewrite He; apply d_par_time; auto|]. repeat split; cbn [at_nu o_nu o_e o_type o_p o_m1 o_m2]; auto; try lra. rewrite He; lra.
Qed.
(** The overload taking the orbit type has the sign of time since periapsis for all three types, so the two overloads
    disagree in sign on unbound orbits. *)
Theorem C64_overloads eps o M : 0 < o_m1 o + o_m2 o -> T_to_M eps (o_nu o) (o_e o) = Ok M ->
  let u := o_m1 o + o_m2 o in
  (o_type o = Ellipse -> time_to_periapsis_orbit eps o = Ok (time_to_periapsis Ellipse u (o_p o / (1 - o_e o * o_e o)) M)) /\
  (o_type o = Parabola -> time_to_periapsis_orbit eps o = Ok (- time_to_periapsis Parabola u (o_p o) M)) /\
  (o_type o = Hyperbola -> time_to_periapsis_orbit eps o = Ok (- time_to_periapsis Hyperbola u (o_p o / (1 - o_e o * o_e o)) M)).
Proof.
  intros Hu HM u. unfold time_to_periapsis_orbit, T_to_M in *. rewrite HM. cbn [obind].
  split; [|split]; intros ->; unfold time_to_periapsis, Gc; rewrite Rmult_1_l; fold u; f_equal; lra.
Qed.
(** Half a revolution takes half the period, and the period obeys Kepler's third law; unbound orbits are refused. *)
Theorem C64_period o : 0 < o_m1 o + o_m2 o -> 0 < o_p o -> 0 <= o_e o ->
  let a := o_p o / (1 - o_e o * o_e o) in
  (o_e o < 1 -> exists P, period_orbit o = Ok P /\ 0 < P /\ P * P * (o_m1 o + o_m2 o) = 4 * PI * PI * (a * a * a) /\
     forall eps, o_type o = Ellipse -> time_to_periapsis_orbit eps (at_nu o PI) = Ok (P / 2)) /\
  (1 < o_e o -> period_orbit o = Abort).
Proof.
  intros Hu Hp He a. unfold period_orbit, period. fold a. split; intros E.
  - assert (Ha : 0 < a) by (apply Rdiv_lt_0_compat; nra).
    destruct (Rlt_dec 0 a); [|contradiction]. eexists; split; [reflexivity|].
    assert (P1 : 0 < a * a * a / ((o_m1 o + o_m2 o) * Gc)).
    { unfold Gc. apply Rdiv_lt_0_compat; [|lra]. apply Rmult_lt_0_compat; [apply Rmult_lt_0_compat|]; auto. }
    destruct (sq_pos _ P1) as (S0 & S1). set (S := sqrt (a * a * a / ((o_m1 o + o_m2 o) * Gc))) in *. pose proof PIp.
    split; [|split].
    + apply Rmult_lt_0_compat; auto. lra.
    + replace (2 * PI * S * (2 * PI * S) * (o_m1 o + o_m2 o)) with (4 * PI * PI * (S * S) * (o_m1 o + o_m2 o)) by ring.
      rewrite S1. unfold Gc. field. lra.
    + intros eps Ht. unfold time_to_periapsis_orbit. cbn [at_nu o_nu o_e o_type o_p o_m1 o_m2].
      rewrite T_to_E_ell by lra.
      assert (HP : hmap (sqrt (1 - o_e o)) (sqrt (1 + o_e o)) PI = PI).
      { unfold hmap. rewrite sin_PI2, cos_PI2, Rmult_0_r, Rmult_1_r. unfold atan2.
        destruct (sq_pos (1 - o_e o)) as (Q & _); [lra|].
        destruct (Rlt_dec 0 0); [lra|]. destruct (Rlt_dec 0 (sqrt (1 - o_e o))); [|contradiction]. field. }
      rewrite HP. cbn [obind]. unfold E_to_M. rewrite by_ecc_ell by lra. cbn [obind]. rewrite Ht, sin_PI. fold a.
      unfold S. replace (Gc * (o_m1 o + o_m2 o)) with ((o_m1 o + o_m2 o) * Gc) by ring. f_equal. field.
  - destruct (Rlt_dec 0 a) as [Ha|]; auto. exfalso. unfold a in Ha.
    replace (o_p o / (1 - o_e o * o_e o)) with (- (o_p o / (o_e o * o_e o - 1))) in Ha by (field; split; nra).
    assert (0 < o_p o / (o_e o * o_e o - 1)) by (apply Rdiv_lt_0_compat; nra). lra.
Qed.
(** The sign disagreement between bound and unbound orbits on a concrete pair: shortly after periapsis both
    functions have moved away from 0 in opposite directions. *)
Definition ex_ell : orbit := mkO 1 1 1 (1 / 2) 0 0 0 0 Ellipse.
Definition ex_hyp : orbit := mkO 1 1 1 2 0 0 0 0 Hyperbola.
Example C64_case : exists te th, (forall nu, - PI / 2 < nu < PI / 2 -> time_to_periapsis_orbit (1/1000) (at_nu ex_ell nu) = Ok (te nu)) /\
  (forall nu, - PI / 2 < nu < PI / 2 -> time_to_periapsis_orbit (1/1000) (at_nu ex_hyp nu) = Ok (th nu)) /\
  exists de dh, derivable_pt_lim te 0 de /\ derivable_pt_lim th 0 dh /\ 0 < de /\ dh < 0.
Proof.
  pose proof PIp as PP.
  destruct (C64_ellipse (1/1000) ex_ell) as (te & _ & E); simpl; try lra; auto.
  destruct (C64_hyperbola (1/1000) ex_hyp) as (th & _ & H); simpl; try lra; auto.
  exists te, (fun x => - th x). split; [intros; apply E; lra|]. split.
  - intros nu Hn. apply H; [lra|]. simpl. assert (0 < cos nu) by (apply cos_gt_0; lra). lra.
  - exists (sweep_rate ex_ell 0), (- sweep_rate ex_hyp 0).
    destruct (E 0) as (_ & E2); [lra|]. destruct (H 0) as (_ & H2); [lra|simpl; rewrite cos_0; lra|].
    split; auto. split; [apply (derivable_pt_lim_opp th); auto|].
    rewrite !sweep_val by (repeat split; simpl; rewrite ?cos_0; lra). simpl. rewrite !cos_0.
    split; [|apply Ropp_lt_gt_0_contravar]; (apply Rdiv_lt_0_compat; [|apply sqrt_lt_R0; lra]); apply Rmult_lt_0_compat; apply Rdiv_lt_0_compat; lra.
Qed.
Print Assumptions C64_ellipse.
Print Assumptions C64_hyperbola.
Print Assumptions C64_parabola.
Print Assumptions C64_overloads.
Print Assumptions C64_period.
