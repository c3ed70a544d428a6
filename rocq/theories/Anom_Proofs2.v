(** Kepler's equation by bisection, and the times to periapsis. *)
From Verif Require Import Orbit_Model Orbit_Spec Orbit_Proofs Orbit_Proofs2 Bisect_Proofs Bisect_Props Anom_Proofs.
From Coq Require Import Lra.
Open Scope R_scope.

(** Bisection without a sign change still ends when the lower end is not 0. *)
Lemma nosign_terminates eps f l h : 0 < eps -> l <> 0 ->
  (forall x y, Rmin l h <= x <= Rmax l h -> Rmin l h <= y <= Rmax l h -> 0 < f x * f y) ->
  exists r, bisection eps f l h r.
Proof.
  intros He Hl P.
  set (d := Rabs l / 2 * Rmin 1 eps).
  assert (L0 : 0 < Rabs l) by (apply Rabs_pos_lt; auto).
  assert (M0 : 0 < Rmin 1 eps <= 1 /\ Rmin 1 eps <= eps) by (unfold Rmin; destruct (Rle_dec 1 eps); lra).
  assert (D : 0 < d) by (unfold d; nra).
  destruct (pow_shrinks (Rabs (h - l)) d D) as (n & Hn).
  destruct (bis_iter f n l h) as [a b] eqn:I.
  apply (bis_returns eps f n l h a b I).
  pose proof (bis_iter_nosign f n l h a b P I) as Ea. subst a.
  destruct (bis_iter_inv _ _ _ _ _ _ I) as (W & _).
  unfold bis_continue. intros C. rewrite W in C.
  assert (B : Rabs l / 2 <= Rabs b).
  { assert (Rabs (b - l) < d) by lra. assert (d <= Rabs l / 2) by (unfold d; nra).
    pose proof (Rabs_triang (l - b) b) as T. replace (l - b + b) with l in T by ring. rewrite (Rabs_minus_sym l b) in T. lra. }
  assert (Rabs (h - l) / 2 ^ n < Rabs b * eps); [|lra]. unfold d in Hn. nra.
Qed.

(** A strictly increasing anomaly equation F(x) = M on [-pi,pi]. *)
Section Mono.
Variables (F F' : R -> R).
Hypothesis dF : forall x, derivable_pt_lim F x (F' x).
Hypothesis pF : forall x, 0 < F' x.
Hypothesis F0 : F 0 = 0.

Lemma F_incr a b : a < b -> F a < F b.
Proof.
  intros L. destruct (MVT_cor2 F F' a b L (fun c _ => dF c)) as (c & E & _).
  pose proof (pF c). nra.
Qed.
Lemma F_inj a b : F a = F b -> a = b.
Proof. intros E. destruct (Rtotal_order a b) as [L|[L|L]]; auto; apply F_incr in L; lra. Qed.
Lemma F_le a b : a <= b -> F a <= F b.
Proof. intros [L| ->]; [left; apply F_incr; auto|right; auto]. Qed.

Variable (M : R).
Lemma g_cont x : continuity_pt (fun x => F x - M) x.
Proof.
  apply derivable_continuous_pt. exists (F' x). 
  replace (F' x) with (F' x - 0) by ring. apply derivable_pt_lim_minus; auto. apply derivable_pt_lim_const.
Qed.
Lemma minmaxPI : Rmin (- PI) PI = - PI /\ Rmax (- PI) PI = PI.
Proof. pose proof PIp. unfold Rmin, Rmax. destruct (Rle_dec (- PI) PI); lra. Qed.

Lemma mono_solve eps : 0 < eps <= 1 -> M <> 0 -> F (- PI) <= M <= F PI ->
  exists E r, F E = M /\ - PI <= E <= PI /\ (forall E', F E' = M -> E' = E) /\
    bisection eps (fun x => F x - M) (- PI) PI r /\ Rabs (r - E) <= eps * Rabs r.
Proof.
  intros He N B. destruct minmaxPI as (m1 & m2).
  assert (O : (F (- PI) - M) * (F PI - M) <= 0) by nra.
  destruct (C39_terminates eps (fun x => F x - M) (- PI) PI) as (r & Hr); auto; try lra.
  { intros; apply g_cont. }
  destruct (C39_result eps (fun x => F x - M) (- PI) PI r) as (E & HE & Z & D); auto.
  { intros; apply g_cont. }
  rewrite m1, m2 in HE. exists E, r. split; [lra|]. split; auto. split; [|auto].
  intros E' H. apply F_inj. lra.
Qed.
Lemma mono_outside eps : 0 < eps <= 1 -> M < F (- PI) \/ F PI < M ->
  exists r, bisection eps (fun x => F x - M) (- PI) PI r /\ Rabs (r - - PI) <= eps * Rabs r.
Proof.
  intros He B. destruct minmaxPI as (m1 & m2). pose proof PIp.
  assert (P : forall x y, Rmin (- PI) PI <= x <= Rmax (- PI) PI -> Rmin (- PI) PI <= y <= Rmax (- PI) PI -> 0 < (F x - M) * (F y - M)).
  { rewrite m1, m2. intros x y Hx Hy.
    pose proof (F_le _ _ (proj1 Hx)). pose proof (F_le _ _ (proj2 Hx)).
    pose proof (F_le _ _ (proj1 Hy)). pose proof (F_le _ _ (proj2 Hy)). destruct B; nra. }
  destruct (nosign_terminates eps (fun x => F x - M) (- PI) PI) as (r & Hr); auto; try lra.
  exists r. split; auto. apply (C39_no_sign_change_returns_low eps (fun x => F x - M) (- PI) PI r); auto.
Qed.
End Mono.

Lemma d_ell e x : derivable_pt_lim (fun x => x - e * sin x) x (1 - e * cos x).
Proof. apply derivable_pt_lim_minus; [apply derivable_pt_lim_id|]. apply (derivable_pt_lim_scal sin), derivable_pt_lim_sin. Qed.
Lemma p_ell e x : 0 <= e < 1 -> 0 < 1 - e * cos x.
Proof. intros. pose proof (COS_bound x). nra. Qed.
Lemma d_hyp e x : derivable_pt_lim (fun x => e * sinh x - x) x (e * cosh x - 1).
Proof. apply derivable_pt_lim_minus; [|apply derivable_pt_lim_id]. apply (derivable_pt_lim_scal sinh), derivable_pt_lim_sinh. Qed.
Lemma p_hyp e x : 1 < e -> 0 < e * cosh x - 1.
Proof. intros. pose proof (cosh_ge_1 x). nra. Qed.
Lemma d_par x : derivable_pt_lim (fun x => x + x * x * x / 3) x (1 + x * x).
Proof.
  apply derivable_pt_lim_plus; [apply derivable_pt_lim_id|].
  replace (x * x) with (((1 * x + x * 1) * x + x * x * 1) / 3 ) by field.
  unfold Rdiv. apply (derivable_pt_lim_ext (fun x => / 3 * ((fun x => x * x * x) x))); [intros; ring|].
  rewrite (Rmult_comm _ (/ 3)). apply (derivable_pt_lim_scal (fun x => x * x * x)).
  apply (derivable_pt_lim_mult (fun x => x * x) (fun x => x)); [|apply derivable_pt_lim_id].
  apply (derivable_pt_lim_mult (fun x => x) (fun x => x)); apply derivable_pt_lim_id.
Qed.
Lemma p_par x : 0 < 1 + x * x. Proof. nra. Qed.
Lemma sinh_odd x : sinh (- x) = - sinh x.
Proof. unfold sinh. rewrite Ropp_involutive. field. Qed.

Lemma M_to_E_small eps M e : Rabs M <= eps -> M_to_E eps M e (Ok 0).
Proof. intros. unfold M_to_E. destruct (Rle_dec (Rabs M) eps); [auto|contradiction]. Qed.
Lemma M_to_E_det eps M e a b : M_to_E eps M e a -> M_to_E eps M e b -> a = b.
Proof.
  unfold M_to_E. destruct (Rle_dec (Rabs M) eps); [congruence|]. unfold by_ecc.
  repeat match goal with |- context [if ?c then _ else _] => destruct c end; try congruence;
  intros (r1 & Hr & ->) (r2 & Hs & ->); f_equal; eapply bisection_det; eauto.
Qed.

(** the mean anomaly returned for a small M is within eps/(1-e) of the solution. *)
Lemma small_M e M E : 0 <= e < 1 -> E - e * sin E = M -> (1 - e) * Rabs E <= Rabs M.
Proof.
  intros He H.
  assert (forall x, 0 < x -> (1 - e) * x <= x - e * sin x).
  { intros x Hx. destruct (MVT_cor2 (fun x => x - e * sin x) (fun x => 1 - e * cos x) 0 x Hx (fun c _ => d_ell e c)) as (c & Q & _).
    rewrite sin_0 in Q. pose proof (COS_bound c). assert (0 <= e * (1 - cos c)) by nra. assert (0 <= e * (1 - cos c) * x) by nra. nra. }
  destruct (Rtotal_order E 0) as [L|[->|L]].
  - specialize (H0 (- E) ltac:(lra)). rewrite sin_neg in H0. rewrite (Rabs_left E) by auto. rewrite (Rabs_left M) by nra. lra.
  - rewrite Rabs_R0. pose proof (Rabs_pos M). lra.
  - specialize (H0 E L). rewrite !Rabs_right by nra. lra.
Qed.

(** * Derivatives of the anomalies with respect to the true anomaly *)
Lemma d_tan x : - (PI / 2) < x < PI / 2 -> derivable_pt_lim tan x (1 + tan x * tan x).
Proof.
  intros H. assert (C : 0 < cos x) by (apply cos_gt_0; lra).
  pose proof (derivable_pt_lim_div sin cos x (cos x) (- sin x) (derivable_pt_lim_sin x) (derivable_pt_lim_cos x) ltac:(lra)) as D.
  unfold tan at 2 3. replace (1 + sin x / cos x * (sin x / cos x)) with ((cos x * cos x - - sin x * sin x) / (cos x)²); [exact D|].
  unfold Rsqr. field. lra.
Qed.
Lemma d_tan_half T : - PI < T < PI -> derivable_pt_lim (fun T => tan (T / 2)) T ((1 + tan (T/2) * tan (T/2)) / 2).
Proof.
  intros H. unfold Rdiv at 3. apply (derivable_pt_lim_comp (fun T => T / 2) tan).
  - apply (derivable_pt_lim_ext (fun x => / 2 * id x)); [intros; unfold id; field|].
    pose proof (derivable_pt_lim_scal id (/ 2) T 1 (derivable_pt_lim_id T)) as D. rewrite Rmult_1_r in D. exact D.
  - apply d_tan. lra.
Qed.
(** Ellipse: E = 2 atan (k tan (T/2)). *)
Definition ek (e : R) : R := sqrt ((1 - e) / (1 + e)).
Definition ellE (e T : R) : R := 2 * atan (ek e * tan (T / 2)).
Lemma ek_pos e : 0 <= e < 1 -> 0 < ek e /\ ek e * ek e = (1 - e) / (1 + e).
Proof. intros. apply sq_pos. apply Rdiv_lt_0_compat; lra. Qed.
Lemma T_to_E_atan eps T e : 0 <= e < 1 -> - PI < T < PI -> T_to_E eps T e = Ok (ellE e T).
Proof.
  intros H HT. rewrite T_to_E_ell by auto. unfold hmap, ellE. f_equal. f_equal. unfold atan2.
  pose proof (cos_half_pos T HT) as C. destruct (sq_pos (1 + e)) as (S3 & S4); [lra|]. destruct (sq_pos (1 - e)) as (S1 & S2); [lra|].
  destruct (Rlt_dec 0 (sqrt (1 + e) * cos (T / 2))) as [P|P]; [|exfalso; apply P; nra].
  f_equal. unfold ek, tan. rewrite sqrt_div by lra. field. repeat split; lra.
Qed.
Lemma d_ellE e T : 0 <= e < 1 -> - PI < T < PI ->
  let t := tan (T/2) in let k := ek e in
  derivable_pt_lim (ellE e) T (k * (1 + t * t) / (1 + k * k * (t * t))).
Proof.
  intros H HT t k. unfold ellE.
  replace (k * (1 + t * t) / (1 + k * k * (t * t))) with (2 * (/ (1 + (k * t) ^ 2) * (k * ((1 + t * t) / 2)))).
  - apply (derivable_pt_lim_scal (fun T => atan (ek e * tan (T / 2)))).
    apply (derivable_pt_lim_comp (fun T => ek e * tan (T / 2)) atan); [|apply derivable_pt_lim_atan].
    apply (derivable_pt_lim_scal (fun T => tan (T / 2))). apply d_tan_half; auto.
  - assert (0 <= k * k * (t * t)) by (assert (0 <= (k * t) * (k * t)) by nra; lra). field. nra.
Qed.
Lemma cos_2atan x : cos (2 * atan x) = (1 - x * x) / (1 + x * x).
Proof.
  pose proof (atan_bound x) as B. rewrite cos_tan by lra. replace (2 * atan x / 2) with (atan x) by field. rewrite tan_atan. auto.
Qed.
Lemma one_ecosE e T : 0 <= e < 1 -> - PI < T < PI -> let t := tan (T/2) in let k := ek e in
  1 - e * cos (ellE e T) = (1 - e) * (1 + t * t) / (1 + k * k * (t * t)).
Proof.
  intros H HT t k. destruct (ek_pos e H) as (_ & K). unfold ellE. rewrite cos_2atan. fold t k.
  replace (k * t * (k * t)) with (k * k * (t * t)) by ring. unfold k. rewrite K.
  assert (0 <= (1 - e) / (1 + e)) by (apply Rlt_le, Rdiv_lt_0_compat; lra).
  assert (0 <= t * t) by nra. field. repeat split; nra.
Qed.
Lemma one_ecosT e T : 0 <= e < 1 -> - PI < T < PI -> let t := tan (T/2) in let k := ek e in
  1 + e * cos T = (1 + e) * (1 + k * k * (t * t)) / (1 + t * t).
Proof.
  intros H HT t k. destruct (ek_pos e H) as (_ & K). rewrite cos_tan by auto. fold t. unfold k. rewrite K. field. repeat split; nra.
Qed.
Definition ell_time (u p e T : R) : R := let a := p / (1 - e * e) in sqrt (a * a * a / u) * (ellE e T - e * sin (ellE e T)).
Lemma sq_eq a b : 0 <= a -> 0 <= b -> a * a = b * b -> a = b.
Proof. intros; apply Rsqr_inj; auto. Qed.
Lemma d_ell_time u p e T : 0 < u -> 0 < p -> 0 <= e < 1 -> - PI < T < PI ->
  let r := p / (1 + e * cos T) in
  derivable_pt_lim (ell_time u p e) T (r * r / sqrt (u * p)).
Proof.
  intros Hu Hp He HT r. unfold ell_time. set (a := p / (1 - e * e)).
  assert (Ha : 0 < a) by (apply Rdiv_lt_0_compat; nra).
  pose proof (d_ellE e T He HT) as D. cbv zeta in D. set (t := tan (T/2)) in *. set (k := ek e) in *.
  pose proof (derivable_pt_lim_comp (ellE e) (fun x => x - e * sin x) T _ _ D (d_ell e (ellE e T))) as D2.
  pose proof (derivable_pt_lim_scal _ (sqrt (a * a * a / u)) _ _ D2) as D3. unfold mult_real_fct, comp in D3.
  rewrite one_ecosE in D3 by auto. fold t k in D3.
  destruct (ek_pos e He) as (K0 & K). fold k in K0, K.
  unfold r. rewrite one_ecosT by auto. fold t k.
  assert (T0 : 0 <= t * t) by nra. assert (KT : 0 <= k * k * (t * t)) by nra.
  assert (P1 : 0 < a * a * a / u) by (apply Rdiv_lt_0_compat; auto; (apply Rmult_lt_0_compat; [apply Rmult_lt_0_compat|]; auto)). assert (P2 : 0 < u * p) by nra.
  destruct (sq_pos _ P1) as (A0 & A1). destruct (sq_pos _ P2) as (H0 & H1).
  set (A := sqrt (a * a * a / u)) in *. set (h := sqrt (u * p)) in *.
  assert (Key : A * (1 - e) * k * h * ((1 + e) * (1 + e)) = p * p).
  { assert (0 < (1 - e) * k) by nra. assert (0 < h * ((1 + e) * (1 + e))) by nra.
    apply sq_eq; [|nra|].
    - replace (A * (1 - e) * k * h * ((1 + e) * (1 + e))) with (A * ((1 - e) * k) * (h * ((1 + e) * (1 + e)))) by ring.
      apply Rlt_le, Rmult_lt_0_compat; auto. nra.
    - replace (A * (1 - e) * k * h * ((1 + e) * (1 + e)) * (A * (1 - e) * k * h * ((1 + e) * (1 + e)))) with
        ((A * A) * (k * k) * (h * h) * ((1 - e) * (1 - e) * ((1 + e) * (1 + e) * ((1 + e) * (1 + e))))) by ring.
      rewrite A1, K, H1. unfold a. field. repeat split; try lra. nra. }
  match goal with |- derivable_pt_lim _ _ ?x => match type of D3 with derivable_pt_lim _ _ ?y => replace x with y; [exact D3|] end end.
  transitivity ((A * (1 - e) * k * h * ((1 + e) * (1 + e))) * ((1 + t * t) * (1 + t * t)) / ((1 + k * k * (t * t)) * (1 + k * k * (t * t)) * (h * ((1 + e) * (1 + e))))).
  - field. repeat split; lra.
  - rewrite Key. field. repeat split; lra.
Qed.

(** Hyperbola: E = 2 atanh (k tan (T/2)). *)
Lemma d_atanh x : -1 < x < 1 -> derivable_pt_lim atanh x (/ (1 - x * x)).
Proof.
  intros H. unfold atanh.
  replace (/ (1 - x * x)) with (/ 2 * (/ ((1 + x) / (1 - x)) * (((0 + 1) * (1 - x) - (0 - 1) * (1 + x)) / (1 - x)²))).
  - apply (derivable_pt_lim_scal (fun x => ln ((1 + x) / (1 - x)))).
    apply (derivable_pt_lim_comp (fun x => (1 + x) / (1 - x)) ln).
    + apply (derivable_pt_lim_div (fun x => 1 + x) (fun x => 1 - x)); [| |lra].
      * apply derivable_pt_lim_plus; [apply derivable_pt_lim_const|apply derivable_pt_lim_id].
      * apply derivable_pt_lim_minus; [apply derivable_pt_lim_const|apply derivable_pt_lim_id].
    + apply derivable_pt_lim_ln, Rdiv_lt_0_compat; lra.
  - unfold Rsqr. assert (1 - x * x <> 0) by nra. field. repeat split; nra.
Qed.
Definition hypE (e T : R) : R := 2 * atanh (hk e * tan (T / 2)).
Lemma asym_iff e T : 1 < e -> - PI < T < PI -> (0 < 1 + e * cos T <-> -1 < hk e * tan (T/2) < 1).
Proof.
  intros H HT. rewrite (asym e T H HT). set (x := hk e * tan (T/2)). set (t := tan (T/2)).
  assert (T0 : 0 < 1 + t * t) by nra. split.
  - intros P. assert (0 < 1 - x * x).
    { apply Rmult_lt_reg_r with (/ (1 + t * t)); [apply Rinv_0_lt_compat; auto|].
      apply Rmult_lt_reg_l with (1 + e); [lra|]. unfold Rdiv in P. lra. }
    split; nra.
  - intros Q. apply Rdiv_lt_0_compat; auto. apply Rmult_lt_0_compat; [lra|nra].
Qed.
Lemma T_to_E_in eps T e : 1 < e -> - PI < T < PI -> 0 < 1 + e * cos T -> T_to_E eps T e = Ok (hypE e T).
Proof.
  intros H HT A. apply asym_iff in A; auto. rewrite T_to_E_hyp by auto. cbv zeta.
  destruct (Rle_dec (hk e * tan (T / 2)) 1); [|lra]. destruct (Rle_dec (-1) (hk e * tan (T / 2))); [|lra]. auto.
Qed.
Lemma T_to_E_out eps T e : 1 < e -> - PI < T < PI -> 1 + e * cos T < 0 -> T_to_E eps T e = Abort.
Proof.
  intros H HT A. rewrite T_to_E_hyp by auto. cbv zeta. rewrite (asym e T H HT) in A.
  set (x := hk e * tan (T / 2)) in *. set (t := tan (T/2)) in *.
  destruct (Rle_dec x 1); auto. destruct (Rle_dec (-1) x); auto. exfalso.
  assert (0 <= (1 + e) * (1 - x * x) / (1 + t * t)); [|lra].
  apply Rmult_le_pos; [apply Rmult_le_pos; nra|apply Rlt_le, Rinv_0_lt_compat; nra].
Qed.
Lemma cosh_2atanh x : -1 < x < 1 -> cosh (2 * atanh x) = (1 + x * x) / (1 - x * x) /\ sinh (2 * atanh x) = 2 * x / (1 - x * x).
Proof.
  intros H. pose proof (tanh_atanh x H) as TH. rewrite (cosh_half (2 * atanh x)), (sinh_half (2 * atanh x)).
  replace (2 * atanh x / 2) with (atanh x) by field.
  set (c := cosh (atanh x)) in *. set (s := sinh (atanh x)) in *.
  assert (C : 0 < c) by apply cosh_pos. pose proof (ch_sh (atanh x)) as CS. fold c s in CS.
  assert (s = x * c) by (rewrite <- TH; field; lra). subst s. rewrite H0 in *.
  assert (CC : c * c = / (1 - x * x)).
  { apply Rmult_eq_reg_r with (1 - x * x); [|nra]. rewrite Rinv_l by nra. lra. }
  split.
  - replace (c * c + x * c * (x * c)) with (c * c * (1 + x * x)) by ring. rewrite CC. field. nra.
  - replace (2 * (x * c * c)) with (2 * x * (c * c)) by ring. rewrite CC. field. nra.
Qed.
Definition hyp_time (u p e T : R) : R := let a := p / (1 - e * e) in sqrt (- a * a * a / u) * (e * sinh (hypE e T) - hypE e T).
Lemma d_hyp_time u p e T : 0 < u -> 0 < p -> 1 < e -> - PI < T < PI -> 0 < 1 + e * cos T ->
  let r := p / (1 + e * cos T) in
  derivable_pt_lim (hyp_time u p e) T (r * r / sqrt (u * p)).
Proof.
  intros Hu Hp He HT HA r. unfold hyp_time. set (a := p / (1 - e * e)).
  assert (Ha : a < 0). { unfold a. replace (p / (1 - e * e)) with (- (p / (e * e - 1))) by (field; split; nra).
    assert (0 < p / (e * e - 1)) by (apply Rdiv_lt_0_compat; nra). lra. }
  pose proof (proj1 (asym_iff e T He HT) HA) as X.
  unfold r. rewrite (asym e T He HT).
  destruct (hk_pos e He) as (K0 & K).
  set (t := tan (T/2)) in *. set (k := hk e) in *. set (x := k * t) in *.
  assert (T0 : 0 < 1 + t * t) by nra. assert (X0 : 0 < 1 - x * x) by nra.
  assert (D : derivable_pt_lim (hypE e) T (2 * (/ (1 - x * x) * (k * ((1 + t * t) / 2))))).
  { unfold hypE. apply (derivable_pt_lim_scal (fun T => atanh (hk e * tan (T / 2)))).
    apply (derivable_pt_lim_comp (fun T => hk e * tan (T / 2)) atanh); [|apply d_atanh; auto].
    apply (derivable_pt_lim_scal (fun T => tan (T / 2))). apply d_tan_half; auto. }
  pose proof (derivable_pt_lim_comp (hypE e) (fun x => e * sinh x - x) T _ _ D (d_hyp e (hypE e T))) as D2.
  pose proof (derivable_pt_lim_scal _ (sqrt (- a * a * a / u)) _ _ D2) as D3. unfold mult_real_fct, comp in D3.
  assert (CH : cosh (hypE e T) = (1 + x * x) / (1 - x * x)) by (apply cosh_2atanh; auto). rewrite CH in D3.
  assert (XX : x * x = (e - 1) / (e + 1) * (t * t)) by (unfold x; rewrite <- K; ring).
  assert (P1 : 0 < - a * a * a / u).
  { apply Rdiv_lt_0_compat; auto. assert (0 < (- a) * (- a)) by nra. assert (0 < (- a) * ((- a) * (- a))) by nra. nra. }
  assert (P2 : 0 < u * p) by nra.
  destruct (sq_pos _ P1) as (A0 & A1). destruct (sq_pos _ P2) as (H0 & H1).
  set (A := sqrt (- a * a * a / u)) in *. set (h := sqrt (u * p)) in *.
  assert (Key : A * (e - 1) * k * h * ((1 + e) * (1 + e)) = p * p).
  { assert (0 < (e - 1) * k) by nra. assert (0 < h * ((1 + e) * (1 + e))) by nra.
    apply sq_eq; [|nra|].
    - replace (A * (e - 1) * k * h * ((1 + e) * (1 + e))) with (A * ((e - 1) * k) * (h * ((1 + e) * (1 + e)))) by ring.
      apply Rlt_le, Rmult_lt_0_compat; auto. nra.
    - replace (A * (e - 1) * k * h * ((1 + e) * (1 + e)) * (A * (e - 1) * k * h * ((1 + e) * (1 + e)))) with
        ((A * A) * (k * k) * (h * h) * ((e - 1) * (e - 1) * ((1 + e) * (1 + e) * ((1 + e) * (1 + e))))) by ring.
      rewrite A1, K, H1. unfold a. field. repeat split; try lra. nra. }
  assert (EC : e * ((1 + x * x) / (1 - x * x)) - 1 = (e - 1) * (1 + t * t) / (1 - x * x)).
  { apply Rmult_eq_reg_r with (1 - x * x); [|lra]. unfold Rdiv. rewrite Rmult_minus_distr_r.
    replace (e * ((1 + x * x) * / (1 - x * x)) * (1 - x * x)) with (e * (1 + x * x)) by (field; lra).
    replace ((e - 1) * (1 + t * t) * / (1 - x * x) * (1 - x * x)) with ((e - 1) * (1 + t * t)) by (field; lra).
    rewrite XX. field. lra. }
  rewrite EC in D3.
  match goal with |- derivable_pt_lim _ _ ?x => match type of D3 with derivable_pt_lim _ _ ?y => replace x with y; [exact D3|] end end.
  transitivity ((A * (e - 1) * k * h * ((1 + e) * (1 + e))) * ((1 + t * t) * (1 + t * t)) / ((1 - x * x) * (1 - x * x) * (h * ((1 + e) * (1 + e))))).
  - field. repeat split; lra.
  - rewrite Key. field. repeat split; lra.
Qed.

(** Parabola. *)
Definition par_time (u p T : R) : R := 0.5 * sqrt (p * p * p / u) * (tan (T/2) + tan (T/2) * tan (T/2) * tan (T/2) / 3).
Lemma d_par_time u p T : 0 < u -> 0 < p -> - PI < T < PI ->
  let r := p / (1 + 1 * cos T) in
  derivable_pt_lim (par_time u p) T (r * r / sqrt (u * p)).
Proof.
  intros Hu Hp HT r. unfold par_time.
  pose proof (derivable_pt_lim_comp (fun T => tan (T/2)) (fun x => x + x * x * x / 3) T _ _ (d_tan_half T HT) (d_par (tan (T/2)))) as D2.
  pose proof (derivable_pt_lim_scal _ (0.5 * sqrt (p * p * p / u)) _ _ D2) as D3. unfold mult_real_fct, comp in D3.
  unfold r. rewrite cos_tan by auto. set (t := tan (T/2)) in *. assert (T0 : 0 < 1 + t * t) by nra.
  assert (P1 : 0 < p * p * p / u) by (apply Rdiv_lt_0_compat; auto; (apply Rmult_lt_0_compat; [apply Rmult_lt_0_compat|]; auto)). assert (P2 : 0 < u * p) by nra.
  destruct (sq_pos _ P1) as (A0 & A1). destruct (sq_pos _ P2) as (H0 & H1).
  set (A := sqrt (p * p * p / u)) in *. set (h := sqrt (u * p)) in *.
  assert (Key : A * h = p * p).
  { apply sq_eq; [nra|nra|]. replace (A * h * (A * h)) with ((A * A) * (h * h)) by ring. rewrite A1, H1. field. lra. }
  match goal with |- derivable_pt_lim _ _ ?x => match type of D3 with derivable_pt_lim _ _ ?y => replace x with y; [exact D3|] end end.
  replace (p / (1 + 1 * ((1 - t * t) / (1 + t * t)))) with (p * (1 + t * t) / 2) by (field; split; lra).
  transitivity (A * h * ((1 + t * t) * (1 + t * t)) / (4 * h)); [replace 0.5 with (1 / 2) by lra; field; lra|].
  rewrite Key. field. lra.
Qed.
