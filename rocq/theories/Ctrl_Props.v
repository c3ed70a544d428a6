(** Properties C35-C37: step controller, error checkers, sequent iterator. *)
From Verif Require Import System_Spec System_Proofs System_Proofs2 Ctrl_Model Ctrl_Spec Ctrl_Proofs Ctrl_Proofs2.
From Coq Require Import Psatz.
Open Scope R_scope.

(** * C35: PID step controller *)
(** Any setters, any order below 50, any errors: the factor is between the limits, or NaN. *)
Theorem C35_limited l n es : (n < 50)%nat -> exists x, next_with_limiter (configured l) n es = Ok x /\
  (x = NaN \/ exists r, x = Fin r /\ low_factor n <= r <= high_factor n).
Proof.
  intros H. destruct (nlim_ok l n es H) as (v & _ & ->). eexists. split; [reflexivity|].
  assert (D : v = NaN \/ v <> NaN) by (destruct v; [right; discriminate..|left; reflexivity]).
  destruct D as [->|D]; [left; apply in_range_nan|right]. apply in_range_ok; auto. apply factors_le.
Qed.
Theorem C35_limits_straddle_one n : 0 < low_factor n < 1 /\ 1 < high_factor n.
Proof. destruct (factors n) as (A & B & C). auto. Qed.
(** The exact value for a positive error; a zero error gives the upper limit; NaN is passed on. *)
Theorem C35_value l n s1 s2 e : (1 <= n < 50)%nat -> guards l = (s1, s2) -> 0 < s2 -> 0 < e ->
  next_with_limiter (configured l) n (Err1 (Fin e)) = Ok (Fin (clamp (low_factor n) (high_factor n) (s1 * Rpower (s2 / e) (1 / INR n)))).
Proof.
  intros H G Hs He. destruct (nlim_ok l n (Err1 (Fin e)) ltac:(lia)) as (v & E & ->). rewrite (next_pos l n s1 s2 e H G Hs He) in E.
  injection E as <-. rewrite in_range_fin by apply factors_le. reflexivity.
Qed.
Theorem C35_value_two_errors l n s1 s2 kp ki e0 e1 : (1 <= n < 50)%nat -> guards l = (s1, s2) -> coefs l = (kp, ki) -> 0 < kp -> 0 < ki -> 0 < s2 -> 0 < e0 -> 0 < e1 ->
  next_with_limiter (configured l) n (Err2 (Fin e0) (Fin e1)) =
  Ok (Fin (clamp (low_factor n) (high_factor n) (s1 * Rpower (s2 / e0) (kp * (1 / INR n)) * Rpower (e1 / s2) (ki * (1 / INR n))))).
Proof.
  intros H G Cf Hkp Hki Hs He0 He1. destruct (nlim_ok l n (Err2 (Fin e0) (Fin e1)) ltac:(lia)) as (v & E & ->).
  rewrite <- guards_ok in G. assert (G1 : c_s1 (configured l) = s1) by congruence. assert (G2 : c_s2 (configured l) = s2) by congruence.
  rewrite <- coefs_ok in Cf. assert (C1 : c_kp (configured l) = kp) by congruence. assert (C2 : c_ki (configured l) = ki) by congruence.
  cbn [next nonzero] in E. destruct (Req_EM_T e0 0); [lra|]. rewrite exp_get in E by auto. cbn [obind] in E. rewrite G1, G2, C1, C2 in E.
  destruct (expon_range n ltac:(lia)) as [X _]. set (x := 1 / INR n) in *.
  assert (0 < s2 / e0) by (apply Rdiv_lt_0_compat; auto). assert (0 < e1 / s2) by (apply Rdiv_lt_0_compat; auto). assert (0 < kp * x) by nra. assert (0 < ki * x) by nra.
  unfold ediv in E. destruct (Req_EM_T e0 0); [lra|]. destruct (Req_EM_T s2 0); [lra|]. unfold epow in E.
  destruct (Req_EM_T (kp * x) 0); [lra|]. destruct (Req_EM_T (ki * x) 0); [lra|]. destruct (Rlt_dec 0 (s2 / e0)); [|lra]. destruct (Rlt_dec 0 (e1 / s2)); [|lra].
  cbn [emul] in E. injection E as <-. rewrite in_range_fin by apply factors_le. reflexivity.
Qed.
Theorem C35_zero_error l n e1 : (n < 50)%nat -> next_with_limiter (configured l) n (Err1 (Fin 0)) = Ok (Fin (high_factor n)) /\
  next_with_limiter (configured l) n (Err2 (Fin 0) e1) = Ok (Fin (high_factor n)).
Proof.
  intros H. pose proof (factors_le n) as F.
  assert (C : clamp (low_factor n) (high_factor n) (high_factor n) = high_factor n) by (unfold clamp, Rmax, Rmin; repeat destruct (Rle_dec _ _); lra).
  split; [destruct (nlim_ok l n (Err1 (Fin 0)) H) as (v & E & ->)|destruct (nlim_ok l n (Err2 (Fin 0) e1) H) as (v & E & ->)];
    cbn [next nonzero] in E; (destruct (Req_EM_T 0 0); [|lra]); rewrite max_get in E by auto; cbn [obind] in E;
    injection E as <-; rewrite in_range_fin by auto; rewrite C; reflexivity.
Qed.
(** Larger errors never give larger steps. *)
Theorem C35_monotone l n s1 s2 e e' : (1 <= n < 50)%nat -> guards l = (s1, s2) -> 0 < s1 -> 0 < s2 -> 0 < e -> e <= e' ->
  exists r r', next_with_limiter (configured l) n (Err1 (Fin e)) = Ok (Fin r) /\ next_with_limiter (configured l) n (Err1 (Fin e')) = Ok (Fin r') /\ r' <= r.
Proof.
  intros H G H1 H2 He Hee. rewrite (C35_value l n s1 s2 e), (C35_value l n s1 s2 e') by (auto; lra). do 2 eexists. split; [reflexivity|]. split; [reflexivity|].
  apply clamp_mono. apply Rmult_le_compat_l; [lra|]. destruct (expon_range n ltac:(lia)) as [X _].
  apply Rle_Rpower_l; [lra|]. split; [apply Rdiv_lt_0_compat; lra|]. unfold Rdiv. apply Rmult_le_compat_l; [lra|]. apply Rinv_le_contravar; lra.
Qed.
(** Guards at most 1 (all of SpaceHub's): a failed error test strictly shortens the step. *)
Theorem C35_failed_step_shrinks l n s1 s2 e : (1 <= n < 50)%nat -> guards l = (s1, s2) -> 0 < s1 < 1 -> 0 < s2 <= 1 -> 1 < e ->
  exists r, next_with_limiter (configured l) n (Err1 (Fin e)) = Ok (Fin r) /\ 0 < r < 1.
Proof.
  intros H G H1 H2 He. rewrite (C35_value l n s1 s2 e) by (auto; lra). eexists. split; [reflexivity|]. destruct (factors n) as (A & B & C).
  destruct (expon_range n ltac:(lia)) as [X _]. revert X. generalize (1 / INR n). intros x X.
  assert (D : s2 / e < 1) by (apply Rmult_lt_reg_r with e; [lra|]; unfold Rdiv; rewrite Rmult_assoc, Rinv_l; lra).
  assert (D0 : 0 < s2 / e) by (apply Rdiv_lt_0_compat; lra).
  assert (F : Rpower (s2 / e) x < 1).
  { unfold Rpower. rewrite <- exp_0. apply exp_increasing. assert (ln (s2 / e) < 0) by (rewrite <- ln_1; apply ln_increasing; lra). nra. }
  assert (0 < Rpower (s2 / e) x) by apply exp_pos. unfold clamp, Rmax, Rmin. repeat destruct (Rle_dec _ _); split; nra.
Qed.
Theorem C35_nan_refuted l n : (1 <= n < 50)%nat -> next_with_limiter (configured l) n (Err1 NaN) = Ok NaN.
Proof.
  intros H. destruct (nlim_ok l n (Err1 NaN) ltac:(lia)) as (v & E & ->). cbn [next nonzero] in E. rewrite exp_get in E by auto. cbn [obind ediv] in E.
  unfold epow in E. destruct (expon_range n ltac:(lia)). destruct (Req_EM_T (1 / INR n) 0); [lra|]. cbn in E. injection E as <-. reflexivity.
Qed.
(** Orders from 50 on read past the tables. *)
Theorem C35_order_limit l n es : (50 <= n)%nat -> next_with_limiter (configured l) n es = UB.
Proof.
  intros H. destruct (out_get l n H) as (A & B & C). unfold next_with_limiter.
  destruct es; cbn [next]; destruct (nonzero _); rewrite ?A, ?C; reflexivity.
Qed.
(** set_limiter changes nothing. *)
Theorem C35_set_limiter_has_no_effect l n es :
  next_with_limiter (configured l) n es = next_with_limiter (configured (without_limiter l)) n es.
Proof.
  assert (GG : guards (without_limiter l) = guards l).
  { unfold guards. generalize (0.65, 0.95). induction l as [|s l IH]; intros g; [reflexivity|]. destruct s; cbn [without_limiter filter fold_left]; apply IH. }
  assert (CC : coefs (without_limiter l) = coefs l).
  { clear GG. unfold coefs. generalize (0.7, 0.4). induction l as [|s l IH]; intros g; [reflexivity|]. destruct s; cbn [without_limiter filter fold_left]; apply IH. }
  rewrite <- !guards_ok in GG. rewrite <- !coefs_ok in CC. destruct (tables l) as (T1 & T2 & T3). destruct (tables (without_limiter l)) as (U1 & U2 & U3).
  assert (G1 : c_s1 (configured (without_limiter l)) = c_s1 (configured l)) by congruence. assert (G2 : c_s2 (configured (without_limiter l)) = c_s2 (configured l)) by congruence.
  assert (K1 : c_kp (configured (without_limiter l)) = c_kp (configured l)) by congruence. assert (K2 : c_ki (configured (without_limiter l)) = c_ki (configured l)) by congruence.
  unfold next_with_limiter, limiter. rewrite U1, U2, T1, T2.
  assert (N : next (configured l) n es = next (configured (without_limiter l)) n es) by (destruct es; cbn [next]; rewrite T1, T3, U1, U3, G1, G2, ?K1, ?K2; reflexivity).
  rewrite N. reflexivity.
Qed.
Example C35_example_set_limiter : next_with_limiter (configured [SetLimiter 0.02 2]) 0 (Err1 (Fin 0)) = Ok (Fin 4).
Proof. apply (C35_zero_error [SetLimiter 0.02 2] 0 (Fin 0)). lia. Qed.
Example C35_example_guards : guards [SetGuards 0.7 1; SetLimiter 0.02 4] = (0.7, 1) /\ 0 < 0.7 < 1 /\ 0 < 1 <= 1.
Proof. split; [reflexivity|lra]. Qed.
Print Assumptions C35_limited. Print Assumptions C35_limits_straddle_one. Print Assumptions C35_value. Print Assumptions C35_value_two_errors.
Print Assumptions C35_zero_error. Print Assumptions C35_monotone. Print Assumptions C35_failed_step_shrinks. Print Assumptions C35_nan_refuted.
Print Assumptions C35_order_limit. Print Assumptions C35_set_limiter_has_no_effect.

(** * C36: error checkers *)
(** WorstOffender accepts iff every component is within its own tolerance (also with zero tolerances). *)
Theorem C36_worst_offender atol rtol y0 y1 y1' : 0 <= atol -> 0 <= rtol -> length y1 = length y0 -> length y1' = length y0 ->
  ele (wo_error Rabs Rminus atol rtol y0 y1 y1') (Fin 1) = true <->
  forall i, (i < length y0)%nat -> Rabs (nth i y1' 0 - nth i y1 0) <= tol atol rtol (nth i y0 0) (nth i y1 0).
Proof.
  intros Ha Hr L1 L2. rewrite (wo_iff 0 Rabs Rminus atol rtol y0 y1 y1' Rabs_pos Ha Hr L1 L2). unfold tol.
  split; intros H i Hi; specialize (H i Hi); rewrite (Rmax_comm (Rabs (nth i y1 0))) in *; lra.
Qed.
Theorem C36_worst_offender_vec atol rtol y0 y1 y1' : 0 <= atol -> 0 <= rtol -> length y1 = length y0 -> length y1' = length y0 ->
  ele (wo_error max_abs vsub atol rtol y0 y1 y1') (Fin 1) = true <->
  forall i, (i < length y0)%nat -> let d := vsub (nth i y1' vzero) (nth i y1 vzero) in
    let t := atol + rtol * Rmax (max_abs (nth i y0 vzero)) (max_abs (nth i y1 vzero)) in
    Rabs (vx d) <= t /\ Rabs (vy d) <= t /\ Rabs (vz d) <= t.
Proof.
  intros Ha Hr L1 L2. rewrite (wo_iff vzero max_abs vsub atol rtol y0 y1 y1' max_abs_nonneg Ha Hr L1 L2).
  split; intros H i Hi; specialize (H i Hi); cbv zeta in *.
  - apply max_abs_le. rewrite Rmax_comm in H. lra.
  - apply max_abs_le in H. rewrite Rmax_comm. lra.
Qed.
Theorem C36_worst_offender_diff atol rtol y0 d : 0 <= atol -> 0 <= rtol -> length d = length y0 ->
  ele (wo_error2 Rabs atol rtol y0 d) (Fin 1) = true <-> forall i, (i < length y0)%nat -> Rabs (nth i d 0) <= atol + rtol * Rabs (nth i y0 0).
Proof.
  intros Ha Hr L. rewrite (wo2_iff 0 Rabs atol rtol y0 d Rabs_pos Ha Hr L). split; intros H i Hi; specialize (H i Hi); lra.
Qed.
(** RMS accepts iff the mean of the squared ratios is at most 1. *)
Theorem C36_rms atol rtol y0 y1 y1' : 0 < atol -> 0 <= rtol -> y0 <> [] -> length y1 = length y0 -> length y1' = length y0 ->
  ele (rms_error atol rtol y0 y1 y1') (Fin 1) = true <->
  rsum (fun i => ((nth i y1 0 - nth i y1' 0) / tol atol rtol (nth i y0 0) (nth i y1 0)) ^ 2) (length y0) <= INR (length y0).
Proof.
  intros Ha Hr Hy L1 L2. rewrite (rms_value atol rtol y0 y1 y1' Ha Hr Hy), ele_fin, (lsum_zip3 atol rtol y0 y1 y1' L1 L2).
  assert (Hn : 0 < INR (length y0)) by (apply lt_0_INR; destruct y0; cbn; [congruence|lia]).
  set (S := rsum _ (length y0)). assert (ES : S = rsum (fun i => ((nth i y1 0 - nth i y1' 0) / tol atol rtol (nth i y0 0) (nth i y1 0)) ^ 2) (length y0)).
  { apply rsum_ext. intros i Hi. cbn. pose proof (tol_pos atol rtol (nth i y0 0) (nth i y1 0) Ha Hr). field. lra. }
  rewrite <- ES. assert (0 <= S).
  { unfold S. rewrite <- (lsum_zip3 atol rtol y0 y1 y1' L1 L2). apply lsum_nonneg. intros; apply rterm_nonneg; auto. }
  rewrite sqrt_le1 by (apply Rmult_le_pos; [lra|left; apply Rinv_0_lt_compat; auto]). split; intros A.
  - apply Rmult_le_reg_r with (/ INR (length y0)); [apply Rinv_0_lt_compat; auto|]. rewrite Rinv_r; lra.
  - apply Rmult_le_reg_r with (INR (length y0)); auto. unfold Rdiv. rewrite Rmult_assoc, Rinv_l; lra.
Qed.
Theorem C36_rms_component atol rtol y0 y1 y1' i : 0 < atol -> 0 <= rtol -> length y1 = length y0 -> length y1' = length y0 -> (i < length y0)%nat ->
  ele (rms_error atol rtol y0 y1 y1') (Fin 1) = true ->
  Rabs (nth i y1 0 - nth i y1' 0) <= sqrt (INR (length y0)) * tol atol rtol (nth i y0 0) (nth i y1 0).
Proof.
  intros Ha Hr L1 L2 Hi H. rewrite (C36_rms atol rtol y0 y1 y1' Ha Hr) in H by (auto; intros ->; cbn in Hi; lia).
  set (f := fun i => ((nth i y1 0 - nth i y1' 0) / tol atol rtol (nth i y0 0) (nth i y1 0)) ^ 2) in *.
  assert (X : forall n, (i < n)%nat -> f i <= rsum f n).
  { assert (F0 : forall j, 0 <= f j) by (intros; apply pow2_ge_0). assert (R0 : forall n, 0 <= rsum f n) by (induction n; cbn [rsum]; [lra|]; pose proof (F0 n); lra).
    induction n; intros Hn; [lia|]. cbn [rsum]. destruct (Nat.eq_dec i n) as [En|]; [rewrite <- En; pose proof (R0 i); lra|]. pose proof (IHn ltac:(lia)). pose proof (F0 n). lra. }
  specialize (X _ Hi). pose proof (tol_pos atol rtol (nth i y0 0) (nth i y1 0) Ha Hr) as Ht. set (t := tol _ _ _ _) in *.
  assert (Hf : f i = ((nth i y1 0 - nth i y1' 0) / t) ^ 2) by reflexivity.
  assert (Rabs ((nth i y1 0 - nth i y1' 0) / t) <= sqrt (INR (length y0))).
  { rewrite <- sqrt_Rsqr_abs. apply sqrt_le_1; [apply Rle_0_sqr|apply pos_INR|]. unfold Rsqr. rewrite Hf in X. cbn in X. lra. }
  unfold Rdiv in H0. rewrite Rabs_mult, (Rabs_pos_eq (/ t)) in H0 by (left; apply Rinv_0_lt_compat; auto).
  apply Rmult_le_reg_r with (/ t); [apply Rinv_0_lt_compat; auto|]. rewrite (Rmult_assoc _ t), Rinv_r by lra. lra.
Qed.
(** With zero absolute tolerance RMS skips components whose reference values are zero, however wrong. *)
Theorem C36_rms_skips_refuted rtol d : exists y0 y1 y1', rms_error 0 rtol y0 y1 y1' = Fin 0 /\ nth 0 y1' 0 - nth 0 y1 0 = d /\ y0 <> [].
Proof.
  exists [0], [0], [d]. split; [|split; [cbn; ring|discriminate]]. unfold rms_error. cbn [zip3 combine fold_left length INR].
  rewrite Rmax_left by lra. rewrite Rabs_R0. destruct (Req_EM_T (0 * rtol + 0) 0); [|lra]. unfold ediv. destruct (Req_EM_T 1 0); [lra|]. f_equal.
  unfold Rdiv. rewrite Rmult_0_l. apply sqrt_0.
Qed.
(** MaxRatioError compares the largest difference with the largest tolerance. *)
Theorem C36_max_ratio atol rtol scale d : 0 < atol -> 0 <= rtol -> length d = length scale -> scale <> [] ->
  ele (mr_error2 Rabs atol rtol scale d) (Fin 1) = true <->
  exists j, (j < length scale)%nat /\ forall i, (i < length scale)%nat -> Rabs (nth i d 0) <= atol + rtol * Rabs (nth j scale 0).
Proof.
  intros Ha Hr L Hs. unfold mr_error2.
  pose (q := fun x : R * R => let '(s, b) := x in (Rabs b, atol + Rabs s * rtol)).
  assert (E : forall l a, fold_left (fun '(md, ms) '(s, d) => (Rmax md (Rabs d), Rmax ms (atol + Rabs s * rtol))) l a =
              fold_left (fun '(md, ms) x => (Rmax md (fst (q x)), Rmax ms (snd (q x)))) l a).
  { induction l as [|[a b] l IH]; intros [u v]; cbn [fold_left]; auto. }
  rewrite E. destruct (mr_fold q (combine scale d) 0 0) as [A B]. destruct (fold_left _ (combine scale d) (0, 0)) as [md ms]. cbn [fst snd] in A, B.
  assert (P : 0 <= md) by (apply (proj1 (A md) (Rle_refl _))).
  assert (Q : 0 < ms).
  { apply Rlt_le_trans with atol; auto. apply B. right. destruct scale as [|s0 sc]; [congruence|]. destruct d as [|d0 dc]; [discriminate|].
    exists (s0, d0). split; [left; auto|]. cbn. pose proof (Rabs_pos s0). nra. }
  assert (X : ele (ediv (Fin md) (Fin ms)) (Fin 1) = true <-> md <= ms).
  { rewrite <- (quot_le md ms P (Rlt_le _ _ Q)). split; [auto|]. intros [H|H]; auto. unfold ediv in H. destruct (Req_EM_T ms 0); [lra|discriminate]. }
  rewrite X. split.
  - intros H. apply B in H. destruct H as [H|([s b] & Hin & H)].
    + exists 0%nat. split; [destruct scale; cbn; [congruence|lia]|]. apply (in_zip2 0 scale d L (fun a b => Rabs b <= _)). intros a b Hab.
      pose proof (proj1 (A md) (Rle_refl _)) as [_ A']. specialize (A' _ Hab). cbn in A'. pose proof (Rabs_pos (nth 0 scale 0)). nra.
    + apply In_nth with (d := (0, 0)) in Hin. destruct Hin as (j & Hj & Ej). rewrite combine_length, L, Nat.min_id in Hj. exists j. split; auto.
      rewrite combine_nth in Ej by auto. injection Ej as E1 E2. rewrite E1.
      apply (in_zip2 0 scale d L (fun a b0 => Rabs b0 <= atol + rtol * Rabs s)). intros a b0 Hab.
      pose proof (proj1 (A md) (Rle_refl _)) as [_ A']. specialize (A' _ Hab). cbn in A', H. lra.
  - intros (j & Hj & H). apply A. split; [lra|]. intros [a b] Hab. apply Rle_trans with (atol + rtol * Rabs (nth j scale 0)).
    + revert a b Hab. apply (in_zip2 0 scale d L (fun a b0 => Rabs b0 <= atol + rtol * Rabs (nth j scale 0))). auto.
    + apply B. right. exists (nth j scale 0, nth j d 0). split; [|cbn; lra]. rewrite <- combine_nth by auto. apply nth_In. rewrite combine_length, L, Nat.min_id. auto.
Qed.
(** So a component may be accepted however far outside its own tolerance. *)
Theorem C36_max_ratio_refuted rtol k : 0 < rtol -> 0 < k -> exists scale d i, ele (mr_error2 Rabs 0 rtol scale d) (Fin 1) = true /\
  (i < length scale)%nat /\ k * (0 + rtol * Rabs (nth i scale 0)) < Rabs (nth i d 0).
Proof.
  intros Hr Hk. exists [1; 0], [0; rtol], 1%nat. split; [|split; [cbn; lia|]].
  - unfold mr_error2. cbn [combine fold_left]. rewrite Rabs_R0, Rabs_R1, !Rmult_0_l, Rmult_1_l, !Rplus_0_l, (Rabs_pos_eq rtol) by lra.
    rewrite (Rmax_left 0 0), (Rmax_right 0 rtol), (Rmax_left rtol 0) by lra. unfold ediv. destruct (Req_EM_T rtol 0); [lra|]. apply ele_fin. unfold Rdiv. rewrite Rinv_r; lra.
  - cbn. rewrite Rabs_R0, (Rabs_pos_eq rtol); lra.
Qed.
Example C36_example_worst : ele (wo_error Rabs Rminus 0.1 0 [1; 0] [1; 0] [1.05; 0]) (Fin 1) = true /\ ele (wo_error Rabs Rminus 0.1 0 [1; 0] [1; 0] [1.05; 1]) (Fin 1) = false.
Proof.
  split.
  - apply C36_worst_offender; try lra; auto. intros [|[|i]] H; cbn in *; try lia; unfold tol; rewrite ?Rmult_0_l, Rplus_0_r; [replace (1.05 - 1) with 0.05 by lra|replace (0 - 0) with 0 by lra]; rewrite Rabs_pos_eq; lra.
  - destruct (ele _ _) eqn:E; auto. rewrite C36_worst_offender in E by (lra || reflexivity). specialize (E 1%nat ltac:(cbn; lia)). cbn in E. unfold tol in E.
    rewrite Rmult_0_l, Rplus_0_r, Rabs_pos_eq in E; lra.
Qed.
Print Assumptions C36_worst_offender. Print Assumptions C36_worst_offender_vec. Print Assumptions C36_worst_offender_diff. Print Assumptions C36_rms.
Print Assumptions C36_rms_component. Print Assumptions C36_rms_skips_refuted. Print Assumptions C36_max_ratio. Print Assumptions C36_max_ratio_refuted.

(** * C37: sequent iterator *)
Section C37.
  Context {P : Type} (wr : P -> list R) (rd : P -> list R -> outcome P) (integ : P -> R -> outcome P)
          (err : list R -> list R -> list R -> ext) (nxt : nat -> ext -> outcome ext) (order : nat) (Inv : P -> Prop).
  (** Estimated error of the solution with the i-th number of sub-steps (1,2,4,6,...,24). *)
  Definition seq_error (input : list R) (sol : nat -> list R) (i : nat) : ext :=
    let n := nth i [1; 2; 4; 6; 8; 10; 12; 14; 16; 18; 20; 22; 24]%nat 0%nat in let n' := nth (i - 1) [1; 2; 4; 6; 8; 10; 12; 14; 16; 18; 20; 22; 24]%nat 0%nat in
    emul (Fin (1 / ((INR n / INR n') ^ order - 1))) (err input (sol n') (sol n)).
  (** Converged at iteration k: the finest solution computed is taken. *)
  Theorem C37_converged max_iter (p : P) macro dual0 sol k : (max_iter <= 12)%nat -> Inv p -> rd p (wr p) = Ok p ->
    restarts wr rd integ Inv (wr p) macro sol -> (forall ord e, exists f, nxt ord e = Ok f) ->
    (1 <= k <= max_iter)%nat -> ele (seq_error (wr p) sol k) (Fin 1) = true -> (forall j, (1 <= j < k)%nat -> ele (seq_error (wr p) sol j) (Fin 1) = false) ->
    exists p' f, seq_iterate wr rd integ err nxt order max_iter dual0 p macro = Ok (p', emul (Fin macro) f) /\
      wr p' = sol (nth k ns 0%nat) /\ nxt order (seq_error (wr p) sol k) = Ok f.
  Proof.
    intros Hm Hp Hrd HR Hn Hk Hek Hj. unfold seq_iterate. destruct (rs_run _ _ _ _ _ _ _ HR p 1%nat ltac:(lia) Hp) as (q & p1 & Eq & E1 & W1 & I1).
    assert (q = p) as -> by congruence. cbn [steps INR] in E1. replace (macro / 1) with macro in E1 by field. destruct (integ p macro) as [p1'| |] eqn:Ei; cbn [obind] in E1; try discriminate.
    injection E1 as ->. cbn [obind]. rewrite W1.
    destruct (seq_loop_ok wr rd integ err order Inv (wr p) macro sol HR max_iter 1 p1 dual0 (Fin 0) ltac:(lia) ltac:(lia) I1) as [(k' & p' & K1 & K2 & K3 & K4 & X)|(K & _)].
    - assert (k' = k). { destruct (Nat.lt_trichotomy k' k) as [L|[L|L]]; auto; exfalso. - specialize (Hj k' ltac:(lia)). unfold err_at, scaled_error in K2. unfold seq_error in Hj. cbv zeta in Hj. unfold nsub, ns in K2. congruence.
        - specialize (K3 k ltac:(lia)). unfold err_at, scaled_error in K3. unfold seq_error in Hek. cbv zeta in Hek. unfold nsub, ns in K3. congruence. }
      subst k'. change (sol (nsub (1 - 1))) with (sol 1%nat) in X. rewrite X. cbn [obind].
      destruct (rs_read _ _ _ _ _ _ _ HR p' (nsub k)) as (q & Hq & Wq); auto; [apply nsub_get; lia|]. rewrite Hq. cbn [obind].
      destruct (Hn order (err_at err order (wr p) sol k)) as (f & Ef). rewrite Ef. cbn [obind]. exists q, f. split; auto.
    - exfalso. specialize (K k ltac:(lia)). unfold err_at, scaled_error in K. unfold seq_error in Hek. cbv zeta in Hek. unfold nsub, ns in K. congruence.
  Qed.
  (** Never converged: the second finest solution is taken, and the error of the finest decides the step. *)
  Theorem C37_not_converged max_iter (p : P) macro dual0 sol : (1 <= max_iter <= 12)%nat -> Inv p -> rd p (wr p) = Ok p ->
    restarts wr rd integ Inv (wr p) macro sol -> (forall ord e, exists f, nxt ord e = Ok f) ->
    (forall j, (1 <= j <= max_iter)%nat -> ele (seq_error (wr p) sol j) (Fin 1) = false) ->
    exists p' f, seq_iterate wr rd integ err nxt order max_iter dual0 p macro = Ok (p', emul (Fin macro) f) /\
      wr p' = sol (nth (max_iter - 1) ns 0%nat) /\ nxt order (seq_error (wr p) sol max_iter) = Ok f.
  Proof.
    intros Hm Hp Hrd HR Hn Hj. unfold seq_iterate. destruct (rs_run _ _ _ _ _ _ _ HR p 1%nat ltac:(lia) Hp) as (q & p1 & Eq & E1 & W1 & I1).
    assert (q = p) as -> by congruence. cbn [steps INR] in E1. replace (macro / 1) with macro in E1 by field. destruct (integ p macro) as [p1'| |] eqn:Ei; cbn [obind] in E1; try discriminate.
    injection E1 as ->. cbn [obind]. rewrite W1.
    destruct (seq_loop_ok wr rd integ err order Inv (wr p) macro sol HR max_iter 1 p1 dual0 (Fin 0) ltac:(lia) ltac:(lia) I1) as [(k' & p' & K1 & K2 & _)|(K & p' & Ip & X)].
    - exfalso. specialize (Hj k' ltac:(lia)). unfold err_at, scaled_error in K2. unfold seq_error in Hj. cbv zeta in Hj. unfold nsub, ns in K2. congruence.
    - change (sol (nsub (1 - 1))) with (sol 1%nat) in X. rewrite X. cbn [obind]. destruct max_iter as [|m]; [lia|].
      replace (1 + S m - 1)%nat with (S m) by lia. replace (1 + S m - 2)%nat with m by lia. replace (S m - 1)%nat with m by lia.
      destruct (rs_read _ _ _ _ _ _ _ HR p' (nsub m)) as (q & Hq & Wq); auto; [apply nsub_get; lia|]. rewrite Hq. cbn [obind].
      destruct (Hn order (err_at err order (wr p) sol (S m))) as (f & Ef). rewrite Ef. cbn [obind]. exists q, f. split; auto.
  Qed.
End C37.
(** The plain particle system with any symplectic scheme meets the hypotheses: [sol n] is the state after n
    equal sub-steps from the initial state. *)
Theorem C37_simple_system_restarts I l s macro : sized I -> well_sized I 1 s ->
  let sub := fun n => fold_left (fun s' _ => integrate drift (kick I) l s' (macro / INR n)) (seq 0 n) s in
  exists Inv, restarts (write I) (read I) (fun s h => Ok (integrate drift (kick I) l s h)) Inv (write I s) macro (fun n => write I (sub n)) /\
              Inv s /\ read I s (write I s) = Ok s.
Proof.
  intros HI W sub. exists (fun p => well_sized I 1 p /\ s_m p = s_m s). split; [|split; [auto|apply read_self; auto]].
  assert (E : forall n, nrun drift (kick I) l n s (macro / INR n) = sub n).
  { intros n. unfold sub. generalize (macro / INR n) as h. intros h. generalize 0%nat. generalize s. induction n; intros s1 k; cbn [nrun seq fold_left]; auto. }
  pose proof (simple_restarts I l s macro HI W) as [A B]. split.
  - intros p n Hn Hp. destruct (A p n Hn Hp) as (q & p' & X). exists q, p'. rewrite E in X. exact X.
  - intros p n Hn Hp. destruct (B p n Hn Hp) as (q & X). exists q. rewrite E in X. exact X.
Qed.
(** Witness: with an error test that never passes, ten iterations on a decaying solution take the
    18-sub-step solution although the 20-sub-step one was computed. *)
Theorem C37_finest_refuted : exists (wr : list R -> list R) rd integ err nxt (p : list R) r,
  seq_iterate wr rd integ err nxt 2 10 [] p 1 = Ok r /\ wr (fst r) <> [INR 20] /\ wr (fst r) = [INR 18] /\
  restarts wr rd integ (fun _ => True) (wr p) 1 (fun n => [INR n]).
Proof.
  exists (fun p => p), (fun _ y => Ok y), (fun p _ => Ok (match p with [x] => [x + 1] | _ => p end)), (fun _ _ _ => PInf), (fun _ _ => Ok (Fin 1)), [0].
  assert (ST : forall n x h, steps (fun (p : list R) (_ : R) => Ok (match p with [x] => [x + 1] | _ => p end)) n [x] h = Ok [x + INR n]).
  { induction n; intros x h; cbn [steps obind]; [cbn; do 2 f_equal; ring|]. rewrite IHn. rewrite S_INR. do 2 f_equal. ring. }
  assert (HR : restarts (fun p : list R => p) (fun _ y => Ok y) (fun (p : list R) (_ : R) => Ok (match p with [x] => [x + 1] | _ => p end)) (fun _ => True) [0] 1 (fun n => [INR n])).
  { split.
    - intros p n Hn _. exists [0], [INR n]. split; auto. rewrite ST. split; [do 2 f_equal; ring|auto].
    - intros p n Hn _. exists [INR n]. auto. }
  destruct (C37_not_converged (fun p : list R => p) (fun _ y => Ok y) (fun (p : list R) (_ : R) => Ok (match p with [x] => [x + 1] | _ => p end)) (fun _ _ _ => PInf) (fun _ _ => Ok (Fin 1)) 2 (fun _ => True) 10 [0] 1 [] (fun n => [INR n])) as (p' & f & E & W & _); auto; try lia.
  - intros; eauto.
  - intros j Hj. unfold seq_error. cbn [emul]. unfold esgn. 
    assert (X : 0 < 1 / ((INR (nth j [1; 2; 4; 6; 8; 10; 12; 14; 16; 18; 20; 22; 24]%nat 0%nat) / INR (nth (j - 1) [1; 2; 4; 6; 8; 10; 12; 14; 16; 18; 20; 22; 24]%nat 0%nat)) ^ 2 - 1)).
    { assert (G : forall a b : nat, (0 < b < a)%nat -> 0 < 1 / ((INR a / INR b) ^ 2 - 1)).
      { intros a b [Hb Hab]. apply lt_INR in Hb. apply lt_INR in Hab. cbn [INR] in Hb. apply Rdiv_lt_0_compat; [lra|].
        assert (1 < INR a / INR b) by (apply Rmult_lt_reg_r with (INR b); [lra|]; unfold Rdiv; rewrite Rmult_assoc, Rinv_l; lra). nra. }
      apply G. clear - Hj. do 11 (destruct j as [|j]; [cbn; lia|]). lia. }
    destruct (Rlt_dec 0 _); [reflexivity|lra].
  - exists (p', emul (Fin 1) f). split; [exact E|]. cbn [fst]. cbn [nth ns Nat.sub] in W. split; [|split; auto].
    rewrite W. intros H. injection H as H. assert (INR 18 < INR 20) by (apply lt_INR; lia). lra.
Qed.
(** ConstOdeIterator: one integration, the step unchanged. *)
Theorem C37_const_iterator {P} (integ : P -> R -> outcome P) p h p' h' : const_iterate integ p h = Ok (p', h') <-> integ p h = Ok p' /\ h' = h.
Proof. unfold const_iterate. destruct (integ p h); cbn; split; intros H; try discriminate; try (destruct H; congruence). injection H as <- <-. auto. Qed.
Print Assumptions C37_converged. Print Assumptions C37_not_converged. Print Assumptions C37_simple_system_restarts. Print Assumptions C37_finest_refuted. Print Assumptions C37_const_iterator.
