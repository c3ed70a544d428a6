(** C89: the end time of a fixed-step run in floating-point arithmetic.
    For every binary format (or, in the corollaries, for binary64), every tie rule unless "ties to even" is said, every integrator (list of drifts and kicks) or each of the library's six,
    every start time, end time, step and tolerance in the stated ranges. *)
From Verif Require Import Fsim_Spec Kahan_Proofs Kahan_Proofs2 Fsim_Proofs Fsim_Proofs2 Fsim_Proofs3 Fsim_Proofs4 Fsim_Proofs5 System_Spec.
From Flocq Require Import Ulp.
From Coq Require Import Lra Lia.
Open Scope R_scope.

(** C89.  Plain clock, any format, any integrator whose drift coefficients add up to 1 within [kap]: when the rounding of one step is below the step and below the tolerance,
    the run returns after at most n+1 steps, within the tolerance of the end time, and no reading of the clock is further beyond the end than that rounding. *)
Theorem C89_plain_run : forall emin prec choice, Prec_gt_0 prec -> (emin <= 0)%Z -> (2 <= prec)%Z -> forall ops e tol h0 t0 kap n,
  fmt emin prec e -> fmt emin prec tol -> fmt emin prec h0 -> fmt emin prec t0 -> 0 < e -> tol <= 1 -> bpow radix2 (emin + prec - 1) <= tol ->
  0 <= t0 <= e -> 0 < h0 -> Rabs (total (drifts ops) - 1) <= kap ->
  let u := unit_roundoff prec in
  no_underflow emin prec (drifts ops) (Rmin h0 (u * e / 2)) ->
  let ep := plain_error u (length (drifts ops)) (weight (drifts ops)) kap e (Rmin h0 (2 * e)) in
  2 * (2 * u * e + ep) <= tol * e -> ep < h0 -> e - t0 <= INR n * (h0 - ep) ->
  exists tr last, floop emin prec choice (plain emin prec choice) ops e tol (S (S n)) h0 t0 [] = Some (last :: tr) /\ (length tr <= S n)%nat /\
    ended emin prec choice e tol last /\ Forall (fun t => 0 <= t <= e + (2 * u * e + ep)) (last :: tr).
Proof. intros emin prec choice Hp H1 H2 ops e tol h0 t0 kap n. rewrite <- u_unit. apply plain_run; auto. Qed.
Print Assumptions C89_plain_run.

(** C89.  Compensated clock: the same, but the error of one step is only a few roundings of the step itself (plus second-order terms), so far smaller steps are possible. *)
Theorem C89_compensated_run : forall emin prec choice, Prec_gt_0 prec -> (emin <= 0)%Z -> (2 <= prec)%Z -> forall ops e tol h0 t0 kap n,
  fmt emin prec e -> fmt emin prec tol -> fmt emin prec h0 -> fmt emin prec t0 -> 0 < e -> tol <= 1 -> bpow radix2 (emin + prec - 1) <= tol ->
  0 <= t0 <= e -> 0 < h0 -> Rabs (total (drifts ops) - 1) <= kap ->
  let u := unit_roundoff prec in
  no_underflow emin prec (drifts ops) (Rmin h0 (u * e / 2)) ->
  128 * u <= 1 -> 8 * (INR (length (drifts ops)) * u) <= 1 ->
  let hm := Rmin h0 (2 * e) in
  let gap := comp_gap u (weight (drifts ops)) e hm in
  let ep := comp_error u (length (drifts ops)) (weight (drifts ops)) kap e hm in
  2 * (2 * u * e + 2 * gap + ep) <= tol * e -> ep < h0 -> e - t0 <= INR n * (h0 - ep) ->
  exists tr last, floop emin prec choice (compensated emin prec choice) ops e tol (S (S n)) h0 (k_of t0) [] = Some (last :: tr) /\ (length tr <= S n)%nat /\
    ended emin prec choice e tol (k_real last) /\ Forall (fun k => k_real k <= e + (2 * u * e + 2 * gap + ep)) (last :: tr).
Proof. intros emin prec choice Hp H1 H2 ops e tol h0 t0 kap n. rewrite <- u_unit. apply comp_run; auto. Qed.
Print Assumptions C89_compensated_run.

(** C89 in binary64, for each of the library's six integrators and any tolerance from 2^-30 to 1 (the default is 1e-8): steps of at least 2^-38 of the end time. *)
Theorem C89_plain_double : forall choice l e tol h0 t0 n, In l schemes ->
  fmt (-1074) 53 e -> fmt (-1074) 53 tol -> fmt (-1074) 53 h0 -> fmt (-1074) 53 t0 -> bpow radix2 (-900) <= e -> bpow radix2 (-30) <= tol <= 1 ->
  0 <= t0 <= e -> bpow radix2 (-38) * e <= h0 -> e - t0 <= INR n * (h0 / 2) ->
  exists tr last, floop (-1074) 53 choice (plain (-1074) 53 choice) l e tol (S (S n)) h0 t0 [] = Some (last :: tr) /\ (length tr <= S n)%nat /\
    ended (-1074) 53 choice e tol last /\ Forall (fun t => 0 <= t <= e + bpow radix2 (-40) * e) (last :: tr).
Proof. exact plain_double. Qed.
Print Assumptions C89_plain_double.

(** C89 in binary64 with a compensated clock: steps of at least 2^-90 of the end time. *)
Theorem C89_compensated_double : forall choice l e tol h0 t0 n, In l schemes ->
  fmt (-1074) 53 e -> fmt (-1074) 53 tol -> fmt (-1074) 53 h0 -> fmt (-1074) 53 t0 -> bpow radix2 (-900) <= e -> bpow radix2 (-30) <= tol <= 1 ->
  0 <= t0 <= e -> bpow radix2 (-90) * e <= h0 -> e - t0 <= INR n * (h0 / 2) ->
  exists tr last, floop (-1074) 53 choice (compensated (-1074) 53 choice) l e tol (S (S n)) h0 (k_of t0) [] = Some (last :: tr) /\ (length tr <= S n)%nat /\
    ended (-1074) 53 choice e tol (k_real last) /\ Forall (fun k => k_real k <= e + bpow radix2 (-38) * e) (last :: tr).
Proof. exact comp_double. Qed.
Print Assumptions C89_compensated_double.

(** C89.  Steps below a quarter of the spacing of the clock: a plain clock stands still and the run never returns, whatever the integrator. *)
Theorem C89_too_small_steps_refuted : forall emin prec choice, Prec_gt_0 prec -> (emin <= - prec - 3)%Z -> (4 <= prec)%Z -> forall ops e tol h t,
  fmt emin prec t -> 0 < t -> ffar emin prec choice t e tol = true -> Rabs h <= Rabs (rnd emin prec choice (e - t)) ->
  (forall a, In a (drifts ops) -> 4 * Rabs (fmul emin prec choice (rnd emin prec choice a) h) < ulp radix2 (FLT_exp emin prec) t) ->
  forall fuel, floop emin prec choice (plain emin prec choice) ops e tol fuel h t [] = None.
Proof. intros. apply stuck; auto. Qed.
Print Assumptions C89_too_small_steps_refuted.

(** C89.  Tolerance 0 with the kick-drift-kick leapfrog and a plain clock: the run ends exactly at the end time;
    on the way the clock may read at most one unit in the last place beyond it. *)
Theorem C89_exact_end : forall emin prec choice, Prec_gt_0 prec -> (emin <= - prec - 3)%Z -> (4 <= prec)%Z -> forall e h0 t0 n,
  fmt emin prec e -> fmt emin prec h0 -> fmt emin prec t0 -> bpow radix2 (emin + prec) <= e -> ulp radix2 (FLT_exp emin prec) e <= h0 ->
  0 <= t0 <= e -> e - t0 <= INR n * (h0 / 2) ->
  exists tr, floop emin prec choice (plain emin prec choice) leapfrog_kdk e 0 (n + 3) h0 t0 [] = Some (e :: tr) /\
    Forall (fun t => 0 <= t <= e + ulp radix2 (FLT_exp emin prec) e) tr.
Proof.
  intros emin prec choice Hp H1 H2 e h0 t0 n Fe Fh Ft He Hh Ht Hn. destruct (exact_loop emin prec choice H1 H2 e h0 Fe Fh He Hh n t0 [] Ft Ht Hn) as (tr & E & Fa).
  exists tr. rewrite app_nil_r in E. auto.
Qed.
Print Assumptions C89_exact_end.

(** C89.  "Beyond" is real, with ties to even: with [b] = 2^(prec-1), a run from 1.5 to b+3 whose step is at least b+2 reads b+4 before it steps back to b+3. *)
Theorem C89_overshoot_refuted : forall emin prec, Prec_gt_0 prec -> (emin <= - prec - 3)%Z -> (4 <= prec)%Z ->
  let b := bpow radix2 (prec - 1) in forall h, b + 2 <= h -> fmt emin prec h -> forall n,
  floop emin prec even_tie (plain emin prec even_tie) leapfrog_kdk (b + 3) 0 (S (S (S n))) h (3 / 2) [] = Some [b + 3; b + 4; 3 / 2] /\ b + 3 < b + 4.
Proof. intros emin prec Hp H1 H2 b h Hh Fh n. split; [apply kdk_over; auto|lra]. Qed.
Print Assumptions C89_overshoot_refuted.

(** C89.  Tolerance 0 with the drift-kick-drift leapfrog, ties to even: from b to b+1 both half drifts are absorbed and the run never returns. *)
Theorem C89_zero_tolerance_refuted : forall emin prec, Prec_gt_0 prec -> (emin <= - prec - 3)%Z -> (4 <= prec)%Z ->
  let b := bpow radix2 (prec - 1) in forall h, 1 <= h -> fmt emin prec h -> forall fuel,
  floop emin prec even_tie (plain emin prec even_tie) leapfrog_dkd (b + 1) 0 fuel h b [] = None.
Proof. intros emin prec Hp H1 H2 b h Hh Fh fuel. apply dkd_hangs; auto. Qed.
Print Assumptions C89_zero_tolerance_refuted.

(** * Non-vacuity: a binary64 run from 1 to 2 with steps 2^-60 never returns on a plain clock and returns on a compensated one; with steps 1/8 both return. *)
#[local] Instance p53' : Prec_gt_0 53 := eq_refl.
Lemma fb n : (-1074 <= n)%Z -> fmt (-1074) 53 (bpow radix2 n).
Proof. intros H. apply generic_format_bpow. unfold FLT_exp. lia. Qed.
Example C89_step_of_one_eighth : forall choice,
  exists tr last, floop (-1074) 53 choice (plain (-1074) 53 choice) symplectic8 2 (bpow radix2 (-26)) 18 (/ 8) 1 [] = Some (last :: tr) /\ (length tr <= 17)%nat /\
    ended (-1074) 53 choice 2 (bpow radix2 (-26)) last /\ Forall (fun t => 0 <= t <= 2 + bpow radix2 (-40) * 2) (last :: tr).
Proof.
  intros choice. apply (C89_plain_double choice symplectic8 2 (bpow radix2 (-26)) (/ 8) 1 16).
  - unfold schemes. cbn [In]. tauto.
  - exact (fb 1 ltac:(lia)). - apply fb; lia. - exact (fb (-3) ltac:(lia)). - exact (fb 0 ltac:(lia)).
  - change 2 with (bpow radix2 1). apply bpow_le; lia.
  - split; [apply bpow_le; lia|]. change 1 with (bpow radix2 0). apply bpow_le; lia.
  - lra.
  - change 2 with (bpow radix2 1). rewrite <- bpow_plus. change (/ 8) with (bpow radix2 (-3)). apply bpow_le; lia.
  - replace (INR 16) with 16 by (cbn; lra). lra.
Qed.
Example C89_tiny_steps : forall choice,
  (forall fuel, floop (-1074) 53 choice (plain (-1074) 53 choice) leapfrog_dkd 2 (bpow radix2 (-26)) fuel (bpow radix2 (-60)) 1 [] = None) /\
  exists n tr last, floop (-1074) 53 choice (compensated (-1074) 53 choice) leapfrog_dkd 2 (bpow radix2 (-26)) n (bpow radix2 (-60)) (k_of 1) [] = Some (last :: tr) /\
    ended (-1074) 53 choice 2 (bpow radix2 (-26)) (k_real last).
Proof.
  intros choice. assert (F2 : fmt (-1074) 53 2) by exact (fb 1 ltac:(lia)). assert (F1 : fmt (-1074) 53 1) by exact (fb 0 ltac:(lia)).
  assert (T1 : bpow radix2 (-26) < / 4) by (change (/ 4) with (bpow radix2 (-2)); apply bpow_lt; lia).
  split.
  - apply (C89_too_small_steps_refuted (-1074) 53 choice p53'); auto; try lia; try lra.
    + unfold ffar, fdiv, fsub. rewrite (rnd_id (-1074) 53 choice (1 - 2)).
      2: { replace (1 - 2) with (- (1)) by ring. apply fmt_opp; auto. }
      replace ((1 - 2) / 2) with (- / 2) by field. rewrite (rnd_id (-1074) 53 choice (- / 2)).
      2: { apply fmt_opp; auto. exact (fb (-1) ltac:(lia)). }
      rewrite Rabs_Ropp, Rabs_pos_eq by lra. destruct (Rlt_dec _ _); [reflexivity|lra].
    + replace (2 - 1) with 1 by ring. rewrite (rnd_id (-1074) 53 choice 1) by auto. rewrite !Rabs_pos_eq by (try apply bpow_ge_0; lra). change 1 with (bpow radix2 0). apply bpow_le; lia.
    + intros a Ha. assert (E : a = / 2) by (unfold leapfrog_dkd, drifts in Ha; cbn [flat_map app In] in Ha; destruct Ha as [<-|[<-|[]]]; lra). subst a.
      unfold fmul. change (/ 2) with (bpow radix2 (-1)). rewrite (rnd_id (-1074) 53 choice (bpow radix2 (-1))) by (apply fb; lia). rewrite <- bpow_plus.
      rewrite (rnd_id (-1074) 53 choice (bpow radix2 (-1 + -60))) by (apply fb; lia). rewrite Rabs_pos_eq by apply bpow_ge_0. change 4 with (bpow radix2 2). rewrite <- bpow_plus.
      change 1 with (bpow radix2 0). rewrite ulp_bpow. apply bpow_lt. unfold FLT_exp. lia.
  - assert (Hx : exists n, 2 / bpow radix2 (-60) < INR n).
    { exists (Z.to_nat (up (2 / bpow radix2 (-60)))). destruct (archimed (2 / bpow radix2 (-60))) as [A _]. rewrite INR_IZR_INZ, Z2Nat.id; [lra|].
      apply le_IZR. assert (0 < 2 / bpow radix2 (-60)) by (apply Rdiv_lt_0_compat; [lra|apply bpow_gt_0]). lra. }
    destruct Hx as [n Hn]. assert (B := bpow_gt_0 radix2 (-60)).
    destruct (C89_compensated_double choice leapfrog_dkd 2 (bpow radix2 (-26)) (bpow radix2 (-60)) 1 n) as (tr & last & E & _ & D0 & _); auto; try lra.
    + unfold schemes. cbn [In]. tauto.
    + apply fb; lia. + apply fb; lia.
    + change 2 with (bpow radix2 1). apply bpow_le; lia.
    + split; [apply bpow_le; lia|]. lra.
    + change 2 with (bpow radix2 1). rewrite <- bpow_plus. apply bpow_le; lia.
    + apply Rlt_le in Hn. apply Rmult_le_compat_r with (r := bpow radix2 (-60)) in Hn; [|lra]. unfold Rdiv in Hn. rewrite Rmult_assoc, Rinv_l in Hn by lra. lra.
    + exists (S (S n)), tr, last. split; auto.
Qed.
