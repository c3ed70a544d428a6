(** C99: scalar helpers and the step controller on IEEE 754 numbers. *)
From Verif Require Import Inum_Model Inum_Spec Inum_Proofs Ibis_Proofs Ibis_Proofs2 Ikah_Proofs2 Ieee_Proofs Ieee_Proofs2 Ieee_Proofs3 Ieee_Props2 Kahan_Proofs Islice_Spec Islice_Proofs Islice_Proofs2 Ianom_Proofs3.
From Coq Require Import Lra Lia Bool Arith.
Open Scope R_scope.
Section P.
Context {prec emax : Z} { prec_gt_0_ : Prec_gt_0 prec } { prec_lt_emax_ : Prec_lt_emax prec emax }.
Notation fl := (binary_float prec emax).
Notation rne := (Ieee_Spec.rne prec emax).
Notation L := (least prec emax).
Notation fmt := (Kahan_Model.fmt L prec).
Notation fin a := (is_finite a = true).
Notation eps := (bpow radix2 (1 - prec)).
(** * in_range *)
(** Between ordered limits: the result is within them, is x bit for bit when x is within them, and is the limit passed otherwise. *)
Theorem C99_in_range (lo x hi : fl) : leq lo hi -> is_nan x = false ->
  leq lo (in_range lo x hi) /\ leq (in_range lo x hi) hi /\ (leq lo x -> leq x hi -> in_range lo x hi = x) /\ (ilt x lo = true -> in_range lo x hi = lo) /\ (igt x hi = true -> in_range lo x hi = hi).
Proof.
  intros H N. destruct (range_key lo x hi H N) as (Nr & Kr). pose proof H as H'. apply leqk in H'. destruct H' as (Nl & Nh & K).
  split; [apply leqk; split; auto; split; auto; rewrite Kr; unfold Rmax, Rmin; repeat destruct (Rle_dec _ _); lra|].
  split; [apply leqk; split; auto; split; auto; rewrite Kr; unfold Rmax, Rmin; repeat destruct (Rle_dec _ _); lra|]. unfold in_range. cbv zeta. split; [|split].
  - intros A B. apply leqk in A. apply leqk in B. rewrite (proj2 (igt_false lo x Nl N)) by apply A. rewrite (proj2 (igt_false x hi N Nh)) by apply B. reflexivity.
  - intros A. apply (ilt_key x lo N Nl) in A. rewrite (proj2 (igt_key lo x Nl N) A). rewrite (proj2 (igt_false lo hi Nl Nh)) by exact K. reflexivity.
  - intros A. pose proof A as A'. apply (igt_key x hi N Nh) in A'. rewrite (proj2 (igt_false lo x Nl N)) by lra. rewrite A. reflexivity.
Qed.
(** NaN is not truncated; a limit that is NaN does not limit; limits in the wrong order give the upper one. *)
Theorem C99_in_range_special (lo x hi : fl) :
  in_range lo B754_nan hi = B754_nan /\ in_range B754_nan x hi = (if igt x hi then hi else x) /\ in_range lo x B754_nan = (if igt lo x then lo else x) /\ (igt lo hi = true -> is_nan x = false -> in_range lo x hi = hi).
Proof.
  unfold in_range. cbv zeta. rewrite (igt_nan_r lo B754_nan eq_refl), (igt_nan_l B754_nan hi eq_refl), (igt_nan_l B754_nan x eq_refl). split; [reflexivity|]. split; [reflexivity|]. split; [rewrite (igt_nan_r _ B754_nan eq_refl); reflexivity|].
  intros H N. assert (Nl : is_nan lo = false) by (destruct (is_nan lo) eqn:E; auto; rewrite igt_nan_l in H by exact E; discriminate). assert (Nh : is_nan hi = false) by (destruct (is_nan hi) eqn:E; auto; rewrite igt_nan_r in H by exact E; discriminate).
  apply (igt_key lo hi Nl Nh) in H. destruct (igt lo x) eqn:G; [rewrite (proj2 (igt_key lo hi Nl Nh) H); reflexivity|]. apply (igt_false lo x Nl N) in G. rewrite (proj2 (igt_key x hi N Nh)) by lra. reflexivity.
Qed.
(** * abs, step, sign *)
(** abs is fabs, except that abs(-0.0) is -0.0. *)
Theorem C99_abs (x : fl) : mabs x = if match x with B754_zero true => true | _ => false end then x else iabs x.
Proof.
  unfold mabs, iabs, ineg. destruct x as [[|]|[|]| |[|] m e H]; try reflexivity; cbn [Bcompare].
Qed.
Lemma two_val (Hp : (1 < prec)%Z) : fin (of_nat 2 : fl) /\ B2R (of_nat 2 : fl) = 2.
Proof.
  destruct (of_nat_int (prec:=prec) (emax:=emax) 2) as (F & V); [|auto]. pose proof (Zpower_le radix2 1 prec). change (2 ^ 1 <= 2 ^ prec)%Z. apply Z.pow_le_mono_r; lia.
Qed.
(** step is the indicator of x > 0 and sign is 1 there and -1 elsewhere: at both zeros and for NaN too. *)
Theorem C99_step_sign (x : fl) : (1 < prec)%Z ->
  (igt x izero = true -> step x = ione /\ fin (sign x) /\ B2R (sign x) = 1) /\ (igt x izero = false -> step x = izero /\ fin (sign x) /\ B2R (sign x) = -1) /\ igt (B754_zero true : fl) izero = false /\ igt (izero : fl) izero = false /\ igt (B754_nan : fl) izero = false.
Proof.
  intros Hp. destruct (two_val Hp) as (F2 & V2). destruct (one_val (prec:=prec) (emax:=emax)) as (F1 & V1). pose proof (dims (prec:=prec) (emax:=emax)) as D.
  assert (Fm : fin (ineg ione : fl) /\ B2R (ineg ione : fl) = -1) by (unfold ineg; rewrite is_finite_Bopp, B2R_Bopp, V1; split; [exact F1|lra]). destruct Fm as (Fm & Vm).
  assert (B1 : 4 <= bpow radix2 emax). { change 4 with (bpow radix2 2). apply bpow_le. lia. }
  assert (R1 : rne 1 = 1) by (rewrite <- V1; apply rne_id). assert (R2 : rne 2 = 2) by (rewrite <- V2; apply rne_id). assert (Rm : rne (-1) = -1) by (rewrite <- Vm; apply rne_id).
  split; [|split].
  - intros G. unfold step, sign. rewrite G. cbn [of_bool]. split; [reflexivity|]. destruct (proj1 (cr_mul (of_nat 2 : fl) ione F2 F1)) as (Fx & Vx); [rewrite V1, V2, Rmult_1_r, R2, Rabs_right; lra|]. rewrite V1, V2, Rmult_1_r, R2 in Vx.
    destruct (proj1 (cr_add (ineg ione : fl) (imul (of_nat 2) ione) Fm Fx)) as (Fs & Vs); [rewrite Vm, Vx; replace (-1 + 2) with 1 by ring; rewrite R1, Rabs_right; lra|]. split; auto. rewrite Vs, Vm, Vx. replace (-1 + 2) with 1 by ring. exact R1.
  - intros G. unfold step, sign. rewrite G. cbn [of_bool]. split; [reflexivity|]. assert (F0 : fin (izero : fl)) by reflexivity. destruct (proj1 (cr_mul (of_nat 2 : fl) izero F2 F0)) as (Fx & Vx); [cbn [B2R izero]; rewrite Rmult_0_r, rne_0, Rabs_R0; lra|]. cbn [B2R izero] in Vx. rewrite Rmult_0_r, rne_0 in Vx.
    destruct (proj1 (cr_add (ineg ione : fl) (imul (of_nat 2) izero) Fm Fx)) as (Fs & Vs); [rewrite Vm, Vx, Rplus_0_r, Rm, Rabs_left; lra|]. split; auto. rewrite Vs, Vm, Vx, Rplus_0_r. exact Rm.
  - repeat split; reflexivity.
Qed.
(** * iseq *)
Theorem C99_iseq_symmetric (x y : fl) : iseq x y = iseq y x.
Proof.
  unfold iseq. f_equal. destruct (isub_anti x y) as [-> |(s & t & -> & E)].
  - unfold iabs, ineg. destruct (isub y x); reflexivity.
  - unfold ineg in E. destruct (isub y x) as [b| | |]; cbn in E; try discriminate E. reflexivity.
Qed.
Lemma iseq_fin (x y : fl) : (1 < prec)%Z -> fin x -> fin y -> iseq x y = true <-> Rabs (rne (B2R x - B2R y)) < eps.
Proof.
  intros Hp Fx Fy. destruct (eps_val (prec:=prec) (emax:=emax) Hp) as (Fe & Ve). pose proof (dims (prec:=prec) (emax:=emax)) as D. assert (Be : eps < bpow radix2 emax) by (apply bpow_lt; lia).
  destruct (cr_sub x y Fx Fy) as (C1 & C2). unfold iseq. destruct (Rlt_or_le (Rabs (rne (B2R x - B2R y))) (bpow radix2 emax)) as [H|H].
  - destruct (C1 H) as (F & V). assert (Fa : fin (iabs (isub x y))) by (unfold iabs; rewrite is_finite_Babs; exact F). rewrite (ilt_fin_ (iabs (isub x y)) ieps Fa Fe). unfold iabs. rewrite B2R_Babs, V, Ve. tauto.
  - assert (Na : is_nan (isub x y) = false) by (apply (cr_key _ _ (cr_sub x y Fx Fy))). assert (Nb : is_nan (iabs (isub x y)) = false) by (rewrite iabs_nan; exact Na).
    rewrite (ilt_key _ _ Nb (finite_not_nan _ Fe)). rewrite key_iabs, (proj1 (key_fin _ Fe)), Ve, (proj2 (cr_key _ _ (cr_sub x y Fx Fy))). split; intros G; [exfalso|lra].
    pose proof (bpow_gt_0 radix2 emax). revert G. unfold Rmax, Rmin. repeat destruct (Rle_dec _ _); unfold Rabs in *; repeat destruct (Rcase_abs _); lra.
Qed.
(** Equal to within epsilon: never an infinity or NaN, not even with itself; otherwise the numbers differ by less than epsilon, and half an epsilon is near enough. *)
Theorem C99_iseq (x y : fl) : (1 < prec)%Z -> (iseq x y = true -> fin x /\ fin y /\ Rabs (B2R x - B2R y) < eps) /\ (fin x -> fin y -> Rabs (B2R x - B2R y) <= eps / 2 -> iseq x y = true).
Proof.
  intros Hp. pose proof (dims (prec:=prec) (emax:=emax)) as D. pose proof (bpow_gt_0 radix2 (1 - prec)) as E0. split.
  - intros H. assert (F : fin x /\ fin y).
    { unfold iseq in H. assert (Fs : fin (isub x y)).
      { destruct (isub x y) as [s|s| |s m e B] eqn:E; auto; exfalso; try discriminate H. destruct (eps_val (prec:=prec) (emax:=emax) Hp) as (Fe & Ve). apply (ilt_key (iabs (B754_infinity s)) ieps eq_refl (finite_not_nan _ Fe)) in H.
        rewrite (proj1 (key_fin _ Fe)), Ve in H. assert (eps < bpow radix2 emax) by (apply bpow_lt; lia). change (bpow radix2 emax < eps) in H. lra. }
      destruct (isub_finite x y Fs) as (A & B & _). auto. }
    destruct F as (Fx & Fy). split; auto. split; auto. apply (iseq_fin x y Hp Fx Fy) in H. apply Rnot_le_lt. intros G. apply (Rlt_not_le _ _ H).
    assert (Fe : fmt eps) by (apply fmt_bp; lia). unfold Rabs in G. destruct (Rcase_abs (B2R x - B2R y)) as [S|S].
    + pose proof (rne_le (prec:=prec) (emax:=emax) (B2R x - B2R y) (- eps) ltac:(lra)) as R. rewrite (rne_opp eps), (rne_of eps Fe) in R. rewrite Rabs_left1; lra.
    + pose proof (rne_le (prec:=prec) (emax:=emax) eps (B2R x - B2R y) ltac:(lra)) as R. rewrite (rne_of eps Fe) in R. rewrite Rabs_right; lra.
  - intros Fx Fy H. apply (iseq_fin x y Hp Fx Fy). assert (Eh : eps / 2 = bpow radix2 (- prec)). { replace (1 - prec)%Z with (- prec + 1)%Z by ring. rewrite bpow_plus. change (bpow radix2 1) with 2. lra. }
    rewrite Eh in H. apply (rne_bpow (prec:=prec) (emax:=emax)) in H; [|lia]. lra.
Qed.
Lemma multiple x k : fmt x -> bpow radix2 k <= Rabs x -> exists m, x = IZR m * bpow radix2 (k + 1 - prec).
Proof.
  intros F H. pose proof (dims (prec:=prec) (emax:=emax)) as D. assert (M : (k + 1 <= mag radix2 x)%Z). { apply mag_ge_bpow. replace (k + 1 - 1)%Z with k by ring. exact H. }
  unfold Kahan_Model.fmt, generic_format in F. set (c := cexp radix2 (FLT_exp L prec) x) in *. assert (C : (k + 1 - prec <= c)%Z) by (unfold c, cexp, FLT_exp; lia).
  exists (Ztrunc (scaled_mantissa radix2 (FLT_exp L prec) x) * 2 ^ (c - (k + 1 - prec)))%Z. rewrite F at 1. unfold F2R. cbn [Fnum Fexp]. rewrite mult_IZR, Rmult_assoc. f_equal.
  change (2 ^ (c - (k + 1 - prec)))%Z with (radix2 ^ (c - (k + 1 - prec)))%Z. rewrite IZR_Zpower by lia. rewrite <- bpow_plus. f_equal. ring.
Qed.
(** From 1 on, iseq is ==: numbers that large are at least epsilon apart. *)
Theorem C99_iseq_large (x y : fl) : (1 < prec)%Z -> fin x -> fin y -> 1 <= Rabs (B2R x) -> 1 <= Rabs (B2R y) -> iseq x y = true <-> B2R x = B2R y.
Proof.
  intros Hp Fx Fy X Y. destruct (C99_iseq x y Hp) as (A & B). split.
  - intros H. destruct (A H) as (_ & _ & Dl). destruct (multiple (B2R x) 0 (B2R_fmt x) X) as (m & Em). destruct (multiple (B2R y) 0 (B2R_fmt y) Y) as (n & En). change (0 + 1 - prec)%Z with (1 - prec)%Z in *.
    rewrite Em, En in Dl. pose proof (bpow_gt_0 radix2 (1 - prec)) as E0. replace (IZR m * eps - IZR n * eps) with (IZR (m - n) * eps) in Dl by (rewrite minus_IZR; ring). rewrite Rabs_mult, (Rabs_right eps) in Dl by lra.
    assert (Q : Rabs (IZR (m - n)) < 1). { apply Rmult_lt_reg_r with eps; auto. rewrite Rmult_1_l. exact Dl. } rewrite <- abs_IZR in Q. apply lt_IZR in Q. assert (m = n) by lia. subst n. congruence.
  - intros E. apply B; auto. rewrite E, Rminus_diag_eq by reflexivity. rewrite Rabs_R0. pose proof (bpow_gt_0 radix2 (1 - prec)). lra.
Qed.
(** The eccentricities treated as parabolic, iseq(e, 1.0): 1 and the largest number below 1, no others. *)
Theorem C99_parabolic (e : fl) : (1 < prec)%Z -> iseq e ione = true <-> fin e /\ (B2R e = 1 \/ B2R e = 1 - eps / 2).
Proof.
  intros Hp. destruct (one_val (prec:=prec) (emax:=emax)) as (F1 & V1). pose proof (dims (prec:=prec) (emax:=emax)) as D. pose proof (bpow_gt_0 radix2 (1 - prec)) as E0. destruct (C99_iseq e ione Hp) as (A & B).
  assert (Eh : eps / 2 = bpow radix2 (- prec)). { replace (1 - prec)%Z with (- prec + 1)%Z by ring. rewrite bpow_plus. change (bpow radix2 1) with 2. lra. }
  assert (E1 : eps <= / 2). { change (/ 2) with (bpow radix2 (-1)). apply bpow_le. lia. } split.
  - intros H. destruct (A H) as (Fe & _ & Dl). split; auto. destruct (Rle_or_lt 1 (B2R e)) as [G|G].
    + left. rewrite <- V1. apply (C99_iseq_large e ione Hp Fe F1); auto; [rewrite Rabs_right; lra|rewrite V1, Rabs_R1; lra].
    + right. rewrite V1, Rabs_left in Dl by lra. destruct (multiple (B2R e) (-1) (B2R_fmt e)) as (m & Em). { change (bpow radix2 (-1)) with (/ 2). rewrite Rabs_right; lra. }
      replace (-1 + 1 - prec)%Z with (- prec)%Z in Em by ring. rewrite <- Eh in Em. set (d := eps / 2) in *. assert (O : 1 = IZR (2 ^ prec) * d). { rewrite Eh. change (2 ^ prec)%Z with (radix2 ^ prec)%Z. rewrite IZR_Zpower by lia. rewrite <- bpow_plus. replace (prec + - prec)%Z with 0%Z by ring. reflexivity. }
      assert (D0 : 0 < d) by (unfold d; lra). assert (Q1 : IZR m < IZR (2 ^ prec)). { apply Rmult_lt_reg_r with d; auto. lra. } assert (Q2 : IZR (2 ^ prec) - 2 < IZR m). { apply Rmult_lt_reg_r with d; auto. unfold d in *. lra. }
      rewrite <- minus_IZR in Q2. apply lt_IZR in Q1. apply lt_IZR in Q2. assert (m = (2 ^ prec - 1)%Z) by lia. subst m. rewrite Em, minus_IZR. lra.
  - intros (Fe & [E|E]); apply B; auto; rewrite E, V1; [rewrite Rminus_diag_eq by reflexivity; rewrite Rabs_R0; lra|rewrite Rabs_left; lra].
Qed.
End P.
Print Assumptions C99_in_range.
Print Assumptions C99_in_range_special.
Print Assumptions C99_abs.
Print Assumptions C99_step_sign.
Print Assumptions C99_iseq_symmetric.
Print Assumptions C99_iseq.
Print Assumptions C99_iseq_large.
Print Assumptions C99_parabolic.
