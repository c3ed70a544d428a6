(** C99, the step controller. *)
From Verif Require Import Inum_Model Inum_Spec Inum_Proofs Inum_Props Ibis_Proofs Ibis_Proofs2 Ikah_Proofs2 Ieee_Proofs Ieee_Proofs2 Ieee_Proofs3 Ieee_Props2 Kahan_Proofs Islice_Spec Islice_Proofs Islice_Proofs2 Ianom_Proofs3 Ianom_Cases.
From Coq Require Import Lra Lia Bool Arith.
Open Scope R_scope.
Section P.
Context {prec emax : Z} { prec_gt_0_ : Prec_gt_0 prec } { prec_lt_emax_ : Prec_lt_emax prec emax }.
Hypothesis Hp : (1 < prec)%Z.
Notation fl := (binary_float prec emax).
Notation rne := (Ieee_Spec.rne prec emax).
Notation L := (least prec emax).
Notation fmt := (Kahan_Model.fmt L prec).
Notation fin a := (is_finite a = true).
Variable pw : fl -> fl -> fl.
Hypothesis T : tame pw.
Variables s1 s2 s3 s4 : fl.
Hypothesis G : guards s1 s2 s3 s4.
Notation C := (make pw s1 s2 s3 s4).
Notation small_order i := (Z.of_nat i <= 2 ^ prec)%Z (only parsing).
Lemma expon_ok i : small_order i -> proper (expon C i) /\ (i <> 0%nat -> 0 < B2R (expon C i)).
Proof.
  intros H. destruct i as [|i]; [split; [split; [reflexivity|cbn; lra]|congruence]|]. unfold proper. cbn [expon make]. destruct (one_val (prec:=prec) (emax:=emax)) as (F1 & V1). destruct (of_nat_int (prec:=prec) (emax:=emax) (S i) H) as (Fi & Vi).
  pose proof (dims (prec:=prec) (emax:=emax)) as D. assert (I1 : 1 <= IZR (Z.of_nat (S i))) by (apply IZR_le; lia). assert (I2 : IZR (Z.of_nat (S i)) <= bpow radix2 prec). { rewrite <- IZR_Zpower by lia. apply IZR_le. exact H. }
  set (x := IZR (Z.of_nat (S i))) in *. assert (N0 : B2R (of_nat (S i) : fl) <> 0) by (rewrite Vi; lra). destruct (cr_div ione (of_nat (S i)) F1 Fi N0) as (C1 & _). rewrite V1, Vi in C1.
  assert (B : bpow radix2 (- prec) <= 1 / x <= 1). { rewrite bpow_opp. unfold Rdiv. rewrite Rmult_1_l. split; [apply Rinv_le; lra|]. rewrite <- Rinv_1. apply Rinv_le; lra. }
  assert (Fb : fmt (bpow radix2 (- prec))) by (apply (fmt_bp Hp); lia). assert (Fo : fmt 1) by (change 1 with (bpow radix2 0); apply (fmt_bp Hp); lia).
  pose proof (rne_le (prec:=prec) (emax:=emax) _ _ (proj1 B)) as R1. pose proof (rne_le (prec:=prec) (emax:=emax) _ _ (proj2 B)) as R2. rewrite (rne_of _ Fb) in R1. rewrite (rne_of _ Fo) in R2. pose proof (bpow_gt_0 radix2 (- prec)).
  assert (O : 1 < bpow radix2 emax) by (change 1 with (bpow radix2 0); apply bpow_lt; lia).
  destruct C1 as (F & V); [rewrite Rabs_right; lra|]. rewrite V. split; [split; [exact F|lra]|lra].
Qed.
Lemma key_one_le (a : fl) : is_nan a = false -> 0 <= key a <= 1 -> fin a.
Proof.
  intros N K. assert (O : 1 < bpow radix2 emax) by (change 1 with (bpow radix2 0); apply bpow_lt; pose proof (dims (prec:=prec) (emax:=emax)); lia). destruct a as [s|s| |s m e B]; auto. destruct s; cbn [key] in K; lra.
Qed.
Lemma quotient_low (a : fl) : is_nan a = false -> 0 <= key a <= 1 -> is_nan (idiv a s4) = false /\ 0 <= key (idiv a s4) <= 1.
Proof.
  intros N K. destruct G as (_ & _ & _ & F4 & _ & _ & _ & G4). pose proof (key_one_le a N K) as Fa. rewrite (proj1 (key_fin a Fa)) in K. assert (N0 : B2R s4 <> 0) by lra.
  destruct (cr_key _ _ (cr_div a s4 Fa F4 N0)) as (Nq & Kq). split; auto. rewrite Kq. assert (Q : 0 <= B2R a / B2R s4 <= 1). { split; [apply Rmult_le_pos; [lra|apply Rlt_le, Rinv_0_lt_compat; lra]|]. apply Rmult_le_reg_r with (B2R s4); [lra|]. unfold Rdiv. rewrite Rmult_assoc, Rinv_l by lra. lra. }
  pose proof (rne_nonneg (prec:=prec) (emax:=emax) _ (proj1 Q)) as R0. pose proof (rne_le (prec:=prec) (emax:=emax) _ _ (proj2 Q)) as R1. assert (Fo : fmt 1) by (change 1 with (bpow radix2 0); apply (fmt_bp Hp); pose proof (dims (prec:=prec) (emax:=emax)); lia).
  rewrite (rne_of _ Fo) in R1. pose proof (bpow_gt_0 radix2 emax). assert (O : 1 < bpow radix2 emax) by (change 1 with (bpow radix2 0); apply bpow_lt; pose proof (dims (prec:=prec) (emax:=emax)); lia).
  rewrite Rmin_left by lra. rewrite Rmax_right by lra. lra.
Qed.
Lemma ok_s3 : leq izero s3 /\ leq s3 ione.
Proof. destruct G as (_ & _ & F3 & _ & _ & _ & G3 & _). pose proof (finite_not_nan _ F3) as N. split; apply leqk; rewrite ?one_key, ?zero_key, (proj1 (key_fin _ F3)); [split; auto; split; auto; lra|split; auto; split; [apply one_nan|lra]]. Qed.
Lemma inv_s3 : leq ione (idiv ione s3).
Proof.
  destruct G as (_ & _ & F3 & _ & _ & _ & G3 & _). destruct (one_val (prec:=prec) (emax:=emax)) as (F1 & V1). assert (N0 : B2R s3 <> 0) by lra. destruct (cr_key _ _ (cr_div ione s3 F1 F3 N0)) as (Nq & Kq). apply leqk. split; [apply one_nan|]. split; auto. rewrite one_key, Kq, V1.
  assert (O : 1 < bpow radix2 emax) by (change 1 with (bpow radix2 0); apply bpow_lt; pose proof (dims (prec:=prec) (emax:=emax)); lia). assert (Fo : fmt 1) by (change 1 with (bpow radix2 0); apply (fmt_bp Hp); pose proof (dims (prec:=prec) (emax:=emax)); lia).
  assert (Q : 1 <= 1 / B2R s3). { unfold Rdiv. rewrite Rmult_1_l. rewrite <- Rinv_1 at 1. apply Rinv_le; lra. } pose proof (rne_le (prec:=prec) (emax:=emax) _ _ Q) as R. rewrite (rne_of _ Fo) in R. unfold Rmax, Rmin. repeat destruct (Rle_dec _ _); lra.
Qed.
(** The limits of every order enclose 1. *)
Theorem C99_limits_enclose_one i : small_order i -> leq izero (lim_min C i) /\ leq (lim_min C i) ione /\ leq ione (lim_max C i).
Proof.
  intros H. destruct (expon_ok i H) as (Pe & _). destruct i as [|i].
  - cbn [lim_min lim_max make]. destruct (quotient_low ione one_nan) as (N & K); [rewrite one_key; lra|]. destruct G as (_ & _ & _ & F4 & _ & _ & _ & G4). pose proof (finite_not_nan _ F4) as N4.
    split; [apply leqk; rewrite zero_key; split; auto; split; auto; lra|]. split; [apply leqk; rewrite one_key; split; auto; split; [apply one_nan|lra]|]. apply leqk. rewrite one_key, (proj1 (key_fin _ F4)). split; [apply one_nan|]. auto.
  - destruct (pw_low pw T s3 (expon C (S i)) (proj1 ok_s3) (proj2 ok_s3) Pe) as (A & B). apply leqk in A. apply leqk in B. rewrite zero_key in A. rewrite one_key in B. destruct A as (_ & A1 & A2). destruct B as (_ & _ & B2).
    destruct (quotient_low _ A1 (conj A2 B2)) as (N & K). cbn [lim_min lim_max make]. split; [apply leqk; rewrite zero_key; split; auto; split; auto; apply K|]. split; [apply leqk; rewrite one_key; split; auto; split; [apply one_nan|apply K]|].
    apply (pw_high pw T); [exact inv_s3|exact Pe].
Qed.
Lemma limits i : small_order i -> leq (lim_min C i) (lim_max C i).
Proof. intros H. destruct (C99_limits_enclose_one i H) as (_ & A & B). apply leqk in A. apply leqk in B. apply leqk. destruct A as (A1 & A2 & A3), B as (B1 & B2 & B3). split; auto. split; auto. lra. Qed.
Lemma ine_key (a : fl) : is_nan a = false -> ine a izero = true <-> key a <> 0.
Proof.
  intros N. unfold ine. rewrite (compare_key a izero N eq_refl), zero_key. destruct (Rcompare_spec (key a) 0) as [X|X|X]; split; intros Y; try congruence; try lra; try reflexivity.
Qed.
Lemma pow_key x y : is_nan x = false -> 0 <= key x -> proper y -> is_nan (pw x y) = false /\ 0 <= key (pw x y).
Proof.
  intros N K P. destruct (Rle_or_lt (key x) 1) as [X|X].
  - destruct (pw_low pw T x y) as (A & _); auto; [apply leqk; rewrite zero_key; auto|apply leqk; rewrite one_key; split; auto; split; [apply one_nan|exact X]|]. apply leqk in A. rewrite zero_key in A. tauto.
  - pose proof (pw_high pw T x y) as A. assert (leq ione x) by (apply leqk; rewrite one_key; split; [apply one_nan|]; split; auto; lra). specialize (A H P). apply leqk in A. rewrite one_key in A. destruct A as (_ & A1 & A2). split; auto. lra.
Qed.
Lemma next_key i e : small_order i -> leq izero e -> is_nan (next pw C i e) = false /\ 0 <= key (next pw C i e).
Proof.
  intros H E. apply leqk in E. rewrite zero_key in E. destruct E as (_ & N & K). unfold next. destruct (expon_ok i H) as (Pe & _). destruct (ine e izero) eqn:Q.
  - apply (ine_key e N) in Q. destruct G as (F1 & F2 & _ & _ & G1 & G2 & _). destruct (div_pos s2 e) as (Nd & Kd); auto; [apply G2|lra|]. destruct (pow_key _ _ Nd Kd Pe) as (Np & Kp). apply mul_pos; auto. apply G1.
  - destruct (C99_limits_enclose_one i H) as (_ & _ & B). apply leqk in B. rewrite one_key in B. destruct B as (_ & B1 & B2). split; auto. lra.
Qed.
(** For every error that is a number or infinity, the step changes by a factor inside the limits of the order: never NaN, never beyond. *)
Theorem C99_step_factor_in_limits i e : small_order i -> leq izero e -> leq (lim_min C i) (next_with_limiter pw C i e) /\ leq (next_with_limiter pw C i e) (lim_max C i).
Proof.
  intros H E. destruct (next_key i e H E) as (N & _). destruct (C99_in_range _ _ _ (limits i H) N) as (A & B & _). unfold next_with_limiter, limiter. auto.
Qed.
(** No error: the largest factor.  An error that overflowed to infinity: the smallest.  An error that is NaN: NaN. *)
Theorem C99_step_factor_at_ends i : small_order i -> (forall s, next_with_limiter pw C i (B754_zero s) = lim_max C i) /\ (i <> 0%nat -> ieq (next_with_limiter pw C i (B754_infinity false)) (lim_min C i) = true /\ next_with_limiter pw C i B754_nan = B754_nan).
Proof.
  intros H. pose proof (limits i H) as Li. pose proof Li as Lk. apply leqk in Lk. destruct Lk as (N1 & N2 & K). destruct (expon_ok i H) as (Pe & Px). split; [|intros I; split].
  - intros s. unfold next_with_limiter, limiter. replace (next pw C i (B754_zero s)) with (lim_max C i) by (destruct s; reflexivity). destruct (C99_in_range (lim_min C i) (lim_max C i) (lim_max C i) Li N2) as (_ & _ & A & _). apply A; [exact Li|]. apply leqk. split; auto. split; auto. lra.
  - destruct G as (F1 & F2 & _ & _ & G1 & G2 & _).
    assert (Z : is_nan (next pw C i (B754_infinity false)) = false /\ key (next pw C i (B754_infinity false)) = 0).
    { change (next pw C i (B754_infinity false)) with (imul s1 (pw (idiv s2 (B754_infinity false)) (expon C i))). assert (Ez : exists s, idiv s2 (B754_infinity false) = B754_zero s) by (destruct s2 as [s|s| |s m x B]; try discriminate F2; eexists; reflexivity). destruct Ez as (s & ->).
      destruct (pw_zero pw T s _ Pe (Px I)) as (Fz & Vz). destruct (zero_of _ Fz Vz) as (s' & ->). destruct s1 as [t|t| |t m x B]; try discriminate F1; split; reflexivity. }
    destruct Z as (Nz & Kz). unfold next_with_limiter, limiter. destruct (range_key _ _ _ Li Nz) as (Nr & Kr). apply (ieq_key _ _ Nr N1). rewrite Kr, Kz.
    destruct (C99_limits_enclose_one i H) as (A & _ & _). apply leqk in A. rewrite zero_key in A. unfold Rmax, Rmin. repeat destruct (Rle_dec _ _); lra.
  - unfold next_with_limiter, limiter. replace (next pw C i B754_nan) with (B754_nan : fl); [apply C99_in_range_special; exact s1|]. unfold next. change (ine (B754_nan : fl) izero) with true. cbv iota. replace (idiv (g2 C) B754_nan) with (B754_nan : fl) by (destruct (g2 C); reflexivity).
    rewrite (pw_nan pw T _ Pe (Px I)). rewrite imul_nan_r. reflexivity.
Qed.
(** Order 0 ignores the error, NaN included, as long as it is not zero. *)
Theorem C99_order_zero e : ine e izero = true -> next_with_limiter pw C 0 e = in_range (idiv ione s4) (imul s1 ione) s4.
Proof. intros E. unfold next_with_limiter, limiter, next. rewrite E. cbn [expon make lim_min lim_max g1 g2]. rewrite (pw_one pw T); auto. split; [reflexivity|cbn; lra]. Qed.
(** A larger error never gives a larger step. *)
Theorem C99_step_factor_monotone i e e' : grows pw -> small_order i -> leq izero e -> leq e e' -> leq (next_with_limiter pw C i e') (next_with_limiter pw C i e).
Proof.
  intros M H E Le. pose proof E as Ek. apply leqk in Ek. pose proof Le as Lk. apply leqk in Lk. rewrite zero_key in Ek. destruct Ek as (_ & N & K). destruct Lk as (_ & N' & K').
  assert (E' : leq izero e') by (apply leqk; rewrite zero_key; split; auto; split; auto; lra). pose proof (limits i H) as Li. pose proof Li as Lm. apply leqk in Lm. destruct Lm as (L1 & L2 & L3).
  destruct (next_key i e H E) as (A1 & A2). destruct (next_key i e' H E') as (B1 & B2). unfold next_with_limiter, limiter. destruct (range_key _ _ _ Li A1) as (R1 & R2). destruct (range_key _ _ _ Li B1) as (Q1 & Q2). apply leqk. split; auto. split; auto. rewrite R2, Q2.
  destruct (Rle_lt_or_eq_dec _ _ K) as [P|Z].
  - assert (Mk : key (next pw C i e') <= key (next pw C i e)).
    { unfold next. rewrite (proj2 (ine_key e N)) by lra. rewrite (proj2 (ine_key e' N')) by lra. destruct (expon_ok i H) as (Pe & _). destruct G as (F1 & F2 & _ & _ & G1 & G2 & _).
      destruct (div_pos s2 e) as (Nd & Kd); auto; [apply G2|]. destruct (div_pos s2 e') as (Nd' & Kd'); auto; [apply G2|lra|]. destruct (pow_key _ _ Nd Kd Pe) as (Np & Kp). destruct (pow_key _ _ Nd' Kd' Pe) as (Np' & Kp').
      cbn [g1 g2 make]. apply mul_mono; auto; [apply G1|]. assert (Lp : leq (pw (idiv s2 e') (expon C i)) (pw (idiv s2 e) (expon C i))).
      { apply M; auto; [apply leqk; rewrite zero_key; auto|]. apply leqk. split; auto. split; auto. apply div_anti; auto. apply G2. } apply leqk in Lp. tauto. }
    unfold Rmax, Rmin. repeat destruct (Rle_dec _ _); lra.
  - assert (Ex : next pw C i e = lim_max C i). { unfold next. destruct (ine e izero) eqn:Q; auto. apply (ine_key e N) in Q. lra. } rewrite Ex in *. unfold Rmax, Rmin. repeat destruct (Rle_dec _ _); lra.
Qed.
(** The exponent used for order i is the number closest to 1/i, in the ratio and in both limits. *)
Theorem C99_exponent i : small_order i -> i <> 0%nat ->
  exists y, fin y /\ B2R y = rne (1 / INR i) /\ lim_max C i = pw (idiv ione s3) y /\ lim_min C i = idiv (pw s3 y) s4 /\
    (forall e, ine e izero = true -> next_with_limiter pw C i e = in_range (lim_min C i) (imul s1 (pw (idiv s2 e) y)) (lim_max C i)).
Proof.
  intros H I. exists (expon C i). destruct i as [|i]; [congruence|]. destruct (one_val (prec:=prec) (emax:=emax)) as (F1 & V1). destruct (of_nat_int (prec:=prec) (emax:=emax) (S i) H) as (Fi & Vi).
  destruct (expon_ok (S i) H) as ((Fe & _) & _). split; [exact Fe|]. split.
  - rewrite INR_IZR_INZ. cbn [expon make] in *. assert (I1 : 1 <= IZR (Z.of_nat (S i))) by (apply IZR_le; lia). assert (N0 : B2R (of_nat (S i) : fl) <> 0) by (rewrite Vi; lra).
    destruct (cr_div ione (of_nat (S i)) F1 Fi N0) as (C1 & C2). rewrite V1, Vi in C1. apply C1.
    pose proof (dims (prec:=prec) (emax:=emax)) as D. assert (B : 0 <= 1 / IZR (Z.of_nat (S i)) <= 1). { unfold Rdiv. rewrite Rmult_1_l. split; [apply Rlt_le, Rinv_0_lt_compat; lra|]. rewrite <- Rinv_1. apply Rinv_le; lra. }
    assert (Fo : fmt 1) by (change 1 with (bpow radix2 0); apply (fmt_bp Hp); lia). pose proof (rne_le (prec:=prec) (emax:=emax) _ _ (proj2 B)) as R2. rewrite (rne_of _ Fo) in R2. pose proof (rne_nonneg (prec:=prec) (emax:=emax) _ (proj1 B)).
    assert (O : 1 < bpow radix2 emax) by (change 1 with (bpow radix2 0); apply bpow_lt; lia). rewrite Rabs_right; lra.
  - split; [reflexivity|]. split; [reflexivity|]. intros e E. unfold next_with_limiter, limiter, next. rewrite E. reflexivity.
Qed.
End P.
Print Assumptions C99_limits_enclose_one.
Print Assumptions C99_step_factor_in_limits.
Print Assumptions C99_step_factor_at_ends.
Print Assumptions C99_order_zero.
Print Assumptions C99_step_factor_monotone.
Print Assumptions C99_exponent.
