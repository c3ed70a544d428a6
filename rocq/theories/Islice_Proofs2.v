From Verif Require Import Islice_Model Islice_Spec Islice_Proofs Ieee_Proofs Ieee_Proofs2 Ieee_Proofs3 Ieee_Props2 Kahan_Proofs Fchain_Proofs2 Slice_Model.
From Flocq Require Import Relative.
From Coq Require Import Lra Lia.
Open Scope R_scope.
Section P.
Context {prec emax : Z} { prec_gt_0_ : Prec_gt_0 prec } { prec_lt_emax_ : Prec_lt_emax prec emax }.
Notation fl := (binary_float prec emax).
Notation rne := (rne prec emax).
Notation u := (unit_roundoff prec).

Lemma B2R_fmt (a : fl) : Kahan_Model.fmt (least prec emax) prec (B2R a).
Proof. unfold Kahan_Model.fmt. rewrite <- fexp_FLT. apply generic_format_B2R. Qed.
Lemma u_is : Kahan_Proofs.u prec = u.
Proof. apply Kahan_Proofs.u_eq. Qed.
Lemma u_pos : 0 < u. Proof. apply bpow_gt_0. Qed.
Lemma u_small : (2 <= prec)%Z -> u <= / 4.
Proof. intros H. unfold unit_roundoff. change (/ 4) with (bpow radix2 (-2)). apply bpow_le. lia. Qed.
Lemma add_near (a b : fl) : Rabs (rne (B2R a + B2R b) - (B2R a + B2R b)) <= u * Rabs (B2R a + B2R b).
Proof. rewrite <- u_is. apply (rnd_add_err (least prec emax) prec even_choice); apply B2R_fmt. Qed.
Lemma sub_near (a b : fl) : Rabs (rne (B2R a - B2R b) - (B2R a - B2R b)) <= u * Rabs (B2R a - B2R b).
Proof. pose proof (add_near a (Bopp b)) as H. rewrite B2R_Bopp in H. exact H. Qed.

(** What the constructor computes, away from overflow and underflow. *)
Section Drift.
Variables (st en : fl) (n : nat) (B : R).
Hypothesis Hp : (2 <= prec)%Z.
Hypothesis Fs : is_finite st = true.
Hypothesis Fe : is_finite en = true.
Hypothesis Hn : (0 < n)%nat.
Hypothesis Hn2 : (Z.of_nat n <= 2 ^ prec)%Z.
Hypothesis Bs : Rabs (B2R st) <= B.
Hypothesis Be : Rabs (B2R en) <= B.
Hypothesis Bm : B <= bpow radix2 (emax - 3).
Let w := B2R en - B2R st.
Hypothesis Hw : bpow radix2 (least prec emax + prec) * INR n <= w.
Let int := it_int (it_make st en n).
Let e := u * (B + 4 * (w / INR n)).

Lemma n1 : 1 <= INR n. Proof. apply (le_INR 1). lia. Qed.
Lemma w_pos : 0 < w. Proof. pose proof (bpow_gt_0 radix2 (least prec emax + prec)). pose proof n1. nra. Qed.
Lemma w_B : w <= 2 * B. Proof. unfold w. pose proof (Rle_abs (B2R en)). pose proof (Rle_abs (- B2R st)) as Q. rewrite Rabs_Ropp in Q. lra. Qed.
Lemma emax8 : 8 * bpow radix2 (emax - 3) = bpow radix2 emax.
Proof. change 8 with (bpow radix2 3). rewrite <- bpow_plus. f_equal. lia. Qed.
Lemma int_ok : is_finite int = true /\ Rabs (B2R int - w / INR n) <= (2 * u + u * u) * (w / INR n).
Proof.
  pose proof u_pos as U0. pose proof (u_small Hp) as U4. pose proof w_pos as W0. pose proof w_B as WB. pose proof n1 as N1. pose proof emax8 as E8.
  assert (P0 : 0 < bpow radix2 (emax - 3)) by apply bpow_gt_0. assert (Wn : 0 < w / INR n) by (apply Rdiv_lt_0_compat; lra).
  assert (Wn1 : w / INR n <= w). { apply Rmult_le_reg_r with (INR n); [lra|]. unfold Rdiv. rewrite Rmult_assoc, Rinv_l by lra. nra. }
  destruct (cr_sub en st Fe Fs) as (C & _). fold w in C. pose proof (sub_near en st) as S. fold w in S. rewrite (Rabs_pos_eq w) in S by lra. apply Rabs_le_inv in S.
  assert (L : Rabs (rne w) < bpow radix2 emax). { apply Rabs_lt. split; nra. }
  destruct (C L) as (Fd & Ed). destruct (@of_nat_int prec emax _ _ n Hn2) as (Fn & En). rewrite <- INR_IZR_INZ in En.
  assert (NZ : B2R (of_nat n : fl) <> 0) by lra. destruct (cr_div (isub en st) (of_nat n) Fd Fn NZ) as (C2 & _). rewrite Ed, En in C2.
  set (q := rne w / INR n) in *.
  assert (Q : q = w / INR n + (rne w - w) / INR n) by (unfold q; field; lra).
  assert (Q2 : Rabs (q - w / INR n) <= u * (w / INR n)).
  { replace (q - w / INR n) with ((rne w - w) / INR n) by lra. unfold Rdiv. rewrite Rabs_mult, (Rabs_pos_eq (/ INR n)) by (left; apply Rinv_0_lt_compat; lra).
    replace (u * (w * / INR n)) with (u * w * / INR n) by ring. apply Rmult_le_compat_r; [left; apply Rinv_0_lt_compat; lra|]. apply Rabs_le. lra. }
  apply Rabs_le_inv in Q2.
  assert (B1 : bpow radix2 (least prec emax + prec - 1) <= Rabs q).
  { assert (2 * bpow radix2 (least prec emax + prec - 1) = bpow radix2 (least prec emax + prec)) as D.
    { change 2 with (bpow radix2 1). rewrite <- bpow_plus. f_equal. lia. }
    assert (bpow radix2 (least prec emax + prec) <= w / INR n) as D2.
    { apply Rmult_le_reg_r with (INR n); [lra|]. unfold Rdiv. rewrite Rmult_assoc, Rinv_l by lra. lra. }
    rewrite Rabs_pos_eq; nra. }
  pose proof (relative_error_N_FLT radix2 (least prec emax) prec prec_gt_0_ even_choice q B1) as R1. change (round radix2 (FLT_exp (least prec emax) prec) (Znearest even_choice) q) with (rne q) in R1.
  replace (/ 2 * bpow radix2 (- prec + 1)) with u in R1. 2: { rewrite bpow_plus. unfold unit_roundoff. change (bpow radix2 1) with 2. field. }
  assert (Qp : 0 < q) by nra. rewrite (Rabs_pos_eq q) in R1 by lra. apply Rabs_le_inv in R1.
  assert (L2 : Rabs (rne q) < bpow radix2 emax). { apply Rabs_lt. split; nra. }
  destruct (C2 L2) as (Fi & Ei). unfold int, it_make. cbn [it_int]. split; [exact Fi|]. rewrite Ei. apply Rabs_le. split; nra.
Qed.
Lemma drift k : (forall j, (j < k)%nat -> exists t, leq (slot st int j) t /\ leq t en) ->
  is_finite (slot st int k) = true /\ Rabs (B2R (slot st int k) - (B2R st + INR k * (w / INR n))) <= INR k * e /\ B2R st <= B2R (slot st int k).
Proof.
  pose proof u_pos as U0. pose proof (u_small Hp) as U4. pose proof w_pos as W0. pose proof w_B as WB. pose proof n1 as N1. pose proof emax8 as E8.
  assert (Wn : 0 < w / INR n) by (apply Rdiv_lt_0_compat; lra).
  assert (Wn1 : w / INR n <= w). { apply Rmult_le_reg_r with (INR n); [lra|]. unfold Rdiv. rewrite Rmult_assoc, Rinv_l by lra. nra. }
  destruct int_ok as (Fi & Ei). apply Rabs_le_inv in Ei. set (v := w / INR n) in *.
  assert (P0 : 0 < bpow radix2 (emax - 3)) by apply bpow_gt_0.
  induction k as [|k IH]; intros H; cbn [slot].
  - split; auto. split; [|lra]. change (INR 0) with 0. replace (B2R st - (B2R st + 0 * v)) with 0 by ring. rewrite Rabs_R0. lra.
  - destruct IH as (F & E & M); [intros; apply H; lia|]. destruct (H k ltac:(lia)) as (t & T1 & T2). destruct (leq_fin _ _ _ F Fe T1 T2) as (Ft & T3).
    set (s := slot st int k) in *. pose proof (add_near s int) as A.
    assert (SB : Rabs (B2R s) <= B). { apply Rabs_le. apply Rabs_le_inv in Bs. apply Rabs_le_inv in Be. lra. }
    assert (IB : 0 < B2R int <= (1 + u) * (1 + u) * v).
    { assert (2 * u + u * u <= 9 / 16) as U5 by nra. assert ((2 * u + u * u) * v <= 9 / 16 * v) by (apply Rmult_le_compat_r; lra). replace ((1 + u) * (1 + u) * v) with (v + (2 * u + u * u) * v) by ring. lra. }
    assert (SI : Rabs (B2R s + B2R int) <= B + (1 + u) * (1 + u) * v). { apply Rle_trans with (1 := Rabs_triang _ _). rewrite (Rabs_pos_eq (B2R int)) by lra. lra. }
    assert (U2 : (1 + u) * (1 + u) <= 25 / 16) by nra.
    assert (B0 : 0 <= B) by (apply Rle_trans with (2 := Bs); apply Rabs_pos).
    assert (A1 : Rabs (rne (B2R s + B2R int) - (B2R s + B2R int)) <= u * (B + (1 + u) * (1 + u) * v)) by (apply Rle_trans with (1 := A); apply Rmult_le_compat_l; lra).
    assert (L : Rabs (rne (B2R s + B2R int)) < bpow radix2 emax).
    { apply Rle_lt_trans with (Rabs (B2R s + B2R int) + Rabs (rne (B2R s + B2R int) - (B2R s + B2R int))).
      { replace (rne (B2R s + B2R int)) with (B2R s + B2R int + (rne (B2R s + B2R int) - (B2R s + B2R int))) at 1 by ring. apply Rabs_triang. }
      assert ((1 + u) * (1 + u) * v <= 25 / 16 * (2 * B)) by nra. nra. }
    destruct (cr_add s int F Fi) as (C & _). destruct (C L) as (F1 & V1). split; [exact F1|]. rewrite V1. split.
    + rewrite S_INR. replace (rne (B2R s + B2R int) - (B2R st + (INR k + 1) * v)) with ((B2R s - (B2R st + INR k * v)) + ((rne (B2R s + B2R int) - (B2R s + B2R int)) + (B2R int - v))) by ring.
      apply Rle_trans with (1 := Rabs_triang _ _). apply Rle_trans with (INR k * e + (u * (B + (1 + u) * (1 + u) * v) + (2 * u + u * u) * v)).
      * apply Rplus_le_compat; auto. apply Rle_trans with (1 := Rabs_triang _ _). apply Rplus_le_compat; auto. apply Rabs_le. lra.
      * assert (u * (B + (1 + u) * (1 + u) * v) + (2 * u + u * u) * v <= e); [|rewrite (Rmult_plus_distr_r (INR k) 1 e), Rmult_1_l; apply Rplus_le_compat_l; assumption]. unfold e.
        replace (u * (B + (1 + u) * (1 + u) * v) + (2 * u + u * u) * v) with (u * (B + (3 + 3 * u + u * u) * v)) by ring. apply Rmult_le_compat_l; [lra|]. apply Rplus_le_compat_l. apply Rmult_le_compat_r; nra.
    + apply Rle_trans with (B2R s); auto. rewrite <- (rnd_id (least prec emax) prec even_choice (B2R s)) at 1 by apply B2R_fmt. apply rne_le. lra.
Qed.
End Drift.

(** n = 0: the interval is infinite or not a number. *)
Lemma of_nat_0 : of_nat 0 = (B754_zero false : fl).
Proof. reflexivity. Qed.
Lemma zero_interval (st en t : fl) : is_finite st = true -> is_finite en = true -> leq st t -> leq t en ->
  forall r, leq (iadd st (it_int (it_make st en 0))) r -> leq r en -> False.
Proof.
  intros Fs Fe H1 H2 r R1 R2. destruct (leq_fin st t en Fs Fe H1 H2) as (Ft & T).
  assert (W : 0 <= B2R en - B2R st) by lra. destruct (cr_sub en st Fe Fs) as (C1 & C2).
  assert (P : isub en st = B754_nan \/ is_finite (isub en st) = true /\ B2R (isub en st) >= 0 \/ isub en st = B754_infinity false).
  { destruct (Rlt_or_le (Rabs (rne (B2R en - B2R st))) (bpow radix2 emax)) as [L|L].
    - right; left. destruct (C1 L) as (F & V). split; auto. rewrite V. apply Rle_ge. apply rne_nonneg. exact W.
    - right; right. apply (proj1 (C2 L)). destruct W as [W|W]; auto. rewrite <- W, rne_0, Rabs_R0 in L. pose proof (bpow_gt_0 radix2 emax). lra. }
  assert (I : it_int (it_make st en 0) = B754_nan \/ it_int (it_make st en 0) = B754_infinity false).
  { unfold it_make. cbn [it_int]. rewrite of_nat_0. destruct P as [P|[(F & P)|P]]; [rewrite P; left; reflexivity| |rewrite P; right; reflexivity].
    destruct (isub en st) as [z|z| |z m e Hb]; try discriminate; [left; reflexivity|]. right. destruct z; [|reflexivity]. exfalso. apply Rge_le in P. apply Rle_not_lt in P. apply P. cbn [B2R]. apply F2R_lt_0. reflexivity. }
  destruct I as [I|I]; rewrite I in R1.
  - rewrite iadd_nan_r in R1. destruct (leq_nan _ _ R1). discriminate.
  - assert (E : iadd st (B754_infinity false) = B754_infinity false) by (destruct st; try discriminate; reflexivity). rewrite E in R1.
    destruct (leq_nan _ _ R1) as (N1 & N2). destruct (leq_nan _ _ R2) as (_ & N3). apply (leq_key _ _ N1 N2) in R1. apply (leq_key _ _ N2 N3) in R2.
    destruct (key_fin en Fe) as (K & B). rewrite K in R2. cbn [key] in R1. lra.
Qed.
End P.
