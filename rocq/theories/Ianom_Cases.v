(** C97: the hypotheses are met by correctly rounded library functions, and a double case. *)
From Verif Require Import Ianom_Model Ianom_Spec Ianom_Proofs Ianom_Proofs2 Ianom_Proofs3 Ianom_Props Ibis_Proofs Ibis_Proofs2 Ibis_Proofs3 Ieee_Proofs Ieee_Proofs2 Ieee_Proofs3 Ieee_Props2 Islice_Proofs Islice_Proofs2.
From Coq Require Import Lra Lia Bool Arith.
Open Scope R_scope.
Section Any.
Context {prec emax : Z} { prec_gt_0_ : Prec_gt_0 prec } { prec_lt_emax_ : Prec_lt_emax prec emax }.
Hypothesis Hp : (2 < prec)%Z.
Hypothesis HL : (least prec emax <= - 4 * prec)%Z.
Notation fl := (binary_float prec emax).
Notation rne := (Ieee_Spec.rne prec emax).
Notation L := (least prec emax).
Notation fin a := (is_finite a = true).
Notation u := (half_ulp prec).
Notation fx := (FLT_exp L prec).
Let Hp1 : (1 < prec)%Z. Proof. lia. Qed.
(** The nearest number of the format. *)
Definition of_real (x : R) : fl := binary_normalize prec emax prec_gt_0_ prec_lt_emax_ mode_NE (Ztrunc (scaled_mantissa radix2 fx (rne x))) (cexp radix2 fx (rne x)) false.
Lemma of_real_spec x : (Rabs (rne x) < bpow radix2 emax -> fin (of_real x) /\ B2R (of_real x) = rne x) /\ (bpow radix2 emax <= rne x -> of_real x = B754_infinity false).
Proof.
  pose proof (binary_normalize_correct prec emax prec_gt_0_ prec_lt_emax_ mode_NE (Ztrunc (scaled_mantissa radix2 fx (rne x))) (cexp radix2 fx (rne x)) false) as C. cbv zeta in C. fold (of_real x) in C.
  assert (E : F2R (Float radix2 (Ztrunc (scaled_mantissa radix2 fx (rne x))) (cexp radix2 fx (rne x))) = rne x) by (symmetry; exact (rne_fmt (prec:=prec) (emax:=emax) x)).
  rewrite E, (rne_eq (rne x)), (rne_of (rne x)) in C by apply rne_fmt. split; intros H.
  - rewrite Rlt_bool_true in C by exact H. destruct C as (A & B & _). auto.
  - pose proof (bpow_gt_0 radix2 emax). rewrite Rlt_bool_false in C by (rewrite Rabs_right; lra). rewrite (Rlt_bool_false (rne x) 0) in C by lra. change (B2SF (of_real x) = SpecFloat.S754_infinity false) in C. destruct (of_real x); cbn in C; try discriminate C. injection C as ->. reflexivity.
Qed.
Lemma of_real_small x : Rabs x <= 64 -> fin (of_real x) /\ B2R (of_real x) = rne x.
Proof. intros H. apply of_real_spec. apply (top _ 6); [pose proof (dims (prec:=prec) (emax:=emax)); lia|exact H]. Qed.
Lemma rounded_accurate (g : R -> R) : (forall x, Rabs x <= 4 -> Rabs (g x) <= 41) -> (forall x, Rabs x <= 1 -> Rabs (g x) <= 2 * Rabs x) -> accurate (fun x => of_real (g (B2R x))) g (42 * u).
Proof.
  intros B Z1. pose proof (u0 Hp1) as U. pose proof (dims (prec:=prec) (emax:=emax)) as D. split.
  - intros x Fx Bx. specialize (B _ Bx). destruct (of_real_small (g (B2R x))) as (F & V); [lra|]. split; auto. rewrite V. pose proof (near Hp1 HL (g (B2R x))) as N. nra.
  - intros x Fx Nx. assert (X1 : Rabs (B2R x) <= 1). { eapply Rle_trans; [exact Nx|]. unfold least_normal. change 1 with (bpow radix2 0). apply bpow_le. lia. }
    pose proof (Z1 _ X1) as G. destruct (of_real_small (g (B2R x))) as (F & V); [lra|]. rewrite V.
    assert (F2 : Kahan_Model.fmt L prec (2 * Rabs (B2R x))).
    { apply Kahan_Proofs.fmt_double; auto. apply generic_format_abs. apply B2R_fmt. }
    unfold Ieee_Spec.rne, Kahan_Model.rnd. apply abs_round_le_generic; auto with typeclass_instances.
Qed.
Lemma sinh_small x : Rabs x <= 1 -> Rabs (sinh x) <= 2 * Rabs x.
Proof.
  intros H. assert (P : forall t, 0 < t <= 1 -> 0 <= sinh t <= 2 * t).
  { intros t Ht. destruct (MVT_cor2 sinh cosh 0 t) as (c & E & Hc); [lra|intros; apply derivable_pt_lim_sinh|]. rewrite sinh_0, !Rminus_0_r in E. pose proof (cosh_ge c).
    assert (cosh c <= 2). { unfold cosh. pose proof exp_le_3. assert (exp c < exp 1) by (apply exp_increasing; lra). assert (exp (- c) < exp 0) by (apply exp_increasing; lra). rewrite exp_0 in *. lra. } rewrite E. nra. }
  destruct (Rtotal_order 0 x) as [X|[X|X]].
  - rewrite (Rabs_right x) in * by lra. specialize (P x ltac:(lra)). rewrite Rabs_right; lra.
  - subst x. rewrite sinh_0, Rabs_R0. lra.
  - rewrite (Rabs_left x) in * by lra. specialize (P (- x) ltac:(lra)). assert (So : sinh (- x) = - sinh x) by (unfold sinh; rewrite Ropp_involutive; lra). rewrite So in P. rewrite Rabs_left1; lra.
Qed.
(** Correctly rounded sin and sinh are accurate, and sinh has the signs asked for by C97_infinite_e_aborts_refuted. *)
Theorem C97_case_library : accurate (fun x : fl => of_real (sin (B2R x))) sin (42 * u) /\ accurate (fun x : fl => of_real (sinh (B2R x))) sinh (42 * u) /\
  (forall x : fl, fin x -> 0 < B2R x -> Ibis_Spec.positive (of_real (sinh (B2R x)))) /\ (forall x : fl, fin x -> B2R x = 0 -> fin (of_real (sinh (B2R x))) /\ B2R (of_real (sinh (B2R x))) = 0).
Proof.
  split; [|split; [|split]].
  - apply rounded_accurate; intros x H; [|pose proof (sin_abs x); pose proof (Rabs_pos x); lra]. apply Rabs_le. pose proof (SIN_bound x). lra.
  - apply rounded_accurate; intros x H; [apply sinh_bound; exact H|apply sinh_small; exact H].
  - intros x Fx Px. pose proof (sinh_growth 0 (B2R x) ltac:(lra)) as G. rewrite sinh_0 in G. assert (Q : B2R x <= rne (sinh (B2R x))). { rewrite <- (rne_of (B2R x)) at 1 by apply B2R_fmt. apply rne_le. lra. }
    destruct (of_real_spec (sinh (B2R x))) as (A & B). destruct (Rlt_or_le (rne (sinh (B2R x))) (bpow radix2 emax)) as [X|X].
    + destruct A as (F & V); [rewrite Rabs_right; lra|]. apply gt_zero_fin; auto. rewrite V. lra.
    + rewrite (B X). reflexivity.
  - intros x Fx Zx. rewrite Zx, sinh_0. destruct (of_real_small 0) as (F & V); [rewrite Rabs_R0; lra|]. rewrite V, rne_0. auto.
Qed.
End Any.
Print Assumptions C97_case_library.
(** Doubles: pi, M = 1, e = 1/2, and correctly rounded functions. *)
#[local] Instance p53 : Prec_gt_0 53 := eq_refl.
#[local] Instance e1024 : Prec_lt_emax 53 1024 := eq_refl.
Notation dbl := (binary_float 53 1024).
Definition d_1 : dbl := @B754_finite 53 1024 false 4503599627370496 (-52) eq_refl.
Definition d_h : dbl := @B754_finite 53 1024 false 4503599627370496 (-53) eq_refl.
Definition d_p : dbl := @B754_finite 53 1024 false 7074237752028440 (-51) eq_refl.
Example C97_case_double : let sn := fun x : dbl => of_real (sin (B2R x)) in let sh := fun x : dbl => of_real (sinh (B2R x)) in
  exists r, gives sn sh d_p d_1 d_h r /\ forall E, E - / 2 * sin E = 1 -> Rabs (B2R r - E) <= 133 * bpow radix2 (-53).
Proof.
  intros sn sh. assert (P : (2 < 53)%Z) by lia. assert (HL : (least 53 1024 <= - 4 * 53)%Z) by (vm_compute; discriminate).
  assert (V1 : B2R d_1 = 1) by (unfold d_1, B2R, F2R; cbn [Fnum Fexp cond_Zopp]; change (bpow radix2 (-52)) with (/ 4503599627370496); lra).
  assert (Vh : B2R d_h = / 2) by (unfold d_h, B2R, F2R; cbn [Fnum Fexp cond_Zopp]; change (bpow radix2 (-53)) with (/ 9007199254740992); lra).
  assert (Vp : 3 <= B2R d_p <= 4) by (unfold d_p, B2R, F2R; cbn [Fnum Fexp cond_Zopp]; change (bpow radix2 (-51)) with (/ 2251799813685248); lra).
  assert (Hpi : like_pi d_p) by (split; [reflexivity|exact Vp]). destruct (C97_case_library P HL) as (As & Ah & _).
  assert (U : 0 < half_ulp 53 <= / 1024). { unfold half_ulp. split; [apply bpow_gt_0|]. change (/ 1024) with (bpow radix2 (-10)). apply bpow_le. lia. }
  destruct (C97_returns P HL sn sh (42 * half_ulp 53) (42 * half_ulp 53) 0 d_p d_1 d_h Hpi As Ah) as ((r & G) & _); [vm_compute; split; discriminate|reflexivity|reflexivity|rewrite Vh; cbn; lra|].
  exists r. split; [exact G|]. intros E HE. assert (E1 : bpow radix2 (1 - 53) < Rabs (B2R d_1)). { rewrite V1, Rabs_R1. change 1 with (bpow radix2 0). apply bpow_lt. reflexivity. }
  pose proof (C97_elliptic P HL sn sh (42 * half_ulp 53) d_p d_1 d_h r E Hpi As ltac:(lra) eq_refl E1 eq_refl ltac:(rewrite Vh; lra)) as Q. rewrite Vh, V1, Rabs_R1 in Q.
  assert (SB : Rabs (sin (B2R d_p)) <= 1) by (apply Rabs_le; pose proof (SIN_bound (B2R d_p)); lra). specialize (Q ltac:(lra) G HE). change (bpow radix2 (-53)) with (half_ulp 53).
  eapply Rle_trans; [exact Q|]. apply Req_le. field.
Qed.
Print Assumptions C97_case_double.
