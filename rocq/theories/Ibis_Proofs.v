From Verif Require Import Ibis_Model Ibis_Spec Ieee_Proofs Ieee_Proofs2 Ieee_Proofs3 Ieee_Props2 Kahan_Proofs Islice_Proofs Islice_Proofs2 Fchain_Proofs2.
From Flocq Require Import Plus_error.
From Coq Require Import Lra Lia Bool Arith.
Open Scope R_scope.
Section P.
Context {prec emax : Z} { prec_gt_0_ : Prec_gt_0 prec } { prec_lt_emax_ : Prec_lt_emax prec emax }.
Notation fl := (binary_float prec emax).
Notation rne := (rne prec emax).
Notation L := (least prec emax).
Notation fmt := (Kahan_Model.fmt L prec).
Notation fin a := (is_finite a = true).
Local Instance vexp : Valid_exp (FLT_exp L prec) := FLT_exp_valid L prec.
Local Instance mexp : Monotone_exp (FLT_exp L prec) := FLT_exp_monotone L prec.

(** * The format *)
Lemma rne_near x g : fmt g -> Rabs (rne x - x) <= Rabs (g - x).
Proof. intros F. destruct (round_N_pt radix2 (FLT_exp L prec) even_choice x) as (_ & H). apply H. exact F. Qed.
Lemma rne_fmt x : fmt (rne x). Proof. apply (rnd_fmt L prec); auto. Qed.
Lemma rne_of x : fmt x -> rne x = x. Proof. intros H. apply (rnd_id L prec); auto. Qed.
Lemma fmt_half y : fmt y -> bpow radix2 (L + prec) <= Rabs y -> fmt (y / 2).
Proof.
  intros Fy H. apply generic_format_FLT. apply FLT_format_generic in Fy; auto. destruct Fy as [[m e] E M X]. cbn [Fnum Fexp] in *.
  assert (L < e)%Z.
  { destruct (Z.eq_dec e L) as [->|N]; [|lia]. exfalso. rewrite E in H. unfold F2R in H. cbn [Fnum Fexp] in H. rewrite Rabs_mult, <- abs_IZR, (Rabs_right (bpow radix2 L)) in H by (apply Rle_ge, bpow_ge_0).
    rewrite Z.add_comm, bpow_plus in H. apply Rmult_le_reg_r in H; [|apply bpow_gt_0].
    pose proof (prec_gt_0 prec) as P0. rewrite <- IZR_Zpower in H by lia. apply le_IZR in H. lia. }
  exists (Float radix2 m (e - 1)); cbn [Fnum Fexp]; [|exact M|lia]. rewrite E. unfold F2R. cbn [Fnum Fexp]. replace (e - 1)%Z with (e + -1)%Z by lia. rewrite bpow_plus. change (bpow radix2 (-1)) with (/ 2). field.
Qed.
Lemma fmt_gap x y : fmt x -> fmt y -> x < y -> x + bpow radix2 L <= y.
Proof.
  assert (G : forall z, fmt z -> exists m, z = IZR m * bpow radix2 L).
  { intros z Fz. apply FLT_format_generic in Fz; auto. destruct Fz as [[m e] E M X]. cbn [Fnum Fexp] in *. exists (m * 2 ^ (e - L))%Z. rewrite E. unfold F2R. cbn [Fnum Fexp].
    change (2 ^ (e - L))%Z with (Zpower radix2 (e - L)). rewrite mult_IZR, IZR_Zpower by lia. rewrite Rmult_assoc, <- bpow_plus. do 2 f_equal. lia. }
  intros Fx Fy H. destruct (G x Fx) as (a & ->), (G y Fy) as (b & ->). pose proof (bpow_gt_0 radix2 L) as B. apply Rmult_lt_reg_r in H; auto. apply lt_IZR in H.
  assert (IZR (a + 1) <= IZR b) by (apply IZR_le; lia). rewrite plus_IZR in H0. nra.
Qed.

(** * The midpoint *)
Definition rmid (l h : R) : R := rne (/ 2 * rne (h + l)).
Lemma rmid_comm l h : rmid l h = rmid h l. Proof. unfold rmid. rewrite Rplus_comm. reflexivity. Qed.
Lemma rmid_or l h : fmt l -> fmt h -> rmid l h = rne ((h + l) / 2) \/ rmid l h = rne (h + l) / 2.
Proof.
  intros Fl Fh. unfold rmid. destruct (Rle_or_lt (Rabs (h + l)) (bpow radix2 (prec + L))) as [S|S].
  - left. rewrite (rne_of (h + l)). f_equal. field. apply (FLT_format_plus_small radix2 L prec); auto.
  - right. assert (E : / 2 * rne (h + l) = rne (h + l) / 2) by field. rewrite E. apply rne_of, fmt_half; [apply rne_fmt|].
    unfold Ieee_Spec.rne, rnd. rewrite Z.add_comm. apply abs_round_ge_generic; auto with typeclass_instances; [|lra]. apply generic_format_bpow. unfold FLT_exp. pose proof (prec_gt_0 prec). lia.
Qed.
Lemma rmid_in l h : fmt l -> fmt h -> l <= h -> l <= rmid l h <= h.
Proof.
  intros Fl Fh H. pose proof (fmt_double L prec l Fl) as Dl. pose proof (fmt_double L prec h Fh) as Dh. destruct (rmid_or l h Fl Fh) as [-> | ->].
  - pose proof (rne_le (prec:=prec) (emax:=emax) l ((h + l) / 2) ltac:(lra)) as A. pose proof (rne_le (prec:=prec) (emax:=emax) ((h + l) / 2) h ltac:(lra)) as B. rewrite (rne_of l Fl) in A. rewrite (rne_of h Fh) in B. lra.
  - pose proof (rne_le (prec:=prec) (emax:=emax) (2 * l) (h + l) ltac:(lra)) as A. pose proof (rne_le (prec:=prec) (emax:=emax) (h + l) (2 * h) ltac:(lra)) as B. rewrite (rne_of _ Dl) in A. rewrite (rne_of _ Dh) in B. lra.
Qed.
Lemma rmid_strict l m h : fmt l -> fmt m -> fmt h -> l < m < h -> l < rmid l h < h.
Proof.
  intros Fl Fm Fh H. destruct (rmid_in l h Fl Fh ltac:(lra)) as (A & B).
  pose proof (fmt_double L prec m Fm) as Dm. destruct (rmid_or l h Fl Fh) as [E|E].
  - pose proof (rne_near ((h + l) / 2) m Fm) as N. rewrite <- E in N. unfold Rabs in N. destruct (Rcase_abs (m - (h + l) / 2)), (Rcase_abs (rmid l h - (h + l) / 2)); lra.
  - pose proof (rne_near (h + l) (2 * m) Dm) as N. assert (E2 : rne (h + l) = 2 * rmid l h) by lra. rewrite E2 in N. unfold Rabs in N. destruct (Rcase_abs (2 * m - (h + l))), (Rcase_abs (2 * rmid l h - (h + l))); lra.
Qed.

(** * The loop condition *)
Lemma next_below h : fmt h -> least_normal prec emax <= Rabs h -> exists m, fmt m /\ m < h /\ h - m <= Rabs h * bpow radix2 (1 - prec).
Proof.
  intros Fh N. pose proof (ulp_FLT_le radix2 L prec h N) as U. pose proof (bpow_gt_0 radix2 (L + prec - 1)) as B0. unfold least_normal in N.
  destruct (Rle_or_lt 0 h) as [P|P].
  - assert (0 < h) by (unfold Rabs in N; destruct (Rcase_abs h); lra). exists (pred radix2 (FLT_exp L prec) h). split; [apply generic_format_pred; auto with typeclass_instances|].
    split; [apply pred_lt_id; lra|]. pose proof (pred_plus_ulp radix2 (FLT_exp L prec) h H Fh) as E.
    assert (ulp radix2 (FLT_exp L prec) (pred radix2 (FLT_exp L prec) h) <= ulp radix2 (FLT_exp L prec) h).
    { apply ulp_le; auto with typeclass_instances. pose proof (pred_ge_0 radix2 (FLT_exp L prec) h H Fh). pose proof (pred_le_id radix2 (FLT_exp L prec) h). rewrite !Rabs_right; lra. }
    lra.
  - exists (pred radix2 (FLT_exp L prec) h). split; [apply generic_format_pred; auto with typeclass_instances|]. split; [apply pred_lt_id; lra|].
    replace h with (- (- h)) at 2 by ring. rewrite pred_opp, succ_eq_pos by lra. rewrite ulp_opp. lra.
Qed.
Lemma next_above h : fmt h -> least_normal prec emax <= Rabs h -> exists m, fmt m /\ h < m /\ m - h <= Rabs h * bpow radix2 (1 - prec).
Proof.
  intros Fh N. destruct (next_below (- h) (fmt_opp L prec h Fh)) as (m & A & B & D); [rewrite Rabs_Ropp; auto|]. exists (- m). rewrite Rabs_Ropp in D.
  split; [apply (fmt_opp L prec); auto|]. split; lra.
Qed.
(** Near zero. *)
Lemma next_small h g : fmt h -> fmt g -> Rabs h < least_normal prec emax -> h < g -> fmt (h + bpow radix2 L) .
Proof.
  intros Fh Fg H _. pose proof (prec_gt_0 prec) as P0. assert (FL : fmt (bpow radix2 L)) by (apply generic_format_bpow; unfold FLT_exp; lia).
  apply (FLT_format_plus_small radix2 L prec); auto. eapply Rle_trans; [apply Rabs_triang|]. rewrite (Rabs_right (bpow radix2 L)) by (apply Rle_ge, bpow_ge_0).
  unfold least_normal in H. assert (bpow radix2 L <= bpow radix2 (L + prec - 1)) by (apply bpow_le; lia).
  replace (prec + L)%Z with (L + prec - 1 + 1)%Z by lia. rewrite bpow_plus. change (bpow radix2 1) with 2. lra.
Qed.
End P.
