From Verif Require Import Ibis_Model Ibis_Spec Ibis_Proofs Ieee_Proofs Ieee_Proofs2 Ieee_Proofs3 Ieee_Props2 Kahan_Proofs Islice_Proofs Islice_Proofs2 Fchain_Proofs2.
From Coq Require Import Lra Lia Bool Arith.
Open Scope R_scope.
Section P.
Context {prec emax : Z} { prec_gt_0_ : Prec_gt_0 prec } { prec_lt_emax_ : Prec_lt_emax prec emax }.
Hypothesis Hp : (1 < prec)%Z.
Notation fl := (binary_float prec emax).
Notation rne := (rne prec emax).
Notation L := (least prec emax).
Notation fmt := (Kahan_Model.fmt L prec).
Notation fin a := (is_finite a = true).

Lemma dims : (0 < prec)%Z /\ (prec < emax)%Z /\ (L = 3 - emax - prec)%Z.
Proof. pose proof (prec_gt_0 prec). pose proof prec_lt_emax_ as P. unfold Prec_lt_emax in P. unfold least. lia. Qed.
Lemma fmt_bp e : (L <= e)%Z -> fmt (bpow radix2 e).
Proof. intros H. apply generic_format_bpow. unfold FLT_exp. pose proof dims. lia. Qed.
Lemma power_val e : (L <= e < emax)%Z -> let x := binary_normalize prec emax prec_gt_0_ prec_lt_emax_ mode_NE 1 e false in fin x /\ B2R x = bpow radix2 e.
Proof.
  intros H. cbv zeta. pose proof (binary_normalize_correct prec emax _ _ mode_NE 1 e false) as C. cbv zeta in C.
  replace (F2R (Float radix2 1 e)) with (bpow radix2 e) in C by (unfold F2R; cbn [Fnum Fexp]; ring). rewrite (rne_eq (bpow radix2 e)) in C.
  rewrite (rne_of (prec:=prec) (emax:=emax) _ (fmt_bp e (proj1 H))) in C. rewrite Rlt_bool_true in C.
  - destruct C as (C1 & C2 & _). split; [exact C2|exact C1].
  - rewrite Rabs_right by (apply Rle_ge, bpow_ge_0). apply bpow_lt. lia.
Qed.
Lemma eps_val : fin (ieps : fl) /\ B2R (ieps : fl) = bpow radix2 (1 - prec).
Proof. apply power_val. pose proof dims. lia. Qed.
Lemma half_val : fin (ihalf : fl) /\ B2R (ihalf : fl) = / 2.
Proof. apply (power_val (-1)). pose proof dims. lia. Qed.

Lemma mid_val (l h : fl) : good_end l -> good_end h -> fin (b_mid l h) /\ B2R (b_mid l h) = rmid (prec:=prec) (emax:=emax) (B2R l) (B2R h).
Proof.
  intros (Fl & Gl) (Fh & Gh). pose proof dims as D. destruct half_val as (F2 & V2). destruct (bounded_add h l (emax - 2)) as (Fs & Bs); auto; [lia|].
  destruct (iadd_finite _ _ Fs) as (_ & _ & Vs). unfold b_mid, rmid. destruct (cr_mul ihalf (iadd h l) F2 Fs) as (C & _). rewrite V2, Vs in C. rewrite Vs in Bs.
  assert (X : Rabs (rne (/ 2 * rne (B2R h + B2R l))) < bpow radix2 emax).
  { eapply Rle_lt_trans; [apply (rne_bpow _ (emax - 2)); [lia|]|apply bpow_lt; lia].
    rewrite Rabs_mult, (Rabs_right (/ 2)) by lra. replace (emax - 2 + 1)%Z with (emax - 2 + 1)%Z in Bs by lia. rewrite bpow_plus in Bs. change (bpow radix2 1) with 2 in Bs. lra. }
  destruct (C X) as (C1 & C2). split; auto.
Qed.
Lemma mid_in (l h : fl) : good_end l -> good_end h -> within_ends l h (b_mid l h) /\ good_end (b_mid l h).
Proof.
  intros Gl Gh. destruct (mid_val l h Gl Gh) as (F & V). assert (W : Rmin (B2R l) (B2R h) <= B2R (b_mid l h) <= Rmax (B2R l) (B2R h)).
  { rewrite V. unfold Rmin, Rmax. destruct (Rle_dec (B2R l) (B2R h)) as [X|X].
    - apply rmid_in; auto; apply B2R_fmt.
    - rewrite rmid_comm. apply rmid_in; try apply B2R_fmt. lra. }
  split; [split; auto|]. split; auto. destruct Gl as (_ & Gl), Gh as (_ & Gh). apply Rabs_le. apply Rabs_le_inv in Gl, Gh. unfold Rmin, Rmax in W. destruct (Rle_dec (B2R l) (B2R h)); lra.
Qed.
Lemma cont_iff (l h : fl) : good_end l -> good_end h ->
  b_continue l h = true <-> rne (Rabs (B2R h) * bpow radix2 (1 - prec)) < Rabs (rne (B2R h - B2R l)).
Proof.
  intros (Fl & Gl) (Fh & Gh). pose proof dims as D. destruct eps_val as (Fe & Ve).
  assert (Fs : fin (isub h l) /\ B2R (isub h l) = rne (B2R h - B2R l)).
  { destruct (cr_sub h l Fh Fl) as (C & _). apply C. eapply Rle_lt_trans; [apply (rne_bpow _ (emax - 1)); [lia|]|apply bpow_lt; lia].
    replace (emax - 1)%Z with (emax - 2 + 1)%Z by lia. rewrite bpow_plus. change (bpow radix2 1) with 2. apply Rabs_le. apply Rabs_le_inv in Gl, Gh. lra. }
  destruct Fs as (Fs & Vs). assert (Fm : fin (imul (iabs h) ieps) /\ B2R (imul (iabs h) ieps) = rne (Rabs (B2R h) * bpow radix2 (1 - prec))).
  { assert (Fa : fin (iabs h)) by (unfold iabs; rewrite is_finite_Babs; auto). assert (Va : B2R (iabs h) = Rabs (B2R h)) by (unfold iabs; apply B2R_Babs). destruct (cr_mul (iabs h) ieps Fa Fe) as (C & _). rewrite Va, Ve in C. apply C.
    eapply Rle_lt_trans; [apply (rne_bpow _ (emax - 2)); [lia|]|apply bpow_lt; lia]. rewrite Rabs_mult, Rabs_Rabsolu, (Rabs_right (bpow _ _)) by (apply Rle_ge, bpow_ge_0).
    assert (bpow radix2 (1 - prec) <= 1) by (change 1 with (bpow radix2 0); apply bpow_le; lia). pose proof (bpow_ge_0 radix2 (1 - prec)). pose proof (Rabs_pos (B2R h)). nra. }
  destruct Fm as (Fm & Vm). unfold b_continue. assert (Fa : fin (iabs (isub h l))) by (unfold iabs; rewrite is_finite_Babs; auto).
  rewrite igt_key by (apply finite_not_nan; auto). rewrite (proj1 (key_fin _ Fm)), (proj1 (key_fin _ Fa)), Vm. unfold iabs. rewrite B2R_Babs, Vs. tauto.
Qed.
Lemma progress (l h : fl) : good_end l -> good_end h -> b_continue l h = true ->
  (exists m, fmt m /\ Rmin (B2R l) (B2R h) < m < Rmax (B2R l) (B2R h)) \/ (near_zero l /\ near_zero h /\ Rabs (B2R h - B2R l) = bpow radix2 L).
Proof.
  intros Gl Gh C. apply cont_iff in C; auto. pose proof dims as D.
  assert (Main : forall a b, fmt a -> fmt b -> a < b -> rne (Rabs b * bpow radix2 (1 - prec)) < Rabs (rne (b - a)) ->
    (exists m, fmt m /\ a < m < b) \/ (Rabs a <= least_normal prec emax /\ Rabs b <= least_normal prec emax /\ b - a = bpow radix2 L)).
  { intros a b Fa Fb Lt Cc. destruct (Rle_or_lt (least_normal prec emax) (Rabs b)) as [N|N].
    - left. destruct (next_below b Fb N) as (m & Fm & M1 & M2). exists m. split; auto. split; auto. destruct (Rlt_or_le a m) as [X|X]; auto. exfalso.
      pose proof (rne_le (prec:=prec) (emax:=emax) (b - a) (Rabs b * bpow radix2 (1 - prec)) ltac:(lra)) as R. pose proof (rne_nonneg (prec:=prec) (emax:=emax) (b - a) ltac:(lra)). rewrite (Rabs_right (rne (b - a))) in Cc by lra. lra.
    - assert (Fm : fmt (b - bpow radix2 L)).
      { replace (b - bpow radix2 L) with (- (- b + bpow radix2 L)) by ring. apply (fmt_opp L prec). apply (next_small (- b) (- a)); try (apply (fmt_opp L prec); auto); [rewrite Rabs_Ropp; auto|lra]. }
      pose proof (bpow_gt_0 radix2 L) as B0. pose proof (fmt_gap a b Fa Fb Lt) as G. destruct (Rlt_or_le a (b - bpow radix2 L)) as [X|X].
      + left. exists (b - bpow radix2 L). split; auto. lra.
      + right. assert (b - a = bpow radix2 L) by lra. split; [|split; [lra|auto]].
        assert (Fab : fmt (Rabs b)) by (apply generic_format_abs; exact Fb). assert (Fn : fmt (least_normal prec emax)) by (apply fmt_bp; lia).
        pose proof (fmt_gap _ _ Fab Fn N). replace a with (b - bpow radix2 L) by lra. eapply Rle_trans; [apply Rabs_triang|]. rewrite Rabs_Ropp, (Rabs_right (bpow radix2 L)) by lra. lra. }
  destruct (Rtotal_order (B2R l) (B2R h)) as [X|[X|X]].
  - rewrite Rmin_left, Rmax_right by lra. destruct (Main _ _ (B2R_fmt l) (B2R_fmt h) X C) as [H|(A & B & E)]; auto. right. repeat split; auto. rewrite Rabs_right; [auto|]. pose proof (bpow_gt_0 radix2 L). lra.
  - exfalso. rewrite X in C. replace (B2R h - B2R h) with 0 in C by ring. rewrite rne_0, Rabs_R0 in C. pose proof (rne_nonneg (prec:=prec) (emax:=emax) (Rabs (B2R h) * bpow radix2 (1 - prec))) as N. pose proof (Rabs_pos (B2R h)). pose proof (bpow_ge_0 radix2 (1 - prec)). specialize (N ltac:(nra)). lra.
  - rewrite Rmin_right, Rmax_left by lra. destruct (Main (- B2R l) (- B2R h)) as [H|(A & B & E)]; try (apply (fmt_opp L prec), B2R_fmt); [lra| | |].
    + rewrite Rabs_Ropp. replace (- B2R h - - B2R l) with (- (B2R h - B2R l)) by ring. pose proof (isub_anti h l) as An.
      assert (E : Rabs (rne (- (B2R h - B2R l))) = Rabs (rne (B2R h - B2R l))).
      { rewrite rne_opp. apply Rabs_Ropp. }
      rewrite E. exact C.
    + left. destruct H as (m & Fm & M). exists (- m). split; [apply (fmt_opp L prec); auto|lra].
    + right. rewrite !Rabs_Ropp in *. repeat split; auto. rewrite <- E. replace (B2R h - B2R l) with (- (- B2R h - - B2R l)) by ring. rewrite Rabs_Ropp, Rabs_right; auto. pose proof (bpow_gt_0 radix2 L). lra.
Qed.
End P.
