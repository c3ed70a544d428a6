From Verif Require Import Kahan_Model Kahan_Proofs.
From Flocq Require Import Sterbenz Plus_error Relative.
From Coq Require Import Lra Lia.
Open Scope R_scope.

Section P.
Variables (emin prec : Z) (choice : Z -> bool).
Context { prec_gt_0_ : Prec_gt_0 prec }.
Hypothesis prec2 : (2 <= prec)%Z.
Hypothesis emin0 : (emin <= 0)%Z.
Notation fmt := (fmt emin prec).
Notation rnd := (rnd emin prec choice).

Lemma rnd_to z e n : mag radix2 z = (e + prec)%Z :> Z -> (0 <= e)%Z ->
  Rabs (z * bpow radix2 (- e) - IZR n) < 1 / 2 -> rnd z = IZR n * bpow radix2 e.
Proof.
  intros Hm He H. unfold Kahan_Model.rnd, round, F2R, scaled_mantissa, cexp; simpl.
  rewrite Hm. unfold FLT_exp. rewrite Z.max_l by lia.
  replace (e + prec - prec)%Z with e by lia.
  rewrite (Znearest_imp choice _ n); auto. lra.
Qed.

Definition B : R := bpow radix2 (prec + 2).
Lemma bpow_Z e : (0 <= e)%Z -> bpow radix2 e = IZR (radix2 ^ e).
Proof. intros; symmetry; apply IZR_Zpower; auto. Qed.
Lemma B_big : 16 <= B.
Proof. unfold B. change 16 with (bpow radix2 4). apply bpow_le. lia. Qed.

Lemma fmt_bpow e : (0 <= e)%Z -> fmt (bpow radix2 e).
Proof. intros. apply generic_format_bpow. unfold FLT_exp, Prec_gt_0 in *. lia. Qed.
Lemma fmt_1 : fmt 1.
Proof. change 1 with (bpow radix2 0). apply fmt_bpow. lia. Qed.

Lemma rnd_B1 : rnd (B + 1) = B.
Proof.
  pose proof B_big.
  rewrite (rnd_to (B + 1) 3 (radix2 ^ (prec - 1))).
  - rewrite IZR_Zpower by lia. rewrite <- bpow_plus. unfold B. f_equal. lia.
  - apply mag_unique. rewrite Rabs_pos_eq by lra. unfold B in *. split.
    + replace (3 + prec - 1)%Z with (prec + 2)%Z by lia. lra.
    + replace (3 + prec)%Z with (prec + 2 + 1)%Z by lia. rewrite (bpow_plus _ _ 1). change (bpow radix2 1) with 2. lra.
  - lia.
  - rewrite IZR_Zpower by lia. unfold B. rewrite Rmult_plus_distr_r, <- bpow_plus.
    replace (prec + 2 + - (3))%Z with (prec - 1)%Z by lia. change (bpow radix2 (-(3))) with (/ 8).
    replace (bpow radix2 (prec - 1) + 1 * / 8 - bpow radix2 (prec - 1)) with (1 / 8) by field.
    rewrite Rabs_pos_eq; lra.
Qed.
Lemma rnd_Bm1 : rnd (B - 1) = B.
Proof.
  pose proof B_big.
  rewrite (rnd_to (B - 1) 2 (radix2 ^ prec)).
  - rewrite IZR_Zpower by lia. rewrite <- bpow_plus. reflexivity.
  - apply mag_unique. rewrite Rabs_pos_eq by lra. unfold B in *. split.
    + replace (prec + 2)%Z with (prec + 1 + 1)%Z in * by lia. rewrite (bpow_plus _ _ 1) in *.
      change (bpow radix2 1) with 2 in *. replace (2 + prec - 1)%Z with (prec + 1)%Z by lia. lra.
    + replace (2 + prec)%Z with (prec + 2)%Z by lia. lra.
  - lia.
  - rewrite IZR_Zpower by lia. unfold B, Rminus at 2. rewrite Rmult_plus_distr_r, <- bpow_plus.
    replace (prec + 2 + - (2))%Z with prec by lia. change (bpow radix2 (-(2))) with (/ 4).
    replace (bpow radix2 prec + - (1) * / 4 - bpow radix2 prec) with (- (1 / 4)) by field.
    rewrite Rabs_Ropp, Rabs_pos_eq; lra.
Qed.

Lemma rid x : fmt x -> rnd x = x.
Proof. apply rnd_id; auto. Qed.

(** Large addend onto a small Kahan sum: the small part vanishes although the compensation
    claims nothing was lost. *)
Lemma kahan_loses : k_add emin prec choice (k_of 1) B = mkKahan B 0.
Proof.
  assert (FB : fmt B) by (apply fmt_bpow; lia).
  unfold k_add, k_of, fsub, fadd; simpl. rewrite Rminus_0_r, (rid B) by auto.
  rewrite (Rplus_comm 1 B), rnd_B1, rnd_Bm1.
  replace (B - B) with 0 by ring. rewrite rid by apply generic_format_0. reflexivity.
Qed.
(** The other order is fine. *)
Lemma kahan_keeps : k_add emin prec choice (k_of B) 1 = mkKahan B (-1).
Proof.
  assert (FB : fmt B) by (apply fmt_bpow; lia).
  unfold k_add, k_of, fsub, fadd; simpl. rewrite Rminus_0_r, (rid 1) by apply fmt_1.
  rewrite rnd_B1. replace (B - B) with 0 by ring. rewrite (rid 0) by apply generic_format_0.
  replace (0 - 1) with (-1) by ring. rewrite rid; auto. replace (-1) with (- (1)) by ring. apply fmt_opp, fmt_1.
Qed.
Lemma mul_wrong : k_mul emin prec choice (mkKahan B (-1)) 2 = mkKahan (2 * B) (-1).
Proof.
  unfold k_mul, fmul; simpl. f_equal. rewrite rid; [ring|].
  unfold B. replace (bpow radix2 (prec + 2) * 2) with (bpow radix2 (prec + 3)).
  - apply fmt_bpow; lia.
  - replace (prec + 3)%Z with (prec + 2 + 1)%Z by lia. rewrite (bpow_plus _ _ 1). reflexivity.
Qed.

Lemma klein_residual x : efmt emin prec x -> forall y, fmt y ->
  let k := e_add emin prec choice x y in
  Rabs (e_err k) <= bpow radix2 (- prec) * Rabs (e_real k) /\
  Rabs (e_eoe k) <= bpow radix2 (- prec) * Rabs (y + rnd (e_err x + e_eoe x)).
Proof.
  intros (F1 & F2 & F3) y Fy k. subst k. rewrite <- (u_eq prec).
  unfold e_add. cbv zeta. cbn [e_real e_err e_eoe].
  rewrite !two_n; auto; try (apply rnd_fmt; auto).
  unfold fadd. split.
  - rewrite <- Ropp_minus_distr, Rabs_Ropp. apply rnd_add_err'; auto. apply rnd_fmt; auto.
  - rewrite <- Ropp_minus_distr, Rabs_Ropp. apply rnd_add_err; auto. apply rnd_fmt; auto.
Qed.
Lemma klein_stale k : fmt (e_eoe k) -> e_real (e_add emin prec choice (e_read k 0) 0) = e_eoe k.
Proof.
  intros F. unfold e_add, e_read. cbv zeta. cbn [e_real e_err e_eoe]. unfold fadd.
  rewrite !Rplus_0_l, (rid (e_eoe k)) by auto. rewrite !(rid (e_eoe k)) by auto. reflexivity.
Qed.
Lemma klein_reach : e_eoe (e_add emin prec choice (e_add emin prec choice (e_of B) 1) B) = 1.
Proof.
  assert (FB : fmt B) by (apply fmt_bpow; lia). assert (F1 := fmt_1). pose proof B_big.
  assert (F0 : fmt 0) by apply generic_format_0.
  assert (E1 : e_add emin prec choice (e_of B) 1 = mkKlein B 1 0).
  { unfold e_add, e_of. cbv zeta. cbn [e_real e_err e_eoe].
    assert (Z0 : fadd emin prec choice 0 0 = 0) by (unfold fadd; rewrite Rplus_0_l; apply rid; auto).
    assert (Z1 : fadd emin prec choice 1 0 = 1) by (unfold fadd; rewrite Rplus_0_r; apply rid; auto).
    rewrite Z0, !Z1. rewrite two_n by auto.
    replace (if Rlt_dec (Rabs 0) (Rabs 1) then _ else _) with 0.
    - unfold fadd. rewrite rnd_B1. f_equal. ring.
    - destruct (Rlt_dec _ _) as [_|N].
      + unfold fsub, fadd. replace (1 - 1) with 0 by ring. rewrite Rplus_0_r, (rid 0), (rid 0); auto.
      + exfalso; apply N. rewrite Rabs_R0, Rabs_R1. lra. }
  rewrite E1. unfold e_add. cbv zeta. cbn [e_real e_err e_eoe].
  assert (Z1 : fadd emin prec choice 1 0 = 1) by (unfold fadd; rewrite Rplus_0_r; apply rid; auto).
  rewrite Z1. rewrite two_n by auto. unfold fadd. rewrite rnd_B1. ring.
Qed.
Lemma e_sub_add k x : e_sub emin prec choice k x = e_add emin prec choice k (- x).
Proof.
  unfold e_sub, e_add. cbv zeta. rewrite Rabs_Ropp. unfold fsub, fadd.
  f_equal.
Qed.
End P.
