(** No overflow for moderate magnitudes, and the link to the rounding model of Fnewt_Model. *)
From Verif Require Import Ieee_Model Ieee_Spec Ieee_Proofs Ieee_Proofs2 Kahan_Proofs Fnewt_Model.
From Coq Require Import Lra Lia.
Open Scope R_scope.

Section P.
Context {prec emax : Z} { prec_gt_0_ : Prec_gt_0 prec } { prec_lt_emax_ : Prec_lt_emax prec emax }.
Notation fl := (binary_float prec emax).
Notation ivec := (ivec prec emax).
Notation rne := (rne prec emax).
Notation L := (least prec emax).

Lemma rne_bpow x k : (L <= k)%Z -> Rabs x <= bpow radix2 k -> Rabs (rne x) <= bpow radix2 k.
Proof.
  intros Hk H. unfold Ieee_Spec.rne, rnd. apply abs_round_le_generic; auto; [apply (FLT_exp_valid _ _)|apply valid_rnd_N|].
  apply generic_format_bpow. unfold FLT_exp. pose proof (prec_gt_0 prec). lia.
Qed.
Lemma bounded_add (a b : fl) k : (L <= k + 1 < emax)%Z -> is_finite a = true -> is_finite b = true -> Rabs (B2R a) <= bpow radix2 k -> Rabs (B2R b) <= bpow radix2 k ->
  is_finite (iadd a b) = true /\ Rabs (B2R (iadd a b)) <= bpow radix2 (k + 1).
Proof.
  intros Hk Fa Fb A B. destruct (cr_add a b Fa Fb) as (C & _).
  assert (Rabs (rne (B2R a + B2R b)) <= bpow radix2 (k + 1)) as D. { apply rne_bpow; [lia|]. rewrite bpow_plus_1. change (IZR radix2) with 2. eapply Rle_trans; [apply Rabs_triang|lra]. }
  destruct C as (C1 & C2); [eapply Rle_lt_trans; [exact D|]; apply bpow_lt; lia|]. split; auto. now rewrite C2.
Qed.
Lemma bounded_mul (a b : fl) k l : (L <= k + l < emax)%Z -> is_finite a = true -> is_finite b = true -> Rabs (B2R a) <= bpow radix2 k -> Rabs (B2R b) <= bpow radix2 l ->
  is_finite (imul a b) = true /\ Rabs (B2R (imul a b)) <= bpow radix2 (k + l).
Proof.
  intros Hk Fa Fb A B. destruct (cr_mul a b Fa Fb) as (C & _).
  assert (Rabs (rne (B2R a * B2R b)) <= bpow radix2 (k + l)) as D. { apply rne_bpow; [lia|]. rewrite bpow_plus, Rabs_mult. apply Rmult_le_compat; auto; apply Rabs_pos. }
  destruct C as (C1 & C2); [eapply Rle_lt_trans; [exact D|]; apply bpow_lt; lia|]. split; auto. now rewrite C2.
Qed.
Lemma least_neg : (L <= 0)%Z.
Proof. unfold least. pose proof (prec_gt_0 prec). pose proof prec_lt_emax_ as P. unfold Prec_lt_emax in P. lia. Qed.
Lemma norm2_bounded (v : ivec) K : (0 <= K)%Z -> (2 * K + 2 < emax)%Z -> (forall c, is_finite (at_ c v) = true /\ Rabs (B2R (at_ c v)) <= bpow radix2 K) ->
  is_finite (inorm2 v) = true /\ Rabs (B2R (inorm2 v)) <= bpow radix2 (2 * K + 2).
Proof.
  intros K0 HK H. pose proof least_neg. destruct (H CX) as (Fx & X), (H CY) as (Fy & Y), (H CZ) as (Fz & Z). cbn [at_] in *. unfold inorm2.
  destruct (bounded_mul _ _ K K ltac:(lia) Fx Fx X X) as (F1 & B1). destruct (bounded_mul _ _ K K ltac:(lia) Fy Fy Y Y) as (F2 & B2). destruct (bounded_mul _ _ K K ltac:(lia) Fz Fz Z Z) as (F3 & B3).
  destruct (bounded_add _ _ (K + K) ltac:(lia) F1 F2 B1 B2) as (F4 & B4).
  destruct (bounded_add (iadd (imul (ix v) (ix v)) (imul (iy v) (iy v))) (imul (iz v) (iz v)) (K + K + 1) ltac:(lia) F4 F3 B4) as (F5 & B5).
  - eapply Rle_trans; [exact B3|]. apply bpow_le. lia.
  - replace (2 * K + 2)%Z with (K + K + 1 + 1)%Z by lia. auto.
Qed.
Lemma norm_finite (v : ivec) : (forall c, is_nan (at_ c v) = false) -> is_finite (inorm2 v) = true -> is_finite (inorm v) = true.
Proof.
  intros N F. destruct (norm2_nn v N) as (N1 & S1). rewrite norm_norm2. destruct (Bsqrt_correct prec emax _ _ mode_NE (inorm2 v)) as (_ & Q & _). unfold isqrt. rewrite Q.
  destruct (inorm2 v) as [s| s| |s m e H]; try discriminate; auto. cbn in S1. now subst.
Qed.

(** * The link *)
Notation fnorm := (fnorm L prec even_choice).
Lemma link_norm2 (v : ivec) : is_finite (inorm2 v) = true -> B2R (inorm2 v) = rne (rne (rne (B2R (ix v) * B2R (ix v)) + rne (B2R (iy v) * B2R (iy v))) + rne (B2R (iz v) * B2R (iz v))).
Proof.
  unfold inorm2. intros F. destruct (iadd_finite _ _ F) as (F1 & F2 & ->). destruct (iadd_finite _ _ F1) as (F3 & F4 & ->).
  destruct (imul_finite _ _ F2) as (_ & _ & ->). destruct (imul_finite _ _ F3) as (_ & _ & ->). destruct (imul_finite _ _ F4) as (_ & _ & ->). reflexivity.
Qed.
Lemma link_norm (v : ivec) : is_finite (inorm v) = true -> B2R (inorm v) = fnorm (real v).
Proof.
  rewrite norm_norm2. intros F. destruct (isqrt_finite _ F) as (F1 & ->). rewrite link_norm2 by auto. reflexivity.
Qed.
End P.
