(** Lemmas about the operators of the IEEE 754 formats. *)
From Verif Require Import Ieee_Model Ieee_Spec Kahan_Proofs.
From Coq Require Import Lra Lia.
Open Scope R_scope.

Section P.
Context {prec emax : Z} { prec_gt_0_ : Prec_gt_0 prec } { prec_lt_emax_ : Prec_lt_emax prec emax }.
Notation fl := (binary_float prec emax).
Notation rne := (rne prec emax).

Lemma rne_eq x : round radix2 (SpecFloat.fexp prec emax) (round_mode mode_NE) x = rne x.
Proof. reflexivity. Qed.
Lemma iadd_comm (a b : fl) : iadd a b = iadd b a.
Proof.
  unfold iadd, Bplus. destruct a as [s| s| |s m e H], b as [t| t| |t n f K]; try reflexivity.
  - destruct s, t; reflexivity.
  - destruct s, t; reflexivity.
  - rewrite (Z.min_comm e f). unfold Fplus_naive. rewrite Z.add_comm. reflexivity.
Qed.
Lemma imul_comm (a b : fl) : imul a b = imul b a.
Proof.
  unfold imul, Bmult. destruct a as [s| s| |s m e H], b as [t| t| |t n f K]; try reflexivity; try (destruct s, t; reflexivity).
  apply B2SF_inj. rewrite !B2SF_SF2B. rewrite (xorb_comm s t), (Pos.mul_comm m n), (Z.add_comm e f). reflexivity.
Qed.
Lemma isub_iadd (a b : fl) : isub a b = iadd a (ineg b).
Proof. unfold isub, iadd, ineg, Bminus, Bplus, Bopp. destruct a as [s| s| |s m e H], b as [t| t| |t n f K]; reflexivity. Qed.

Lemma rne_opp x : rne (- x) = - rne x.
Proof. unfold Ieee_Spec.rne, rnd. apply round_NE_opp. Qed.
Lemma rne_0 : rne 0 = 0.
Proof. unfold Ieee_Spec.rne, rnd. apply round_0. apply valid_rnd_N. Qed.
Lemma rne_le x y : x <= y -> rne x <= rne y.
Proof. unfold Ieee_Spec.rne, rnd. apply round_le; [apply (FLT_exp_valid _ _)|apply valid_rnd_N]. Qed.
Lemma rne_nonneg x : 0 <= x -> 0 <= rne x.
Proof. intros H. rewrite <- rne_0. apply rne_le; auto. Qed.
Lemma fexp_FLT : SpecFloat.fexp prec emax = FLT_exp (least prec emax) prec.
Proof. reflexivity. Qed.


(** Signs and zeros of finite values. *)
Lemma zero_of (x : fl) : is_finite x = true -> B2R x = 0 -> exists s, x = B754_zero s.
Proof.
  destruct x as [s| s| |s m e H]; try discriminate; intros _ Z; [now exists s|]. exfalso. cbn [B2R] in Z. revert Z. apply F2R_neq_0. now destruct s.
Qed.
Lemma sign_neg (x : fl) : is_finite x = true -> B2R x < 0 -> Bsign x = true.
Proof.
  destruct x as [s| s| |s m e H]; try discriminate; intros _ Z; cbn [B2R] in Z; [lra|]. destruct s; auto. exfalso. cbn in Z. pose proof (F2R_gt_0 radix2 (Float radix2 (Z.pos m) e) ltac:(reflexivity)). lra.
Qed.
Lemma sign_pos (x : fl) : is_finite x = true -> 0 < B2R x -> Bsign x = false.
Proof.
  destruct x as [s| s| |s m e H]; try discriminate; intros _ Z; cbn [B2R] in Z; [lra|]. destruct s; auto. exfalso. cbn in Z. pose proof (F2R_lt_0 radix2 (Float radix2 (Z.neg m) e) ltac:(reflexivity)). lra.
Qed.
Lemma nonneg_sign (x : fl) : is_finite x = true -> Bsign x = false -> 0 <= B2R x.
Proof. intros F S. destruct (Rlt_dec (B2R x) 0) as [L|L]; [|lra]. rewrite (sign_neg x F L) in S. discriminate. Qed.
Lemma sign_nonneg (x : fl) : is_finite x = true -> Bsign x = true -> B2R x <= 0.
Proof. intros F S. destruct (Rlt_dec 0 (B2R x)) as [L|L]; [|lra]. rewrite (sign_pos x F L) in S. discriminate. Qed.
Lemma finite_not_nan (x : fl) : is_finite x = true -> is_nan x = false.
Proof. now destruct x. Qed.

(** Negation: a - b against b - a. *)
Lemma isub_anti (a b : fl) : same (isub a b) (ineg (isub b a)).
Proof.
  destruct (is_finite a) eqn:Fa, (is_finite b) eqn:Fb.
  2,3,4: left; unfold isub, ineg, Bminus, Bopp; destruct a as [s| s| |s m e H], b as [t| t| |t n f K]; try discriminate; try reflexivity; destruct s; try reflexivity; destruct t; reflexivity.
  pose proof (Bminus_correct prec emax _ _ mode_NE a b Fa Fb) as P. pose proof (Bminus_correct prec emax _ _ mode_NE b a Fb Fa) as Q.
  fold (isub a b) in P. fold (isub b a) in Q. rewrite !rne_eq in P, Q.
  replace (B2R b - B2R a) with (- (B2R a - B2R b)) in Q by ring. rewrite rne_opp, Rabs_Ropp in Q.
  destruct (Rlt_bool_spec (Rabs (rne (B2R a - B2R b))) (bpow radix2 emax)) as [L|L].
  - destruct P as (P1 & P2 & _), Q as (Q1 & Q2 & _).
    destruct (Rtotal_order (B2R (isub a b)) 0) as [Z|[Z|Z]].
    + left. apply B2R_Bsign_inj; auto; unfold ineg; rewrite ?is_finite_Bopp, ?B2R_Bopp; auto; [lra|].
      rewrite Bsign_Bopp by now apply finite_not_nan. rewrite (sign_neg _ P2 Z), (sign_pos _ Q2) by lra. reflexivity.
    + right. destruct (zero_of _ P2 Z) as (s & ->). destruct (zero_of (isub b a)) as (t & ->); auto; [lra|]. exists s, (negb t). auto.
    + left. apply B2R_Bsign_inj; auto; unfold ineg; rewrite ?is_finite_Bopp, ?B2R_Bopp; auto; [lra|].
      rewrite Bsign_Bopp by now apply finite_not_nan. rewrite (sign_pos _ P2 Z), (sign_neg _ Q2) by lra. reflexivity.
  - destruct P as (P1 & P2), Q as (Q1 & Q2). left. unfold ineg. apply B2SF_inj. rewrite P1.
    destruct (isub b a) as [s| s| |s m e H]; try discriminate. cbn in Q1 |- *. injection Q1 as ->. now rewrite P2.
Qed.
Lemma isub_self (a : fl) : isub a a = if is_finite a then B754_zero false else B754_nan.
Proof.
  unfold isub, Bminus. destruct a as [s| s| |s m e H]; cbn [is_finite]; try (now destruct s); auto.
  rewrite Z.min_id. replace (Fplus_naive s m e (negb s) m e e) with 0%Z; [reflexivity|]. unfold Fplus_naive. destruct s; cbn [SpecFloat.cond_Zopp negb]; lia.
Qed.
Lemma ineg_ineg (a : fl) : ineg (ineg a) = a.
Proof. unfold ineg. apply Bopp_involutive. Qed.

(** Squares. *)
Lemma imul_neg_neg (a b : fl) : imul (ineg a) (ineg b) = imul a b.
Proof.
  unfold imul, ineg, Bmult, Bopp. destruct a as [s| s| |s m e H], b as [t| t| |t n f K]; try reflexivity; try (destruct s, t; reflexivity).
  apply B2SF_inj. rewrite !B2SF_SF2B. replace (xorb (negb s) (negb t)) with (xorb s t) by now destruct s, t. reflexivity.
Qed.
Lemma imul_neg_l (a b : fl) : imul (ineg a) b = ineg (imul a b).
Proof.
  unfold imul, ineg, Bmult. destruct a as [s| s| |s m e H], b as [t| t| |t n f K]; try reflexivity; try (destruct s, t; reflexivity).
  pose proof (Bmult_correct prec emax _ _ mode_NE (B754_finite s m e H) (B754_finite t n f K)) as P.
  pose proof (Bmult_correct prec emax _ _ mode_NE (B754_finite (negb s) m e H) (B754_finite t n f K)) as Q.
  change (B754_finite (negb s) m e H) with (Bopp (B754_finite s m e H)) in Q. rewrite B2R_Bopp in Q. rewrite !rne_eq in P, Q.
  replace (- B2R (B754_finite s m e H) * B2R (B754_finite t n f K)) with (- (B2R (B754_finite s m e H) * B2R (B754_finite t n f K))) in Q by ring.
  rewrite rne_opp, Rabs_Ropp in Q.
  change (Bmult mode_NE (Bopp (B754_finite s m e H)) (B754_finite t n f K) = Bopp (Bmult mode_NE (B754_finite s m e H) (B754_finite t n f K))).
  destruct (Rlt_bool (Rabs (rne (B2R (B754_finite s m e H) * B2R (B754_finite t n f K)))) (bpow radix2 emax)).
  - destruct P as (P1 & P2 & P3), Q as (Q1 & Q2 & Q3). cbn [is_finite andb] in P2. cbn [Bopp is_finite andb] in Q2.
    change (B754_finite (negb s) m e H) with (Bopp (B754_finite s m e H)) in Q2.
    apply B2R_Bsign_inj; rewrite ?is_finite_Bopp, ?B2R_Bopp; auto; [lra|].
    rewrite Q3 by now apply finite_not_nan. cbn [Bopp Bsign]. rewrite Bsign_Bopp, P3 by now apply finite_not_nan. cbn [Bsign]. now destruct s, t.
  - apply B2SF_inj. rewrite Q. set (z := Bmult mode_NE (B754_finite s m e H) (B754_finite t n f K)) in *. clearbody z. destruct z; try discriminate. injection P as ->. cbn. now destruct s, t.
Qed.
Lemma imul_neg_r (a b : fl) : imul a (ineg b) = ineg (imul a b).
Proof. now rewrite imul_comm, imul_neg_l, imul_comm. Qed.
Lemma same_sq (a b : fl) : same a b -> imul a a = imul b b.
Proof. intros [-> | (s & t & -> & ->)]; auto. destruct s, t; reflexivity. Qed.
Lemma iabs_sq (a : fl) : imul (iabs a) (iabs a) = imul a a.
Proof.
  unfold iabs. assert (G : forall z : fl, Babs z = z \/ Babs z = Bopp z). { intros [s| s| |s m e H]; try (now left); destruct s; auto. }
  destruct (G a) as [-> | ->]; auto. apply (imul_neg_neg a a).
Qed.

(** Values that are neither NaN nor negative (a zero with the sign bit set counts as negative here). *)
Definition nn (a : fl) : Prop := is_nan a = false /\ Bsign a = false.
Lemma sq_nn (a : fl) : is_nan a = false -> nn (imul a a).
Proof.
  intros N. unfold nn, imul. destruct a as [s| s| |s m e H]; try discriminate; try (destruct s; split; reflexivity).
  pose proof (Bmult_correct prec emax _ _ mode_NE (B754_finite s m e H) (B754_finite s m e H)) as P.
  destruct (Rlt_bool _ _).
  - destruct P as (_ & P2 & P3). cbn [is_finite andb] in P2. apply finite_not_nan in P2. split; auto. rewrite P3 by auto. now destruct s.
  - destruct (Bmult _ _ _); try discriminate; split; auto. injection P as ->. now destruct s.
Qed.
Lemma iadd_nn (a b : fl) : nn a -> nn b -> nn (iadd a b).
Proof.
  intros (Na & Sa) (Nb & Sb). unfold nn.
  destruct (is_finite a) eqn:Fa, (is_finite b) eqn:Fb.
  2,3,4: unfold iadd, Bplus; destruct a as [s| s| |s m e H], b as [t| t| |t n f K]; try discriminate; cbn in Sa, Sb; subst; split; reflexivity.
  pose proof (Bplus_correct prec emax _ _ mode_NE a b Fa Fb) as P. fold (iadd a b) in P.
  pose proof (nonneg_sign a Fa Sa). pose proof (nonneg_sign b Fb Sb).
  destruct (Rlt_bool _ _).
  - destruct P as (_ & P2 & P3). apply finite_not_nan in P2. split; auto. rewrite P3, Sa, Sb. destruct (Rcompare_spec (B2R a + B2R b) 0); auto. lra.
  - destruct P as (P & _). destruct (iadd a b); try discriminate; split; auto. injection P as ->. auto.
Qed.
Lemma isqrt_nn (a : fl) : nn a -> nn (isqrt a).
Proof.
  intros (N & S). unfold nn. destruct (Bsqrt_correct prec emax _ _ mode_NE a) as (_ & F & Q). fold (isqrt a) in F, Q.
  assert (is_nan (isqrt a) = false) as E. { destruct a as [s| s| |s m e H]; try discriminate; cbn in S; subst; auto. apply finite_not_nan. rewrite F. reflexivity. }
  split; auto. rewrite Q; auto.
Qed.
Lemma iadd_nan_l (b : fl) : iadd B754_nan b = B754_nan.
Proof. now destruct b. Qed.
Lemma iadd_nan_r (a : fl) : iadd a B754_nan = B754_nan.
Proof. now destruct a. Qed.
Lemma imul_nan_l (b : fl) : imul B754_nan b = B754_nan.
Proof. now destruct b. Qed.
Lemma imul_nan_r (a : fl) : imul a B754_nan = B754_nan.
Proof. now destruct a. Qed.
Lemma isub_nan_l (b : fl) : isub B754_nan b = B754_nan.
Proof. now destruct b. Qed.
Lemma isub_nan_r (a : fl) : isub a B754_nan = B754_nan.
Proof. now destruct a. Qed.
Lemma nan_eq (a : fl) : is_nan a = true -> a = B754_nan.
Proof. now destruct a. Qed.

(** Finite results come from finite operands and are rounded. *)
Lemma iadd_finite (a b : fl) : is_finite (iadd a b) = true -> is_finite a = true /\ is_finite b = true /\ B2R (iadd a b) = rne (B2R a + B2R b).
Proof.
  intros F. assert (G : is_finite a = true /\ is_finite b = true).
  { unfold iadd, Bplus in F. destruct a as [s| s| |s m e H], b as [t| t| |t n f K]; try discriminate; auto; destruct s, t; discriminate. }
  destruct G as (Fa & Fb). repeat split; auto.
  pose proof (Bplus_correct prec emax _ _ mode_NE a b Fa Fb) as P. fold (iadd a b) in P. rewrite rne_eq in P. destruct (Rlt_bool _ _); [apply P|].
  destruct P as (P & _). destruct (iadd a b); discriminate.
Qed.
Lemma isub_finite (a b : fl) : is_finite (isub a b) = true -> is_finite a = true /\ is_finite b = true /\ B2R (isub a b) = rne (B2R a - B2R b).
Proof.
  intros F. rewrite isub_iadd in F |- *. destruct (iadd_finite _ _ F) as (Fa & Fb & ->). unfold ineg in *. rewrite is_finite_Bopp in Fb. rewrite B2R_Bopp. auto.
Qed.
Lemma imul_finite (a b : fl) : is_finite (imul a b) = true -> is_finite a = true /\ is_finite b = true /\ B2R (imul a b) = rne (B2R a * B2R b).
Proof.
  intros F. assert (G : is_finite a = true /\ is_finite b = true).
  { unfold imul, Bmult in F. destruct a as [s| s| |s m e H], b as [t| t| |t n f K]; try discriminate; auto. }
  destruct G as (Fa & Fb). repeat split; auto.
  pose proof (Bmult_correct prec emax _ _ mode_NE a b) as P. fold (imul a b) in P. rewrite rne_eq in P. destruct (Rlt_bool _ _); [apply P|].
  destruct (imul a b); discriminate.
Qed.
Lemma isqrt_finite (a : fl) : is_finite (isqrt a) = true -> is_finite a = true /\ B2R (isqrt a) = rne (sqrt (B2R a)).
Proof.
  intros F. destruct (Bsqrt_correct prec emax _ _ mode_NE a) as (P & Q & _). fold (isqrt a) in P, Q. split; [|exact P]. rewrite F in Q. destruct a as [s| s| |s m e H]; auto; discriminate.
Qed.

(** The largest operands: correct rounding with the overflow case. *)
Lemma cr_add (a b : fl) : is_finite a = true -> is_finite b = true -> correctly_rounded (B2R a + B2R b) (iadd a b).
Proof.
  intros Fa Fb. pose proof (Bplus_correct prec emax _ _ mode_NE a b Fa Fb) as P. fold (iadd a b) in P. rewrite rne_eq in P.
  split; intros H.
  - rewrite Rlt_bool_true in P by auto. tauto.
  - rewrite Rlt_bool_false in P by auto. destruct P as (P & Q).
    assert (iadd a b = B754_infinity (Bsign a)) as E by (destruct (iadd a b); try discriminate; cbn in P; now injection P as ->).
    rewrite E. split; intros K; f_equal; destruct (Bsign a) eqn:Sa; auto; exfalso.
    + pose proof (sign_nonneg a Fa Sa). pose proof (sign_nonneg b Fb ltac:(congruence)). lra.
    + pose proof (nonneg_sign a Fa Sa). pose proof (nonneg_sign b Fb ltac:(congruence)). lra.
Qed.
Lemma cr_sub (a b : fl) : is_finite a = true -> is_finite b = true -> correctly_rounded (B2R a - B2R b) (isub a b).
Proof.
  intros Fa Fb. rewrite isub_iadd. replace (B2R a - B2R b) with (B2R a + B2R (ineg b)) by (unfold ineg; rewrite B2R_Bopp; ring). apply cr_add; auto. unfold ineg. now rewrite is_finite_Bopp.
Qed.
Lemma sign_mul (a b : fl) : is_finite a = true -> is_finite b = true -> (0 < B2R a * B2R b -> xorb (Bsign a) (Bsign b) = false) /\ (B2R a * B2R b < 0 -> xorb (Bsign a) (Bsign b) = true).
Proof.
  intros Fa Fb. destruct (Bsign a) eqn:Sa, (Bsign b) eqn:Sb; cbn; split; intros H; auto; exfalso;
  [pose proof (sign_nonneg a Fa Sa); pose proof (sign_nonneg b Fb Sb)|pose proof (sign_nonneg a Fa Sa); pose proof (nonneg_sign b Fb Sb)|pose proof (nonneg_sign a Fa Sa); pose proof (sign_nonneg b Fb Sb)|pose proof (nonneg_sign a Fa Sa); pose proof (nonneg_sign b Fb Sb)]; nra.
Qed.
Lemma cr_mul (a b : fl) : is_finite a = true -> is_finite b = true -> correctly_rounded (B2R a * B2R b) (imul a b).
Proof.
  intros Fa Fb. pose proof (Bmult_correct prec emax _ _ mode_NE a b) as P. fold (imul a b) in P. rewrite rne_eq, Fa, Fb in P.
  split; intros H.
  - rewrite Rlt_bool_true in P by auto. tauto.
  - rewrite Rlt_bool_false in P by auto.
    assert (imul a b = B754_infinity (xorb (Bsign a) (Bsign b))) as E by (destruct (imul a b); try discriminate; cbn in P; now injection P as ->).
    destruct (sign_mul a b Fa Fb) as (U & V). rewrite E. split; intros K; [rewrite U|rewrite V]; auto.
Qed.
Lemma cr_div (a b : fl) : is_finite a = true -> is_finite b = true -> B2R b <> 0 -> correctly_rounded (B2R a / B2R b) (idiv a b).
Proof.
  intros Fa Fb Z. pose proof (Bdiv_correct prec emax _ _ mode_NE a b Z) as P. fold (idiv a b) in P. rewrite rne_eq, Fa in P.
  split; intros H.
  - rewrite Rlt_bool_true in P by auto. tauto.
  - rewrite Rlt_bool_false in P by auto.
    assert (idiv a b = B754_infinity (xorb (Bsign a) (Bsign b))) as E by (destruct (idiv a b); try discriminate; cbn in P; now injection P as ->).
    destruct (sign_mul a b Fa Fb) as (U & V). rewrite E. split; intros K; [rewrite U|rewrite V]; auto.
    + replace (B2R a * B2R b) with (B2R a / B2R b * (B2R b * B2R b)) by (field; auto). apply Rmult_lt_0_compat; auto. nra.
    + replace (B2R a * B2R b) with (- (- (B2R a / B2R b) * (B2R b * B2R b))) by (field; auto). assert (0 < - (B2R a / B2R b) * (B2R b * B2R b)); [|lra]. apply Rmult_lt_0_compat; [lra|]. nra.
Qed.
End P.
