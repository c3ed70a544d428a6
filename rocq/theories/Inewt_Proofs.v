(** Newtonian accelerations on IEEE 754 numbers: special values, and the link to the rounding model. *)
From Verif Require Import Ieee_Model Ieee_Spec Ieee_Proofs Ieee_Proofs2 Ieee_Proofs3 Kahan_Proofs Fnewt_Model Fnewt_Spec Fnewt_Proofs Fnewt_Proofs2 Fchain_Spec Force_Proofs.
From Coq Require Import Lra Lia.
Open Scope R_scope.

Section P.
Context {prec emax : Z} { prec_gt_0_ : Prec_gt_0 prec } { prec_lt_emax_ : Prec_lt_emax prec emax }.
Notation fl := (binary_float prec emax).
Notation ivec := (ivec prec emax).
Notation rne := (rne prec emax).
Notation L := (least prec emax).

(** * One call, seen by particle k *)
Lemma iforce_at (m : nat -> fl) acc dr i j k c : i <> j ->
  at_ c (iforce m acc (dr, i, j) k) =
  if Nat.eqb k j then isub (at_ c (acc k)) (iterm (at_ c dr) (irr3 dr) (m i)) else if Nat.eqb k i then iadd (at_ c (acc k)) (iterm (at_ c dr) (irr3 dr) (m j)) else at_ c (acc k).
Proof.
  intros H. unfold iforce, iupd. cbv zeta. destruct (PeanoNat.Nat.eqb_spec k j) as [-> | Hj].
  - destruct (PeanoNat.Nat.eqb_spec j i); [congruence|]. now destruct c.
  - destruct (PeanoNat.Nat.eqb_spec k i) as [-> | Hi]; [now destruct c|reflexivity].
Qed.
Definition apart (c : ivec * nat * nat) : Prop := snd (fst c) <> snd c.
Lemma icalls_apart n p : Forall apart (icalls n p : list (ivec * nat * nat)).
Proof. apply Forall_forall. intros x H. unfold icalls in H. apply in_map_iff in H as ([i j] & <- & H). change (In (i, j) (all_pairs n)) in H. apply all_pairs_in in H. unfold apart. cbn. lia. Qed.
Lemma icalls_in n (p : nat -> ivec) i j : (i < j < n)%nat -> In (iv_sub (p j) (p i), i, j) (icalls n p).
Proof. intros H. unfold icalls. apply in_map_iff. exists (i, j). split; auto. change (In (i, j) (all_pairs n)). now apply all_pairs_in. Qed.
Lemma icalls_inv n (p : nat -> ivec) dr i j : In (dr, i, j) (icalls n p) -> (i < j < n)%nat /\ dr = iv_sub (p j) (p i).
Proof. unfold icalls. intros H. apply in_map_iff in H as ([a b] & E & H). change (In (a, b) (all_pairs n)) in H. apply all_pairs_in in H. cbn in E. injection E as <- <- <-. auto. Qed.

(** What is not finite stays so, and NaN stays NaN. *)
Lemma force_back (m : nat -> fl) acc x k c : apart x -> is_finite (at_ c (iforce m acc x k)) = true -> is_finite (at_ c (acc k)) = true.
Proof.
  destruct x as [[dr i] j]. intros A. rewrite iforce_at by exact A. destruct (Nat.eqb k j); [intros H; apply isub_finite in H; tauto|]. destruct (Nat.eqb k i); [intros H; apply iadd_finite in H; tauto|auto].
Qed.
Lemma force_nan (m : nat -> fl) acc x k c : apart x -> is_nan (at_ c (acc k)) = true -> is_nan (at_ c (iforce m acc x k)) = true.
Proof.
  destruct x as [[dr i] j]. intros A N. rewrite iforce_at by exact A. apply nan_eq in N. rewrite N. destruct (Nat.eqb k j); [now rewrite isub_nan_l|]. destruct (Nat.eqb k i); [now rewrite iadd_nan_l|auto].
Qed.
Lemma fold_back (m : nat -> fl) k c calls : Forall apart calls -> forall acc, is_finite (at_ c (fold_left (iforce m) calls acc k)) = true -> is_finite (at_ c (acc k)) = true.
Proof. induction 1 as [|x l A _ IH]; intros acc H; auto. cbn in H. apply IH in H. eapply force_back; eauto. Qed.
Lemma fold_nan (m : nat -> fl) k c calls : Forall apart calls -> forall acc, is_nan (at_ c (acc k)) = true -> is_nan (at_ c (fold_left (iforce m) calls acc k)) = true.
Proof. induction 1 as [|x l A _ IH]; intros acc H; auto. cbn. apply IH. now apply force_nan. Qed.
(** The mass that enters the term particle k gets. *)
Definition partner (m : nat -> fl) (k : nat) (x : ivec * nat * nat) (mo : fl) : Prop := (k = snd (fst x) /\ mo = m (snd x)) \/ (k = snd x /\ mo = m (snd (fst x))).
Definition term_of (c : icomp) (x : ivec * nat * nat) (mo : fl) : fl := iterm (at_ c (fst (fst x))) (irr3 (fst (fst x))) mo.
Lemma fold_term_finite (m : nat -> fl) k c x mo calls : Forall apart calls -> In x calls -> partner m k x mo ->
  forall acc, is_finite (at_ c (fold_left (iforce m) calls acc k)) = true -> is_finite (term_of c x mo) = true.
Proof.
  induction 1 as [|y l A HA IH]; intros I P acc H; [destruct I|]. cbn in H. destruct I as [-> | I]; [|now apply IH with (1 := I) (acc := iforce m acc y)].
  apply fold_back in H; auto. destruct x as [[dr i] j]. unfold apart in A. cbn in A. rewrite iforce_at in H by exact A. unfold partner in P. cbn in P. unfold term_of. cbn.
  destruct (PeanoNat.Nat.eqb_spec k j) as [-> | Hj]; [destruct P as [(-> & _)|(_ & ->)]; [congruence|apply isub_finite in H; tauto]|].
  destruct P as [(-> & ->)|(-> & _)]; [|congruence]. rewrite PeanoNat.Nat.eqb_refl in H. apply iadd_finite in H. tauto.
Qed.
Lemma fold_term_nan (m : nat -> fl) k c x mo calls : Forall apart calls -> In x calls -> partner m k x mo -> is_nan (term_of c x mo) = true ->
  forall acc, is_nan (at_ c (fold_left (iforce m) calls acc k)) = true.
Proof.
  induction 1 as [|y l A HA IH]; intros I P N acc; [destruct I|]. cbn. destruct I as [-> | I]; [|now apply IH].
  apply fold_nan; auto. destruct x as [[dr i] j]. unfold apart in A. cbn in A. rewrite iforce_at by exact A. unfold partner in P. cbn in P. unfold term_of in N. cbn in N. apply nan_eq in N.
  destruct (PeanoNat.Nat.eqb_spec k j) as [-> | Hj]; [destruct P as [(-> & _)|(_ & ->)]; [congruence|rewrite N; now rewrite isub_nan_r]|].
  destruct P as [(-> & ->)|(-> & _)]; [|congruence]. rewrite PeanoNat.Nat.eqb_refl, N. now rewrite iadd_nan_r.
Qed.
(** Two different particles are one of the pairs. *)
Lemma pair_call n (m : nat -> fl) (p : nat -> ivec) k l : (k < n)%nat -> (l < n)%nat -> k <> l ->
  exists dr i j, In (dr, i, j) (icalls n p) /\ partner m k (dr, i, j) (m l) /\ dr = iv_sub (p j) (p i) /\ ((i = k /\ j = l) \/ (i = l /\ j = k)).
Proof.
  intros Hk Hl Hne. destruct (PeanoNat.Nat.lt_ge_cases k l) as [H|H].
  - exists (iv_sub (p l) (p k)), k, l. split; [apply icalls_in; lia|]. split; [left; cbn; auto|]. auto.
  - exists (iv_sub (p k) (p l)), l, k. split; [apply icalls_in; lia|]. split; [right; cbn; auto|]. auto.
Qed.

(** * Terms of special displacements *)
Lemma rr3_nan (dr : ivec) : some_nan dr -> irr3 dr = B754_nan.
Proof.
  intros N. unfold irr3. rewrite norm_norm2, (norm2_nan dr N). change (imul (imul (isqrt B754_nan) (isqrt B754_nan)) (isqrt B754_nan)) with (B754_nan : fl).
  unfold idiv. now destruct (ione : fl).
Qed.
Lemma term_nan_r (d m : fl) : iterm d B754_nan m = B754_nan.
Proof. unfold iterm. now rewrite imul_nan_r, imul_nan_l. Qed.
Lemma one_over_zero : idiv ione (B754_zero false : fl) = B754_infinity false.
Proof.
  unfold idiv, ione. destruct (@Bone prec emax _ _) as [s| s| |s m e H] eqn:E.
  - pose proof (Bone_correct prec emax _ _) as Q. rewrite E in Q. cbn in Q. lra.
  - pose proof (is_finite_Bone prec emax _ _) as Q. rewrite E in Q. discriminate.
  - pose proof (is_finite_Bone prec emax _ _) as Q. rewrite E in Q. discriminate.
  - pose proof (Bsign_Bone prec emax _ _) as Q. rewrite E in Q. cbn in Q. subst. reflexivity.
Qed.
Lemma one_over_inf : idiv ione (B754_infinity false : fl) = B754_zero false.
Proof.
  unfold idiv, ione. destruct (@Bone prec emax _ _) as [s| s| |s m e H] eqn:E.
  - pose proof (Bone_correct prec emax _ _) as Q. rewrite E in Q. cbn in Q. lra.
  - pose proof (is_finite_Bone prec emax _ _) as Q. rewrite E in Q. discriminate.
  - pose proof (is_finite_Bone prec emax _ _) as Q. rewrite E in Q. discriminate.
  - pose proof (Bsign_Bone prec emax _ _) as Q. rewrite E in Q. cbn in Q. subst. reflexivity.
Qed.
Lemma rr3_inf (dr : ivec) : (forall c, is_nan (at_ c dr) = false) -> some_inf dr -> irr3 dr = B754_zero false.
Proof. intros N I. unfold irr3. rewrite norm_norm2, (norm2_inf dr N I). apply one_over_inf. Qed.
Lemma isub_equal (a b : fl) : is_finite a = true -> is_finite b = true -> ieq a b = true -> exists s, isub a b = B754_zero s.
Proof.
  intros Fa Fb E. apply ieq_key in E; try now apply finite_not_nan. rewrite (proj1 (key_fin a Fa)), (proj1 (key_fin b Fb)) in E.
  destruct (cr_sub a b Fa Fb) as (C & _). replace (B2R a - B2R b) with 0 in C by lra. rewrite rne_0, Rabs_R0 in C. destruct (C (bpow_gt_0 _ _)) as (F & V). now apply zero_of.
Qed.
Lemma zero_times_inf (s t : bool) : imul (B754_zero s : fl) (B754_infinity t) = B754_nan.
Proof. reflexivity. Qed.
Lemma inf_times_zero (s t : bool) : imul (B754_infinity t : fl) (B754_zero s) = B754_nan.
Proof. reflexivity. Qed.
Lemma inf_mul (a : fl) (t : bool) : is_finite (imul a (B754_infinity t)) = false.
Proof. now destruct a as [[] |[] | |[] m e H], t. Qed.
Lemma not_finite_mul (a b : fl) : is_finite a = false -> is_finite (imul a b) = false.
Proof. intros H. destruct (is_finite (imul a b)) eqn:E; auto. apply imul_finite in E as (F & _). congruence. Qed.
Lemma not_finite_mul_r (a b : fl) : is_finite b = false -> is_finite (imul a b) = false.
Proof. intros H. rewrite imul_comm. now apply not_finite_mul. Qed.

(** * The link *)
Variable E : Z.
Hypothesis E0 : (0 <= E)%Z.
Hypothesis HE : (L + prec - 1 <= - (5 * E + 3))%Z.
Lemma emax_E : (5 * E + 5 <= emax)%Z.
Proof. unfold least in HE. lia. Qed.
Definition ax (c : icomp) : axis := match c with CX => X | CY => Y | CZ => Z3 end.
Lemma co_real c (v : ivec) : co (ax c) (real v) = B2R (at_ c v).
Proof. now destruct c. Qed.
Lemma zr_abs lo hi x : zr lo hi x -> Rabs x <= bpow radix2 hi.
Proof. intros [-> | (_ & H)]; auto. rewrite Rabs_R0. apply bpow_ge_0. Qed.
Notation fnorm := (fnorm L prec even_choice).
Notation frr3 := (frr3 L prec even_choice).
Notation fterm := (fterm L prec even_choice).
Lemma link_rr3 (dr : ivec) : all_finite dr -> (forall x, zr (- E) E (co x (real dr))) -> real dr <> vzero ->
  is_finite (irr3 dr) = true /\ B2R (irr3 dr) = frr3 (fnorm (real dr)) /\ Rabs (B2R (irr3 dr)) <= bpow radix2 (3 * E).
Proof.
  intros F T NZ. pose proof emax_E. pose proof (least_neg (prec := prec) (emax := emax)) as Ln.
  assert (H0 : forall c, is_finite (at_ c dr) = true /\ Rabs (B2R (at_ c dr)) <= bpow radix2 E) by (intros c; split; auto; rewrite <- co_real; eapply zr_abs; apply T).
  destruct (norm2_bounded dr E E0 ltac:(lia) H0) as (F2 & _). assert (Fr : is_finite (inorm dr) = true) by (apply norm_finite; auto; intros c; apply finite_not_nan, F).
  pose proof (link_norm dr Fr) as Er.
  destruct (norm_near L prec even_choice E E0 HE 0 (real dr) (real dr) (fun x => near_refl _ _) T NZ) as (_ & (Zr & Pr) & _).
  destruct (rr3_near L prec even_choice E E0 HE 0 (real dr) (real dr) (fun x => near_refl _ _) T NZ) as (Zc & Z3r & Nr).
  set (r := fnorm (real dr)) in *. unfold irr3. cbv zeta.
  assert (Br : Rabs (B2R (inorm dr)) <= bpow radix2 (E + 1)) by (rewrite Er; eapply zr_abs; exact Zr).
  destruct (bounded_mul (inorm dr) (inorm dr) (E + 1) (E + 1) ltac:(lia) Fr Fr Br Br) as (F3 & B3).
  destruct (bounded_mul (imul (inorm dr) (inorm dr)) (inorm dr) (E + 1 + (E + 1)) (E + 1) ltac:(lia) F3 Fr B3 Br) as (F4 & B4).
  assert (Ec : B2R (imul (imul (inorm dr) (inorm dr)) (inorm dr)) = fcube L prec even_choice r).
  { destruct (imul_finite _ _ F4) as (_ & _ & ->). destruct (imul_finite _ _ F3) as (_ & _ & ->). rewrite Er. reflexivity. }
  assert (Nc : B2R (imul (imul (inorm dr) (inorm dr)) (inorm dr)) <> 0).
  { rewrite Ec. intros Z. unfold Fnewt_Model.frr3 in Nr. rewrite Z in Nr. unfold Rdiv in Nr at 1. rewrite Rinv_0, Rmult_0_r in Nr. unfold rnd in Nr. rewrite round_0 in Nr by apply valid_rnd_N.
    destruct Nr as (q & Hq & (Hq1 & _)). pose proof (iWk_pos (w prec) (w1 prec) (3 * 0 + 12)) as P.
    assert (0 < 1 / (norm (real dr) * norm (real dr) * norm (real dr)) * q); [|lra]. apply Rmult_lt_0_compat; [|lra]. apply Rdiv_lt_0_compat; [lra|].
    assert (0 < norm (real dr)) by now apply norm_pos. apply Rmult_lt_0_compat; [|auto]. now apply Rmult_lt_0_compat. }
  destruct (cr_div ione _ (is_finite_Bone prec emax _ _) F4 Nc) as (C & _). rewrite Ec in C. assert (O : B2R (ione : fl) = 1) by apply Bone_correct. rewrite O in C.
  change (rne (1 / fcube L prec even_choice r)) with (frr3 r) in C.
  pose proof (zr_abs _ _ _ Z3r) as B5. destruct C as (C1 & C2); [eapply Rle_lt_trans; [exact B5|apply bpow_lt; lia]|]. rewrite C2. auto.
Qed.
Lemma link_term (dr : ivec) (m : fl) c : all_finite dr -> (forall x, zr (- E) E (co x (real dr))) -> real dr <> vzero -> is_finite m = true -> Rabs (B2R m) <= bpow radix2 E ->
  is_finite (iterm (at_ c dr) (irr3 dr) m) = true /\ B2R (iterm (at_ c dr) (irr3 dr) m) = fterm (co (ax c) (real dr)) (frr3 (fnorm (real dr))) (B2R m) /\
  Rabs (B2R (iterm (at_ c dr) (irr3 dr) m)) <= bpow radix2 (5 * E).
Proof.
  intros F T NZ Fm Bm. pose proof emax_E. pose proof (least_neg (prec := prec) (emax := emax)) as Ln. destruct (link_rr3 dr F T NZ) as (F1 & E1 & B1).
  assert (Bd : Rabs (B2R (at_ c dr)) <= bpow radix2 E) by (rewrite <- co_real; eapply zr_abs; apply T).
  destruct (bounded_mul (at_ c dr) (irr3 dr) E (3 * E) ltac:(lia) (F c) F1 Bd B1) as (F2 & B2). destruct (bounded_mul _ m (E + 3 * E) E ltac:(lia) F2 Fm B2 Bm) as (F3 & B3).
  unfold iterm. split; auto. split.
  - destruct (imul_finite _ _ F3) as (_ & _ & ->). destruct (imul_finite _ _ F2) as (_ & _ & ->). rewrite E1, co_real. reflexivity.
  - replace (5 * E)%Z with (E + 3 * E + E)%Z by ring. auto.
Qed.

Lemma multiple_fmt N : (0 <= N < Zpower radix2 prec)%Z -> generic_format radix2 (FLT_exp L prec) (IZR N * bpow radix2 (5 * E)).
Proof.
  intros HN. pose proof (least_neg (prec := prec) (emax := emax)) as Ln. apply generic_format_FLT. apply (FLT_spec _ _ _ _ (Float radix2 N (5 * E))); cbn [Fnum Fexp]; auto; [rewrite Z.abs_eq; lia|lia].
Qed.
Hypothesis HP : (5 * E + prec < emax)%Z.
Lemma sum_bounded (a b : fl) N : (0 <= N)%Z -> (N + 1 < Zpower radix2 prec)%Z -> is_finite a = true -> is_finite b = true -> Rabs (B2R a) <= IZR N * bpow radix2 (5 * E) -> Rabs (B2R b) <= bpow radix2 (5 * E) ->
  is_finite (iadd a b) = true /\ B2R (iadd a b) = rne (B2R a + B2R b) /\ Rabs (B2R (iadd a b)) <= IZR (N + 1) * bpow radix2 (5 * E).
Proof.
  intros N0 HN Fa Fb A B. destruct (cr_add a b Fa Fb) as (C & _).
  assert (D : Rabs (rne (B2R a + B2R b)) <= IZR (N + 1) * bpow radix2 (5 * E)).
  { unfold Ieee_Spec.rne, rnd. apply abs_round_le_generic; [apply (FLT_exp_valid _ _)|apply valid_rnd_N|apply multiple_fmt; lia|]. rewrite plus_IZR. eapply Rle_trans; [apply Rabs_triang|lra]. }
  assert (G : IZR (N + 1) * bpow radix2 (5 * E) < bpow radix2 emax).
  { apply Rlt_le_trans with (bpow radix2 (prec + 5 * E)); [|apply bpow_le; lia]. rewrite bpow_plus. apply Rmult_lt_compat_r; [apply bpow_gt_0|]. rewrite <- IZR_Zpower by (pose proof (prec_gt_0 prec); lia). now apply IZR_lt. }
  destruct C as (C1 & C2); [lra|]. rewrite C2. auto.
Qed.
Lemma sub_bounded (a b : fl) N : (0 <= N)%Z -> (N + 1 < Zpower radix2 prec)%Z -> is_finite a = true -> is_finite b = true -> Rabs (B2R a) <= IZR N * bpow radix2 (5 * E) -> Rabs (B2R b) <= bpow radix2 (5 * E) ->
  is_finite (isub a b) = true /\ B2R (isub a b) = rne (B2R a - B2R b) /\ Rabs (B2R (isub a b)) <= IZR (N + 1) * bpow radix2 (5 * E).
Proof.
  intros N0 HN Fa Fb A B. rewrite isub_iadd. replace (B2R a - B2R b) with (B2R a + B2R (ineg b)) by (unfold ineg; rewrite B2R_Bopp; ring).
  apply sum_bounded; auto; unfold ineg; rewrite ?is_finite_Bopp, ?B2R_Bopp, ?Rabs_Ropp; auto.
Qed.
(** A call as the rounding model sees it. *)
Definition real_call (x : ivec * nat * nat) : fcall := (real (fst (fst x)), snd (fst x), snd x).
Definition good_call (m : nat -> fl) (x : ivec * nat * nat) : Prop :=
  apart x /\ all_finite (fst (fst x)) /\ (forall a, zr (- E) E (co a (real (fst (fst x))))) /\ real (fst (fst x)) <> vzero /\
  is_finite (m (snd (fst x))) = true /\ Rabs (B2R (m (snd (fst x)))) <= bpow radix2 E /\ is_finite (m (snd x)) = true /\ Rabs (B2R (m (snd x))) <= bpow radix2 E.
Notation fadd_acc := (fadd_acc L prec even_choice).
Lemma link_calls (m : nat -> fl) k c calls : Forall (good_call m) calls -> forall (acc : nat -> ivec) (facc : nat -> vec) N, (0 <= N)%Z -> (N + Z.of_nat (concerns k (map real_call calls)) < Zpower radix2 prec)%Z ->
  is_finite (at_ c (acc k)) = true -> B2R (at_ c (acc k)) = co (ax c) (facc k) -> Rabs (B2R (at_ c (acc k))) <= IZR N * bpow radix2 (5 * E) ->
  is_finite (at_ c (fold_left (iforce m) calls acc k)) = true /\
  B2R (at_ c (fold_left (iforce m) calls acc k)) = co (ax c) (fadd_acc (fun i => B2R (m i)) (map real_call calls) facc k).
Proof.
  induction 1 as [|x l (A & F & T & NZ & Fi & Bi & Fj & Bj) HA IH]; intros acc facc N N0 HN Fa Ea Ba; [cbn; auto|].
  destruct x as [[dr i] j]. unfold apart in A. cbn [fst snd] in *. unfold Fnewt_Model.fadd_acc. cbn [map fold_left]. cbn [map] in HN. rewrite concerns_cons in HN.
  change (real_call (dr, i, j)) with (real dr, i, j) in *. unfold fc_i, fc_j in HN. cbn [fst snd] in HN.
  pose proof (iforce_at m acc dr i j k c A) as P. pose proof (fforce_at L prec even_choice (fun i => B2R (m i)) facc (real dr, i, j) k (ax c) A) as Q. cbv zeta in Q. unfold fc_i, fc_j, fc_dr in Q. cbn [fst snd] in Q.
  destruct (PeanoNat.Nat.eqb_spec k j) as [-> | Hj].
  - rewrite orb_true_r in HN. destruct (link_term dr (m i) c F T NZ Fi Bi) as (F1 & E1 & B1).
    destruct (sub_bounded (at_ c (acc j)) _ N N0 ltac:(lia) Fa F1 Ba B1) as (F2 & E2 & B2).
    apply (IH _ _ (N + 1)%Z); rewrite ?P; auto; try lia. rewrite Q, E2, E1, Ea. reflexivity.
  - rewrite orb_false_r in HN. destruct (PeanoNat.Nat.eqb_spec k i) as [-> | Hi].
    + destruct (link_term dr (m j) c F T NZ Fj Bj) as (F1 & E1 & B1).
      destruct (sum_bounded (at_ c (acc i)) _ N N0 ltac:(lia) Fa F1 Ba B1) as (F2 & E2 & B2).
      apply (IH _ _ (N + 1)%Z); rewrite ?P; auto; try lia. rewrite Q, E2, E1, Ea. reflexivity.
    + apply (IH _ _ N); rewrite ?P; auto; try lia. now rewrite Q.
Qed.
End P.
