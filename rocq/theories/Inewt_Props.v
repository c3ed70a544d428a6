(** C93: Newtonian accelerations on IEEE 754 numbers, special values included. *)
From Verif Require Import Ieee_Model Ieee_Spec Ieee_Proofs Ieee_Proofs2 Ieee_Proofs3 Inewt_Proofs Kahan_Proofs Fnewt_Model Fnewt_Spec Fnewt_Proofs Fnewt_Proofs2 Fnewt_Props Fchain_Spec Force_Proofs Ieee_Props.
From Coq Require Import Lra Lia.
Open Scope R_scope.

Section C93.
Context {prec emax : Z} { prec_gt_0_ : Prec_gt_0 prec } { prec_lt_emax_ : Prec_lt_emax prec emax }.
Notation fl := (binary_float prec emax).
Notation ivec := (ivec prec emax).

(** Coordinates and masses of moderate size, different positions: everything stays finite, and the accelerations are those of the rounding model of C91. *)
Theorem C93_in_range E n (m : nat -> fl) (p : nat -> ivec) v k c : (0 <= E)%Z -> (least prec emax + prec - 1 <= - (5 * E + 3))%Z -> (5 * E + prec < emax)%Z -> (Z.of_nat n < Zpower radix2 prec)%Z ->
  (forall i, (i < n)%nat -> is_finite (m i) = true) -> (forall i, (i < n)%nat -> all_finite (p i)) ->
  let s := mkS n (fun i => B2R (m i)) (fun i => real (p i)) v in tame_system E s -> distinct_positions s -> (k < n)%nat ->
  is_finite (at_ c (iadd_acc n m p izero_acc k)) = true /\
  B2R (at_ c (iadd_acc n m p izero_acc k)) = co (ax c) (fadd_acc (least prec emax) prec even_choice (sm s) (fdirect (least prec emax) prec even_choice s) (fun _ => vzero) k).
Proof.
  intros E0 HE HP HN Fm Fp s T Dp Hk. pose proof (direct_near (least prec emax) prec even_choice E E0 HE s T Dp) as Nr. destruct T as (Tm & Tp). cbn [sn sm sp s] in Tm, Tp, Dp.
  assert (G : forall i j, (i < j < n)%nat -> all_finite (iv_sub (p j) (p i)) /\ real (iv_sub (p j) (p i)) = fvsub (least prec emax) prec even_choice (real (p j)) (real (p i))).
  { intros i j H. assert (K : forall d, is_finite (at_ d (iv_sub (p j) (p i))) = true /\ B2R (at_ d (iv_sub (p j) (p i))) = fsub (least prec emax) prec even_choice (B2R (at_ d (p j))) (B2R (at_ d (p i)))).
    { intros d. destruct (cr_sub (at_ d (p j)) (at_ d (p i)) (Fp j ltac:(lia) d) (Fp i ltac:(lia) d)) as (C & _).
      replace (at_ d (iv_sub (p j) (p i))) with (isub (at_ d (p j)) (at_ d (p i))) by now destruct d. apply C.
      pose proof (Tp i j (ax d) ltac:(lia) ltac:(lia) ltac:(lia)) as B. apply zr_abs in B. pose proof (least_neg (prec := prec) (emax := emax)).
      apply Rle_lt_trans with (bpow radix2 E); [|apply bpow_lt; unfold least in HE; lia]. apply rne_bpow; [lia|]. replace (B2R (at_ d (p j)) - B2R (at_ d (p i))) with (co (ax d) (vsub (real (p j)) (real (p i)))) by now destruct d. exact B. }
    split; [intros d; apply K|]. unfold real at 1, fvsub. pose proof (proj2 (K CX)) as K1. pose proof (proj2 (K CY)) as K2. pose proof (proj2 (K CZ)) as K3. cbn [at_] in K1, K2, K3. rewrite K1, K2, K3. reflexivity. }
  assert (EC : map real_call (icalls n p) = fdirect (least prec emax) prec even_choice s).
  { unfold icalls, fdirect. rewrite map_map. apply map_ext_in. intros [i j] H. change (In (i, j) (all_pairs n)) in H. apply all_pairs_in in H. unfold real_call. cbn [fst snd sp s]. rewrite (proj2 (G i j H)). reflexivity. }
  assert (TM : forall i, (i < n)%nat -> Rabs (B2R (m i)) <= bpow radix2 E) by (intros i Hi; eapply zr_abs; exact (Tm i Hi)).
  assert (GC : Forall (good_call E m) (icalls n p)).
  { apply Forall_forall. intros [[dr i] j] H. pose proof H as H'. apply icalls_inv in H as (Hij & ->). destruct (G i j Hij) as (A1 & A2).
    assert (I : In (real (iv_sub (p j) (p i)), i, j) (fdirect (least prec emax) prec even_choice s)) by (rewrite <- EC; apply in_map_iff; exists (iv_sub (p j) (p i), i, j); auto).
    assert (Z : exists C, call_near prec E 1 (real (iv_sub (p j) (p i)), i, j) C). { clear - Nr I. induction Nr as [|x y l l' R _ IH]; [destruct I|]. destruct I as [-> | I]; [eauto|apply IH; auto]. }
    destruct Z as (C & _ & _ & _ & NZ & Z). unfold fc_dr in Z. cbn [fst snd] in Z.
    unfold good_call, apart. cbn [fst snd]. split; [lia|]. split; auto. split; [intros a; apply Z|]. split.
    - intros Q. apply NZ. destruct C as [[D a] b]. cbn in Z |- *. rewrite Q in Z. destruct D as [d1 d2 d3].
      assert (W : forall x y : R, near (w prec) 1 0 y -> y = 0). { intros _ y (q & Hq & (Hq1 & _)). pose proof (iWk_pos (w prec) (w1 prec) 1). symmetry in Hq. apply Rmult_integral in Hq as [Hq|Hq]; lra. }
      pose proof (proj1 (Z X)) as ZX. pose proof (proj1 (Z Y)) as ZY. pose proof (proj1 (Z Z3)) as ZZ. cbn in ZX, ZY, ZZ. apply (W 0) in ZX, ZY, ZZ. now subst.
    - repeat split; auto; try (apply Fm; lia); apply TM; lia. }
  destruct (link_calls E E0 HE HP m k c (icalls n p) GC izero_acc (fun _ => vzero) 0) as (R1 & R2); try lia.
  - rewrite EC. assert (concerns k (fdirect (least prec emax) prec even_choice s) <= n)%nat; [|lia].
    replace (concerns k (fdirect (least prec emax) prec even_choice s)) with (concerns k (true_calls s)); [rewrite concerns_true by exact Hk; cbn; lia|].
    clear. unfold true_calls, fdirect. induction (all_pairs (sn s)) as [|ij l IH]; auto. cbn [map]. rewrite !concerns_cons. now rewrite IH.
  - now destruct c.
  - now destruct c.
  - replace (B2R (at_ c (izero_acc k))) with 0 by now destruct c. rewrite Rabs_R0. lra.
  - unfold iadd_acc. split; auto. rewrite R2, EC. reflexivity.
Qed.
(** Hence the computed accelerations are right up to n + 17 roundings of the sum of the magnitudes. *)
Theorem C93_accurate E n (m : nat -> fl) (p : nat -> ivec) v k c : (0 <= E)%Z -> (least prec emax + prec - 1 <= - (5 * E + 3))%Z -> (5 * E + prec < emax)%Z -> (Z.of_nat n < Zpower radix2 prec)%Z ->
  (forall i, (i < n)%nat -> is_finite (m i) = true) -> (forall i, (i < n)%nat -> all_finite (p i)) ->
  let s := mkS n (fun i => B2R (m i)) (fun i => real (p i)) v in tame_system E s -> distinct_positions s -> (k < n)%nat ->
  is_finite (at_ c (iadd_acc n m p izero_acc k)) = true /\
  Rabs (B2R (at_ c (iadd_acc n m p izero_acc k)) - true_acc s (ax c) k) <= (w prec ^ (n + 17) - 1) * abs_acc s (ax c) k.
Proof.
  intros E0 HE HP HN Fm Fp s T Dp Hk. destruct (C93_in_range E n m p v k c E0 HE HP HN Fm Fp T Dp Hk) as (F & ->). split; auto.
  pose proof (C91_direct (least prec emax) prec even_choice E s (fun _ => vzero) k (ax c) E0 HE T Dp Hk) as B. cbv beta in B. replace (co (ax c) vzero) with 0 in B by now destruct c.
  specialize (B (fmt_0 _ _)). rewrite Rabs_R0, !Rplus_0_l in B. exact B.
Qed.
(** NaN is never lost and nothing becomes finite again, whatever the array held and whatever the particles are. *)
Theorem C93_sticky n (m : nat -> fl) (p acc : nat -> ivec) k c :
  (is_nan (at_ c (acc k)) = true -> is_nan (at_ c (iadd_acc n m p acc k)) = true) /\ (is_finite (at_ c (acc k)) = false -> is_finite (at_ c (iadd_acc n m p acc k)) = false).
Proof.
  unfold iadd_acc. split; intros H; [apply fold_nan; auto using icalls_apart|]. destruct (is_finite (at_ c (fold_left (iforce m) (icalls n p) acc k))) eqn:F; auto. apply fold_back in F; auto using icalls_apart. congruence.
Qed.
(** Two particles in the same place (finite coordinates that compare equal): every component of both accelerations is NaN, whatever the masses and all other particles. *)
Theorem C93_coincident n (m : nat -> fl) (p acc : nat -> ivec) k l c : (k < n)%nat -> (l < n)%nat -> k <> l -> all_finite (p k) -> all_finite (p l) ->
  (forall d, ieq (at_ d (p k)) (at_ d (p l)) = true) -> is_nan (at_ c (iadd_acc n m p acc k)) = true.
Proof.
  intros Hk Hl Hne Fk Fl Q. destruct (pair_call n m p k l Hk Hl Hne) as (dr & i & j & I & P & -> & O). unfold iadd_acc.
  eapply fold_term_nan; [apply icalls_apart|exact I|exact P|]. unfold term_of. cbn [fst].
  assert (Z : forall d, exists s, at_ d (iv_sub (p j) (p i)) = B754_zero s).
  { intros d. replace (at_ d (iv_sub (p j) (p i))) with (isub (at_ d (p j)) (at_ d (p i))) by now destruct d.
    assert (Sy : forall a b : fl, ieq a b = true -> ieq b a = true). { intros a b H. unfold ieq in *. rewrite Bcompare_swap. destruct (Bcompare a b) as [[]|]; auto; discriminate. }
    destruct O as [(-> & ->)|(-> & ->)]; apply isub_equal; auto. }
  destruct (Z CX) as (sx & X'), (Z CY) as (sy & Y'), (Z CZ) as (sz & Z'), (Z c) as (sc & C'). cbn [at_] in X', Y', Z'.
  assert (R : irr3 (iv_sub (p j) (p i)) = B754_infinity false).
  { unfold irr3, inorm. rewrite X', Y', Z'. transitivity (idiv ione (B754_zero false : fl)); [|apply one_over_zero]. destruct sx, sy, sz; reflexivity. }
  rewrite R, C'. unfold iterm. rewrite zero_times_inf, imul_nan_l. reflexivity.
Qed.
(** One NaN coordinate spoils every component of every acceleration, the particle's own included. *)
Theorem C93_nan_position n (m : nat -> fl) (p acc : nat -> ivec) l d k c : (2 <= n)%nat -> (k < n)%nat -> (l < n)%nat -> is_nan (at_ d (p l)) = true ->
  is_nan (at_ c (iadd_acc n m p acc k)) = true.
Proof.
  intros H2 Hk Hl N. assert (O : exists o, (o < n)%nat /\ o <> k /\ (k = l \/ o = l)).
  { destruct (PeanoNat.Nat.eq_dec k l) as [-> | Hne]; [|exists l; auto]. destruct l as [|l]; [exists 1%nat|exists 0%nat]; repeat split; auto; lia. }
  destruct O as (o & Ho & Hok & W). destruct (pair_call n m p k o Hk Ho ltac:(congruence)) as (dr & i & j & I & P & -> & O). unfold iadd_acc.
  eapply fold_term_nan; [apply icalls_apart|exact I|exact P|]. unfold term_of. cbn [fst]. rewrite rr3_nan, term_nan_r; [reflexivity|].
  exists d. replace (at_ d (iv_sub (p j) (p i))) with (isub (at_ d (p j)) (at_ d (p i))) by now destruct d. apply nan_eq in N.
  assert (l = i \/ l = j) as [-> | -> ] by (destruct W, O as [(-> & ->)|(-> & ->)]; auto); rewrite N, ?isub_nan_l, ?isub_nan_r; reflexivity.
Qed.
(** One infinite coordinate makes that component of every acceleration NaN. *)
Theorem C93_infinite_position n (m : nat -> fl) (p acc : nat -> ivec) l d k : (2 <= n)%nat -> (k < n)%nat -> (l < n)%nat -> is_inf (at_ d (p l)) = true ->
  is_nan (at_ d (iadd_acc n m p acc k)) = true.
Proof.
  intros H2 Hk Hl N. assert (O : exists o, (o < n)%nat /\ o <> k /\ (k = l \/ o = l)).
  { destruct (PeanoNat.Nat.eq_dec k l) as [-> | Hne]; [|exists l; auto]. destruct l as [|l]; [exists 1%nat|exists 0%nat]; repeat split; auto; lia. }
  destruct O as (o & Ho & Hok & W). destruct (pair_call n m p k o Hk Ho ltac:(congruence)) as (dr & i & j & I & P & -> & O). unfold iadd_acc.
  eapply fold_term_nan; [apply icalls_apart|exact I|exact P|]. unfold term_of. cbn [fst].
  assert (W' : l = i \/ l = j) by (destruct W, O as [(-> & ->)|(-> & ->)]; auto). set (dr := iv_sub (p j) (p i)).
  destruct (some_nan_dec dr) as [Nd|Nd]; [now rewrite rr3_nan, term_nan_r|].
  assert (I' : is_inf (at_ d dr) = true).
  { pose proof (Nd d) as K. replace (at_ d dr) with (isub (at_ d (p j)) (at_ d (p i))) in * by now destruct d. clear - N W' K.
    destruct W' as [-> | -> ]; [destruct (at_ d (p i)), (at_ d (p j))|destruct (at_ d (p j)), (at_ d (p i))]; try discriminate; cbn in *; auto; destruct s, s0; try discriminate; reflexivity. }
  rewrite rr3_inf; [|auto|now exists d]. unfold iterm. destruct (at_ d dr); try discriminate. rewrite inf_times_zero, imul_nan_l. reflexivity.
Qed.
(** Too close: if the cube of the computed distance is zero, no component of the two accelerations is finite. *)
Theorem C93_too_close n (m : nat -> fl) (p acc : nat -> ivec) k l c : (k < n)%nat -> (l < n)%nat -> k <> l ->
  (let r := idistance (p k) (p l) in exists s, imul (imul r r) r = B754_zero s) -> is_finite (at_ c (iadd_acc n m p acc k)) = false.
Proof.
  intros Hk Hl Hne (s & Z). destruct (pair_call n m p k l Hk Hl Hne) as (dr & i & j & I & P & E & O).
  destruct (is_finite (at_ c (iadd_acc n m p acc k))) eqn:F; auto. exfalso. unfold iadd_acc in F. eapply (fold_term_finite m k c (dr, i, j)) in F; [|apply icalls_apart|exact I|exact P].
  unfold term_of in F. cbn [fst] in F. assert (D : inorm dr = idistance (p k) (p l)).
  { rewrite E. destruct O as [(-> & ->)|(-> & ->)]; [rewrite (proj1 (proj2 (C92_distance (p k) (p l))))|]; reflexivity. }
  assert (R : is_finite (irr3 dr) = false).
  { unfold irr3. cbv zeta. rewrite D. cbv zeta in Z. rewrite Z. destruct s; [|now rewrite one_over_zero]. unfold idiv, ione. destruct (@Bone prec emax _ _); reflexivity. }
  unfold iterm in F. apply imul_finite in F as (F & _). apply imul_finite in F as (_ & F & _). congruence.
Qed.
(** Too far: if the cube of the computed distance overflows, a pair with finite displacement and masses exerts no force at all on each other. *)
Theorem C93_too_far (m : nat -> fl) (acc : nat -> ivec) dr i j k c : i <> j -> all_finite dr -> is_finite (m i) = true -> is_finite (m j) = true ->
  (let r := inorm dr in imul (imul r r) r = B754_infinity false) -> same (at_ c (iforce m acc (dr, i, j) k)) (at_ c (acc k)).
Proof.
  intros Hne F Fi Fj V. rewrite iforce_at by exact Hne. assert (R : irr3 dr = B754_zero false) by (unfold irr3; cbv zeta; cbv zeta in V; rewrite V; apply one_over_inf).
  assert (T : forall mo : fl, is_finite mo = true -> exists s, iterm (at_ c dr) (irr3 dr) mo = B754_zero s).
  { intros mo Fo. rewrite R. unfold iterm, imul. pose proof (F c) as Fc. destruct (at_ c dr); try discriminate; destruct mo; try discriminate; cbn; eauto. }
  assert (A : forall (a : fl) s, same (iadd a (B754_zero s)) a) by (intros a s; destruct a as [t| t| |t n f K]; try (left; reflexivity); right; destruct s, t; cbn; eauto).
  destruct (T (m i) Fi) as (si & Ti), (T (m j) Fj) as (sj & Tj).
  destruct (Nat.eqb k j); [rewrite Ti, isub_iadd; apply A|]. destruct (Nat.eqb k i); [rewrite Tj; apply A|left; reflexivity].
Qed.
(** A NaN mass spoils the accelerations of all other particles, an infinite one leaves none of them finite; no particle's mass enters its own acceleration. *)
Theorem C93_mass n (m : nat -> fl) (p acc : nat -> ivec) k l c : (k < n)%nat -> (l < n)%nat -> k <> l ->
  (is_nan (m l) = true -> is_nan (at_ c (iadd_acc n m p acc k)) = true) /\ (is_inf (m l) = true -> is_finite (at_ c (iadd_acc n m p acc k)) = false) /\
  forall x, at_ c (iadd_acc n (iupd m k x) p acc k) = at_ c (iadd_acc n m p acc k).
Proof.
  intros Hk Hl Hne. destruct (pair_call n m p k l Hk Hl Hne) as (dr & i & j & I & P & E & O). split; [|split].
  - intros N. unfold iadd_acc. eapply fold_term_nan; [apply icalls_apart|exact I|exact P|]. unfold term_of, iterm. apply nan_eq in N. rewrite N, imul_nan_r. reflexivity.
  - intros N. destruct (is_finite (at_ c (iadd_acc n m p acc k))) eqn:F; auto. exfalso. unfold iadd_acc in F. eapply (fold_term_finite m k c (dr, i, j)) in F; [|apply icalls_apart|exact I|exact P].
    unfold term_of, iterm in F. destruct (m l); try discriminate. now rewrite inf_mul in F.
  - intros x. unfold iadd_acc. pose proof (icalls_apart n p) as A. revert A.
    assert (G : forall calls, Forall apart calls -> forall a a' : nat -> ivec, at_ c (a k) = at_ c (a' k) -> at_ c (fold_left (iforce (iupd m k x)) calls a k) = at_ c (fold_left (iforce m) calls a' k)).
    { induction 1 as [|[[d a] b] cs A _ IH]; intros a1 a2 H; auto. cbn [fold_left]. apply IH. unfold apart in A. cbn in A. rewrite !iforce_at by exact A. rewrite H. unfold iupd.
      destruct (PeanoNat.Nat.eqb_spec k b) as [-> | Hb]; [destruct (PeanoNat.Nat.eqb_spec a b); [congruence|reflexivity]|].
      destruct (PeanoNat.Nat.eqb_spec k a) as [-> | Ha]; auto. destruct (PeanoNat.Nat.eqb_spec b a); [congruence|reflexivity]. }
    intros A. now apply G.
Qed.
End C93.

(** * double: limits of the range *)
#[local] Instance p53' : Prec_gt_0 53 := eq_refl.
#[local] Instance e1024' : Prec_lt_emax 53 1024 := eq_refl.
(** 2^-360 and 2^342. *)
Definition d2m360 : dbl := @B754_finite 53 1024 false 4503599627370496 (-412) eq_refl.
Definition d2p342 : dbl := @B754_finite 53 1024 false 4503599627370496 290 eq_refl.
Definition d2p1000 : dbl := @B754_finite 53 1024 false 4503599627370496 948 eq_refl.
Definition two (a b : dbl) : nat -> dbl := fun k => match k with O => a | _ => b end.
Definition two_pos (x : dbl) : nat -> Ieee_Model.ivec 53 1024 := fun k => match k with O => iv_default | _ => mkI x d0 d0 end.
(** Different positions, 2^-360 apart, masses 1: infinite along the line of the two, NaN across it.  The true acceleration, 2^720, is a double. *)
Theorem C93_close_refuted : exists (m : nat -> dbl) p, (forall i, is_finite (m i) = true) /\ (forall i, all_finite (p i)) /\ B2R (ix (p 0%nat)) <> B2R (ix (p 1%nat)) /\
  ix (iadd_acc 2 m p izero_acc 0) = B754_infinity false /\ iy (iadd_acc 2 m p izero_acc 0) = B754_nan.
Proof.
  exists (two d1 d1), (two_pos d2m360). split; [intros [|i]; reflexivity|]. split; [intros [|i] []; reflexivity|]. split.
  - cbn [two_pos ix iv_default]. apply not_eq_sym. apply F2R_neq_0. discriminate.
  - split; dcompute.
Qed.
(** 2^342 apart, with a mass of 2^1000: no force.  The true acceleration, 2^316, is a double. *)
Theorem C93_far_refuted : exists (m : nat -> dbl) p, (forall i, is_finite (m i) = true) /\ (forall i, all_finite (p i)) /\
  B2R (m 1%nat) = bpow radix2 1000 /\ B2R (ix (p 1%nat)) = bpow radix2 342 /\ iadd_acc 2 m p izero_acc 0 = iv_default.
Proof.
  exists (two d1 d2p1000), (two_pos d2p342). split; [intros [|i]; reflexivity|]. split; [intros [|i] []; reflexivity|]. split; [|split].
  - unfold two, d2p1000, B2R, F2R. cbn [Fnum Fexp SpecFloat.cond_Zopp]. change 4503599627370496%Z with (Zpower radix2 52). rewrite IZR_Zpower by lia. rewrite <- bpow_plus. reflexivity.
  - unfold two_pos, ix, d2p342, B2R, F2R. cbn [Fnum Fexp SpecFloat.cond_Zopp]. change 4503599627370496%Z with (Zpower radix2 52). rewrite IZR_Zpower by lia. rewrite <- bpow_plus. reflexivity.
  - assert (G : forall u v : Ieee_Model.ivec 53 1024, ix u = ix v -> iy u = iy v -> iz u = iz v -> u = v) by (intros [] []; cbn; congruence).
    apply G; dcompute.
Qed.
(** Two unit masses 2 apart: accelerations 1/4, exactly. *)
Example C93_example : ix (iadd_acc 2 (two d1 d1) (two_pos d2) izero_acc 0) = idiv d1 (imul d2 d2) /\ ix (iadd_acc 2 (two d1 d1) (two_pos d2) izero_acc 1) = ineg (idiv d1 (imul d2 d2)).
Proof. split; dcompute. Qed.
Example C93_accurate_example : is_finite (at_ CX (iadd_acc 2 (two d1 d1) (two_pos d2) izero_acc 0)) = true.
Proof.
  apply (C93_accurate 3 2 (two d1 d1) (two_pos d2) (fun _ => vzero) 0 CX); [lia|unfold least; lia|lia|cbn; lia|..|lia].
  - intros [|i] _; reflexivity.
  - intros [|i] _ []; reflexivity.
  - assert (bpow radix2 (-3) = / 8 /\ bpow radix2 3 = 8) as (E1 & E2) by (cbn; lra).
    split.
    + intros k Hk. right. cbn [sm]. replace (two d1 d1 k) with d1 by now destruct k. rewrite B2R_d1. change (- (3))%Z with (-3)%Z. rewrite E1, E2, Rabs_pos_eq; lra.
    + cbn [sn sp]. intros i j a Hi Hj Hne. destruct a; [right|left|left].
      * assert (D : Rabs (co X (vsub (real (two_pos d2 j)) (real (two_pos d2 i)))) = 2).
        { destruct i as [|[|]], j as [|[|]]; try lia; unfold real, two_pos, iv_default; cbn [co vsub vx ix]; rewrite B2R_d2; change (B2R (izero : dbl)) with 0; [rewrite Rabs_pos_eq; lra|rewrite Rabs_left; lra]. }
        rewrite D. change (- (3))%Z with (-3)%Z. rewrite E1, E2. lra.
      * destruct i as [|[|]], j as [|[|]]; try lia; cbn; lra.
      * destruct i as [|[|]], j as [|[|]]; try lia; cbn; lra.
  - intros i j Hi Hj Hne. cbn [sn sp] in *. intros Q. apply (f_equal vx) in Q. destruct i as [|[|]], j as [|[|]]; try lia; unfold real, two_pos, iv_default in Q; cbn [vx ix] in Q; rewrite B2R_d2 in Q; change (B2R (izero : dbl)) with 0 in Q; lra.
Qed.
Print Assumptions C93_in_range. Print Assumptions C93_accurate. Print Assumptions C93_sticky. Print Assumptions C93_coincident. Print Assumptions C93_nan_position. Print Assumptions C93_infinite_position.
Print Assumptions C93_too_close. Print Assumptions C93_too_far. Print Assumptions C93_mass. Print Assumptions C93_close_refuted. Print Assumptions C93_far_refuted.
