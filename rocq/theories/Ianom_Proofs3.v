From Verif Require Import Ianom_Model Ianom_Spec Ianom_Proofs Ianom_Proofs2 Ibis_Proofs Ibis_Proofs2 Ibis_Proofs3 Ibis_Proofs4 Ibis_Props Ieee_Proofs Ieee_Proofs2 Ieee_Proofs3 Ieee_Props2 Kahan_Proofs Islice_Spec Islice_Proofs Islice_Proofs2.
From Coq Require Import Lra Lia Bool Arith.
Open Scope R_scope.
Section P.
Context {prec emax : Z} { prec_gt_0_ : Prec_gt_0 prec } { prec_lt_emax_ : Prec_lt_emax prec emax }.
Hypothesis Hp : (1 < prec)%Z.
Hypothesis HL : (least prec emax <= - 4 * prec)%Z.
Notation fl := (binary_float prec emax).
Notation rne := (Ieee_Spec.rne prec emax).
Notation L := (least prec emax).
Notation fmt := (Kahan_Model.fmt L prec).
Notation fin a := (is_finite a = true).
Notation eps := (bpow radix2 (1 - prec)).
Notation u := (half_ulp prec).
Implicit Types f T : fl -> fl.
(** Every product of values positive: the lower end stays. *)
Lemma low_stays f (pi : fl) : like_pi pi -> (forall x y, within_ends (ineg pi) pi x -> within_ends (ineg pi) pi y -> igt (imul (f x) (f y)) izero = true) ->
  (exists r n, b_returns f (ineg pi) pi n r) /\ forall r n, b_returns f (ineg pi) pi n r -> Rabs (B2R r + B2R pi) <= 17 * u.
Proof.
  intros Hpi H. destruct (pi_ends Hp HL pi Hpi) as (G1 & G2 & N1 & N2 & V).
  assert (St : forall n, fst (b_iter f n (ineg pi, pi)) = ineg pi).
  { induction n as [|n IH]; [reflexivity|]. rewrite iter_S. destruct (iter_good Hp f n (ineg pi) pi G1 G2) as (Ga & Gb & Wa & Wb). destruct (b_iter f n (ineg pi, pi)) as (l, h). cbn [fst snd] in *. subst l.
    destruct (step_cases f (ineg pi) h) as [(-> & _)|(_ & E)]; [reflexivity|]. exfalso. rewrite H in E; [discriminate| |exact Wb].
    destruct (mid_in Hp (ineg pi) h Ga Gb) as (W & _). exact (within_trans _ _ _ _ _ Wa Wb W). }
  split.
  - assert (E : ends f (ineg pi) pi). { apply (ends_by Hp); auto. intros n A _. rewrite St in A. exact (N1 A). } destruct E as (n & r & E). exists r, n. exact E.
  - intros r n R. destruct (C96_result Hp f (ineg pi) pi n r G1 G2 R) as (l & h & I & _ & _ & Wh & (_ & Wr) & Cl & _). assert (El : l = ineg pi) by (rewrite <- (St n), <- I; reflexivity). subst l.
    destruct (within4 Hp HL pi h Hpi Wh) as (_ & Bh). pose proof (u0 Hp) as U. pose proof (eps_u (prec:=prec)) as E2. pose proof (bL Hp HL) as BL.
    assert (W : Rabs (B2R h - B2R (ineg pi)) <= 17 * u) by nra. eapply Rle_trans; [|exact W]. rewrite V in *.
    unfold Rmin, Rmax in Wr. destruct (Rle_dec (- B2R pi) (B2R h)); unfold Rabs; repeat match goal with |- context [Rcase_abs ?z] => destruct (Rcase_abs z) end; lra.
Qed.
(** No product of values positive: the upper end stays. *)
Lemma high_stays f (pi : fl) : like_pi pi -> (forall x, igt (imul (f x) (f pi)) izero = false) ->
  (exists r n, b_returns f (ineg pi) pi n r) /\ forall r n, b_returns f (ineg pi) pi n r -> Rabs (B2R r - B2R pi) <= 17 * u.
Proof.
  intros Hpi H. destruct (pi_ends Hp HL pi Hpi) as (G1 & G2 & N1 & N2 & V).
  assert (St : forall n, snd (b_iter f n (ineg pi, pi)) = pi).
  { induction n as [|n IH]; [reflexivity|]. rewrite iter_S. destruct (b_iter f n (ineg pi, pi)) as (l, h). cbn [fst snd] in *. subst h.
    destruct (step_cases f l pi) as [(_ & E)|(-> & _)]; [|reflexivity]. rewrite H in E. discriminate. }
  split.
  - assert (E : ends f (ineg pi) pi). { apply (ends_by Hp); auto. intros n _ A. rewrite St in A. exact (N2 A). } destruct E as (n & r & E). exists r, n. exact E.
  - intros r n R. pose proof (C96_silent Hp f (ineg pi) pi n r G1 G2 R H) as S1. destruct Hpi as (_ & B). rewrite (Rabs_right (B2R pi)) in S1 by lra.
    pose proof (u0 Hp) as U. pose proof (eps_u (prec:=prec)) as E2. pose proof (bL Hp HL) as BL. nra.
Qed.
(** Comparisons on finite numbers. *)
Lemma ile_fin (a b : fl) : fin a -> fin b -> ile_ a b = true <-> B2R a <= B2R b.
Proof.
  intros Fa Fb. unfold ile_. rewrite (Bcompare_correct prec emax a b Fa Fb). destruct (Rcompare_spec (B2R a) (B2R b)); split; intros X; try lra; auto; discriminate.
Qed.
Lemma ilt_fin_ (a b : fl) : fin a -> fin b -> ilt a b = true <-> B2R a < B2R b.
Proof.
  intros Fa Fb. unfold ilt. rewrite (Bcompare_correct prec emax a b Fa Fb). destruct (Rcompare_spec (B2R a) (B2R b)); split; intros X; try lra; auto; discriminate.
Qed.
Lemma igt_fin_ (a b : fl) : fin a -> fin b -> igt a b = true <-> B2R b < B2R a.
Proof.
  intros Fa Fb. unfold igt. rewrite (Bcompare_correct prec emax a b Fa Fb). destruct (Rcompare_spec (B2R a) (B2R b)); split; intros X; try lra; auto; discriminate.
Qed.
Lemma one_val : fin (ione : fl) /\ B2R (ione : fl) = 1.
Proof. split; [apply is_finite_Bone|apply Bone_correct]. Qed.
Lemma small_M (M : fl) : fin M -> ile_ (iabs M) ieps = true <-> Rabs (B2R M) <= eps.
Proof.
  intros F. destruct (eps_val Hp (prec:=prec) (emax:=emax)) as (Fe & Ve). rewrite ile_fin; auto; [|unfold iabs; rewrite is_finite_Babs; exact F]. unfold iabs. rewrite B2R_Babs, Ve. tauto.
Qed.
Lemma big_M (M : fl) : (fin M -> eps < Rabs (B2R M)) -> ile_ (iabs M) ieps = false.
Proof.
  intros H. destruct (is_finite M) eqn:F.
  - apply not_true_iff_false. rewrite small_M by exact F. specialize (H eq_refl). lra.
  - destruct (eps_val Hp (prec:=prec) (emax:=emax)) as (Fe & _). destruct M; try discriminate F; destruct (ieps : fl); try discriminate Fe; reflexivity.
Qed.
Lemma branch_ell sn sh (M e : fl) : (fin M -> eps < Rabs (B2R M)) -> fin e -> 0 <= B2R e < 1 -> to_E sn sh M e = Bisect (fun x => isub (ell sn e x) M).
Proof.
  intros HM Fe He. unfold to_E. rewrite (big_M M HM). destruct one_val as (F1 & V1). rewrite (proj2 (ile_fin izero e eq_refl Fe)) by (cbn [B2R izero]; lra). rewrite (proj2 (ilt_fin_ e ione Fe F1)) by lra. reflexivity.
Qed.
Lemma branch_hyp sn sh (M e : fl) : (fin M -> eps < Rabs (B2R M)) -> (fin e /\ 1 < B2R e) \/ e = B754_infinity false -> to_E sn sh M e = Bisect (fun x => isub (hyp sh e x) M).
Proof.
  intros HM He. unfold to_E. rewrite (big_M M HM). destruct one_val as (F1 & V1). assert (X : ilt e ione = false /\ igt e ione = true).
  { destruct He as [(Fe & He)| ->]; [|destruct (ione : fl) as [| | |[]]; try discriminate F1; auto]. split; [apply not_true_iff_false; rewrite ilt_fin_ by auto; lra|apply igt_fin_; auto; lra]. }
  destruct X as (-> & ->). rewrite andb_false_r. reflexivity.
Qed.
Lemma branch_par sn sh (M e : fl) : (fin M -> eps < Rabs (B2R M)) -> fin e -> B2R e = 1 -> to_E sn sh M e = Bisect (parabolic M).
Proof.
  intros HM Fe He. unfold to_E. rewrite (big_M M HM). destruct one_val as (F1 & V1). destruct (eps_val Hp (prec:=prec) (emax:=emax)) as (Fp & Vp).
  replace (ilt e ione) with false by (symmetry; apply not_true_iff_false; rewrite ilt_fin_ by auto; lra). replace (igt e ione) with false by (symmetry; apply not_true_iff_false; rewrite igt_fin_ by auto; lra). rewrite andb_false_r.
  destruct (cr_sub e ione Fe F1) as (C & _). rewrite V1, He in C. replace (1 - 1) with 0 in C by ring. rewrite rne_0, Rabs_R0 in C. destruct C as (F & V); [apply bpow_gt_0|].
  rewrite (proj2 (ilt_fin_ (iabs (isub e ione)) ieps ltac:(unfold iabs; rewrite is_finite_Babs; exact F) Fp)); [reflexivity|]. unfold iabs. rewrite B2R_Babs, V, Vp, Rabs_R0. apply bpow_gt_0.
Qed.
Lemma branch_stop sn sh (M e : fl) : (fin M -> eps < Rabs (B2R M)) -> e = B754_nan \/ negative e -> to_E sn sh M e = Stop.
Proof.
  intros HM He. unfold to_E. rewrite (big_M M HM). destruct one_val as (F1 & V1). destruct (eps_val Hp (prec:=prec) (emax:=emax)) as (Fp & Vp).
  destruct (is_finite e) eqn:Fe.
  - destruct He as [-> |He]; [discriminate|]. unfold negative in He. apply (lt_zero_fin e Fe) in He.
    replace (ile_ izero e) with false by (symmetry; apply not_true_iff_false; rewrite ile_fin by auto; cbn [B2R izero]; lra). replace (igt e ione) with false by (symmetry; apply not_true_iff_false; rewrite igt_fin_ by auto; lra).
    cbn [andb]. replace (ilt (iabs (isub e ione)) ieps) with false; [reflexivity|]. symmetry. apply not_true_iff_false. intros X. destruct (cr_sub e ione Fe F1) as (C1 & C2). rewrite V1 in C1, C2.
    destruct (Rlt_or_le (Rabs (rne (B2R e - 1))) (bpow radix2 emax)) as [Y|Y].
    + destruct (C1 Y) as (F & V). rewrite ilt_fin_ in X by (try exact Fp; unfold iabs; rewrite is_finite_Babs; exact F). unfold iabs in X. rewrite B2R_Babs, V, Vp in X.
      assert (Q : rne (B2R e - 1) <= -1). { replace (-1) with (- (1)) by lra. assert (R1 : rne 1 = 1). { apply rne_of. change 1 with (bpow radix2 0). apply fmt_bp; auto. pose proof (dims (prec:=prec) (emax:=emax)); lia. } rewrite <- R1 at 2. rewrite <- rne_opp. apply rne_le. lra. }
      rewrite Rabs_left in X by lra. assert (eps <= / 2) by (change (/ 2) with (bpow radix2 (-1)); apply bpow_le; lia). lra.
    + rewrite (proj2 (C2 Y)) in X by lra. destruct (ieps : fl); try discriminate Fp; discriminate X.
  - destruct (ione : fl) as [| | |s m x b] eqn:E1; try discriminate F1; [cbn in V1; lra|]. destruct (ieps : fl); try discriminate Fp; destruct e as [|[]| |]; try discriminate Fe; try reflexivity; destruct He as [He|He]; discriminate He.
Qed.
Lemma sub_pos (a M : fl) : fin a -> fin M -> Ibis_Spec.positive (isub a M) -> B2R M < B2R a.
Proof.
  intros Fa FM P1. destruct (Rle_or_lt (B2R a) (B2R M)) as [[X|X]|X]; auto; exfalso.
  - apply (pos_neg _ P1). apply (diff_sign Hp a M Fa FM). lra.
  - destruct (cr_sub a M Fa FM) as (C & _). replace (B2R a - B2R M) with 0 in C by lra. rewrite rne_0, Rabs_R0 in C. destruct C as (C1 & C2); [apply bpow_gt_0|]. unfold Ibis_Spec.positive in P1. apply (gt_zero_fin _ C1) in P1. lra.
Qed.
Lemma sub_neg (a M : fl) : fin a -> fin M -> negative (isub a M) -> B2R a < B2R M.
Proof.
  intros Fa FM P1. destruct (Rle_or_lt (B2R M) (B2R a)) as [[X|X]|X]; auto; exfalso.
  - refine (pos_neg _ _ P1). apply (diff_sign Hp a M Fa FM). lra.
  - destruct (cr_sub a M Fa FM) as (C & _). replace (B2R a - B2R M) with 0 in C by lra. rewrite rne_0, Rabs_R0 in C. destruct C as (C1 & C2); [apply bpow_gt_0|]. unfold negative in P1. apply (lt_zero_fin _ C1) in P1. lra.
Qed.
Lemma no_common (a b M : fl) : fin a -> fin b -> fin M -> B2R a <= B2R M <= B2R b -> ~ same_sign (isub a M) (isub b M).
Proof. intros Fa Fb FM H [(P1 & _)|(_ & P2)]; [apply sub_pos in P1|apply sub_neg in P2]; auto; lra. Qed.
(** A callable that is infinite and positive on positive numbers and NaN at zero: the loop never ends. *)
Lemma loops f (l h : fl) : (2 < prec)%Z -> (forall a b, fin a -> fin b -> 0 < B2R a -> 0 < B2R b -> igt (imul (f a) (f b)) izero = true) -> (forall a b, fin a -> B2R a = 0 -> igt (imul (f a) (f b)) izero = false) ->
  good_end l -> B2R l = 0 -> good_end h -> 0 < B2R h -> ~ ends f l h.
Proof.
  intros P3 Hpos Hz Gl Zl Gh Ph (n & r & R). revert l h Gl Zl Gh Ph R. induction n as [|n IH]; intros l h Gl Zl Gh Ph R.
  - destruct R as (_ & C & _). cbn [b_iter fst snd] in C. apply not_true_iff_false in C. apply C. apply cont_iff; auto. rewrite Zl, Rminus_0_r, (rne_of (B2R h)) by apply B2R_fmt. rewrite Rabs_right by lra.
    assert (E4 : bpow radix2 (1 - prec) <= / 4) by (change (/ 4) with (bpow radix2 (-2)); apply bpow_le; lia). pose proof (bpow_gt_0 radix2 (1 - prec)) as E0. set (y := B2R h * bpow radix2 (1 - prec)).
    assert (Y : 0 <= y <= B2R h / 4) by (unfold y; split; nra). pose proof (rne_near (prec:=prec) (emax:=emax) y 0 (generic_format_0 _ _)) as N. rewrite Rminus_0_l, Rabs_Ropp, (Rabs_right y) in N by lra.
    unfold Rabs in N. destruct (Rcase_abs _); lra.
  - destruct (step_good Hp f l h Gl Gh) as (G1 & G2 & _).
    destruct (mid_val Hp l h Gl Gh) as (Fm & Vm). assert (W : 0 <= B2R (b_mid l h) <= B2R h). { rewrite Vm. rewrite <- Zl at 1. apply rmid_in; auto; try apply B2R_fmt. lra. }
    assert (Inv : B2R (fst (b_step f (l, h))) = 0 /\ 0 < B2R (snd (b_step f (l, h)))).
    { destruct (Rlt_or_le 0 (B2R (b_mid l h))) as [X|X].
      - destruct (step_cases f l h) as [(-> & _)|(_ & E)]; [cbn [fst snd]; auto|]. exfalso. rewrite Hpos in E; auto; [discriminate|apply Gh].
      - destruct (step_cases f l h) as [(_ & E)|(-> & _)]; [|cbn [fst snd]; split; [lra|auto]]. exfalso. rewrite Hz in E; [discriminate|auto|lra]. }
    destruct Inv as (I1 & I2). apply (IH (fst (b_step f (l, h))) (snd (b_step f (l, h)))); auto. destruct R as (R1 & R2 & R3). unfold b_returns. rewrite <- surjective_pairing. split; [|split; [exact R2|exact R3]].
    intros k Hk. apply (R1 (S k)). lia.
Qed.
End P.
