From Verif Require Import Ibis_Model Ibis_Spec Ibis_Proofs Ibis_Proofs2 Ibis_Proofs3 Ieee_Proofs Ieee_Proofs2 Ieee_Proofs3 Ieee_Props2 Kahan_Proofs Islice_Proofs Islice_Proofs2.
From Coq Require Import Lra Lia Bool Arith.
Open Scope R_scope.
Section P.
Context {prec emax : Z} { prec_gt_0_ : Prec_gt_0 prec } { prec_lt_emax_ : Prec_lt_emax prec emax }.
Hypothesis Hp : (1 < prec)%Z.
Notation fl := (binary_float prec emax).
Notation rne := (rne prec emax).
Notation L := (least prec emax).
Notation fmt := (Kahan_Model.fmt L prec).
Notation fin a := (is_finite a = true).
Implicit Types f : fl -> fl.

Lemma ends_by f (l h : fl) : good_end l -> good_end h -> (forall n, near_zero (fst (b_iter f n (l, h))) -> near_zero (snd (b_iter f n (l, h))) -> False) -> ends f l h.
Proof. intros Gl Gh N. destruct (term_or Hp f l h Gl Gh) as [E|(k & S1 & S2 & S3 & _)]; auto. exfalso. exact (N k S2 S3). Qed.

(** Rounding to zero. *)
Lemma rne_pos x : 0 < rne x -> bpow radix2 (L - 1) <= x.
Proof.
  intros H. destruct (Rle_or_lt (bpow radix2 (L - 1)) x) as [G|G]; auto. exfalso.
  assert (X0 : 0 < x). { destruct (Rlt_or_le 0 x) as [Q|Q]; auto. pose proof (rne_le (prec:=prec) (emax:=emax) _ _ Q) as W. rewrite rne_0 in W. lra. }
  pose proof (rne_near (prec:=prec) (emax:=emax) x 0 (generic_format_0 _ _)) as N. rewrite Rminus_0_l, Rabs_Ropp, (Rabs_right x) in N by lra.
  assert (rne x <= 2 * x) by (unfold Rabs in N; destruct (Rcase_abs _); lra).
  pose proof (fmt_gap (prec:=prec) (emax:=emax) 0 (rne x) (generic_format_0 _ _) (rne_fmt x) H) as Gp.
  replace L with (L - 1 + 1)%Z in Gp by lia. rewrite bpow_plus in Gp. change (bpow radix2 1) with 2 in Gp. lra.
Qed.
(** The identity on a non-negative interval: the upper end never becomes tiny. *)
Lemma id_step (l h : fl) : (L + 2 * prec <= -2)%Z -> good_end l -> good_end h -> 0 <= B2R l <= B2R h -> ~ near_zero h ->
  0 <= B2R (fst (b_step (fun x => x) (l, h))) <= B2R (snd (b_step (fun x => x) (l, h))) /\ ~ near_zero (snd (b_step (fun x => x) (l, h))).
Proof.
  intros HL Gl Gh H N. destruct (mid_val Hp l h Gl Gh) as (F & V). pose proof (rmid_in _ _ (B2R_fmt l) (B2R_fmt h) (proj2 H)) as W. rewrite <- V in W.
  destruct (step_cases (fun x : fl => x) l h) as [(-> & C)|(-> & C)]; cbn [fst snd]; [split; [lra|]|split; [lra|exact N]].
  intros Nz. unfold near_zero, least_normal in Nz. rewrite Rabs_right in Nz by lra.
  destruct (cr_mul (b_mid l h) h F (proj1 Gh)) as (C1 & C2).
  assert (P : bpow radix2 (L - 1) <= B2R (b_mid l h) * B2R h).
  { destruct (Rlt_or_le (Rabs (rne (B2R (b_mid l h) * B2R h))) (bpow radix2 emax)) as [X|X].
    - destruct (C1 X) as (F2 & V2). apply gt_zero_fin in C; auto. rewrite V2 in C. apply rne_pos; auto.
    - assert (Q : 0 < rne (B2R (b_mid l h) * B2R h)). { pose proof (bpow_gt_0 radix2 emax). assert (0 <= B2R (b_mid l h) * B2R h) by (apply Rmult_le_pos; lra). pose proof (rne_nonneg (prec:=prec) (emax:=emax) (B2R (b_mid l h) * B2R h) H1). rewrite Rabs_right in X; lra. }
      apply rne_pos; auto. }
  assert (Hh : bpow radix2 (- prec) <= B2R h).
  { destruct (Rle_or_lt (bpow radix2 (- prec)) (B2R h)) as [Q|Q]; auto. exfalso. assert (B2R (b_mid l h) * B2R h < bpow radix2 (L - 1)); [|lra].
    replace (L - 1)%Z with (L + prec - 1 + - prec)%Z by lia. rewrite bpow_plus. pose proof (bpow_gt_0 radix2 (L + prec - 1)) as A0. pose proof (bpow_gt_0 radix2 (- prec)) as A1.
    eapply Rle_lt_trans; [apply Rmult_le_compat_r; [lra|exact Nz]|]. apply Rmult_lt_compat_l; auto. }
  assert (M0 : rmid (prec:=prec) (emax:=emax) 0 (bpow radix2 (- prec)) <= B2R (b_mid l h)).
  { rewrite V. unfold rmid. apply rne_le. apply Rmult_le_compat_l; [lra|]. apply rne_le. lra. }
  assert (E0 : rmid (prec:=prec) (emax:=emax) 0 (bpow radix2 (- prec)) = bpow radix2 (- prec - 1)).
  { unfold rmid. rewrite Rplus_0_r. rewrite (rne_of (bpow radix2 (- prec))) by (apply fmt_bp; lia). replace (/ 2 * bpow radix2 (- prec)) with (bpow radix2 (- prec - 1)).
    - apply rne_of, fmt_bp; lia.
    - unfold Zminus. rewrite bpow_plus. change (bpow radix2 (- (1))) with (/ 2). ring. }
  rewrite E0 in M0. assert (bpow radix2 (L + prec - 1) < bpow radix2 (- prec - 1)) by (apply bpow_lt; lia). lra.
Qed.
Lemma id_ends (l h : fl) : (L + 2 * prec <= -2)%Z -> good_end l -> good_end h -> 0 <= B2R l <= B2R h -> ~ near_zero h -> ends (fun x => x) l h.
Proof.
  intros HL Gl Gh H N. apply ends_by; auto. intros n _. enough (X : 0 <= B2R (fst (b_iter (fun x => x) n (l, h))) <= B2R (snd (b_iter (fun x => x) n (l, h))) /\ ~ near_zero (snd (b_iter (fun x => x) n (l, h)))) by tauto.
  induction n as [|n IH]; [split; auto|]. rewrite iter_S. destruct (iter_good Hp (fun x => x) n l h Gl Gh) as (A & B & _). destruct (b_iter (fun x => x) n (l, h)) as (a, b). cbn [fst snd] in *. destruct IH. apply id_step; auto.
Qed.

(** The function of the parabolic orbit. *)
Lemma three_val : fin (binary_normalize prec emax prec_gt_0_ prec_lt_emax_ mode_NE 3 0 false) /\ B2R (binary_normalize prec emax prec_gt_0_ prec_lt_emax_ mode_NE 3 0 false) = 3.
Proof.
  assert ((3 <= 2 ^ prec)%Z). { replace 3%Z with (2 ^ 2 - 1)%Z by reflexivity. pose proof (Z.pow_le_mono_r 2 2 prec ltac:(lia) ltac:(lia)). lia. }
  destruct (@int_rne prec emax _ _ 3) as (E & Lt); [rewrite Z.abs_eq; lia|].
  pose proof (binary_normalize_correct prec emax _ _ mode_NE 3 0 false) as C. cbv zeta in C.
  replace (F2R (Float radix2 3 0)) with (IZR 3) in C by (unfold F2R; cbn; ring). rewrite (rne_eq (IZR 3)) in C.
  rewrite Rlt_bool_true in C by exact Lt. destruct C as (C1 & C2 & _). split; [exact C2|]. rewrite C1. exact E.
Qed.
(** x + x*x*x/3 of a tiny x is tiny. *)
Lemma cubic_small (x : fl) : (L + 2 * prec <= -2)%Z -> fin x -> near_zero x ->
  exists t : fl, parabolic (izero : fl) x = isub t izero /\ (forall M, parabolic M x = isub t M) /\ fin t /\ Rabs (B2R t) <= bpow radix2 (- prec).
Proof.
  intros HL Fx Nx. pose proof (dims (prec:=prec) (emax:=emax)) as D. destruct three_val as (F3 & V3). set (three := binary_normalize prec emax prec_gt_0_ prec_lt_emax_ mode_NE 3 0 false) in *.
  exists (iadd x (idiv (imul (imul x x) x) three)). split; [reflexivity|]. split; [reflexivity|].
  assert (B1 : Rabs (B2R x) <= bpow radix2 (- prec - 1)). { eapply Rle_trans; [exact Nx|]. apply bpow_le. lia. }
  assert (B1' : Rabs (B2R x) <= 1). { eapply Rle_trans; [exact B1|]. change 1 with (bpow radix2 0). apply bpow_le. lia. }
  pose proof (Rabs_pos (B2R x)) as P1.
  assert (Q : forall y : R, Rabs y <= bpow radix2 (- prec - 1) -> Rabs (rne y) <= bpow radix2 (- prec - 1)) by (intros y Hy; apply (rne_bpow y); [lia|exact Hy]).
  assert (Top : bpow radix2 (- prec - 1) < bpow radix2 emax) by (apply bpow_lt; lia).
  assert (S1 : fin (imul x x) /\ Rabs (B2R (imul x x)) <= bpow radix2 (- prec - 1)).
  { destruct (cr_mul x x Fx Fx) as (C & _). assert (X : Rabs (B2R x * B2R x) <= bpow radix2 (- prec - 1)) by (rewrite Rabs_mult; nra). apply Q in X. destruct C as (C1 & C2); [lra|]. split; auto. rewrite C2. exact X. }
  destruct S1 as (F1 & A1). pose proof (Rabs_pos (B2R (imul x x))) as P2.
  assert (S2 : fin (imul (imul x x) x) /\ Rabs (B2R (imul (imul x x) x)) <= bpow radix2 (- prec - 1)).
  { destruct (cr_mul (imul x x) x F1 Fx) as (C & _). assert (X : Rabs (B2R (imul x x) * B2R x) <= bpow radix2 (- prec - 1)) by (rewrite Rabs_mult; nra). apply Q in X. destruct C as (C1 & C2); [lra|]. split; auto. rewrite C2. exact X. }
  destruct S2 as (F2 & A2). pose proof (Rabs_pos (B2R (imul (imul x x) x))) as P3.
  assert (S3 : fin (idiv (imul (imul x x) x) three) /\ Rabs (B2R (idiv (imul (imul x x) x) three)) <= bpow radix2 (- prec - 1)).
  { assert (N3 : B2R three <> 0) by (rewrite V3; lra). destruct (cr_div (imul (imul x x) x) three F2 F3 N3) as (C & _). rewrite V3 in C.
    assert (X : Rabs (B2R (imul (imul x x) x) / 3) <= bpow radix2 (- prec - 1)) by (unfold Rdiv; rewrite Rabs_mult, (Rabs_right (/ 3)) by lra; lra). apply Q in X. destruct C as (C1 & C2); [lra|]. split; auto. rewrite C2. exact X. }
  destruct S3 as (F4 & A4). destruct (bounded_add x (idiv (imul (imul x x) x) three) (- prec - 1)) as (G1 & G2); auto; [lia|]. split; auto. replace (- prec)%Z with (- prec - 1 + 1)%Z by lia. exact G2.
Qed.
Lemma parabolic_sign (M x : fl) : (L + 2 * prec <= -2)%Z -> fin M -> bpow radix2 (1 - prec) < Rabs (B2R M) -> fin x -> near_zero x ->
  (0 < B2R M -> negative (parabolic M x)) /\ (B2R M < 0 -> positive (parabolic M x)).
Proof.
  intros HL FM HM Fx Nx. destruct (cubic_small x HL Fx Nx) as (t & _ & E & Ft & Bt). rewrite E. pose proof (dims (prec:=prec) (emax:=emax)) as D.
  assert (Bm : bpow radix2 (- prec) < Rabs (B2R M)). { eapply Rlt_trans; [|exact HM]. apply bpow_lt. lia. }
  destruct (cr_sub t M Ft FM) as (C1 & C2). apply Rabs_le_inv in Bt.
  assert (Fg : fmt (bpow radix2 L)) by (apply fmt_bp; lia). pose proof (bpow_gt_0 radix2 L) as B0.
  split; intros S1.
  - rewrite Rabs_right in Bm by lra. destruct (Rlt_or_le (Rabs (rne (B2R t - B2R M))) (bpow radix2 emax)) as [X|X].
    + destruct (C1 X) as (F & V). apply lt_zero_fin; auto. rewrite V. pose proof (fmt_gap (B2R t) (B2R M) (B2R_fmt t) (B2R_fmt M) ltac:(lra)) as G.
      pose proof (rne_le (prec:=prec) (emax:=emax) (B2R t - B2R M) (- bpow radix2 L) ltac:(lra)) as W. rewrite rne_opp, (rne_of _ Fg) in W. lra.
    + rewrite (proj2 (C2 X)) by lra. reflexivity.
  - rewrite Rabs_left in Bm by lra. destruct (Rlt_or_le (Rabs (rne (B2R t - B2R M))) (bpow radix2 emax)) as [X|X].
    + destruct (C1 X) as (F & V). apply gt_zero_fin; auto. rewrite V. pose proof (fmt_gap (B2R M) (B2R t) (B2R_fmt M) (B2R_fmt t) ltac:(lra)) as G.
      pose proof (rne_le (prec:=prec) (emax:=emax) (bpow radix2 L) (B2R t - B2R M) ltac:(lra)) as W. rewrite (rne_of _ Fg) in W. lra.
    + rewrite (proj1 (C2 X)) by lra. reflexivity.
Qed.
(** Numbers of the format of size 2^-prec and more are multiples of 2^(-2 prec). *)
Lemma grid_of x : (L <= - 2 * prec)%Z -> fmt x -> bpow radix2 (- prec) <= Rabs x -> exists m, x = IZR m * bpow radix2 (- 2 * prec).
Proof.
  intros HL F H. pose proof (dims (prec:=prec) (emax:=emax)) as D. apply FLT_format_generic in F; auto. destruct F as [[m e] E M X]. cbn [Fnum Fexp] in *.
  assert (- 2 * prec <= e)%Z.
  { apply Z.lt_succ_r. apply (lt_bpow radix2). rewrite E in H. unfold F2R in H. cbn [Fnum Fexp] in H. rewrite Rabs_mult, <- abs_IZR, (Rabs_right (bpow radix2 e)) in H by (apply Rle_ge, bpow_ge_0).
    assert (Mr : IZR (Z.abs m) < bpow radix2 prec) by (rewrite <- IZR_Zpower by lia; apply IZR_lt; exact M).
    pose proof (bpow_gt_0 radix2 e) as Be. assert (Hx : bpow radix2 (- prec) < bpow radix2 prec * bpow radix2 e) by nra. rewrite <- bpow_plus in Hx. apply lt_bpow in Hx. apply bpow_lt. lia. }
  exists (m * 2 ^ (e - - 2 * prec))%Z. rewrite E. unfold F2R. cbn [Fnum Fexp]. change (2 ^ (e - - 2 * prec))%Z with (Zpower radix2 (e - - 2 * prec)). rewrite mult_IZR, IZR_Zpower by lia. rewrite Rmult_assoc, <- bpow_plus. do 2 f_equal. lia.
Qed.
Lemma diff_size (M t : fl) : (L <= - 4 * prec)%Z -> fin M -> bpow radix2 (1 - prec) < Rabs (B2R M) -> sizeable (- 2 * prec) (isub t M).
Proof.
  intros HL FM HM F NZ. pose proof (dims (prec:=prec) (emax:=emax)) as D. destruct (isub_finite _ _ F) as (Ft & _ & V). rewrite V in *.
  assert (Ne : B2R t <> B2R M). { intros E. apply NZ. rewrite E. replace (B2R M - B2R M) with 0 by ring. apply rne_0. }
  assert (Fb : fmt (bpow radix2 (- 2 * prec))) by (apply fmt_bp; lia). pose proof (bpow_gt_0 radix2 (- 2 * prec)) as B0.
  assert (Big : bpow radix2 (- 2 * prec) <= Rabs (B2R t - B2R M)).
  { assert (T2 : bpow radix2 (1 - prec) = 2 * bpow radix2 (- prec)). { replace (1 - prec)%Z with (- prec + 1)%Z by lia. rewrite bpow_plus. change (bpow radix2 1) with 2. ring. }
    destruct (Rle_or_lt (bpow radix2 (- prec)) (Rabs (B2R t))) as [G|G].
    - destruct (grid_of (B2R t) ltac:(lia) (B2R_fmt t) G) as (a & Ea). pose proof (bpow_gt_0 radix2 (- prec)). destruct (grid_of (B2R M) ltac:(lia) (B2R_fmt M) ltac:(lra)) as (b & Eb).
      rewrite Ea, Eb in *. replace (IZR a * bpow radix2 (- 2 * prec) - IZR b * bpow radix2 (- 2 * prec)) with (IZR (a - b) * bpow radix2 (- 2 * prec)) by (rewrite minus_IZR; ring).
      rewrite Rabs_mult, <- abs_IZR, (Rabs_right (bpow radix2 _)) by lra. assert (a <> b) by (intros ->; apply Ne; reflexivity). assert (1 <= IZR (Z.abs (a - b))) by (apply IZR_le; lia). nra.
    - pose proof (Rabs_triang_inv (B2R M) (B2R t)) as T. rewrite Rabs_minus_sym in T. assert (bpow radix2 (- 2 * prec) <= bpow radix2 (- prec)) by (apply bpow_le; lia). lra. }
  unfold Ieee_Spec.rne, rnd. apply abs_round_ge_generic; auto with typeclass_instances.
Qed.

Lemma parabolic_size (M x : fl) : (L <= - 4 * prec)%Z -> fin M -> bpow radix2 (1 - prec) < Rabs (B2R M) -> sizeable (- 2 * prec) (parabolic M x).
Proof. intros. unfold parabolic. apply diff_size; auto. Qed.
(** The difference has the sign of the real difference. *)
Lemma diff_sign (t M : fl) : fin t -> fin M -> (0 < B2R t - B2R M -> positive (isub t M)) /\ (B2R t - B2R M < 0 -> negative (isub t M)).
Proof.
  intros Ft FM. destruct (cr_sub t M Ft FM) as (C1 & C2). pose proof (dims (prec:=prec) (emax:=emax)) as D. assert (Fg : fmt (bpow radix2 L)) by (apply fmt_bp; lia). pose proof (bpow_gt_0 radix2 L) as B0. split; intros S1.
  - destruct (Rlt_or_le (Rabs (rne (B2R t - B2R M))) (bpow radix2 emax)) as [X|X].
    + destruct (C1 X) as (F & V). apply gt_zero_fin; auto. rewrite V. pose proof (fmt_gap (B2R M) (B2R t) (B2R_fmt M) (B2R_fmt t) ltac:(lra)) as G.
      pose proof (rne_le (prec:=prec) (emax:=emax) (bpow radix2 L) (B2R t - B2R M) ltac:(lra)) as W. rewrite (rne_of _ Fg) in W. lra.
    + rewrite (proj1 (C2 X)) by lra. reflexivity.
  - destruct (Rlt_or_le (Rabs (rne (B2R t - B2R M))) (bpow radix2 emax)) as [X|X].
    + destruct (C1 X) as (F & V). apply lt_zero_fin; auto. rewrite V. pose proof (fmt_gap (B2R t) (B2R M) (B2R_fmt t) (B2R_fmt M) ltac:(lra)) as G.
      pose proof (rne_le (prec:=prec) (emax:=emax) (B2R t - B2R M) (- bpow radix2 L) ltac:(lra)) as W. rewrite rne_opp, (rne_of _ Fg) in W. lra.
    + rewrite (proj2 (C2 X)) by lra. reflexivity.
Qed.
(** A sign change at zero itself, from zero. *)
Lemma one_signs : positive (ione : fl) /\ negative (ineg (ione : fl)) /\ sizeable 0 (ione : fl) /\ sizeable 0 (ineg (ione : fl)).
Proof.
  assert (F1 : fin (ione : fl)) by apply is_finite_Bone. assert (V1 : B2R (ione : fl) = 1) by apply Bone_correct.
  assert (F2 : fin (ineg (ione : fl))) by (unfold ineg; rewrite is_finite_Bopp; auto). assert (V2 : B2R (ineg (ione : fl)) = -1) by (unfold ineg; rewrite B2R_Bopp; fold (ione : fl); rewrite V1; lra).
  split; [apply gt_zero_fin; auto; lra|]. split; [apply lt_zero_fin; auto; lra|]. split; intros _ _; cbn [bpow]; [rewrite V1, Rabs_right|rewrite V2, Rabs_left]; lra.
Qed.
Lemma ends_inv f (l h : fl) : b_continue l h = true -> ends f l h -> ends f (fst (b_step f (l, h))) (snd (b_step f (l, h))).
Proof.
  intros C (n & r & R1 & R2 & R3). destruct n as [|n]; [cbn [b_iter fst snd] in R2; congruence|]. exists n, r. unfold b_returns. rewrite <- surjective_pairing. split; [|split; [exact R2|exact R3]].
  intros k Hk. apply (R1 (S k)). lia.
Qed.
Lemma sign_loops (l h : fl) : (2 < prec)%Z -> good_end l -> B2R l = 0 -> good_end h -> 0 < B2R h -> ~ ends sign_at_zero l h.
Proof.
  intros P3 Gl Zl Gh Ph (n & r & R). revert l h Gl Zl Gh Ph R. induction n as [|n IH]; intros l h Gl Zl Gh Ph R.
  - destruct R as (_ & C & _). cbn [b_iter fst snd] in C. apply not_true_iff_false in C. apply C. apply cont_iff; auto. rewrite Zl, Rminus_0_r, (rne_of (B2R h)) by apply B2R_fmt. rewrite Rabs_right by lra.
    assert (E4 : bpow radix2 (1 - prec) <= / 4) by (change (/ 4) with (bpow radix2 (-2)); apply bpow_le; lia). pose proof (bpow_gt_0 radix2 (1 - prec)) as E0. set (y := B2R h * bpow radix2 (1 - prec)).
    assert (Y : 0 <= y <= B2R h / 4) by (unfold y; split; nra). pose proof (rne_near (prec:=prec) (emax:=emax) y 0 (generic_format_0 _ _)) as N. rewrite Rminus_0_l, Rabs_Ropp, (Rabs_right y) in N by lra.
    unfold Rabs in N. destruct (Rcase_abs _); lra.
  - assert (C : b_continue l h = true) by (destruct R as (R1 & _); apply (R1 O); lia). destruct (step_good Hp sign_at_zero l h Gl Gh) as (G1 & G2 & _).
    destruct (mid_val Hp l h Gl Gh) as (Fm & Vm). assert (W : 0 <= B2R (b_mid l h) <= B2R h). { rewrite Vm. rewrite <- Zl at 1. apply rmid_in; try apply B2R_fmt. lra. }
    destruct one_signs as (O1 & O2 & O3 & O4).
    assert (Sh : sign_at_zero h = ione) by (unfold sign_at_zero; rewrite (proj2 (gt_zero_fin h (proj1 Gh)) Ph); reflexivity).
    assert (Inv : B2R (fst (b_step sign_at_zero (l, h))) = 0 /\ 0 < B2R (snd (b_step sign_at_zero (l, h)))).
    { destruct (Rlt_or_le 0 (B2R (b_mid l h))) as [X|X].
      - assert (Sm : sign_at_zero (b_mid l h) = ione) by (unfold sign_at_zero; rewrite (proj2 (gt_zero_fin _ Fm) X); reflexivity).
        destruct (step_cases sign_at_zero l h) as [(-> & _)|(_ & E)]; [cbn [fst snd]; auto|]. exfalso. rewrite Sm, Sh in E.
        rewrite (same_mul Hp ione ione 0) in E; [discriminate|pose proof (dims (prec:=prec) (emax:=emax)); lia|auto|auto|left; auto].
      - assert (Sm : sign_at_zero (b_mid l h) = ineg ione).
        { unfold sign_at_zero. destruct (igt (b_mid l h) izero) eqn:E; auto. apply (proj1 (gt_zero_fin _ Fm)) in E. lra. }
        destruct (step_cases sign_at_zero l h) as [(_ & E)|(-> & _)]; [|cbn [fst snd]; split; [lra|auto]]. exfalso. rewrite Sm, Sh in E. apply mul_same in E.
        destruct E as [(E & _)|(_ & E)]; eapply pos_neg; eauto. }
    destruct Inv as (I1 & I2). apply (IH (fst (b_step sign_at_zero (l, h))) (snd (b_step sign_at_zero (l, h)))); auto. destruct R as (R1 & R2 & R3). unfold b_returns. rewrite <- surjective_pairing. split; [|split; [exact R2|exact R3]].
    intros k Hk. apply (R1 (S k)). lia.
Qed.

(** root_newton. *)
Lemma loop_spec f k : forall j x, exists n, (j <= n <= j + k)%nat /\ n_loop f k (iterate f j) x = (if Nat.eqb n j then (if Nat.eqb k 0 then x else iterate f n) else iterate f n) /\
  (k <> 0%nat -> (j < n)%nat) /\ (forall i, (j <= i)%nat -> (S i < n)%nat -> ~ settled f i) /\ ((n < j + k)%nat -> settled f (Nat.pred n)).
Proof.
  induction k as [|k IH]; intros j x.
  - exists j. rewrite Nat.eqb_refl. cbn [n_loop Nat.eqb]. split; [lia|]. split; [reflexivity|]. split; [congruence|]. split; [intros; lia|lia].
  - cbn [n_loop]. change (isub (iterate f j) (f (iterate f j))) with (iterate f (S j)).
    assert (T : settled f j <-> match Bcompare (iabs (isub (iterate f (S j)) (iterate f j))) ieps with Some Lt | Some Eq => True | _ => False end).
    { unfold settled, leq, ilt, ieq. destruct (Bcompare _ ieps) as [[]|]; split; intros H; auto; try destruct H; auto; try discriminate. }
    assert (Go : settled f j -> exists n, (j <= n <= j + S k)%nat /\ iterate f (S j) = (if Nat.eqb n j then (if Nat.eqb (S k) 0 then x else iterate f n) else iterate f n) /\
       (S k <> 0%nat -> (j < n)%nat) /\ (forall i, (j <= i)%nat -> (S i < n)%nat -> ~ settled f i) /\ ((n < j + S k)%nat -> settled f (Nat.pred n))).
    { intros St. exists (S j). split; [lia|]. split; [destruct (Nat.eqb_spec (S j) j); [lia|reflexivity]|]. split; [lia|]. split; [intros; lia|intros _; exact St]. }
    assert (Keep : ~ settled f j -> exists n, (j <= n <= j + S k)%nat /\ n_loop f k (iterate f (S j)) (iterate f (S j)) = (if Nat.eqb n j then (if Nat.eqb (S k) 0 then x else iterate f n) else iterate f n) /\
       (S k <> 0%nat -> (j < n)%nat) /\ (forall i, (j <= i)%nat -> (S i < n)%nat -> ~ settled f i) /\ ((n < j + S k)%nat -> settled f (Nat.pred n))).
    { intros NS. destruct (IH (S j) (iterate f (S j))) as (n & A & B & C1 & D & E). exists n. split; [lia|]. split.
      - rewrite B. destruct (Nat.eqb_spec n j); [lia|]. destruct (Nat.eqb_spec n (S j)) as [->|]; [destruct (Nat.eqb k 0); reflexivity|reflexivity].
      - split; [lia|]. split; [intros i Hi Hn; destruct (Nat.eq_dec i j) as [->|Ni]; [exact NS|apply D; lia]|intros Hn; apply E; lia]. }
    destruct (Bcompare (iabs (isub (iterate f (S j)) (iterate f j))) ieps) as [[]|]; [apply Go|apply Go|apply Keep|apply Keep]; tauto.
Qed.
End P.
