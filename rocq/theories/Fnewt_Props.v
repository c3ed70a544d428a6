(** C91: Newtonian accelerations in floating-point arithmetic. *)
From Verif Require Import Fnewt_Model Fnewt_Spec Kahan_Proofs Fsim_Proofs Fsim_Proofs4 Fchain_Proofs Fchain_Proofs2 Force_Proofs Fnewt_Proofs Fnewt_Proofs2 Fnewt_Proofs3 Fnewt_Proofs4.
From Flocq Require Import Relative Ulp.
From Coq Require Import Lra Lia.
Open Scope R_scope.

Section C91.
Variables (emin prec : Z) (choice : Z -> bool).
Context { prec_gt_0_ : Prec_gt_0 prec }.
Notation rnd := (rnd emin prec choice).
Notation fadd_acc := (fadd_acc emin prec choice).
Notation fdirect := (fdirect emin prec choice).

(** Direct summation: every component of every acceleration is right up to n + 17 roundings of the sum of the magnitudes of the attractions
    (and of what the array held before), for every system whose non-zero masses and coordinate differences are between 2^-E and 2^E, 5 E + 3 below the exponent range. *)
Theorem C91_direct E s acc k a : (0 <= E)%Z -> (emin + prec - 1 <= - (5 * E + 3))%Z -> tame_system E s -> distinct_positions s -> (k < sn s)%nat ->
  fmt emin prec (co a (acc k)) ->
  Rabs (co a (fadd_acc (sm s) (fdirect s) acc k) - (co a (acc k) + true_acc s a k)) <= (w prec ^ (sn s + 17) - 1) * (Rabs (co a (acc k)) + abs_acc s a k).
Proof.
  intros E0 HE T Dp Hk F. pose proof (direct_near emin prec choice E E0 HE s T Dp) as N. pose proof (w1 prec) as W1.
  destruct (calls_err emin prec choice E E0 HE (sm s) 1 k a _ _ N) with (acc := acc) (n := 18%nat) (A := co a (acc k)) (S := Rabs (co a (acc k))) as (_ & B); auto; try lra.
  - unfold true_calls. apply Forall_forall. intros C HC. apply in_map_iff in HC as ([i j] & <- & Hij). apply all_pairs_in in Hij. unfold fc_i, fc_j. cbn [fst snd]. destruct T as (Tm & _). split; apply Tm; lia.
  - rewrite Rminus_diag_eq, Rabs_R0 by auto. apply Rmult_le_pos; [|apply Rabs_pos]. pose proof (Wk (w prec) W1 18). lra.
  - rewrite parts_true, abs_parts_true, concerns_true in B by auto. replace (18 + (sn s - 1))%nat with (sn s + 17)%nat in B by lia. exact B.
Qed.

(** Momentum: the computed accelerations carry no more net force than their errors. *)
Theorem C91_momentum E s a : (0 <= E)%Z -> (emin + prec - 1 <= - (5 * E + 3))%Z -> tame_system E s -> distinct_positions s ->
  Rabs (rsum (fun k => sm s k * co a (fadd_acc (sm s) (fdirect s) (fun _ => vzero) k)) (sn s)) <=
  (w prec ^ (sn s + 17) - 1) * rsum (fun k => Rabs (sm s k) * abs_acc s a k) (sn s).
Proof.
  intros E0 HE T Dp. set (f := fadd_acc (sm s) (fdirect s) (fun _ => vzero)).
  replace (rsum (fun k => sm s k * co a (f k)) (sn s)) with (rsum (fun k => sm s k * (co a (f k) - true_acc s a k)) (sn s)).
  2: { rewrite (rsum_ext _ (fun k => sm s k * co a (f k) + - (1) * (sm s k * true_acc s a k))) by (intros; ring). rewrite rsum_add, rsum_scal, true_momentum. ring. }
  rewrite <- rsum_scal.
  assert (G : forall n, (n <= sn s)%nat -> Rabs (rsum (fun k => sm s k * (co a (f k) - true_acc s a k)) n) <= rsum (fun i => (w prec ^ (sn s + 17) - 1) * (Rabs (sm s i) * abs_acc s a i)) n).
  { induction n as [|n IH]; intros Hn; cbn [rsum]; [rewrite Rabs_R0; lra|]. eapply Rle_trans; [apply Rabs_triang|]. apply Rplus_le_compat; [apply IH; lia|]. rewrite Rabs_mult.
    pose proof (C91_direct E s (fun _ => vzero) n a E0 HE T Dp ltac:(lia)) as B. cbv beta in B. replace (co a vzero) with 0 in B by (destruct a; reflexivity). specialize (B (fmt_0 emin prec)). rewrite Rabs_R0, !Rplus_0_l in B. fold f in B.
    replace ((w prec ^ (sn s + 17) - 1) * (Rabs (sm s n) * abs_acc s a n)) with (Rabs (sm s n) * ((w prec ^ (sn s + 17) - 1) * abs_acc s a n)) by ring.
    apply Rmult_le_compat_l; [apply Rabs_pos|exact B]. }
  apply G. lia.
Qed.

(** Any list of calls (the chain loops make one call per pair, with displacements taken from the chain): what particle [k] gets is right, for the
    displacements that were handed over, up to 14 roundings and one for each call that concerns it. *)
Theorem C91_calls E m calls acc k a : (0 <= E)%Z -> (emin + prec - 1 <= - (5 * E + 3))%Z -> Forall (tame_call E m) calls -> fmt emin prec (co a (acc k)) ->
  Rabs (co a (fadd_acc m calls acc k) - (co a (acc k) + parts m a k calls)) <= (w prec ^ (14 + concerns k calls) - 1) * (Rabs (co a (acc k)) + abs_parts m a k calls).
Proof.
  intros E0 HE T F. pose proof (w1 prec) as W1.
  destruct (calls_err emin prec choice E E0 HE m 0 k a calls calls) with (acc := acc) (n := 14%nat) (A := co a (acc k)) (S := Rabs (co a (acc k))) as (_ & B); auto; try lra.
  - induction T as [|[[d i] j] l (H1 & H2 & H3 & _) HT IH]; constructor; auto. unfold call_near, fc_i, fc_j, fc_dr. cbn [fst snd].
    split; auto. split; auto. split; auto. split; auto. intros x. split; [apply near_refl|apply H3].
  - eapply Forall_impl; [|exact T]. intros [[d i] j] (H1 & H2 & H3 & H4 & H5). split; auto.
  - rewrite Rminus_diag_eq, Rabs_R0 by auto. apply Rmult_le_pos; [|apply Rabs_pos]. pose proof (Wk (w prec) W1 14). lra.
Qed.

(** The chain loops: every member of the chain gets the sum over all other members, once each, computed with the displacement the chain gives for the pair. *)
Theorem C91_chained E s c acc p x : (0 <= E)%Z -> (emin + prec - 1 <= - (5 * E + 3))%Z -> (2 <= sn s)%nat -> index_ok (sn s) (ch_idx c) ->
  (forall i, (i < sn s)%nat -> tame E (sm s i)) ->
  (forall a b, (a < b < sn s)%nat -> chain_disp emin prec choice s c a b <> vzero /\ forall y, tame E (co y (chain_disp emin prec choice s c a b))) ->
  (p < sn s)%nat -> fmt emin prec (co x (acc (ch_idx c p))) ->
  let D := chain_disp emin prec choice s c in
  Rabs (co x (fadd_acc (sm s) (fchained emin prec choice s c) acc (ch_idx c p)) - (co x (acc (ch_idx c p)) + disp_acc (sn s) (sm s) (ch_idx c) D x p)) <=
  (w prec ^ (sn s + 13) - 1) * (Rabs (co x (acc (ch_idx c p))) + abs_disp_acc (sn s) (sm s) (ch_idx c) D x p).
Proof.
  intros E0 HE Hn Hi Hm HT Hp F D. pose proof (chained_err emin prec choice E 0 s c D acc p x E0 HE Hn Hi Hm) as B. replace (sn s + 13 + 4 * 0)%nat with (sn s + 13)%nat in B by lia. apply B; auto.
  intros a b Hab. destruct (HT a b Hab) as (H1 & H2). split; auto. intros y. split; [apply H2|]. apply near_refl.
Qed.

(** If the displacements the chain gives are within e roundings of the differences of the positions, component by component, the accelerations are those of direct summation up to n + 13 + 4 e roundings. *)
Theorem C91_chained_true E e s c acc p x : (0 <= E)%Z -> (emin + prec - 1 <= - (5 * E + 3))%Z -> (2 <= sn s)%nat -> index_ok (sn s) (ch_idx c) ->
  (forall i, (i < sn s)%nat -> tame E (sm s i)) -> distinct_positions s ->
  (forall a b y, (a < b < sn s)%nat -> tame E (co y (chain_disp emin prec choice s c a b)) /\ within prec e (co y (chain_disp emin prec choice s c a b)) (co y (vsub (sp s (ch_idx c b)) (sp s (ch_idx c a))))) ->
  (p < sn s)%nat -> fmt emin prec (co x (acc (ch_idx c p))) ->
  Rabs (co x (fadd_acc (sm s) (fchained emin prec choice s c) acc (ch_idx c p)) - (co x (acc (ch_idx c p)) + true_acc s x (ch_idx c p))) <=
  (w prec ^ (sn s + 13 + 4 * e) - 1) * (Rabs (co x (acc (ch_idx c p))) + abs_acc s x (ch_idx c p)).
Proof.
  intros E0 HE Hn Hi Hm Dp HT Hp F. pose proof (chained_err emin prec choice E e s c (fun a b => vsub (sp s (ch_idx c b)) (sp s (ch_idx c a))) acc p x E0 HE Hn Hi Hm) as B.
  destruct (disp_true s c x p Hi Hp) as (D1 & D2). rewrite D1, D2 in B. apply B; auto.
  intros a b Hab. split; [|intros y; apply HT; auto]. intros Z. apply vsub_eq_zero in Z. apply (Dp (ch_idx c b) (ch_idx c a)); auto; try (apply (idx_lt _ _ Hi); lia).
  intros Q. apply (idx_inj _ _ Hi) in Q; lia.
Qed.

(** Nothing overflows on the way: the sum of squares, the distance, its cube, the factor and the product stay below 2^(5 E + 3), and the distance is positive. *)
Theorem C91_range E m d i j a : (0 <= E)%Z -> (emin + prec - 1 <= - (5 * E + 3))%Z -> tame_call E m (d, i, j) ->
  let r := fnorm emin prec choice d in let q := frr3 emin prec choice r in let big := bpow radix2 (5 * E + 3) in
  0 < r /\ Rabs (fadd emin prec choice (fadd emin prec choice (fmul emin prec choice (vx d) (vx d)) (fmul emin prec choice (vy d) (vy d))) (fmul emin prec choice (vz d) (vz d))) <= big /\
  Rabs r <= big /\ Rabs (fcube emin prec choice r) <= big /\ Rabs q <= big /\ Rabs (fmul emin prec choice (co a d) q) <= big /\ Rabs (fterm emin prec choice (co a d) q (m j)) <= big.
Proof.
  intros E0 HE (H1 & H2 & H3 & H4 & H5) r q big. pose proof (w1 prec) as W1. assert (N : forall x, near (w prec) 0 (co x d) (co x d)) by (intros; apply near_refl).
  assert (Up : forall lo hi x, (hi <= 5 * E + 3)%Z -> zr lo hi x -> Rabs x <= big).
  { intros lo hi x Hh [->|X]; [rewrite Rabs_R0; apply bpow_ge_0|]. pose proof (bpow_le radix2 _ _ Hh). unfold big. lra. }
  destruct (norm_near emin prec choice E E0 HE 0 d d N H3 H2) as ((Zs & _) & (Zr & Pr) & _).
  destruct (rr3_near emin prec choice E E0 HE 0 d d N H3 H2) as (Z3' & Zq & _). fold r in Zr, Pr, Z3', Zq. fold q in Zq.
  destruct (term_near emin prec choice E E0 HE 0 d d (m j) a N H3 H2 H5) as (Zt & _). fold r q in Zt.
  split; auto. split; [eapply Up; [|exact Zs]; lia|]. split; [eapply Up; [|exact Zr]; lia|]. split; [eapply Up; [|exact Z3']; lia|]. split; [eapply Up; [|exact Zq]; lia|]. split; [|eapply Up; [|exact Zt]; lia].
  apply (Up (- (4 * E + 3))%Z (4 * E)%Z); [lia|]. pose proof (emin_le emin prec E HE). apply zr_rnd; auto; try lia. eapply zr_le; [| |exact (zr_mul _ _ _ _ _ _ (H3 a) Zq)]; lia.
Qed.

(** Two particles of equal mass get exactly opposite accelerations, whatever their positions. *)
Theorem C91_equal_pair s a : sn s = 2%nat -> sm s 0%nat = sm s 1%nat ->
  co a (fadd_acc (sm s) (fdirect s) (fun _ => vzero) 1%nat) = - co a (fadd_acc (sm s) (fdirect s) (fun _ => vzero) 0%nat).
Proof.
  intros Hn Hm. unfold Fnewt_Model.fdirect. rewrite Hn. change (all_pairs 2) with [(0, 1)%nat]. unfold Fnewt_Model.fadd_acc. cbn [map fold_left fst snd].
  rewrite !(fforce_at emin prec choice) by (unfold fc_i, fc_j; cbn [fst snd]; lia). unfold fc_i, fc_j. cbn [fst snd Nat.eqb]. rewrite Hm.
  replace (co a vzero) with 0 by (destruct a; reflexivity). set (t := fterm _ _ _ _ _ _). assert (Ft : fmt emin prec t) by (apply rnd_fmt; auto).
  unfold fsub, fadd. rewrite Rplus_0_l. replace (0 - t) with (- t) by ring. rewrite !rnd_id; auto. apply fmt_opp; auto.
Qed.

(** The net force is not always zero: three unit masses on a line, the third 2^(prec+12) away. *)
Theorem C91_momentum_refuted : (emin + prec - 1 <= - (5 * (prec + 12) + 3))%Z ->
  let s := mkS 3 (fun _ => 1) (fun i => match i with 0%nat => vzero | 1%nat => mkV 1 0 0 | _ => mkV (bpow radix2 (prec + 12)) 0 0 end) (fun _ => vzero) in
  tame_system (prec + 12) s /\ distinct_positions s /\
  rsum (fun k => sm s k * co X (fadd_acc (sm s) (fdirect s) (fun _ => vzero) k)) (sn s) <> 0.
Proof. intros H. exact (net_force_nonzero emin prec choice H). Qed.
End C91.
Print Assumptions C91_direct.
Print Assumptions C91_momentum.
Print Assumptions C91_calls.
Print Assumptions C91_chained.
Print Assumptions C91_chained_true.
Print Assumptions C91_range.
Print Assumptions C91_equal_pair.

Print Assumptions C91_momentum_refuted.

(** The hypotheses are met: binary64, masses 1, 2 and 3 at the corners of a triangle with sides 3, 4 and 5, E = 200. *)
Definition tri : sys := mkS 3 (fun i => match i with 0%nat => 1 | 1%nat => 2 | _ => 3 end) (fun i => match i with 0%nat => vzero | 1%nat => mkV 3 0 0 | _ => mkV 3 4 0 end) (fun _ => vzero).
Example tri_exponents : (0 <= 200)%Z /\ (-1074 + 53 - 1 <= - (5 * 200 + 3))%Z. Proof. lia. Qed.
Lemma tame200 x : x = 0 \/ 1 <= Rabs x <= 4 -> tame 200 x.
Proof.
  intros [->|H]; [left; auto|right]. change (Z.opp 200) with (-200)%Z. assert (bpow radix2 (-200) <= 1) by (change 1 with (bpow radix2 0); apply bpow_le; lia).
  assert (4 <= bpow radix2 200) by (change 4 with (bpow radix2 2); apply bpow_le; lia). lra.
Qed.
Example tri_ok : tame_system 200 tri /\ distinct_positions tri.
Proof.
  split; [split|].
  - intros i _. apply tame200. right. destruct i as [|[|i]]; cbn [tri sm]; rewrite (Rabs_pos_eq) by lra; lra.
  - intros i j a Hi Hj Hne. cbn [tri sn sp] in *. apply tame200.
    assert (Hi' : i = 0%nat \/ i = 1%nat \/ i = 2%nat) by lia. assert (Hj' : j = 0%nat \/ j = 1%nat \/ j = 2%nat) by lia.
    destruct Hi' as [-> | [-> | -> ]], Hj' as [-> | [-> | -> ]]; try congruence; destruct a; unfold vsub; cbn [co vx vy vz vzero]; try (left; ring); right; unfold Rabs; destruct (Rcase_abs _); lra.
  - intros i j Hi Hj Hne. cbn [tri sn sp] in *.
    assert (Hi' : i = 0%nat \/ i = 1%nat \/ i = 2%nat) by lia. assert (Hj' : j = 0%nat \/ j = 1%nat \/ j = 2%nat) by lia.
    destruct Hi' as [-> | [-> | -> ]], Hj' as [-> | [-> | -> ]]; try congruence; intros Q; pose proof (f_equal vx Q) as Q1; pose proof (f_equal vy Q) as Q2; cbn [vx vy vzero] in Q1, Q2; lra.
Qed.
(** ... and the acceleration being bounded is not zero: particle 1 is pulled towards particle 0 with 1/9. *)
Example tri_value : true_acc tri X 1 = - (1 / 9).
Proof.
  unfold true_acc. cbn [tri sn rsum Nat.eqb]. unfold gpull. cbn [tri sm sp]. unfold norm, norm2, dot, vsub. cbn [co vx vy vz vzero].
  replace (sqrt ((0 - 3) * (0 - 3) + (0 - 0) * (0 - 0) + (0 - 0) * (0 - 0))) with 3.
  2: { replace ((0 - 3) * (0 - 3) + (0 - 0) * (0 - 0) + (0 - 0) * (0 - 0)) with (3 * 3) by ring. rewrite sqrt_square; lra. }
  replace (sqrt ((3 - 3) * (3 - 3) + (4 - 0) * (4 - 0) + (0 - 0) * (0 - 0))) with 4.
  2: { replace ((3 - 3) * (3 - 3) + (4 - 0) * (4 - 0) + (0 - 0) * (0 - 0)) with (4 * 4) by ring. rewrite sqrt_square; lra. }
  field.
Qed.
(** The second refutation's exponents are binary64's. *)
Example refuted_exponents : (-1074 + 53 - 1 <= - (5 * (53 + 12) + 3))%Z. Proof. lia. Qed.
(** A chain for the same three particles, 1 - 0 - 2: the displacements are exact. *)
Definition tri_chain : chn := mkCh (fun i => match i with 0%nat => 1%nat | 1%nat => 0%nat | i => i end) (fun i => match i with 0%nat => mkV (-3) 0 0 | _ => mkV 3 4 0 end) (fun _ => vzero).
Example tri_chain_ok (choice : Z -> bool) : index_ok 3 (ch_idx tri_chain) /\
  forall a b y, (a < b < sn tri)%nat -> tame 200 (co y (chain_disp (-1074) 53 choice tri tri_chain a b)) /\
     within 53 0 (co y (chain_disp (-1074) 53 choice tri tri_chain a b)) (co y (vsub (sp tri (ch_idx tri_chain b)) (sp tri (ch_idx tri_chain a)))).
Proof.
  assert (P53 : Prec_gt_0 53) by (red; lia).
  split; [unfold index_ok; cbn; apply Coq.Sorting.Permutation.perm_swap|].
  intros a b y H. cbn [tri sn] in H.
  assert (Hab : (a = 0 /\ b = 1 \/ a = 1 /\ b = 2 \/ a = 0 /\ b = 2)%nat) by lia.
  assert (F4 : fmt (-1074) 53 4) by (change 4 with (bpow radix2 2); apply (bk (-1074) 53); lia).
  assert (V : chain_disp (-1074) 53 choice tri tri_chain a b = vsub (sp tri (ch_idx tri_chain b)) (sp tri (ch_idx tri_chain a))).
  { destruct Hab as [(-> & ->)|[(-> & ->)|(-> & ->)]]; unfold chain_disp; cbn [Nat.eqb Nat.add tri_chain ch_idx ch_p tri sp]; unfold vsub; cbn [vx vy vz vzero].
    - f_equal; lra.
    - f_equal; lra.
    - unfold fvadd, fadd. cbn [vx vy vz]. replace (-3 + 3) with 0 by lra. rewrite !Rplus_0_l. rewrite (Fsim_Proofs.rnd_0 (-1074) 53 choice), (rnd_id (-1074) 53 choice 4 F4). f_equal; lra. }
  rewrite V. split; [|apply near_refl].
  apply tame200. destruct Hab as [(-> & ->)|[(-> & ->)|(-> & ->)]], y; unfold vsub; cbn [co tri_chain ch_idx tri sp vx vy vz vzero]; try (left; lra); right; unfold Rabs; destruct (Rcase_abs _); lra.
Qed.
