From Verif Require Import Fnewt_Model Fnewt_Spec Kahan_Proofs Fsim_Proofs Fsim_Proofs4 Fchain_Proofs Fchain_Proofs2 Force_Proofs Fnewt_Proofs Fnewt_Proofs2.
From Flocq Require Import Relative Ulp.
From Coq Require Import Lra Lia.
Open Scope R_scope.

(** * The net force is not zero in general *)
Section Refuted.
Variables (emin prec : Z) (choice : Z -> bool).
Context { prec_gt_0_ : Prec_gt_0 prec }.
Notation rnd := (rnd emin prec choice).
Let k : Z := (prec + 12)%Z.
(** Three unit masses on a line, two at distance one, the third far away. *)
Definition far_third : sys := mkS 3 (fun _ => 1) (fun i => match i with 0%nat => vzero | 1%nat => mkV 1 0 0 | _ => mkV (bpow radix2 k) 0 0 end) (fun _ => vzero).
Hypothesis Hemin : (emin + prec - 1 <= - (5 * k + 3))%Z.

Lemma bk e : (emin <= e)%Z -> fmt emin prec (bpow radix2 e).
Proof. intros H. unfold fmt. apply generic_format_bpow. unfold FLT_exp. red in prec_gt_0_. lia. Qed.
Lemma rb e : (emin <= e)%Z -> rnd (bpow radix2 e) = bpow radix2 e. Proof. intros. apply rnd_id. apply bk; auto. Qed.
Lemma line_norm e : (- k <= e <= k)%Z -> frr3 emin prec choice (fnorm emin prec choice (mkV (bpow radix2 e) 0 0)) = bpow radix2 (- 3 * e).
Proof.
  intros He. assert (R0 : rnd 0 = 0) by (apply Fsim_Proofs.rnd_0; auto). unfold k in *. red in prec_gt_0_.
  unfold fnorm, fadd, fmul. cbn [vx vy vz]. rewrite !Rmult_0_l, R0, !Rplus_0_r, <- bpow_plus. rewrite (rb (e + e)) by lia. rewrite (rb (e + e)) by lia. rewrite (rb (e + e)) by lia.
  rewrite bpow_plus, sqrt_square by (apply bpow_ge_0). rewrite rb by lia.
  unfold frr3, fcube, fmul. rewrite <- bpow_plus, rb, <- bpow_plus, rb by lia. unfold Rdiv. rewrite Rmult_1_l, <- bpow_opp, rb by lia. f_equal. ring.
Qed.

Lemma net_force_nonzero : tame_system k far_third /\ distinct_positions far_third /\
  rsum (fun i => sm far_third i * co X (fadd_acc emin prec choice (sm far_third) (fdirect emin prec choice far_third) (fun _ => vzero) i)) (sn far_third) <> 0.
Proof.
  assert (K0 : (13 <= k)%Z) by (unfold k; red in prec_gt_0_; lia). assert (Pg : (0 < prec)%Z) by exact prec_gt_0_.
  assert (Ek : (emin <= - (5 * k + 3))%Z) by lia.
  set (b := bpow radix2 k). assert (B1 : 4 <= b) by (change 4 with (bpow radix2 2); apply bpow_le; lia).
  assert (Bi : bpow radix2 (- k) <= 1) by (change 1 with (bpow radix2 0); apply bpow_le; lia).
  assert (Fb : fmt emin prec b) by (apply bk; lia). assert (F1 : fmt emin prec 1) by (change 1 with (bpow radix2 0); apply bk; lia).
  assert (T : forall x, x = 0 \/ 1 <= Rabs x <= b -> tame k x) by (intros x [->|H]; [left; auto|right; fold b; lra]).
  assert (TS : tame_system k far_third).
  { split; [intros i _; apply T; right; cbn [far_third sm]; rewrite Rabs_R1; lra|].
    intros i j a Hi Hj Hne. cbn [far_third sn sp] in *. apply T. fold b.
    assert (Hi' : i = 0%nat \/ i = 1%nat \/ i = 2%nat) by lia. assert (Hj' : j = 0%nat \/ j = 1%nat \/ j = 2%nat) by lia.
    destruct Hi' as [-> | [-> | -> ]], Hj' as [-> | [-> | -> ]]; try congruence; destruct a; unfold vsub; cbn [co vx vy vz vzero]; try (left; ring); right;
      unfold Rabs; destruct (Rcase_abs _); lra. }
  assert (DP : distinct_positions far_third).
  { intros i j Hi Hj Hne. cbn [far_third sn sp] in *. fold b.
    assert (Hi' : i = 0%nat \/ i = 1%nat \/ i = 2%nat) by lia. assert (Hj' : j = 0%nat \/ j = 1%nat \/ j = 2%nat) by lia.
    destruct Hi' as [-> | [-> | -> ]], Hj' as [-> | [-> | -> ]]; try congruence; intros Q; apply (f_equal vx) in Q; cbn [vx vzero] in Q; lra. }
  split; auto. split; auto.
  unfold fdirect. cbn [far_third sn]. change (all_pairs 3) with [(0, 1); (0, 2); (1, 2)]%nat. unfold fadd_acc. cbn [map fst snd fold_left sp far_third]. fold b.
  set (d01 := fvsub emin prec choice (mkV 1 0 0) vzero). set (d02 := fvsub emin prec choice (mkV b 0 0) vzero). set (d12 := fvsub emin prec choice (mkV b 0 0) (mkV 1 0 0)).
  assert (R0 : rnd 0 = 0) by (apply Fsim_Proofs.rnd_0; auto).
  assert (E01 : d01 = mkV (bpow radix2 0) 0 0) by (unfold d01, fvsub, fsub; cbn [vx vy vz vzero]; rewrite !Rminus_0_r, R0, (rnd_id _ _ _ 1 F1); reflexivity).
  assert (E02 : d02 = mkV (bpow radix2 k) 0 0) by (unfold d02, fvsub, fsub; cbn [vx vy vz vzero]; rewrite !Rminus_0_r, R0, (rnd_id _ _ _ b Fb); reflexivity).
  (* the three attractions along x *)
  set (t01 := fterm emin prec choice (co X d01) (frr3 emin prec choice (fnorm emin prec choice d01)) 1).
  set (t02 := fterm emin prec choice (co X d02) (frr3 emin prec choice (fnorm emin prec choice d02)) 1).
  set (t12 := fterm emin prec choice (co X d12) (frr3 emin prec choice (fnorm emin prec choice d12)) 1).
  assert (V01 : t01 = 1).
  { unfold t01. rewrite E01, line_norm by lia. unfold fterm, fmul. cbn [co vx]. rewrite <- bpow_plus. rewrite Rmult_1_r. cbn [Z.mul Z.add bpow]. rewrite (rnd_id _ _ _ 1 F1). apply rnd_id; auto. }
  assert (V02 : t02 = bpow radix2 (- 2 * k)).
  { unfold t02. rewrite E02, line_norm by lia. unfold fterm, fmul. cbn [co vx]. rewrite <- bpow_plus. rewrite Rmult_1_r. replace (k + - 3 * k)%Z with (- 2 * k)%Z by ring. rewrite rb by lia. apply rb. lia. }
  assert (V12 : 0 <= t12 <= bpow radix2 (20 - 2 * k)).
  { assert (N : forall x, near (w prec) 1 (co x d12) (co x (vsub (mkV b 0 0) (mkV 1 0 0))) /\ zr (- k) k (co x d12)).
    { intros x. unfold d12. rewrite co_fvsub, co_vsub. assert (Tx : zr (- k) k (co x (mkV b 0 0) - co x (mkV 1 0 0))).
      { destruct TS as (_ & TP). pose proof (TP 1%nat 2%nat x) as Q. cbn [far_third sn sp] in Q. fold b in Q. rewrite co_vsub in Q. apply Q; lia. }
      destruct (step emin prec choice k Hemin 0 (- k) k _ _ ltac:(lia) ltac:(lia) Tx (near_refl _ _)) as (G1 & G2). split; auto. }
    assert (HD : vsub (mkV b 0 0) (mkV 1 0 0) <> vzero) by (intros Q; apply (f_equal vx) in Q; cbn [vsub vx vzero] in Q; lra).
    assert (Z1 : zr (- k) k 1) by (apply T; right; rewrite Rabs_R1; lra).
    destruct (term_near emin prec choice k ltac:(lia) Hemin 1 d12 _ 1 X (fun x => proj1 (N x)) (fun x => proj2 (N x)) HD Z1) as (_ & Nt). fold t12 in Nt.
    assert (Nm : norm (vsub (mkV b 0 0) (mkV 1 0 0)) = b - 1).
    { unfold norm, norm2, dot, vsub. cbn [vx vy vz]. replace ((b - 1) * (b - 1) + (0 - 0) * (0 - 0) + (0 - 0) * (0 - 0)) with ((b - 1) * (b - 1)) by ring. apply sqrt_square. lra. }
    rewrite Nm in Nt. unfold vsub in Nt. cbn [co vx] in Nt. replace ((b - 1) * 1 / ((b - 1) * (b - 1) * (b - 1))) with (/ ((b - 1) * (b - 1))) in Nt by (field; lra).
    assert (P2 : 0 < (b - 1) * (b - 1)) by (apply Rmult_lt_0_compat; lra). pose proof (Rinv_0_lt_compat _ P2) as P3.
    destruct Nt as (q & -> & Q). pose proof (iWk_pos (w prec) (w1 prec) (4 * 1 + 14)) as Q1.
    split; [apply Rmult_le_pos; lra|].
    assert (W2 : w prec <= 2). { unfold w. rewrite <- u_uro. pose proof (u_lt1 prec). apply Rmult_le_reg_r with (1 - u prec); [lra|]. rewrite Rinv_l by lra. lra. }
    assert (Q2 : q <= 2 ^ 18).
    { eapply Rle_trans; [apply Q|]. change (4 * 1 + 14)%nat with 18%nat. apply pow_incr. pose proof (w1 prec). lra. }
    (* (b-1)^2 >= b^2/2 *)
    assert (Hb : / ((b - 1) * (b - 1)) <= bpow radix2 (2 - 2 * k)).
    { replace (2 - 2 * k)%Z with (- ((k - 1) + (k - 1)))%Z by ring. rewrite bpow_opp, bpow_plus. apply Rinv_le_contravar.
      - apply Rmult_lt_0_compat; apply bpow_gt_0.
      - assert (bpow radix2 (k - 1) <= b - 1). { assert (b = 2 * bpow radix2 (k - 1)) by (unfold b; replace k with (1 + (k - 1))%Z at 1 by ring; rewrite bpow_plus; reflexivity). lra. }
        pose proof (bpow_gt_0 radix2 (k - 1)). apply Rmult_le_compat; lra. }
    replace (20 - 2 * k)%Z with (18 + (2 - 2 * k))%Z by ring. rewrite bpow_plus. rewrite Rmult_comm. change (bpow radix2 18) with (IZR 262144). replace (2 ^ 18) with (IZR 262144) in Q2 by ring.
    apply Rmult_le_compat; lra. }
  assert (Small : forall x, 0 <= x <= bpow radix2 (20 - 2 * k) -> forall ch, Kahan_Model.rnd emin prec ch (1 + - x) = 1 /\ Kahan_Model.rnd emin prec ch (1 + x) = 1).
  { intros x Hx ch. assert (U : 4 * Rabs x < ulp radix2 (FLT_exp emin prec) 1).
    { rewrite Rabs_pos_eq by lra. change 1 with (bpow radix2 0). rewrite ulp_bpow. apply Rle_lt_trans with (bpow radix2 2 * bpow radix2 (20 - 2 * k)); [change (bpow radix2 2) with 4; lra|].
      rewrite <- bpow_plus. apply bpow_lt. unfold FLT_exp, k. lia. }
    split; apply absorbed; auto; try lra. rewrite Rabs_Ropp. exact U. }
  assert (S02 : 0 <= t02 <= bpow radix2 (20 - 2 * k)) by (rewrite V02; split; [apply bpow_ge_0|apply bpow_le; lia]).
  cbn [rsum sm]. rewrite !(fforce_at emin prec choice) by (unfold fc_i, fc_j; cbn [fst snd]; lia). unfold fc_i, fc_j, fc_dr. cbn [fst snd Nat.eqb sm]. fold t01 t02 t12.
  cbn [co vx vzero]. unfold fadd, fsub. cbn [far_third sm]. unfold co in t01, t02, t12. fold t01 t02 t12. rewrite V01, !Rplus_0_l. rewrite (rnd_id _ _ _ 1 F1).
  rewrite (proj2 (Small t02 S02 choice)). replace (0 - 1) with (- (1)) by ring. rewrite (rnd_id _ _ _ (- (1))) by (apply fmt_opp; auto).
  replace (- (1) + t12) with (- (1 + - t12)) by ring. rewrite rnd_opp by auto. rewrite (proj1 (Small t12 V12 _)).
  assert (A2 : rnd (rnd (0 - t02) - t12) < 0).
  { rewrite V02. replace (0 - bpow radix2 (- 2 * k)) with (- bpow radix2 (- 2 * k)) by ring. assert (F2 : fmt emin prec (- bpow radix2 (- 2 * k))) by (apply fmt_opp, bk; lia).
    rewrite (rnd_id _ _ _ _ F2). apply Rle_lt_trans with (- bpow radix2 (- 2 * k)).
    - rewrite <- (rnd_id emin prec choice _ F2) at 2. apply rnd_le; auto. lra.
    - pose proof (bpow_gt_0 radix2 (- 2 * k)). lra. }
  rewrite !Rmult_1_l. lra.
Qed.
End Refuted.
