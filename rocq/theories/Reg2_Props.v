(** C56: the LogH drift-kick-drift leapfrog follows the exact two-body orbit. *)
From Verif Require Import Vec Force_Model Force_Spec Force_Proofs Diag_Spec Diag_Proofs System_Model System_Spec System_Proofs Reg_Spec Reg_Proofs Reg_Props.
From Coq Require Import List Lia Lra Reals.
Import ListNotations.
Open Scope R_scope.

Lemma two_T s : two_bodies s -> Tkin s = / 2 * mass_of s 0 * norm2 (vel_of s 0) + / 2 * mass_of s 1 * norm2 (vel_of s 1).
Proof. intros (m0 & m1 & E & _). unfold Tkin, kinetic_sum, mass_of, vel_of. rewrite E. simpl. ring. Qed.
Lemma two_U s : two_bodies s -> Upot s = mass_of s 0 * mass_of s 1 / norm (rel_pos s).
Proof. intros (m0 & m1 & E & _). unfold Upot, potential_sum, mass_of, rel_pos, pos_of. rewrite E. simpl. ring. Qed.
Lemma two_apart s : two_bodies s -> (apart s <-> rel_pos s <> vzero).
Proof.
  intros (m0 & m1 & E & _). unfold apart, Force_Spec.distinct_positions, rel_pos, pos_of. rewrite E. simpl. split; intros H.
  - intros Q. apply (H 0%nat 1%nat); try lia. apply vsub_eq_zero; auto.
  - intros i j Hi Hj N Q. apply H. assert (i = 0 /\ j = 1 \/ i = 1 /\ j = 0)%nat as [(-> & ->)|(-> & ->)] by lia; rewrite Q; vring.
Qed.
Lemma two_masses s : two_bodies s -> 0 < mass_of s 0 /\ 0 < mass_of s 1 /\ npart s = 2%nat /\ length (s_p s) = npart s /\ length (s_v s) = npart s.
Proof. intros (m0 & m1 & E & A & B & C & D). unfold mass_of, npart. rewrite E. simpl. auto. Qed.
Lemma two_momentum s : two_bodies s -> momentum s = vadd (vscal (mass_of s 0) (vel_of s 0)) (vscal (mass_of s 1) (vel_of s 1)).
Proof. intros (m0 & m1 & E & _). unfold momentum, npart, mass_of, vel_of. rewrite E. simpl. vring. Qed.
Lemma two_angular s : two_bodies s -> angular s = vadd (vscal (mass_of s 0) (cross (pos_of s 0) (vel_of s 0))) (vscal (mass_of s 1) (cross (pos_of s 1) (vel_of s 1))).
Proof. intros (m0 & m1 & E & _). unfold angular, npart, mass_of, vel_of, pos_of. rewrite E. simpl. vring. Qed.
Lemma two_newton s : two_bodies s -> let n := norm (rel_pos s) in
  of_list (newton_acc (s_m s) (s_p s)) 0 = vscal (- (mass_of s 1 / (n * n * n))) (rel_pos s) /\
  of_list (newton_acc (s_m s) (s_p s)) 1 = vscal (mass_of s 0 / (n * n * n)) (rel_pos s).
Proof.
  intros (m0 & m1 & E & _) n. unfold of_list. rewrite !(newton_nth _ _ []) by (rewrite E; simpl; lia). unfold newt.
  rewrite !add_acc_spec by apply direct_calls_ne. unfold n, rel_pos, pos_of, mass_of. rewrite E.
  unfold direct_calls, all_pairs. simpl. unfold contrib. cbn [true_call c_i c_j c_dr c_dv Nat.eqb]. rewrite !newton_pair_eq. simpl.
  replace (vsub (nth 1 (s_p s) vzero) (nth 0 (s_p s) vzero)) with (vneg (vsub (nth 0 (s_p s) vzero) (nth 1 (s_p s) vzero))) by vring.
  rewrite norm_neg. set (d := vsub _ _). set (q := norm d * norm d * norm d). unfold Rdiv. generalize (/ q). intros z. clearbody d. clear q E.
  split; destruct d; vring.
Qed.
Lemma rkick_len r s h : length (s_v s) = npart s -> length (s_v (rkick newton_only r s h)) = npart s.
Proof.
  intros H. unfold rkick. destruct (vel_phy r s h) as [dt sc]. simpl. unfold advance. rewrite map_length, combine_length, newton_len, H. unfold npart. lia.
Qed.
(** Kinetic energy = centre of mass + reduced mass. *)
Lemma koenig m0 m1 a b : m0 + m1 <> 0 -> / 2 * m0 * norm2 a + / 2 * m1 * norm2 b =
  / 2 / (m0 + m1) * norm2 (vadd (vscal m0 a) (vscal m1 b)) + m0 * m1 / (m0 + m1) / 2 * norm2 (vsub a b).
Proof. intros H. destruct a, b. vunf. field. auto. Qed.
Lemma two_T_rel s : two_bodies s -> let m0 := mass_of s 0 in let m1 := mass_of s 1 in
  Tkin s = / 2 / (m0 + m1) * norm2 (momentum s) + m0 * m1 / (m0 + m1) / 2 * norm2 (rel_vel s).
Proof. intros H. cbv zeta. destruct (two_masses s H) as (A & B & _). rewrite two_T, two_momentum by auto. apply koenig. lra. Qed.
Lemma two_angular_rel s : two_bodies s -> forall Q, Q = vadd (vscal (mass_of s 0) (pos_of s 0)) (vscal (mass_of s 1) (pos_of s 1)) ->
  angular s = vadd (vscal (/ (mass_of s 0 + mass_of s 1)) (cross Q (momentum s))) (vscal (mass_of s 0 * mass_of s 1 / (mass_of s 0 + mass_of s 1)) (cross (rel_pos s) (rel_vel s))).
Proof.
  intros H Q ->. destruct (two_masses s H) as (A & B & _). rewrite two_angular, two_momentum by auto. unfold rel_pos, rel_vel.
  revert A B. generalize (mass_of s 0), (mass_of s 1), (pos_of s 0), (pos_of s 1), (vel_of s 0), (vel_of s 1). intros m0 m1 p q v w A B.
  destruct p, q, v, w. unfold vscal, vadd, vsub, cross; simpl. f_equal; field; lra.
Qed.
Lemma norm_scal k a : norm (vscal k a) = Rabs k * norm a.
Proof.
  unfold norm. replace (norm2 (vscal k a)) with (Rsqr k * norm2 a) by (unfold Rsqr; destruct a; vunf; ring).
  rewrite sqrt_mult; [|apply Rle_0_sqr|apply norm2_nonneg]. rewrite sqrt_Rsqr_abs. reflexivity.
Qed.
Lemma norm_eq a b : norm2 a = norm2 b -> norm a = norm b.
Proof. unfold norm. intros ->. auto. Qed.
Lemma norm2_nz a : a <> vzero -> norm2 a <> 0.
Proof. intros H E. apply H, norm2_zero; auto. Qed.

Definition dkd (s : st) (h : R) : st := integrate (rdrift LogH) (rkick newton_only LogH) leapfrog_dkd s h.
Definition half_drift (s : st) (h : R) : st := rdrift LogH s (0.5 * h).
Definition after_kick (s : st) (h : R) : st := rkick newton_only LogH (half_drift s h) (1 * h).

(** One step, any step size: the energy, momentum, angular momentum and Runge-Lenz vector (hence the orbit) are
    exactly those before the step, and the state is again consistent, so that steps can be chained. *)
Theorem C56_step s h : two_bodies s -> consistent s -> apart s -> apart (half_drift s h) ->
  (0 < s_be s \/ 0 < Tkin (after_kick s h) + s_be s) ->
  same_orbit s (dkd s h) /\ two_bodies (dkd s h) /\ consistent (dkd s h) /\ apart (dkd s h) /\ s_be (dkd s h) = s_be s /\ s_m (dkd s h) = s_m s.
Proof.
  intros TB CO AP AP1 BD.
  destruct (two_masses s TB) as (P0 & P1 & N2 & Lp & Lv). set (m0 := mass_of s 0) in *. set (m1 := mass_of s 1) in *.
  assert (RP : 0 < norm (rel_pos s)) by (apply norm_pos, two_apart; auto).
  assert (U0 : Upot s = m0 * m1 / norm (rel_pos s)) by (apply two_U; auto).
  assert (UP : 0 < Upot s). { rewrite U0. apply Rdiv_lt_0_compat; nra. }
  unfold consistent in CO. set (w0 := Tkin s + s_be s). assert (W0 : w0 = Upot s) by (unfold w0; lra).
  (* first half drift *)
  destruct (C54_drift LogH s (0.5 * h) Lp Lv) as (d0 & D0 & T1 & Q1 & V1 & Wa & O1 & B1 & M1 & LP1); [fold w0; lra|].
  fold (half_drift s h) in T1, Q1, V1, Wa, O1, B1, M1, LP1. fold w0 in D0. set (s1 := half_drift s h) in *.
  assert (TB1 : two_bodies s1). { destruct TB as (a & b & E & Pa & Pb & La & Lb). exists a, b. rewrite M1, LP1, V1. auto 10. }
  assert (VE1 : forall i, vel_of s1 i = vel_of s i) by (intros; unfold vel_of; rewrite V1; auto).
  assert (ME1 : forall i, mass_of s1 i = mass_of s i) by (intros; unfold mass_of; rewrite M1; auto).
  assert (R1 : rel_pos s1 = vadd (rel_pos s) (vscal d0 (rel_vel s))).
  { unfold rel_pos, rel_vel. rewrite !Q1. generalize (pos_of s 0), (pos_of s 1), (vel_of s 0), (vel_of s 1). intros. vring. }
  assert (RP1 : rel_pos s1 <> vzero) by (apply two_apart; auto). assert (N1 : 0 < norm (rel_pos s1)) by (apply norm_pos; auto).
  assert (U1 : Upot s1 = m0 * m1 / norm (rel_pos s1)) by (rewrite two_U by auto; rewrite !ME1; auto).
  (* kick *)
  assert (SN : sized newton_only). { intros m p v Hp Hv. cbn. rewrite newton_len. auto. }
  destruct (C54_kick newton_only LogH s1 (1 * h) SN eq_refl) as (d1 & D1 & V2 & T2 & Q2 & M2 & O2 & B2).
  { apply two_masses; auto. } { apply two_masses; auto. } { rewrite U1. apply Rgt_not_eq, Rdiv_lt_0_compat; nra. }
  change (rkick newton_only LogH s1 (1 * h)) with (after_kick s h) in V2, T2, Q2, M2, O2, B2. set (s2 := after_kick s h) in *. cbn [newton_only I_newt I_ind] in V2, B2.
  assert (LV2 : length (s_v s2) = 2%nat).
  { destruct (two_masses s1 TB1) as (_ & _ & E2 & _ & E3). change s2 with (rkick newton_only LogH s1 (1 * h)). rewrite rkick_len by auto. congruence. }
  assert (TB2 : two_bodies s2). { destruct TB1 as (a & b & E & Pa & Pb & La & Lb). exists a, b. rewrite M2, Q2, LV2. auto 10. }
  assert (PE2 : forall i, pos_of s2 i = pos_of s1 i) by (intros; unfold pos_of; rewrite Q2; auto).
  assert (ME2 : forall i, mass_of s2 i = mass_of s i) by (intros; rewrite <- ME1; unfold mass_of; rewrite M2; auto).
  assert (RE2 : rel_pos s2 = rel_pos s1) by (unfold rel_pos; rewrite !PE2; auto).
  assert (BE2 : s_be s2 = s_be s).
  { rewrite B2, B1. rewrite (rsum_ext _ (fun _ => 0)); [rewrite rsum_zero; ring|]. intros i _.
    generalize (vscal (/ 2) (vadd (vel_of s1 i) (vel_of s2 i))). intros x. destruct x. vunf. ring. }
  destruct (two_newton s1 TB1) as (G0 & G1). rewrite !ME1 in G0, G1. fold m0 m1 in G0, G1.
  assert (N2' : npart s1 = 2%nat) by (apply two_masses; auto).
  pose proof (V2 0%nat) as V20. pose proof (V2 1%nat) as V21. rewrite N2' in V20, V21. specialize (V20 ltac:(lia)). specialize (V21 ltac:(lia)). clear V2.
  rewrite G0, VE1 in V20. rewrite G1, VE1 in V21.
  set (n1 := norm (rel_pos s1)) in *. set (mu := m0 * m1 / (m0 + m1)). set (k := h / mu).
  assert (MU : 0 < mu) by (unfold mu; apply Rdiv_lt_0_compat; nra).
  assert (NN : n1 * n1 = norm2 (rel_pos s1)) by apply norm_sq.
  assert (D1' : d1 = h * n1 / (m0 * m1)).
  { rewrite U1 in D1. apply (Rmult_eq_reg_r (m0 * m1 / n1)); [|apply Rgt_not_eq, Rdiv_lt_0_compat; nra]. rewrite D1. field. repeat split; nra. }
  assert (RV2 : rel_vel s2 = vsub (rel_vel s) (vscal (k / norm2 (rel_pos s1)) (rel_pos s1))).
  { unfold rel_vel at 1. rewrite V20, V21, <- NN. unfold rel_vel.
    assert (E : k / (n1 * n1) = d1 * (m1 / (n1 * n1 * n1)) + d1 * (m0 / (n1 * n1 * n1))) by (rewrite D1'; unfold k, mu; field; repeat split; nra).
    rewrite E.
    replace (vscal d1 (vadd (vscal (- (m1 / (n1 * n1 * n1))) (rel_pos s1)) vzero)) with (vscal (- (d1 * (m1 / (n1 * n1 * n1)))) (rel_pos s1)) by (generalize (rel_pos s1); intros z; generalize (m1 / (n1 * n1 * n1)); intros; destruct z; vring).
    replace (vscal d1 (vadd (vscal (m0 / (n1 * n1 * n1)) (rel_pos s1)) vzero)) with (vscal (d1 * (m0 / (n1 * n1 * n1))) (rel_pos s1)) by (generalize (rel_pos s1); intros z; generalize (m0 / (n1 * n1 * n1)); intros; destruct z; vring).
    generalize (d1 * (m1 / (n1 * n1 * n1))) as a, (d1 * (m0 / (n1 * n1 * n1))) as b, (rel_pos s1), (vel_of s 0), (vel_of s 1). intros. vring. }
  assert (MO2 : momentum s2 = momentum s).
  { rewrite !two_momentum by auto. rewrite !ME2, V20, V21. fold m0 m1. generalize (/ (n1 * n1 * n1)) as z. unfold Rdiv.
    generalize (rel_pos s1), (vel_of s 0), (vel_of s 1). intros a b c z. destruct a, b, c. vring. }
  set (w1 := Tkin s2 + s_be s).
  assert (HW : w1 = w0 + mu / 2 * (norm2 (rel_vel s2) - norm2 (rel_vel s))).
  { unfold w1, w0. rewrite (two_T_rel s2), (two_T_rel s) by auto. rewrite MO2, !ME2. fold m0 m1 mu. ring. }
  assert (W1 : 0 < w1).
  { destruct BD as [BD|BD]; [|exact BD]. unfold w1. assert (0 <= Tkin s2); [|lra]. rewrite two_T by auto. rewrite !ME2. fold m0 m1.
    pose proof (norm2_nonneg (vel_of s2 0)). pose proof (norm2_nonneg (vel_of s2 1)). nra. }
  (* second half drift *)
  destruct (C54_drift LogH s2 (0.5 * h)) as (d2 & D2 & T3 & Q3 & V3 & Wc & O3 & B3 & M3 & LP3);
    [apply two_masses; auto|apply two_masses; auto|rewrite BE2; fold w1; lra|].
  assert (DK : dkd s h = rdrift LogH s2 (0.5 * h)) by reflexivity. rewrite <- DK in *. set (s3 := dkd s h) in *. clearbody s3. rewrite BE2 in D2. fold w1 in D2.
  assert (TB3 : two_bodies s3). { destruct TB2 as (a & b & E & Pa & Pb & La & Lb). exists a, b. rewrite M3, LP3, V3. auto 10. }
  assert (VE3 : forall i, vel_of s3 i = vel_of s2 i) by (intros; unfold vel_of; rewrite V3; auto).
  assert (ME3 : forall i, mass_of s3 i = mass_of s i) by (intros; rewrite <- ME2; unfold mass_of; rewrite M3; auto).
  assert (R3 : rel_pos s3 = vadd (rel_pos s1) (vscal d2 (rel_vel s2))).
  { rewrite <- RE2. unfold rel_pos, rel_vel. rewrite !Q3. generalize (pos_of s2 0), (pos_of s2 1), (vel_of s2 0), (vel_of s2 1). intros. vring. }
  assert (RV3 : rel_vel s3 = rel_vel s2) by (unfold rel_vel; rewrite !VE3; auto).
  assert (MO3 : momentum s3 = momentum s2) by (rewrite !two_momentum by auto; rewrite !VE3, !ME3, !ME2; auto).
  assert (T3E : Tkin s3 = Tkin s2) by (rewrite !two_T by auto; rewrite !VE3, !ME3, !ME2; auto).
  (* scaled positions *)
  assert (MK : mu * k = h) by (unfold k; field; lra).
  assert (X0 : vsub (vscal w0 (rel_pos s1)) (vscal (mu * k / 2) (rel_vel s)) = vscal w0 (rel_pos s)).
  { rewrite R1, MK. replace (h / 2) with (d0 * w0) by lra. generalize (rel_pos s), (rel_vel s). intros. vring. }
  assert (X1 : vadd (vscal w1 (rel_pos s1)) (vscal (mu * k / 2) (rel_vel s2)) = vscal w1 (rel_pos s3)).
  { rewrite R3, MK. replace (h / 2) with (d2 * w1) by lra. generalize (rel_pos s1), (rel_vel s2). intros. vring. }
  assert (HR : norm2 (rel_pos s1) <> 0) by (apply norm2_nz; auto).
  rewrite RV2 in HW.
  pose proof (core_energy (rel_pos s1) (rel_vel s) w0 w1 mu k HR HW) as CE.
  pose proof (core_lrl (rel_pos s1) (rel_vel s) w0 w1 mu k HR HW) as CL.
  rewrite <- RV2 in CE, CL. rewrite X0, X1 in CE, CL.
  assert (SCALE : w1 * norm (rel_pos s3) = m0 * m1).
  { apply norm_eq in CE. rewrite !norm_scal in CE. rewrite (Rabs_pos_eq w1), (Rabs_pos_eq w0) in CE by lra. rewrite CE, W0, U0. field. lra. }
  assert (N3 : 0 < norm (rel_pos s3)). { pose proof (norm_nonneg (rel_pos s3)). destruct H; auto. exfalso. rewrite <- H in SCALE. nra. }
  assert (U3 : Upot s3 = w1). { rewrite two_U by auto. rewrite !ME3. fold m0 m1. rewrite <- SCALE. field. lra. }
  assert (BE3 : s_be s3 = s_be s) by congruence.
  assert (EN : Tkin s3 - Upot s3 = Tkin s - Upot s) by (rewrite U3, T3E; unfold w1; lra).
  assert (LL : cross (rel_pos s3) (rel_vel s3) = cross (rel_pos s) (rel_vel s)).
  { rewrite RV3, R3. transitivity (cross (rel_pos s1) (rel_vel s2)); [generalize (rel_pos s1), (rel_vel s2); intros; vring|].
    rewrite RV2. transitivity (cross (rel_pos s1) (rel_vel s)).
    - generalize (k / norm2 (rel_pos s1)), (rel_pos s1), (rel_vel s). intros. vring.
    - rewrite R1. generalize (rel_pos s), (rel_vel s). intros. vring. }
  split; [|split; [exact TB3|split; [unfold consistent; lra|split]]].
  - unfold same_orbit. split; [exact EN|]. split; [congruence|]. split; [|split; [exact LL|]].
    + rewrite (two_angular_rel s3 TB3 _ eq_refl), (two_angular_rel s TB _ eq_refl). rewrite LL, MO3, MO2, !ME3. fold m0 m1. f_equal.
      rewrite !Q3, !PE2, !Q1. f_equal.
      (* the mass moment moves along the momentum *)
      assert (PM : forall i, vel_of s2 i = vel_of s2 i) by auto.
      transitivity (cross (vadd (vadd (vadd (vscal m0 (pos_of s 0)) (vscal m1 (pos_of s 1))) (vscal d0 (momentum s))) (vscal d2 (momentum s2))) (momentum s)).
      * f_equal. rewrite !two_momentum by auto. rewrite !ME2. fold m0 m1. generalize (pos_of s 0), (pos_of s 1), (vel_of s 0), (vel_of s 1), (vel_of s2 0), (vel_of s2 1). intros. vring.
      * rewrite MO2. generalize (momentum s), (pos_of s 0), (pos_of s 1). intros. vring.
    + destruct CL as [CL|CL]; [|lra]. unfold lrl2. rewrite LL, RV3, !ME3. fold m0 m1.
      assert (LA : cross (rel_pos s1) (rel_vel s2) = cross (rel_pos s) (rel_vel s)). { rewrite <- LL, RV3, R3. generalize (rel_pos s1), (rel_vel s2). intros. vring. }
      assert (LB : cross (rel_pos s1) (rel_vel s) = cross (rel_pos s) (rel_vel s)). { rewrite R1. generalize (rel_pos s), (rel_vel s). intros. vring. }
      rewrite LA, LB, !vscal_vscal in CL.
      replace ((m0 + m1) / norm (rel_pos s3)) with (/ mu * w1). 2:{ rewrite <- U3, two_U by auto. rewrite !ME3. fold m0 m1. unfold mu. field. repeat split; nra. }
      replace ((m0 + m1) / norm (rel_pos s)) with (/ mu * w0). 2:{ rewrite W0, U0. unfold mu. field. repeat split; nra. }
      exact CL.
  - apply two_apart; auto. intros E. rewrite E in N3. unfold norm, norm2, dot, vzero in N3. simpl in N3. rewrite !Rmult_0_r, !Rplus_0_r, sqrt_0 in N3. lra.
  - split; [exact BE3|congruence].
Qed.

(** Any number of steps of any sizes on a bound pair, as long as no half drift lands on the other body: the orbit
    never changes.  [clear] says which trajectories that are. *)
Fixpoint clear (s : st) (hs : list R) : Prop :=
  match hs with [] => True | h :: t => apart (half_drift s h) /\ clear (dkd s h) t end.
Theorem C56_bound_orbit_forever : forall hs s, two_bodies s -> consistent s -> apart s -> Tkin s < Upot s -> clear s hs ->
  let s' := fold_left dkd hs s in
  same_orbit s s' /\ two_bodies s' /\ consistent s' /\ apart s' /\ s_be s' = s_be s.
Proof.
  induction hs as [|h t IH]; intros s TB CO AP BD CL; simpl.
  - unfold same_orbit. auto 10.
  - destruct CL as (C1 & C2).
    destruct (C56_step s h TB CO AP C1) as (A & B & C & D & E & F). { left. unfold consistent in CO. lra. }
    assert (BD' : Tkin (dkd s h) < Upot (dkd s h)). { destruct A as (A & _). lra. }
    destruct (IH (dkd s h) B C D BD' C2) as (A' & B' & C' & D' & E').
    split; [|split; [|split; [|split]]]; auto; try congruence.
    destruct A as (A1 & A2 & A3 & A4 & A5), A' as (A1' & A2' & A3' & A4' & A5'). unfold same_orbit. repeat split; congruence.
Qed.
(** A freshly constructed two-body system meets the hypotheses. *)
Theorem C56_constructed m0 m1 t p0 p1 v0 v1 : 0 < m0 -> 0 < m1 ->
  let s := rnew newton_only LogH [m0; m1] t [p0; p1] [v0; v1] in two_bodies s /\ consistent s /\ (p0 <> p1 -> apart s).
Proof.
  intros H0 H1. cbv zeta. set (s := rnew newton_only LogH [m0; m1] t [p0; p1] [v0; v1]).
  assert (TB : two_bodies s). { exists m0, m1. simpl. auto 10. }
  split; auto. split.
  - destruct (C54_new newton_only LogH [m0; m1] t [p0; p1] [v0; v1]) as (A & _). fold s in A. unfold consistent. lra.
  - intros N. apply two_apart; auto. intros E. apply N. apply vsub_eq_zero; auto.
Qed.
(** Non-vacuity: a bound pair on an eccentric orbit, two steps of different sizes. *)
Definition pair56 : st := rnew newton_only LogH [1; 1] 0 [mkV 1 0 0; mkV 0 0 0] [mkV 0 (1/2) 0; mkV 0 0 0].
Lemma norm_x x : norm (mkV x 0 0) = Rabs x.
Proof. unfold norm, norm2, dot; simpl. rewrite <- sqrt_Rsqr_abs. f_equal. unfold Rsqr. ring. Qed.
Example C56_case : two_bodies pair56 /\ consistent pair56 /\ apart pair56 /\ Tkin pair56 < Upot pair56 /\ clear pair56 [1 / 10] /\ half_drift pair56 (1 / 10) <> pair56.
Proof.
  destruct (C56_constructed 1 1 0 (mkV 1 0 0) (mkV 0 0 0) (mkV 0 (1/2) 0) (mkV 0 0 0)) as (A & B & C); try lra. fold pair56 in A, B, C.
  assert (AP : apart pair56). { apply C. intros E. assert (vx (mkV 1 0 0) = vx (mkV 0 0 0)) by congruence. simpl in *. lra. }
  assert (TU : Tkin pair56 = 1 / 8 /\ Upot pair56 = 1).
  { rewrite two_T, two_U by auto. unfold rel_pos, mass_of, vel_of, pos_of; simpl.
    replace (vsub (mkV 1 0 0) (mkV 0 0 0)) with (mkV 1 0 0) by vring. rewrite norm_x, Rabs_R1. vunf. split; lra. }
  destruct TU as (T & U).
  assert (LL : length (s_p pair56) = npart pair56 /\ length (s_v pair56) = npart pair56) by (split; reflexivity).
  destruct LL as (L1 & L2).
  assert (HALF : forall h, exists d, pos_of (half_drift pair56 h) 0 = vadd (mkV 1 0 0) (vscal d (mkV 0 (1/2) 0)) /\ pos_of (half_drift pair56 h) 1 = mkV 0 0 0
      /\ two_bodies (half_drift pair56 h) /\ s_t (half_drift pair56 h) = d /\ d = 0.5 * h).
  { intros h. unfold consistent in B. destruct (C54_drift LogH pair56 (0.5 * h) L1 L2) as (d & D & T1 & Q1 & V1 & _ & _ & B1 & M1 & LP1).
    { lra. } fold (half_drift pair56 h) in *. exists d. rewrite !Q1. repeat split; try reflexivity.
    - unfold pos_of, vel_of; simpl. vring.
    - exists 1, 1. rewrite M1, LP1, V1. simpl. repeat split; auto; lra.
    - rewrite T1. simpl. ring.
    - rewrite B in D. rewrite T, U in D. lra. }
  split; auto. split; auto. split; auto. split; [lra|]. split.
  - simpl. split; auto. destruct (HALF (1/10)) as (d & P0 & P1 & TB & _). apply two_apart; auto. unfold rel_pos. rewrite P0, P1.
    intros E. assert (Q : vx (vsub (vadd (mkV 1 0 0) (vscal d (mkV 0 (1 / 2) 0))) (mkV 0 0 0)) = vx vzero) by congruence. vunf. lra.
  - intros E. destruct (HALF (1/10)) as (d & _ & _ & _ & Td & Dd). rewrite E in Td. simpl in Td. lra.
Qed.
Print Assumptions C56_step.
Print Assumptions C56_bound_orbit_forever.
Print Assumptions C56_constructed.
