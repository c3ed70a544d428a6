(** C65: energy and angular momentum diagnostics. *)
From Verif Require Import Vec Force_Model Force_Spec Force_Proofs Diag_Model Diag_Spec Diag_Proofs.
From Coq Require Import List Lia Lra Reals.
Import ListNotations.
Open Scope R_scope.

(** The reported numbers are the textbook sums. *)
Theorem C65_values s :
  kinetic_energy s = kinetic_sum s /\ potential_energy s = potential_sum s /\ total_energy s = kinetic_sum s + potential_sum s /\
  vx (total_angular_momentum s) = rsum (fun i => sm s i * (vy (sp s i) * vz (sv s i) - vz (sp s i) * vy (sv s i))) (sn s) /\
  vy (total_angular_momentum s) = rsum (fun i => sm s i * (vz (sp s i) * vx (sv s i) - vx (sp s i) * vz (sv s i))) (sn s) /\
  vz (total_angular_momentum s) = rsum (fun i => sm s i * (vx (sp s i) * vy (sv s i) - vy (sp s i) * vx (sv s i))) (sn s).
Proof.
  split; [apply kinetic_eq|]. split; [apply potential_eq|]. split; [unfold total_energy; rewrite kinetic_eq, potential_eq; ring|].
  unfold total_angular_momentum. generalize (sn s) as n. intros n.
  split; [|split]; induction n; simpl; auto; rewrite IHn; auto.
Qed.
(** Along every motion in which dx/dt = v and dv/dt is the acceleration computed by the Newtonian interaction, total
    energy, total momentum and total angular momentum are constant. *)
Theorem C65_conserved n m P V t :
  let acc x := add_acc (newton_pair m) (direct_calls (at_time n m P V x)) (fun _ => vzero) in
  distinct_positions (at_time n m P V t) ->
  (forall i, (i < n)%nat -> vderiv (fun x => P x i) t (V t i)) ->
  (forall i, (i < n)%nat -> vderiv (fun x => V x i) t (acc t i)) ->
  derivable_pt_lim (fun x => total_energy (at_time n m P V x)) t 0 /\
  vderiv (fun x => total_angular_momentum (at_time n m P V x)) t vzero /\
  vderiv (fun x => vsum (fun i => vscal (m i) (V x i)) n) t vzero.
Proof.
  intros acc HD HP HV. split; [|split].
  - unfold total_energy.
    eapply dv_ext; [reflexivity| |exact (dv_plus _ _ t _ _ (d_potential n m P V (V t) t HD HP) (d_kinetic n m P V (acc t) t HV))].
    unfold acc, newt. cbn [at_time sm]. ring.
  - replace vzero with (vsum (fun i => vscal (m i) (cross (P t i) (acc t i))) n); [apply d_angular; auto|].
    pose proof (newton_torque (at_time n m P V t) (fun _ => vzero)) as Q. cbn [at_time sm sn sp] in Q. unfold acc. rewrite Q.
    rewrite (vsum_ext _ (fun _ => vzero)); [apply vsum_zero|]. intros. rewrite cross_0_r. apply vscal_0.
  - replace vzero with (vsum (fun i => vscal (m i) (acc t i)) n).
    + apply (vd_vsum n (fun x i => vscal (m i) (V x i))). intros i Hi. apply vd_scal; auto.
    + pose proof (newton_momentum (at_time n m P V t) (fun _ => vzero)) as Q. cbn [at_time sm sn sp] in Q. unfold acc. rewrite Q.
      rewrite (vsum_ext _ (fun _ => vzero)); [apply vsum_zero|]. intros. apply vscal_0.
Qed.

(** * Subsets *)
Lemma lsum_linear {A} (l : list A) (f : A -> vec) (L : vec -> vec) : L vzero = vzero -> (forall a b, L (vadd a b) = vadd (L a) (L b)) ->
  lsum (fun x => L (f x)) l = L (lsum f l).
Proof. intros H0 H. induction l; simpl; auto. rewrite H, IHl. auto. Qed.
(** Angular momentum of a subset about its own centre of mass: what remains of the angular momentum after that of the
    centre of mass is taken away; unaffected by shifting or boosting all particles. *)
Theorem C65_isolated s ids M Q W : M = lsumR (sm s) ids -> M <> 0 ->
  vscal M Q = lsum (fun i => vscal (sm s i) (sp s i)) ids -> vscal M W = lsum (fun i => vscal (sm s i) (sv s i)) ids ->
  vadd (isolated_angular_momentum s ids) (vscal M (cross Q W)) = angular_momentum_of s ids.
Proof.
  intros EM HM EQ EW. unfold isolated_angular_momentum, angular_momentum_of. rewrite lrsum_lsumR, !lvsum_lsum, <- EM.
  assert (IQ : vscal (/ M) (vscal M Q) = Q) by (rewrite vscal_vscal, Rinv_l by auto; apply vscal_1).
  assert (IW : vscal (/ M) (vscal M W) = W) by (rewrite vscal_vscal, Rinv_l by auto; apply vscal_1).
  rewrite <- EQ, <- EW, IQ, IW.
  assert (G : lsum (fun i => vscal (sm s i) (cross (vsub (sp s i) Q) (vsub (sv s i) W))) ids =
     vadd (vsub (lsum (fun i => vscal (sm s i) (cross (sp s i) (sv s i))) ids)
        (vadd (cross (lsum (fun i => vscal (sm s i) (sp s i)) ids) W) (cross Q (lsum (fun i => vscal (sm s i) (sv s i)) ids))))
        (vscal (lsumR (sm s) ids) (cross Q W))).
  { clear. induction ids; simpl; [vring|]. rewrite IHids. vgen. generalize (lsumR (sm s) ids), (sp s a), (sv s a), (sm s a). intros. vring. }
  rewrite G, <- EQ, <- EW, <- EM. vgen. vring.
Qed.
Theorem C65_isolated_invariant s ids d u : lsumR (sm s) ids <> 0 ->
  isolated_angular_momentum (mkS (sn s) (sm s) (fun i => vadd (sp s i) d) (fun i => vadd (sv s i) u)) ids = isolated_angular_momentum s ids.
Proof.
  intros HM. unfold isolated_angular_momentum. cbn [sm sp sv]. rewrite !lrsum_lsumR, !lvsum_lsum.
  assert (G : forall (f : nat -> vec) e l, lsum (fun i => vscal (sm s i) (vadd (f i) e)) l = vadd (lsum (fun i => vscal (sm s i) (f i)) l) (vscal (lsumR (sm s) l) e)).
  { induction l; simpl; [vring|]. rewrite IHl. vgen. generalize (lsumR (sm s) l), (f a). intros; vring. }
  rewrite !G. set (M := lsumR (sm s) ids) in *.
  assert (H : forall x e, vscal (/ M) (vadd x (vscal M e)) = vadd (vscal (/ M) x) e).
  { intros. rewrite vscal_vadd, vscal_vscal, Rinv_l by auto. rewrite vscal_1. auto. }
  rewrite !H. apply lsum_ext. intros i _. f_equal. generalize (vscal (/ M) (lsum (fun i => vscal (sm s i) (sp s i)) ids)), (vscal (/ M) (lsum (fun i => vscal (sm s i) (sv s i)) ids)).
  intros. f_equal; generalize (sp s i), (sv s i); intros; vring.
Qed.
(** For two bodies it is the reduced mass times dr x dv. *)
Theorem C65_isolated_pair s i j : sm s i + sm s j <> 0 ->
  isolated_angular_momentum s [i; j] =
  vscal (sm s i * sm s j / (sm s i + sm s j)) (cross (vsub (sp s j) (sp s i)) (vsub (sv s j) (sv s i))).
Proof.
  intros H. unfold isolated_angular_momentum, lrsum, lvsum. simpl. rewrite !Rplus_0_l.
  destruct (sp s i), (sp s j), (sv s i), (sv s j). unfold vscal, vadd, vsub, cross, vzero; simpl. f_equal; field; auto.
Qed.

(** * Centre of mass arrays *)
Theorem C65_com n m f : rsum m n <> 0 ->
  vscal (rsum m n) (calc_com n m f) = vsum (fun i => vscal (m i) (f i)) n /\
  vsum (fun i => vscal (m i) (move_to_com n m f i)) n = vzero /\
  forall i j, vsub (move_to_com n m f i) (move_to_com n m f j) = vsub (f i) (f j).
Proof.
  intros H. unfold move_to_com. assert (A : vscal (rsum m n) (calc_com n m f) = vsum (fun i => vscal (m i) (f i)) n).
  { unfold calc_com. rewrite vscal_vscal, Rinv_r by auto. apply vscal_1. }
  split; auto. split.
  - assert (G : forall c k, vsum (fun i => vscal (m i) (vsub (f i) c)) k = vsub (vsum (fun i => vscal (m i) (f i)) k) (vscal (rsum m k) c)).
    { induction k; simpl; [vring|]. rewrite IHk. vgen. generalize (f k), (rsum m k). intros; vring. }
    rewrite G, A. vgen. vring.
  - intros i j. generalize (calc_com n m f), (f i), (f j). intros; vring.
Qed.

(** * Free fall *)
(** The result is the smallest two-body free-fall time pi/2 sqrt(r^3/(2(m_i+m_j))) over all pairs (or the cap, if all
    are longer). *)
Lemma ff_sq m p ij : 0 < m (fst ij) + m (snd ij) -> 0 <= fall_free_pair m p ij /\
  fall_free_pair m p ij * fall_free_pair m p ij = (let r := norm (vsub (p (fst ij)) (p (snd ij))) in r * r * r) / (m (fst ij) + m (snd ij)).
Proof.
  intros H. unfold fall_free_pair. cbv zeta. set (r := norm _). assert (S : 0 < sqrt (m (fst ij) + m (snd ij))) by (apply sqrt_lt_R0; auto).
  assert (P : 0 <= pow15 r /\ pow15 r * pow15 r = r * r * r).
  { unfold pow15. destruct (Rlt_dec 0 r).
    - split; [left; apply exp_pos|]. rewrite <- Rpower_plus. replace (1.5 + 1.5) with (INR 3) by (simpl; lra). rewrite Rpower_pow by auto. simpl. ring.
    - assert (r = 0) by (pose proof (norm_nonneg (vsub (p (fst ij)) (p (snd ij)))); fold r in H0; lra). rewrite H0. split; [lra|ring]. }
  destruct P as (P1 & P2). split; [apply Rmult_le_pos; auto; left; apply Rinv_0_lt_compat; auto|].
  replace (pow15 r / sqrt (m (fst ij) + m (snd ij)) * (pow15 r / sqrt (m (fst ij) + m (snd ij)))) with ((pow15 r * pow15 r) / (sqrt (m (fst ij) + m (snd ij)) * sqrt (m (fst ij) + m (snd ij)))) by (field; lra).
  rewrite P2, sqrt_sqrt by lra. auto.
Qed.
Theorem C65_fall_free big n m p : 0 < big -> (forall i, (i < n)%nat -> 0 < m i) ->
  let T := fall_free_time big n m p in
  let tff i j := PI / 2 * sqrt (norm (vsub (p i) (p j)) * norm (vsub (p i) (p j)) * norm (vsub (p i) (p j)) / (2 * (m i + m j))) in
  (forall i j, (i < j)%nat -> (j < n)%nat -> T <= tff i j) /\ T <= big * PI / 2 / sqrt 2 /\
  (T = big * PI / 2 / sqrt 2 \/ exists i j, (i < j < n)%nat /\ T = tff i j).
Proof.
  intros Hb Hm. cbv zeta. set (T := fall_free_time big n m p).
  set (tff := fun i j => PI / 2 * sqrt (norm (vsub (p i) (p j)) * norm (vsub (p i) (p j)) * norm (vsub (p i) (p j)) / (2 * (m i + m j)))).
  change ((forall i j, (i < j)%nat -> (j < n)%nat -> T <= tff i j) /\ T <= big * PI / 2 / sqrt 2 /\
    (T = big * PI / 2 / sqrt 2 \/ exists i j, (i < j < n)%nat /\ T = tff i j)). assert (S2 : 0 < sqrt 2) by (apply sqrt_lt_R0; lra). pose proof PI_RGT_0 as PP.
  assert (TF : forall i j, (i < j < n)%nat -> tff i j = fall_free_pair m p (i, j) * PI / 2 / sqrt 2).
  { intros i j Hij. destruct (ff_sq m p (i, j)) as (A & B); [simpl; pose proof (Hm i ltac:(lia)); pose proof (Hm j ltac:(lia)); lra|].
    cbn [fst snd] in B. cbv zeta in B. unfold tff. set (c := norm (vsub (p i) (p j)) * norm (vsub (p i) (p j)) * norm (vsub (p i) (p j))) in *.
    replace (c / (2 * (m i + m j))) with (fall_free_pair m p (i, j) * fall_free_pair m p (i, j) * / 2).
    - rewrite sqrt_mult by (try lra; apply Rle_0_sqr). rewrite sqrt_square by auto. rewrite sqrt_inv. field. lra.
    - rewrite B. field. pose proof (Hm i ltac:(lia)); pose proof (Hm j ltac:(lia)); lra. }
  assert (G : forall l t0, let t := fold_left (fun t ij => let f := fall_free_pair m p ij in if Rlt_dec f t then f else t) l t0 in
     t <= t0 /\ (forall ij, In ij l -> t <= fall_free_pair m p ij) /\ (t = t0 \/ exists ij, In ij l /\ t = fall_free_pair m p ij)).
  { induction l; intros t0 t; [subst t; simpl; split; [lra|split; [contradiction|auto]]|].
    subst t. cbn [fold_left]. cbv zeta. destruct (Rlt_dec (fall_free_pair m p a) t0) as [L|L].
    - destruct (IHl (fall_free_pair m p a)) as (A & B & C). split; [lra|]. split.
      + intros ij [<-|I]; auto.
      + right. destruct C as [C|(ij & I & C)]; [exists a; simpl; auto|exists ij; simpl; auto].
    - destruct (IHl t0) as (A & B & C). split; [lra|]. split.
      + intros ij [<-|I]; [lra|auto].
      + destruct C as [C|(ij & I & C)]; [auto|right; exists ij; simpl; auto]. }
  specialize (G (all_pairs n) big). cbv zeta in G. 
  assert (ET : T = fold_left (fun t ij => let f := fall_free_pair m p ij in if Rlt_dec f t then f else t) (all_pairs n) big * PI / 2 / sqrt 2).
  { unfold T, fall_free_time, Gc. rewrite Rmult_1_r. replace (0.5) with (/ 2) by lra. cbv zeta. generalize (fold_left (fun t ij => if Rlt_dec (fall_free_pair m p ij) t then fall_free_pair m p ij else t) (all_pairs n) big). intros x. field. lra. }
  cbv zeta in ET. set (t := fold_left _ _ _) in *. destruct G as (A & B & C).
  assert (MON : forall a b, a <= b -> a * PI / 2 / sqrt 2 <= b * PI / 2 / sqrt 2).
  { intros a b Hab. unfold Rdiv. apply Rmult_le_compat_r; [left; apply Rinv_0_lt_compat; auto|]. apply Rmult_le_compat_r; [lra|]. apply Rmult_le_compat_r; lra. }
  rewrite ET. split; [|split].
  - intros i j H1 H2. rewrite TF by lia. apply MON, B. apply all_pairs_in; lia.
  - apply MON; auto.
  - destruct C as [->|([i j] & I & C)]; [auto|]. right. apply all_pairs_in in I. exists i, j. split; [lia|]. rewrite TF, C by lia. auto.
Qed.

(** * Energy error *)
Theorem C65_energy_error s E0 : E0 <> 0 -> energy_error s E0 = Rabs (total_energy s - E0) / Rabs E0.
Proof.
  intros H. unfold energy_error, total_energy. unfold Rdiv at 1. rewrite Rabs_mult, Rabs_inv. unfold Rdiv. f_equal. f_equal. ring.
Qed.
(** For regularised systems the error is zero when the binding energy is minus the energy, and to first order in any
    deviation it is the deviation relative to the potential energy. *)
Theorem C65_energy_error_regu s B : potential_energy s < 0 -> 0 < kinetic_energy s + B ->
  (energy_error_regu s B = 0 <-> B = - total_energy s) /\
  exp (energy_error_regu s B) - 1 = (total_energy s + B) / Rabs (potential_energy s).
Proof.
  intros HU HT. unfold energy_error_regu, total_energy. set (U := potential_energy s) in *. set (T := kinetic_energy s) in *.
  assert (Q : 0 < (T + B) / - U) by (apply Rdiv_lt_0_compat; lra).
  rewrite (Rabs_right ((T + B) / - U)) by lra. rewrite exp_ln by auto. rewrite Rabs_left by auto. split.
  - split; intros H.
    + assert (E : (T + B) / - U = 1) by (rewrite <- (exp_ln _ Q), H; apply exp_0). assert (T + B = - U); [|lra].
      rewrite <- (Rmult_1_l (- U)), <- E. field. lra.
    + replace ((T + B) / - U) with 1; [apply ln_1|]. rewrite H. field. lra.
  - field. lra.
Qed.

(** Non-vacuity: two bodies on a circle. *)
Definition circP (t : R) (i : nat) : vec := if (i =? 0)%nat then mkV (cos t) (sin t) 0 else mkV (- cos t) (- sin t) 0.
Definition circV (t : R) (i : nat) : vec := if (i =? 0)%nat then mkV (- sin t) (cos t) 0 else mkV (sin t) (- cos t) 0.
Example C65_case t : let m := fun _ : nat => 4 in
  distinct_positions (at_time 2 m circP circV t) /\
  (forall i, (i < 2)%nat -> vderiv (fun x => circP x i) t (circV t i)) /\
  (forall i, (i < 2)%nat -> vderiv (fun x => circV x i) t (add_acc (newton_pair m) (direct_calls (at_time 2 m circP circV t)) (fun _ => vzero) i)) /\
  total_energy (at_time 2 m circP circV t) = -4.
Proof.
  intros m. pose proof (sin2_cos2 t) as SC. unfold Rsqr in SC.
  assert (N : norm (vsub (circP t 1) (circP t 0)) = 2).
  { unfold norm, circP. simpl. replace (norm2 _) with (2 * 2); [apply sqrt_square; lra|]. unfold norm2, dot, vsub; simpl. nra. }
  assert (DS : derivable_pt_lim sin t (cos t)) by apply derivable_pt_lim_sin.
  assert (DC : derivable_pt_lim cos t (- sin t)) by apply derivable_pt_lim_cos.
  assert (DNS : derivable_pt_lim (fun x => - sin x) t (- cos t)) by (apply (dv_opp sin); auto).
  assert (DNC : derivable_pt_lim (fun x => - cos x) t (sin t)).
  { apply (dv_ext (fun x => - cos x) _ t (- - sin t)); auto; [ring|]. apply (dv_opp cos); auto. }
  assert (NE : circP t 0 <> circP t 1).
  { intros E. rewrite E in N. replace (vsub (circP t 1) (circP t 1)) with vzero in N by (destruct (circP t 1); vring).
    unfold norm in N. replace (norm2 vzero) with 0 in N by vring. rewrite sqrt_0 in N. lra. }
  split; [|split; [|split]].
  - intros i j Hi Hj Hne. simpl in Hi, Hj. destruct i as [|[|i]]; [| |lia]; destruct j as [|[|j]]; try lia; simpl; auto.
  - intros i Hi. destruct i as [|[|i]]; [| |lia]; unfold circP, circV; simpl; repeat split; simpl; auto; apply dv_const.
  - intros i Hi. unfold direct_calls. replace (all_pairs (sn (at_time 2 m circP circV t))) with [(0%nat, 1%nat)] by reflexivity.
    unfold add_acc. cbn [map fold_left true_call]. rewrite apply_pair_spec by (simpl; lia). unfold contrib. cbn [c_i c_j c_dr c_dv].
    rewrite newton_pair_eq. cbn [at_time sp]. rewrite N. cbn [fst snd].
    destruct i as [|[|i]]; [| |lia]; simpl; unfold circP, circV; simpl; repeat split; simpl; unfold m.
    + eapply dv_ext; [reflexivity| |exact DNS]. field.
    + eapply dv_ext; [reflexivity| |exact DC]. field.
    + eapply dv_ext; [reflexivity| |apply (dv_const 0)]. field.
    + eapply dv_ext; [reflexivity| |exact DS]. field.
    + eapply dv_ext; [reflexivity| |exact DNC]. field.
    + eapply dv_ext; [reflexivity| |apply (dv_const 0)]. field.
  - unfold total_energy, potential_energy, kinetic_energy. replace (all_pairs (sn (at_time 2 m circP circV t))) with [(0%nat, 1%nat)] by reflexivity.
    cbn [fold_left at_time sm sp sn sv fst snd]. rewrite norm_anti, N. simpl. unfold circV, m, Gc; simpl. unfold dot; simpl. nra.
Qed.
Print Assumptions C65_values.
Print Assumptions C65_conserved.
Print Assumptions C65_isolated.
Print Assumptions C65_isolated_invariant.
Print Assumptions C65_isolated_pair.
Print Assumptions C65_com.
Print Assumptions C65_fall_free.
Print Assumptions C65_energy_error.
Print Assumptions C65_energy_error_regu.
