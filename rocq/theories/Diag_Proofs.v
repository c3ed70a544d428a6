(** Derivatives of the energies and angular momentum along a motion. *)
From Verif Require Import Vec Force_Model Force_Spec Force_Proofs Diag_Model Diag_Spec.
From Coq Require Import List Lia Lra Reals.
Import ListNotations.
Open Scope R_scope.

(** * Derivatives *)
Lemma dv_ext f g t d d' : (forall x, f x = g x) -> d = d' -> derivable_pt_lim f t d -> derivable_pt_lim g t d'.
Proof. intros E <- H eps He. destruct (H eps He) as (del & Hd). exists del. intros. rewrite <- !E. auto. Qed.
Lemma dv_plus f g t a b : derivable_pt_lim f t a -> derivable_pt_lim g t b -> derivable_pt_lim (fun x => f x + g x) t (a + b).
Proof. intros. apply derivable_pt_lim_plus; auto. Qed.
Lemma dv_minus f g t a b : derivable_pt_lim f t a -> derivable_pt_lim g t b -> derivable_pt_lim (fun x => f x - g x) t (a - b).
Proof. intros. apply derivable_pt_lim_minus; auto. Qed.
Lemma dv_mult f g t a b : derivable_pt_lim f t a -> derivable_pt_lim g t b -> derivable_pt_lim (fun x => f x * g x) t (a * g t + f t * b).
Proof. intros. apply (derivable_pt_lim_mult f g t a b); auto. Qed.
Lemma dv_const c t : derivable_pt_lim (fun _ => c) t 0.
Proof. apply derivable_pt_lim_const. Qed.
Lemma dv_scal c f t a : derivable_pt_lim f t a -> derivable_pt_lim (fun x => c * f x) t (c * a).
Proof. intros. apply (dv_ext (fun x => c * f x) _ t (0 * f t + c * a)); auto; [ring|]. apply (dv_mult (fun _ => c)); auto. apply dv_const. Qed.
Lemma dv_opp f t a : derivable_pt_lim f t a -> derivable_pt_lim (fun x => - f x) t (- a).
Proof. intros. apply derivable_pt_lim_opp; auto. Qed.
Lemma dv_div f g t a b : g t <> 0 -> derivable_pt_lim f t a -> derivable_pt_lim g t b ->
  derivable_pt_lim (fun x => f x / g x) t ((a * g t - f t * b) / (g t * g t)).
Proof. intros N A B. apply (dv_ext (f / g)%F _ t ((a * g t - b * f t) / Rsqr (g t))); auto; [unfold Rsqr; f_equal; ring|]. apply derivable_pt_lim_div; auto. Qed.
Lemma dv_sqrt f t a : 0 < f t -> derivable_pt_lim f t a -> derivable_pt_lim (fun x => sqrt (f x)) t (a / (2 * sqrt (f t))).
Proof.
  intros P A. apply (dv_ext (comp sqrt f) _ t (/ (2 * sqrt (f t)) * a)); auto; [unfold Rdiv; ring|].
  apply derivable_pt_lim_comp; auto. apply derivable_pt_lim_sqrt; auto.
Qed.
Lemma dv_rsum n : forall (f : R -> nat -> R) (d : nat -> R) t, (forall i, (i < n)%nat -> derivable_pt_lim (fun x => f x i) t (d i)) ->
  derivable_pt_lim (fun x => rsum (f x) n) t (rsum d n).
Proof.
  induction n; intros f d t H; simpl; [apply dv_const|]. apply (dv_plus (fun x => rsum (f x) n) (fun x => f x n)); auto.
Qed.
Lemma dv_lsumR {A} (l : list A) : forall (f : R -> A -> R) (d : A -> R) t, (forall i, In i l -> derivable_pt_lim (fun x => f x i) t (d i)) ->
  derivable_pt_lim (fun x => lsumR (f x) l) t (lsumR d l).
Proof.
  induction l; intros f d t H; simpl; [apply dv_const|]. apply (dv_plus (fun x => f x a) (fun x => lsumR (f x) l)); auto using in_eq, in_cons.
Qed.
Lemma vd_sub f g t a b : vderiv f t a -> vderiv g t b -> vderiv (fun x => vsub (f x) (g x)) t (vsub a b).
Proof. intros (A & B & C) (D & E & F). repeat split; simpl; apply dv_minus; auto. Qed.
Lemma dv_dot f g t a b : vderiv f t a -> vderiv g t b -> derivable_pt_lim (fun x => dot (f x) (g x)) t (dot a (g t) + dot (f t) b).
Proof.
  intros (A & B & C) (D & E & F). unfold dot.
  eapply dv_ext; [reflexivity| |exact (dv_plus _ _ t _ _ (dv_plus _ _ t _ _ (dv_mult _ _ t _ _ A D) (dv_mult _ _ t _ _ B E)) (dv_mult _ _ t _ _ C F))].
  cbv beta. ring.
Qed.
Lemma vd_cross f g t a b : vderiv f t a -> vderiv g t b -> vderiv (fun x => cross (f x) (g x)) t (vadd (cross a (g t)) (cross (f t) b)).
Proof.
  intros (A & B & C) (D & E & F). unfold cross. split; [|split]; simpl.
  - eapply dv_ext; [reflexivity| |exact (dv_minus _ _ t _ _ (dv_mult _ _ t _ _ B F) (dv_mult _ _ t _ _ C E))]. cbv beta. ring.
  - eapply dv_ext; [reflexivity| |exact (dv_minus _ _ t _ _ (dv_mult _ _ t _ _ C D) (dv_mult _ _ t _ _ A F))]. cbv beta. ring.
  - eapply dv_ext; [reflexivity| |exact (dv_minus _ _ t _ _ (dv_mult _ _ t _ _ A E) (dv_mult _ _ t _ _ B D))]. cbv beta. ring.
Qed.
Lemma vd_scal c f t a : vderiv f t a -> vderiv (fun x => vscal c (f x)) t (vscal c a).
Proof. intros (A & B & C). repeat split; simpl; apply dv_scal; auto. Qed.
Lemma vd_add f g t a b : vderiv f t a -> vderiv g t b -> vderiv (fun x => vadd (f x) (g x)) t (vadd a b).
Proof. intros (A & B & C) (D & E & F). repeat split; simpl; apply dv_plus; auto. Qed.
Lemma vd_vsum n : forall (f : R -> nat -> vec) (d : nat -> vec) t, (forall i, (i < n)%nat -> vderiv (fun x => f x i) t (d i)) ->
  vderiv (fun x => vsum (f x) n) t (vsum d n).
Proof.
  induction n; intros f d t H; simpl; [repeat split; apply dv_const|]. apply (vd_add (fun x => vsum (f x) n) (fun x => f x n)); auto.
Qed.
Lemma dv_norm f t a : f t <> vzero -> vderiv f t a -> derivable_pt_lim (fun x => norm (f x)) t (dot (f t) a / norm (f t)).
Proof.
  intros N D. pose proof (norm2_pos _ N) as P. pose proof (norm_pos _ N) as P'. unfold norm at 1.
  eapply dv_ext; [reflexivity| |apply (dv_sqrt (fun x => norm2 (f x))); [exact P|apply (dv_dot f f); eauto]].
  fold (norm (f t)). replace (dot a (f t)) with (dot (f t) a) by (unfold dot; ring). field. lra.
Qed.

(** * Sums *)
Lemma lsumR_seq f n k : lsumR f (seq k n) = rsum (fun i => f (k + i)%nat) n.
Proof.
  revert k; induction n; intros k; [reflexivity|]. rewrite seq_S, lsumR_app. cbn [lsumR]. rewrite IHn. simpl. ring.
Qed.
Lemma pairs_sum (h : nat -> nat -> R) n : lsumR (fun ij => h (fst ij) (snd ij)) (all_pairs n) =
  rsum (fun i => rsum (fun j => if Nat.ltb i j then h i j else 0) n) n.
Proof.
  unfold all_pairs. rewrite lsumR_flat, rsum_lsumR. apply lsumR_ext. intros i Hi. apply in_seq in Hi.
  rewrite lsumR_map. cbn [fst snd]. rewrite rsum_lsumR. replace n with ((i + 1) + (n - (i + 1)))%nat at 2 by lia.
  rewrite seq_app, lsumR_app. rewrite (lsumR_ext _ (fun _ => 0) (seq 0 (i + 1))).
  - assert (Z : forall l : list nat, lsumR (fun _ => 0) l = 0) by (induction l; simpl; lra). rewrite Z, Rplus_0_l. apply lsumR_ext.
    intros j Hj. apply in_seq in Hj. destruct (Nat.ltb_spec i j); auto. lia.
  - intros j Hj. apply in_seq in Hj. destruct (Nat.ltb_spec i j); auto. lia.
Qed.
Lemma kinetic_eq s : kinetic_energy s = kinetic_sum s.
Proof. unfold kinetic_energy, kinetic_sum. rewrite <- rsum_scal. apply rsum_ext. intros. unfold norm2. lra. Qed.
Lemma potential_pairs s : potential_energy s = - lsumR (fun ij => sm s (fst ij) * sm s (snd ij) / norm (vsub (sp s (fst ij)) (sp s (snd ij)))) (all_pairs (sn s)).
Proof. unfold potential_energy. rewrite pe_fold_direct. unfold Gc. ring. Qed.
Lemma potential_eq s : potential_energy s = potential_sum s.
Proof. rewrite potential_pairs. unfold potential_sum. f_equal. apply (pairs_sum (fun i j => sm s i * sm s j / norm (vsub (sp s i) (sp s j)))). Qed.

(** Weighted sum of what the pair loop adds. *)
Lemma linear_sumR F s (L : nat -> vec -> R) acc calls :
  (forall k a b, L k (vadd a b) = L k a + L k b) -> (forall k, L k vzero = 0) ->
  Forall (fun c => c_i c <> c_j c /\ (c_i c < sn s)%nat /\ (c_j c < sn s)%nat) calls ->
  rsum (fun k => L k (add_acc F calls acc k)) (sn s) = rsum (fun k => L k (acc k)) (sn s) +
    lsumR (fun c => L (c_i c) (fst (F (c_dr c) (c_dv c) (c_i c) (c_j c))) + L (c_j c) (snd (F (c_dr c) (c_dv c) (c_i c) (c_j c)))) calls.
Proof.
  intros Ladd L0 H.
  assert (Hne : Forall (fun c => c_i c <> c_j c) calls) by (eapply Forall_impl; [|exact H]; simpl; tauto).
  assert (Llsum : forall k (f : call -> vec) l, L k (lsum f l) = lsumR (fun c => L k (f c)) l).
  { intros k f l. induction l; simpl; auto. rewrite Ladd, IHl. auto. }
  rewrite (rsum_ext _ (fun k => L k (acc k) + lsumR (fun c => L k (contrib F c k)) calls)).
  2:{ intros k _. rewrite add_acc_spec by auto. rewrite Ladd, Llsum. auto. }
  rewrite rsum_add. f_equal.
  assert (SW : forall l, rsum (fun k => lsumR (fun c => L k (contrib F c k)) l) (sn s) = lsumR (fun c => rsum (fun k => L k (contrib F c k)) (sn s)) l).
  { induction l; simpl; [apply rsum_zero|]. rewrite rsum_add, IHl. auto. }
  rewrite SW. apply lsumR_ext. intros c Hc. rewrite Forall_forall in H. destruct (H c Hc) as (H1 & H2 & H3).
  assert (DL : forall n i (x : R), (i < n)%nat -> rsum (fun k => if (k =? i)%nat then x else 0) n = x).
  { induction n; intros i x Hi; [lia|]. simpl. destruct (Nat.eqb_spec n i) as [->|].
    - rewrite (rsum_ext _ (fun _ => 0)); [rewrite rsum_zero; ring|]. intros k Hk. destruct (Nat.eqb_spec k i); auto; lia.
    - rewrite IHn by lia. ring. }
  unfold contrib. rewrite (rsum_ext _ (fun k =>
       (if (k =? c_i c)%nat then L (c_i c) (fst (F (c_dr c) (c_dv c) (c_i c) (c_j c))) else 0) +
       (if (k =? c_j c)%nat then L (c_j c) (snd (F (c_dr c) (c_dv c) (c_i c) (c_j c))) else 0))).
  - rewrite rsum_add, !DL by auto. auto.
  - intros k _. rewrite Ladd. f_equal.
    + destruct (Nat.eqb_spec k (c_i c)) as [->|]; auto.
    + destruct (Nat.eqb_spec k (c_j c)) as [->|]; auto.
Qed.

(** Power of the Newtonian accelerations against velocities w. *)
Definition newt (s : sys) : nat -> vec := add_acc (newton_pair (sm s)) (direct_calls s) (fun _ => vzero).
Lemma newt_power s (w : nat -> vec) : rsum (fun k => sm s k * dot (w k) (newt s k)) (sn s) =
  lsumR (fun ij => let d := vsub (sp s (fst ij)) (sp s (snd ij)) in
     - (sm s (fst ij) * sm s (snd ij) * dot d (vsub (w (fst ij)) (w (snd ij))) / (norm d * norm d * norm d))) (all_pairs (sn s)).
Proof.
  unfold newt. rewrite (linear_sumR _ s (fun k a => sm s k * dot (w k) a)).
  - rewrite (rsum_ext _ (fun _ => 0)) by (intros; vunf; ring). rewrite rsum_zero, Rplus_0_l.
    unfold direct_calls. rewrite lsumR_map. apply lsumR_ext. intros [i j] _. cbn [true_call c_i c_j c_dr c_dv fst snd].
    rewrite newton_pair_eq. cbn [fst snd]. rewrite (norm_anti (sp s j)). unfold Rdiv. cbv zeta.
    generalize (/ (norm (vsub (sp s i) (sp s j)) * norm (vsub (sp s i) (sp s j)) * norm (vsub (sp s i) (sp s j)))). intros q.
    destruct (sp s i), (sp s j), (w i), (w j). vunf. ring.
  - intros k a b. destruct a, b, (w k). vunf. ring.
  - intros k. destruct (w k). vunf. ring.
  - apply Forall_forall. intros c H. apply in_map_iff in H as ([i j] & <- & H). apply all_pairs_in in H. cbn [true_call c_i c_j]. lia.
Qed.
Lemma d_kinetic n m P V A t : (forall i, (i < n)%nat -> vderiv (fun x => V x i) t (A i)) ->
  derivable_pt_lim (fun x => kinetic_energy (at_time n m P V x)) t (rsum (fun i => m i * dot (V t i) (A i)) n).
Proof.
  intros H. unfold kinetic_energy, at_time. simpl.
  apply (dv_ext (fun x => 0.5 * rsum (fun i => m i * dot (V x i) (V x i)) n) _ t (0.5 * rsum (fun i => m i * (dot (A i) (V t i) + dot (V t i) (A i))) n)); auto.
  - rewrite <- rsum_scal. apply rsum_ext. intros i _. destruct (A i), (V t i). vunf. lra.
  - apply dv_scal. apply (dv_rsum n (fun x i => m i * dot (V x i) (V x i))). intros i Hi. apply dv_scal. apply (dv_dot (fun x => V x i)); auto.
Qed.
Lemma d_potential n m P V W t : distinct_positions (at_time n m P V t) -> (forall i, (i < n)%nat -> vderiv (fun x => P x i) t (W i)) ->
  derivable_pt_lim (fun x => potential_energy (at_time n m P V x)) t (- rsum (fun k => m k * dot (W k) (newt (at_time n m P V t) k)) n).
Proof.
  intros HD H. pose proof (newt_power (at_time n m P V t) W) as NP. cbn [at_time sm sn sp] in NP. rewrite NP. clear NP.
  eapply dv_ext; [intros x; symmetry; apply potential_pairs|reflexivity|]. cbn [at_time sm sn sp].
  apply (dv_opp (fun x => lsumR (fun ij => m (fst ij) * m (snd ij) / norm (vsub (P x (fst ij)) (P x (snd ij)))) (all_pairs n))).
  apply (dv_lsumR (all_pairs n) (fun x ij => m (fst ij) * m (snd ij) / norm (vsub (P x (fst ij)) (P x (snd ij))))).
  intros [i j] Hij. apply all_pairs_in in Hij. cbn [fst snd]. cbv zeta.
  assert (ND : vsub (P t i) (P t j) <> vzero).
  { intros Z. apply vsub_eq_zero in Z. apply (HD i j) in Z; simpl; auto; lia. }
  pose proof (norm_pos _ ND) as N0.
  pose proof (dv_norm (fun x => vsub (P x i) (P x j)) t (vsub (W i) (W j)) ND (vd_sub _ _ t _ _ (H i ltac:(lia)) (H j ltac:(lia)))) as D.
  eapply dv_ext; [reflexivity| |apply (dv_div (fun _ => m i * m j)); [lra|apply dv_const|exact D]]. cbv beta.
  field. lra.
Qed.
Lemma d_angular n m P V A t : (forall i, (i < n)%nat -> vderiv (fun x => P x i) t (V t i)) -> (forall i, (i < n)%nat -> vderiv (fun x => V x i) t (A i)) ->
  vderiv (fun x => total_angular_momentum (at_time n m P V x)) t (vsum (fun i => vscal (m i) (cross (P t i) (A i))) n).
Proof.
  intros HP HV. unfold total_angular_momentum, at_time. cbn [sm sn sp sv].
  replace (vsum (fun i => vscal (m i) (cross (P t i) (A i))) n) with (vsum (fun i => vscal (m i) (vadd (cross (V t i) (V t i)) (cross (P t i) (A i)))) n).
  2:{ apply vsum_ext. intros i _. f_equal. destruct (V t i), (P t i), (A i). vring. }
  apply (vd_vsum n (fun x i => vscal (m i) (cross (P x i) (V x i)))). intros i Hi. apply vd_scal.
  apply (vd_cross (fun x => P x i) (fun x => V x i)); auto.
Qed.
