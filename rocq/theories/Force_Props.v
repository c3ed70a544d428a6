(** C19-C24: pair loops and force terms. *)
From Coq Require Import Permutation.
From Verif Require Import Force_Model Force_Spec Force_Proofs.
Open Scope R_scope.

(** C19.  For every n >= 2, index and consistent chain: the chain loops make one call per
    unordered particle pair, each with the true separation and relative velocity. *)
Theorem C19_chain_visits_every_pair_once : forall s c, (2 <= sn s)%nat -> chain_consistent s c ->
  exists l, chain_calls s c = Ok l /\
    Permutation (map (fun x => upair (c_i x) (c_j x)) l) (all_pairs (sn s)) /\
    Forall (fun x => c_dr x = vsub (sp s (c_j x)) (sp s (c_i x)) /\
                     c_dv x = vsub (sv s (c_j x)) (sv s (c_i x))) l.
Proof. exact chain_pairs_once. Qed.
Print Assumptions C19_chain_visits_every_pair_once.

(** [all_pairs n] is exactly the set of pairs i < j < n, each once. *)
Theorem C19_all_pairs : forall n, NoDup (all_pairs n) /\ forall i j, In (i, j) (all_pairs n) <-> (i < j < n)%nat.
Proof. intros n. split; [apply all_pairs_nodup|intros; apply all_pairs_in]. Qed.
Print Assumptions C19_all_pairs.

(** C19.  Hence for every exchange-symmetric pair term both chain orders (Newtonian/tidal and
    post-Newtonian) give the accelerations of the direct double loop. *)
Theorem C19_chain_acceleration : forall F s c, exchange_symmetric F -> (2 <= sn s)%nat -> chain_consistent s c ->
  exists l l', chain_calls s c = Ok l /\ chain_calls' s c = Ok l' /\ forall acc k,
    add_acc F l acc k = add_acc F (direct_calls s) acc k /\ add_acc F l' acc k = add_acc F (direct_calls s) acc k.
Proof. exact chain_acc_eq. Qed.
Print Assumptions C19_chain_acceleration.

(** The Newtonian, tidal, 1PN and 2.5PN terms are exchange symmetric (2PN is not, see C23). *)
Theorem C19_symmetric_terms : forall s k tau rad ic,
  exchange_symmetric (newton_pair (sm s)) /\ exchange_symmetric (tidal_pair (sm s) k tau rad) /\
  exchange_symmetric (pn1_pair ic (sm s) (sv s)) /\ exchange_symmetric (pn25_pair ic (sm s)).
Proof.
  intros. repeat split; [apply newton_exchange|apply tidal_exchange|apply pn1_exchange|apply pn25_exchange].
Qed.
Print Assumptions C19_symmetric_terms.

(** C19.  The chain-based potential energy equals the direct one. *)
Theorem C19_chain_potential_energy : forall s c, (2 <= sn s)%nat -> chain_consistent s c ->
  chain_potential_energy s c = Ok (potential_energy s).
Proof. exact chain_pe_eq. Qed.
Print Assumptions C19_chain_potential_energy.

(** C19.  With fewer than two particles every chain loop leaves the arrays. *)
Theorem C19_single_particle_undefined : forall s c, (sn s < 2)%nat ->
  chain_calls s c = UB /\ chain_calls' s c = UB /\ chain_potential_energy s c = UB.
Proof. exact chain_too_small. Qed.
Print Assumptions C19_single_particle_undefined.

(** A concrete system: four particles, chain 2-0-3-1. *)
Definition s4 : sys := mkS 4 (fun k => INR (S k)) (fun k => mkV (INR k) (INR (k * k)) 0) (fun k => mkV 0 (INR k) 1).
Definition ix4 (i : nat) : nat := nth i [2; 0; 3; 1]%nat 0%nat.
Definition c4 : chn := mkCh ix4 (fun i => vsub (sp s4 (ix4 (i + 1))) (sp s4 (ix4 i)))
                                (fun i => vsub (sv s4 (ix4 (i + 1))) (sv s4 (ix4 i))).
Example C19_case : chain_consistent s4 c4 /\ (2 <= sn s4)%nat.
Proof.
  split; [|simpl; lia]. split; [|intros i Hi; split; reflexivity]. unfold c4, ix4. simpl.
  apply NoDup_Permutation; [| |intros x; simpl; lia].
  - repeat constructor; simpl; lia.
  - repeat constructor; simpl; lia.
Qed.

(** C20.  Newton's law: what is added to particle k is the sum over the other particles of
    m_j (x_j - x_k)/|x_j - x_k|^3. *)
Theorem C20_newton_sum : forall s acc k, distinct_positions s -> (k < sn s)%nat ->
  add_acc (newton_pair (sm s)) (direct_calls s) acc k =
  vadd (acc k) (vsum (fun j => if (j =? k)%nat then vzero
     else vscal (sm s j / (norm (vsub (sp s j) (sp s k)) * norm (vsub (sp s j) (sp s k)) * norm (vsub (sp s j) (sp s k))))
                (vsub (sp s j) (sp s k))) (sn s)).
Proof.
  intros s acc k _ Hk. rewrite direct_sum by (auto using newton_exchange). f_equal. apply vsum_ext. intros j _.
  unfold pull. rewrite newton_pair_eq. auto.
Qed.
Print Assumptions C20_newton_sum.

(** C20.  Third law: the terms added carry no net force and no net torque. *)
Theorem C20_momentum : forall s acc, distinct_positions s ->
  total_force s (add_acc (newton_pair (sm s)) (direct_calls s) acc) = total_force s acc.
Proof. intros s acc _. apply newton_momentum. Qed.
Print Assumptions C20_momentum.
Theorem C20_angular_momentum : forall s acc, distinct_positions s ->
  total_torque s (add_acc (newton_pair (sm s)) (direct_calls s) acc) = total_torque s acc.
Proof. intros s acc _. apply newton_torque. Qed.
Print Assumptions C20_angular_momentum.

(** C20.  Translation invariance. *)
Theorem C20_translation : forall s d acc k, distinct_positions s -> (k < sn s)%nat ->
  add_acc (newton_pair (sm s)) (direct_calls (mkS (sn s) (sm s) (fun i => vadd (sp s i) d) (sv s))) acc k =
  add_acc (newton_pair (sm s)) (direct_calls s) acc k.
Proof.
  intros s d acc k _ Hk. rewrite !direct_sum by (auto using newton_exchange). f_equal. cbn [sn]. apply vsum_ext. intros j _.
  unfold pull. rewrite !newton_pair_eq. cbn [fst sp].
  replace (vsub (vadd (sp s j) d) (vadd (sp s k) d)) with (vsub (sp s j) (sp s k)); [reflexivity|].
  generalize (sp s j), (sp s k). intros; vring.
Qed.
Print Assumptions C20_translation.

Example C20_case : distinct_positions s4.
Proof.
  intros i j _ _ Hne E. apply Hne. simpl in E. injection E as E _. apply INR_eq; auto.
Qed.
(** Two unit masses at distance 2 attract with 1/4. *)
Definition s2 : sys := mkS 2 (fun _ => 1) (fun k => if (k =? 0)%nat then vzero else mkV 2 0 0) (fun _ => vzero).
Example C20_value : add_acc (newton_pair (sm s2)) (direct_calls s2) (fun _ => vzero) 0 = mkV (/ 4) 0 0.
Proof.
  unfold direct_calls, all_pairs, s2; simpl. unfold add_acc, apply_pair; simpl.
  assert (N : norm (vsub (mkV 2 0 0) vzero) = 2).
  { unfold norm. replace (norm2 (vsub (mkV 2 0 0) vzero)) with (2 * 2) by vring. apply sqrt_square; lra. }
  unfold upd; simpl. rewrite N. apply vec_eq; simpl; field.
Qed.

(** C21.  Total acceleration = internal term + every extra term once, independent of the previous
    contents of the output array. *)
Theorem C21_total : forall internal fs s acc k, additive internal -> Forall additive fs ->
  eval_acc internal fs s acc k = vadd (term internal s k) (fsum fs s k) /\
  eval_newtonian_acc internal s acc k = term internal s k.
Proof.
  intros f fs s acc k H1 H2. unfold eval_acc, eval_newtonian_acc. rewrite add_all_spec by auto.
  rewrite additive_term by auto. unfold set_zero. rewrite vadd_0_l. auto.
Qed.
Print Assumptions C21_total.

(** C21.  Extra acceleration = all extra terms; its two parts are the velocity-dependent and the
    velocity-independent terms, each force in exactly one part. *)
Theorem C21_extra : forall fs s acc k, Forall additive fs -> fs <> [] ->
  eval_extra_acc fs s acc k = fsum fs s k /\
  fsum fs s k = vadd (fsum (filter f_veldep fs) s k) (fsum (filter (fun f => negb (f_veldep f)) fs) s k) /\
  (ext_vel_dep fs = true -> eval_extra_vel_dep_acc fs s acc k = fsum (filter f_veldep fs) s k) /\
  (ext_vel_indep fs = true -> eval_extra_vel_indep_acc fs s acc k = fsum (filter (fun f => negb (f_veldep f)) fs) s k).
Proof.
  intros fs s acc k H Hne. split; [apply eval_extra_spec; auto|]. split; [apply fsum_split|].
  split; intros E; unfold eval_extra_vel_dep_acc, eval_extra_vel_indep_acc; rewrite E.
  - rewrite invoke_dep_spec by auto. apply vadd_0_l.
  - rewrite invoke_indep_spec by auto. apply vadd_0_l.
Qed.
Print Assumptions C21_extra.

(** C21.  When a part is empty (in particular without extra forces) the corresponding evaluation
    leaves the output array exactly as the caller passed it. *)
Theorem C21_empty_part_leaves_array : forall fs s acc,
  (fs = [] -> eval_extra_acc fs s acc = acc) /\
  (ext_vel_dep fs = false -> eval_extra_vel_dep_acc fs s acc = acc) /\
  (ext_vel_indep fs = false -> eval_extra_vel_indep_acc fs s acc = acc).
Proof.
  intros. unfold eval_extra_vel_dep_acc, eval_extra_vel_indep_acc. split; [intros ->; reflexivity|].
  split; intros ->; auto.
Qed.
Print Assumptions C21_empty_part_leaves_array.

(** All pair terms and the one-body terms are additive, so the hypotheses above hold for them. *)
Theorem C21_terms_additive : forall (b : bool) (F : sys -> pair_force) (c cs : nat -> R) (rad : nat -> R),
  additive (mkF b (fun s => add_acc (F s) (direct_calls s))) /\
  additive (mkF b (fun s => add_gas_drag s c cs)) /\
  additive (mkF b (fun s => add_disk_capture s rad)).
Proof.
  intros b F c cs rad. repeat split; eexists; simpl; intros s acc k.
  - apply add_acc_spec, direct_calls_ne.
  - rewrite add_gas_drag_spec. instantiate (1 := fun s k => if (k <? sn s)%nat then gas_drag_acc (sm s) c cs (sv s) k else vzero).
    simpl. destruct (k <? sn s)%nat; auto. rewrite vadd_0_r; auto.
  - apply add_disk_spec. apply Forall_forall. intros i Hi. apply in_seq in Hi. lia.
Qed.
Print Assumptions C21_terms_additive.

Example C21_case : Forall additive [mkF true (fun s => add_acc (pn25_pair 1 (sm s)) (direct_calls s));
                                    mkF false (fun s => add_acc (newton_pair (sm s)) (direct_calls s))].
Proof. repeat constructor; apply (C21_terms_additive _ _ (fun _ => 0) (fun _ => 0) (fun _ => 0)). Qed.

(** C22.  Tides conserve momentum and angular momentum. *)
Theorem C22_tidal_momentum : forall s k tau rad acc, (forall i, (i < sn s)%nat -> sm s i <> 0) ->
  total_force s (add_acc (tidal_pair (sm s) k tau rad) (direct_calls s) acc) = total_force s acc.
Proof. exact tidal_momentum. Qed.
Print Assumptions C22_tidal_momentum.
Theorem C22_tidal_angular_momentum : forall s k tau rad acc, (forall i, (i < sn s)%nat -> sm s i <> 0) ->
  total_torque s (add_acc (tidal_pair (sm s) k tau rad) (direct_calls s) acc) = total_torque s acc.
Proof. exact tidal_torque. Qed.
Print Assumptions C22_tidal_angular_momentum.
(** C22.  No tide between particles with zero apsidal constants. *)
Theorem C22_no_tide : forall m k tau rad dr dv i j, k i = 0 -> k j = 0 ->
  tidal_pair m k tau rad dr dv i j = (vzero, vzero).
Proof. exact tidal_zero. Qed.
Print Assumptions C22_no_tide.
(** C22.  Without lag times the tide is attractive: the acceleration of i points to j. *)
Theorem C22_attractive : forall m k tau rad dr dv i j,
  0 < m i -> 0 < m j -> 0 <= k i -> 0 <= k j -> 0 <= rad i -> 0 <= rad j -> tau i = 0 -> tau j = 0 -> dr <> vzero ->
  exists q, 0 <= q /\ fst (tidal_pair m k tau rad dr dv i j) = vscal q dr.
Proof.
  intros m k tau rad dr dv i j Hmi Hmj Hki Hkj Hri Hrj Hti Htj Hd. unfold tidal_pair. cbv zeta. cbn [fst].
  pose proof (norm_pos dr Hd) as Hr. set (r := norm dr) in *.
  assert (P : forall kk rr mm, 0 <= kk -> 0 <= rr -> 0 < mm ->
     0 <= tidal_coef Gc kk rr mm 0 (dot dv dr) (r * r) (r * r * (r * r) * (r * r * (r * r)))).
  { intros kk rr mm H1 H2 H3. unfold tidal_coef, Gc, Rdiv. rewrite Rmult_0_r, !Rmult_0_l, Rplus_0_r, !Rmult_1_r.
    apply Rmult_le_pos.
    - assert (0 <= rr * rr) by nra. assert (0 <= rr * rr * (rr * rr)) by nra. assert (0 <= rr * rr * (rr * rr) * rr) by nra.
      assert (0 <= 3 * kk) by lra. assert (0 <= 3 * kk * (rr * rr * (rr * rr) * rr)) by (apply Rmult_le_pos; auto).
      apply Rmult_le_pos; [apply Rmult_le_pos|]; lra.
    - left. apply Rinv_0_lt_compat. assert (0 < r * r) by nra. assert (0 < r * r * (r * r)) by (apply Rmult_lt_0_compat; auto).
      apply Rmult_lt_0_compat; auto. }
  rewrite Hti, Htj.
  set (ci := if Req_EM_T (k i) 0 then _ else _). set (cj := if Req_EM_T (k j) 0 then _ else _).
  assert (0 <= ci) by (unfold ci; destruct (Req_EM_T (k i) 0); [lra|apply P; auto]).
  assert (0 <= cj) by (unfold cj; destruct (Req_EM_T (k j) 0); [lra|apply P; auto]).
  exists (ci / m i + cj / m i). split.
  - assert (0 < / m i) by (apply Rinv_0_lt_compat; auto). unfold Rdiv. nra.
  - generalize (ci / m i), (cj / m i). intros; vring.
Qed.
Print Assumptions C22_attractive.
Example C22_case : forall i, (i < sn s4)%nat -> sm s4 i <> 0.
Proof. intros i _. apply not_0_INR. lia. Qed.

(** C23.  Listing the particles in another order only permutes the 1PN and 2.5PN (and Newtonian)
    accelerations. *)
Theorem C23_relabelling : forall pi s ic acc k,
  Permutation (map pi (seq 0 (sn s))) (seq 0 (sn s)) -> (k < sn s)%nat ->
  add_acc (newton_pair (sm (relabel pi s))) (direct_calls (relabel pi s)) (fun k => acc (pi k)) k =
    add_acc (newton_pair (sm s)) (direct_calls s) acc (pi k) /\
  add_acc (pn1_pair ic (sm (relabel pi s)) (sv (relabel pi s))) (direct_calls (relabel pi s)) (fun k => acc (pi k)) k =
    add_acc (pn1_pair ic (sm s) (sv s)) (direct_calls s) acc (pi k) /\
  add_acc (pn25_pair ic (sm (relabel pi s))) (direct_calls (relabel pi s)) (fun k => acc (pi k)) k =
    add_acc (pn25_pair ic (sm s)) (direct_calls s) acc (pi k).
Proof.
  intros pi s ic acc k P Hk. split; [|split].
  - apply (relabel_acc (fun s => newton_pair (sm s))); auto. intros; apply newton_exchange.
  - apply (relabel_acc (fun s => pn1_pair ic (sm s) (sv s))); auto. intros; apply pn1_exchange.
  - apply (relabel_acc (fun s => pn25_pair ic (sm s))); auto. intros; apply pn25_exchange.
Qed.
Print Assumptions C23_relabelling.

(** C23.  The 2PN term is not: two unit masses at distance 1, the first moving along the line
    between them; listing them in the other order changes the acceleration of the second by
    5/c^4 (with c = 1 here: from [a] to [a + 5]). *)
Definition spn : sys := mkS 2 (fun _ => 1) (fun k => if (k =? 0)%nat then vzero else mkV 1 0 0)
                            (fun k => if (k =? 0)%nat then mkV 1 0 0 else vzero).
Definition swap2 (k : nat) : nat := (1 - k)%nat.
Definition pn2_acc (s : sys) (k : nat) : vec := add_acc (pn2_pair 1 (sm s) (sv s)) (direct_calls s) (fun _ => vzero) k.
Theorem C23_pn2_symmetric_refuted :
  Permutation (map swap2 (seq 0 2)) (seq 0 2) /\
  vx (pn2_acc (relabel swap2 spn) 0) - vx (pn2_acc spn 1) = 5 /\
  pn2_acc (relabel swap2 spn) 0 <> pn2_acc spn (swap2 0).
Proof.
  assert (E : vx (pn2_acc (relabel swap2 spn) 0) - vx (pn2_acc spn 1) = 5).
  { unfold pn2_acc, direct_calls, all_pairs, spn, relabel, swap2; simpl. unfold add_acc, apply_pair, pn2_pair, upd; simpl.
    replace (norm2 (vsub vzero (mkV 1 0 0))) with 1 by vring.
    replace (norm2 (vsub (mkV 1 0 0) vzero)) with 1 by vring. rewrite sqrt_1. unfold Gc. vunf. simpl. field. }
  split; [apply perm_swap|]. split; auto. intros X. change (swap2 0) with 1%nat in X. rewrite X in E. lra.
Qed.
Print Assumptions C23_pn2_symmetric_refuted.
Example C23_case : Permutation (map ix4 (seq 0 (sn s4))) (seq 0 (sn s4)).
Proof. exact (proj1 (proj1 C19_case)). Qed.

(** C24.  Static gas drag: what is added is anti-parallel to the velocity, so its power is <= 0. *)
Theorem C24_gas_drag : forall s c cs acc k, (k < sn s)%nat -> 0 <= sm s k -> 0 <= c k -> 0 <= cs k ->
  exists q, 0 <= q /\ add_gas_drag s c cs acc k = vadd (acc k) (vscal (- q) (sv s k)) /\
            dot (vscal (- q) (sv s k)) (sv s k) <= 0.
Proof.
  intros s c cs acc k Hk Hm Hc Hcs. destruct (gas_drag_antiparallel (sm s) c cs (sv s) k Hm Hc Hcs) as (q & Hq & E).
  exists q. split; auto. rewrite add_gas_drag_spec. destruct (Nat.ltb_spec k (sn s)); [|lia]. rewrite E. split; auto.
  pose proof (norm2_nonneg (sv s k)). replace (dot (vscal (- q) (sv s k)) (sv s k)) with (- (q * norm2 (sv s k))) by (generalize (sv s k); intros; vring).
  assert (0 <= q * norm2 (sv s k)) by (apply Rmult_le_pos; auto). lra.
Qed.
Print Assumptions C24_gas_drag.

(** C24.  Disk forces (any magnitudes f and relative velocities): the force on star i >= 1 is
    anti-parallel to its velocity relative to the gas, and the sum of m a added is zero. *)
Theorem C24_disk_drag : forall s f v_rel acc, (1 <= sn s)%nat -> (forall i, (i < sn s)%nat -> 0 < sm s i) ->
  (forall i, 0 <= f i) ->
  total_force s (add_disk s f v_rel acc) = total_force s acc /\
  forall i, (1 <= i < sn s)%nat -> exists q, 0 <= q /\ add_disk s f v_rel acc i = vsub (acc i) (vscal q (v_rel i)).
Proof.
  intros s f w acc Hn Hm Hf. split.
  - apply disk_momentum; auto. intros i Hi. specialize (Hm i Hi). lra.
  - intros i Hi. rewrite disk_star by auto. destruct (disk_term_parallel (f i) (w i) (sm s i)) as (q & Hq & ->); auto.
    + apply Hm; lia.
    + eauto.
Qed.
Print Assumptions C24_disk_drag.

(** C24.  The capture disk's force magnitude is never negative, so the above applies to it. *)
Theorem C24_capture_force_nonneg : forall s rad i, 0 <= sm s 0%nat -> 0 <= capture_f s rad i.
Proof. exact capture_f_nonneg. Qed.
Print Assumptions C24_capture_force_nonneg.
(** The gas moves on circular Keplerian orbits: perpendicular to the radius, speed^2 = M/R. *)
Theorem C24_disk_velocity : forall r M, 0 < vx r * vx r + vy r * vy r -> 0 <= M ->
  dot (disk_v r M) (mkV (vx r) (vy r) 0) = 0 /\
  norm2 (disk_v r M) = M / sqrt (vx r * vx r + vy r * vy r).
Proof.
  intros r M Hr HM. unfold disk_v. cbv zeta. set (rr := sqrt (vx r * vx r + vy r * vy r)).
  assert (Hrr : 0 < rr) by (apply sqrt_lt_R0; auto).
  assert (H2 : rr * rr = vx r * vx r + vy r * vy r) by (apply sqrt_sqrt; lra).
  split; vunf; [field; lra|].
  assert (Hv : sqrt (M / rr) * sqrt (M / rr) = M / rr).
  { apply sqrt_sqrt. apply Rmult_le_pos; auto. left. apply Rinv_0_lt_compat; auto. }
  set (v := sqrt (M / rr)) in *.
  replace (- v * vy r / rr * (- v * vy r / rr) + v * vx r / rr * (v * vx r / rr) + 0 * 0)
    with (v * v * (vx r * vx r + vy r * vy r) / (rr * rr)) by (field; lra).
  rewrite Hv, <- H2. field. lra.
Qed.
Print Assumptions C24_disk_velocity.
Example C24_case : forall i, (i < sn s4)%nat -> 0 < sm s4 i.
Proof. intros i _. apply lt_0_INR. lia. Qed.
