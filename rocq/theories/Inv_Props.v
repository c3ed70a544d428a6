(** C82: the physics does not depend on the observer's axes, origin or uniform motion, nor on the order of the particle list. *)
From Coq Require Import Permutation.
From Verif Require Import Inv_Spec Inv_Proofs Force_Proofs System_Proofs System_Proofs2 Build_Proofs Build_Props Chain_Proofs Reg_Spec Reg_Proofs.
Import System_Spec.
Open Scope R_scope.

(** ** Accelerations *)
(** Turning (or reflecting) the axes, shifting the origin and boosting the observer turns the Newtonian, tidal and 2.5PN
    accelerations along; the same for the 1PN and 2PN terms and the gas drag, whose velocities are absolute, when the observer is not
    boosted. *)
Theorem C82_accelerations A d u s k : isometry A -> let o := fun _ : nat => vzero in
  add_acc (newton_pair (sm s)) (direct_calls (seen A d u s)) o k = A (add_acc (newton_pair (sm s)) (direct_calls s) o k) /\
  (forall kap tau rad, add_acc (tidal_pair (sm s) kap tau rad) (direct_calls (seen A d u s)) o k =
                       A (add_acc (tidal_pair (sm s) kap tau rad) (direct_calls s) o k)) /\
  (forall ic, add_acc (pn25_pair ic (sm s)) (direct_calls (seen A d u s)) o k = A (add_acc (pn25_pair ic (sm s)) (direct_calls s) o k)) /\
  (u = vzero ->
   (forall ic, add_acc (pn1_pair ic (sm s) (sv (seen A d u s))) (direct_calls (seen A d u s)) o k =
               A (add_acc (pn1_pair ic (sm s) (sv s)) (direct_calls s) o k)) /\
   (forall ic, add_acc (pn2_pair ic (sm s) (sv (seen A d u s))) (direct_calls (seen A d u s)) o k =
               A (add_acc (pn2_pair ic (sm s) (sv s)) (direct_calls s) o k)) /\
   (forall c cs, add_gas_drag (seen A d u s) c cs o k = A (add_gas_drag s c cs o k))).
Proof.
  intros H o. assert (O : forall k : nat, o k = A (o k)) by (intros; unfold o; symmetry; apply A_zero; auto).
  split; [apply turns_acc; auto; apply newton_turns; auto|]. split; [intros; apply turns_acc; auto; apply tidal_turns; auto|].
  split; [intros; apply turns_acc; auto; apply pn25_turns; auto|]. intros ->.
  assert (V : forall k, sv (seen A d vzero s) k = A (sv s k)) by (intros; cbn [seen sv]; apply vadd_0_r).
  split; [intros; apply turns_acc; auto; apply pn1_turns; auto|]. split; [intros; apply turns_acc; auto; apply pn2_turns; auto|].
  intros c cs. rewrite !add_gas_drag_spec. change (sn (seen A d vzero s)) with (sn s). destruct (k <? sn s)%nat; unfold o.
  - rewrite (A_add A H), (A_zero A H). f_equal. apply (drag_turns A H). auto.
  - symmetry; apply A_zero; auto.
Qed.
(** Energy does not depend on axes and origin; angular momentum about the origin turns with a rotation. *)
Theorem C82_energy A d s : isometry A -> total_energy (seen A d vzero s) = total_energy s /\
  ((forall a b, cross (A a) (A b) = A (cross a b)) -> total_angular_momentum (seen A vzero vzero s) = A (total_angular_momentum s)).
Proof.
  intros H. split.
  - unfold total_energy. rewrite (potential_seen A H), (kinetic_seen A H). auto.
  - intros X. unfold total_angular_momentum. cbn [seen sn sm sp sv]. induction (sn s) as [|n IH]; cbn [vsum]; [symmetry; apply A_zero; auto|].
    rewrite IH, (A_add A H), (A_scal A H), <- X, !vadd_0_r. auto.
Qed.
(** The 1PN term uses absolute velocities: it is not the same for a moving observer (two unit masses at rest at distance 1, seen by
    an observer moving at unit speed across the line of centres). *)
Theorem C82_pn1_boost_refuted : let s := mkS 2 (fun _ => 1) (fun k => if (k =? 0)%nat then vzero else mkV 1 0 0) (fun _ => vzero) in
  let a := fun s => add_acc (pn1_pair 1 (sm s) (sv s)) (direct_calls s) (fun _ => vzero) 0%nat in
  a (seen (fun x => x) vzero (mkV 0 1 0) s) <> a s.
Proof.
  intros s a E. apply (f_equal vx) in E. revert E. unfold a, s, direct_calls, all_pairs, seen; simpl. unfold add_acc, apply_pair, pn1_pair, upd; simpl.
  replace (norm2 (vsub (vadd (mkV 1 0 0) vzero) (vadd vzero vzero))) with 1 by vring.
  replace (norm2 (vsub (mkV 1 0 0) vzero)) with 1 by vring. rewrite sqrt_1. unfold Gc. vunf. simpl. intros. lra.
Qed.

(** ** Interactions of a whole system *)
Lemma add_acc_ext F F' l : (forall c, In c l -> F (c_dr c) (c_dv c) (c_i c) (c_j c) = F' (c_dr c) (c_dv c) (c_i c) (c_j c)) ->
  forall acc, add_acc F l acc = add_acc F' l acc.
Proof.
  unfold add_acc. induction l as [|c l IH]; intros H acc; cbn [fold_left]; auto.
  unfold apply_pair at 2 4. rewrite (H c) by (left; auto). apply IH. intros; apply H; right; auto.
Qed.
Lemma direct_ext s s' : sys_eq s s' -> direct_calls s = direct_calls s'.
Proof.
  intros (E & H). unfold direct_calls. rewrite <- E. apply map_ext_in. intros [i j] Hin. apply all_pairs_in in Hin. unfold true_call.
  destruct (H i) as (_ & -> & ->); [lia|]. destruct (H j) as (_ & -> & ->); [lia|]. auto.
Qed.
Lemma direct_in s c : In c (direct_calls s) -> (c_i c < sn s)%nat /\ (c_j c < sn s)%nat.
Proof. intros H. apply in_map_iff in H as ([i j] & <- & Hin). apply all_pairs_in in Hin. cbn. lia. Qed.
(** A family of pair terms that reads masses and velocities of the two particles only, is exchange symmetric, and turns. *)
Lemma family_covariant (F : sys -> pair_force) n pi A d u m p v : renumbering n pi -> isometry A -> length m = n ->
  (forall s s' dr dv i j, sys_eq s s' -> (i < sn s)%nat -> (j < sn s)%nat -> F s dr dv i j = F s' dr dv i j) ->
  (forall s, exchange_symmetric (F s)) ->
  (forall s k j, pull (F (relabel pi s)) (relabel pi s) k j = pull (F s) s (pi k) (pi j)) ->
  (forall s, turns A (F s) (F (seen A d u s))) ->
  let acc := fun s => tolist n (add_acc (F s) (direct_calls s) (fun _ => vzero)) in
  acc (sys_of (renum n pi m) (view n pi A d p) (view n pi A u v)) = view n pi A vzero (acc (sys_of m p v)).
Proof.
  intros P H Hm Loc Ex Rel Tu acc. assert (Lt := pi_lt n pi P).
  set (s := sys_of m p v). set (s' := sys_of (renum n pi m) (view n pi A d p) (view n pi A u v)).
  unfold acc, tolist. unfold view. apply map_ext_in. intros k Hk. apply in_seq in Hk.
  pose proof (view_sys n pi A d u m p v Hm) as Q. fold s s' in Q.
  rewrite (nth_indep _ vzero (add_acc (F s) (direct_calls s) (fun _ => vzero) 0%nat)) by (rewrite map_length, seq_length; apply Lt; lia).
  rewrite map_nth, seq_nth, vadd_0_r by (apply Lt; lia). cbn [Nat.add].
  rewrite (direct_ext _ _ Q).
  rewrite (add_acc_ext (F s') (F (seen A d u (relabel pi s)))).
  - rewrite (turns_acc A H (F (relabel pi s)) _ _ _ _ (fun _ => vzero)); auto.
    + f_equal. assert (Sn : sn s = n) by exact Hm. apply (relabel_acc F pi s (fun _ => vzero) k); auto; rewrite Sn; auto; lia.
    + intros; symmetry; apply A_zero; auto.
  - intros c Hc. rewrite <- (direct_ext _ _ Q) in Hc. apply direct_in in Hc. apply Loc; auto; apply Hc.
Qed.
(** Newtonian gravity: any renumbering, axes, origin and boost. *)
Theorem C82_newton_covariant n pi A u : renumbering n pi -> isometry A -> covariant n pi A u newton_only.
Proof.
  intros P H d m p v Hm Hp Hv. split; [|split; discriminate]. cbn [newton_only I_newt]. unfold newton_acc.
  rewrite renum_length, Hm.
  pose proof (family_covariant (fun s => newton_pair (sm s)) n pi A d u m p v P H Hm) as X. cbv zeta in X.
  assert (E : forall m p v, add_acc (newton_pair (sm (sys_of m p v))) (direct_calls (sys_of m p v)) (fun _ => vzero) =
                            add_acc (newton_pair (sm (sys_of m p []))) (direct_calls (sys_of m p [])) (fun _ => vzero)).
  { clear. intros m p v. unfold add_acc, direct_calls. cbn [sys_of sn]. generalize (fun _ : nat => vzero).
    induction (all_pairs (length m)) as [|[i j] l IH]; intros a; cbn [map fold_left]; auto. }
  cbv zeta. rewrite <- (E _ _ (view n pi A u v)), <- (E _ _ v). apply X; clear X E.
  - intros s s' dr dv i j (En & Q) Hi Hj. unfold newton_pair. destruct (Q i Hi) as (-> & _). destruct (Q j Hj) as (-> & _). auto.
  - intros; apply newton_exchange.
  - intros; reflexivity.
  - intros; apply newton_turns; auto.
Qed.
(** Newtonian gravity with 1PN and 2.5PN terms (velocity dependent): any renumbering, axes and origin. *)
Definition pn_gravity (ic : R) : inter := mkI true false newton_acc (fun _ p => p) (fun m p v =>
  let s := sys_of m p v in
  vladd (tolist (length m) (add_acc (pn1_pair ic (sm s) (sv s)) (direct_calls s) (fun _ => vzero)))
        (tolist (length m) (add_acc (pn25_pair ic (sm s)) (direct_calls s) (fun _ => vzero)))).
Theorem C82_pn_covariant ic n pi A : renumbering n pi -> isometry A -> covariant n pi A vzero (pn_gravity ic) /\ sized (pn_gravity ic).
Proof.
  intros P H. split.
  - intros d m p v Hm Hp Hv. split; [apply (C82_newton_covariant n pi A vzero P H d m p v); auto|]. split; [discriminate|]. intros _.
    cbn [pn_gravity I_vd]. cbv zeta. rewrite renum_length, Hm.
    pose proof (family_covariant (fun s => pn1_pair ic (sm s) (sv s)) n pi A d vzero m p v P H Hm) as X1.
    pose proof (family_covariant (fun s => pn25_pair ic (sm s)) n pi A d vzero m p v P H Hm) as X2. cbv zeta in X1, X2.
    rewrite X1, X2; clear X1 X2.
    + apply view_vladd; auto; unfold tolist; rewrite map_length, seq_length; auto.
    + intros s s' dr dv i j (En & Q) Hi Hj. unfold pn25_pair. destruct (Q i Hi) as (-> & _). destruct (Q j Hj) as (-> & _). auto.
    + intros; apply pn25_exchange.
    + intros; reflexivity.
    + intros; apply pn25_turns; auto.
    + intros s s' dr dv i j (En & Q) Hi Hj. unfold pn1_pair. destruct (Q i Hi) as (-> & _ & ->). destruct (Q j Hj) as (-> & _ & ->). auto.
    + intros; apply pn1_exchange.
    + intros; reflexivity.
    + intros s. apply pn1_turns; auto. intros; cbn [seen sv]; apply vadd_0_r.
  - intros m p v Hp Hv. cbn [pn_gravity I_newt I_vi I_vd]. cbv zeta. unfold newton_acc, tolist. rewrite vladd_length; rewrite ?map_length, ?seq_length; auto.
Qed.

(** ** Whole runs *)
Lemma reframed_lists n pi A d u l l' : renumbering n pi -> length l = n -> reframed pi A d u l l' ->
  map b_m l' = renum n pi (map b_m l) /\ map b_p l' = view n pi A d (map b_p l) /\ map b_v l' = view n pi A u (map b_v l).
Proof.
  intros P Hn (L & H). assert (Lt := pi_lt n pi P).
  assert (G : forall k, (k < n)%nat -> exists b, nth_error l (pi k) = Some b /\ nth_error l' k = Some (mkB (b_m b) (vadd (A (b_p b)) d) (vadd (A (b_v b)) u))).
  { intros k Hk. destruct (nth_error l (pi k)) as [b|] eqn:E.
    - exists b. split; auto. apply H; auto; congruence.
    - apply nth_error_None in E. specialize (Lt k Hk). lia. }
  assert (N : forall k, (k < n)%nat -> nth k (map b_m l') 0 = nth (pi k) (map b_m l) 0 /\
    nth k (map b_p l') vzero = vadd (A (nth (pi k) (map b_p l) vzero)) d /\ nth k (map b_v l') vzero = vadd (A (nth (pi k) (map b_v l) vzero)) u).
  { intros k Hk. destruct (G k Hk) as (b & E1 & E2).
    rewrite (nth_error_nth _ _ 0 (map_nth_error b_m _ _ E1)), (nth_error_nth _ _ 0 (map_nth_error b_m _ _ E2)).
    rewrite (nth_error_nth _ _ vzero (map_nth_error b_p _ _ E1)), (nth_error_nth _ _ vzero (map_nth_error b_p _ _ E2)).
    rewrite (nth_error_nth _ _ vzero (map_nth_error b_v _ _ E1)), (nth_error_nth _ _ vzero (map_nth_error b_v _ _ E2)). auto. }
  split; [|split].
  - apply rlist_ext; [rewrite map_length, renum_length; congruence|]. rewrite map_length. intros k Hk. rewrite renum_nth by congruence. apply N; congruence.
  - apply vlist_ext; [rewrite map_length, view_length; congruence|]. rewrite map_length. intros k Hk. rewrite view_nth by congruence. apply N; congruence.
  - apply vlist_ext; [rewrite map_length, view_length; congruence|]. rewrite map_length. intros k Hk. rewrite view_nth by congruence. apply N; congruence.
Qed.
Lemma G_motion n pi A u I d t0 s s' : isometry A -> G n pi A u I (vadd d (vscal (- t0) u)) s s' -> same_motion pi A d u t0 s s'.
Proof.
  intros H (N & Em & Et & Ep & Ev & Ew). unfold same_motion.
  assert (N' : npart s' = n) by (unfold npart; rewrite Em; apply renum_length).
  split; [congruence|]. split; [auto|]. split; [rewrite Ep, view_length; auto|]. split; [rewrite Ev, view_length; auto|].
  intros k Hk. rewrite N in Hk. rewrite Em, Ep, Ev, renum_nth, !view_nth by auto. repeat split; auto.
  generalize (A (nth (pi k) (s_p s) vzero)). clear. intros; vring.
Qed.
Lemma shift_back d t u : vadd (vadd d (vscal (- t) u)) (vscal t u) = d. Proof. vring. Qed.
(** SimpleSystem: the run of the renumbered particles seen by the other observer is the run, renumbered and seen by that observer,
    for any symplectic scheme (or other list of drifts and kicks) and any step sizes. *)
Theorem C82_simple_run pi A d u I l t set set' hs : renumbering (length set) pi -> isometry A -> sized I -> covariant (length set) pi A u I ->
  reframed pi A d u set set' ->
  same_motion pi A d u t (fold_left (simple_step I l) hs (simple_new I t set)) (fold_left (simple_step I l) hs (simple_new I t set')).
Proof.
  intros P H SZ CO RF. destruct (reframed_lists _ pi A d u set set' P eq_refl RF) as (Em & Ep & Ev).
  apply (G_motion (length set) pi A u I); auto. apply G_run; auto.
  - apply C72_simple_new.
  - unfold G, simple_new, npart. cbv zeta. cbn [s_m s_t s_p s_v s_w]. rewrite Em, Ep, Ev, map_length, shift_back. auto 10.
Qed.
(** RegularizedSystem, each regularisation: the same, for a moving observer if the forces conserve momentum (third law); omega and the
    step scale are the same, and so is the sum of binding and kinetic energy, the LogH clock. *)
Theorem C82_regularised_run pi A d u I r l t set set' hs : renumbering (length set) pi -> isometry A -> sized I -> covariant (length set) pi A u I ->
  u = vzero \/ balanced I -> reframed pi A d u set set' ->
  let s := fold_left (regu_step I r l) hs (regu_new I r t set) in let s' := fold_left (regu_step I r l) hs (regu_new I r t set') in
  same_motion pi A d u t s s' /\ s_om s' = s_om s /\ s_sc s' = s_sc s /\ s_be s' + Tkin s' = s_be s + Tkin s /\ (u = vzero -> s_be s' = s_be s).
Proof.
  intros P H SZ CO BU RF. destruct (reframed_lists _ pi A d u set set' P eq_refl RF) as (Em & Ep & Ev). cbv zeta.
  enough (X : H3 (length set) pi A u I (vadd d (vscal (- t) u)) (fold_left (regu_step I r l) hs (regu_new I r t set)) (fold_left (regu_step I r l) hs (regu_new I r t set'))).
  { destruct X as (X & X1 & X2 & X3). split; [apply (G_motion (length set) pi A u I); auto|]. split; auto. split; auto. split.
    - pose proof (G_kin (length set) pi A P H u I _ _ _ X) as E. rewrite <- !kin_T, E, X2. ring.
    - intros ->. rewrite X2. unfold shift. rewrite !dot_zero_l. ring. }
  apply H3_run; auto.
  - apply C72_regularised_new.
  - assert (Lm : length (map b_m set) = length set) by apply map_length. unfold H3, G3, G, regu_new, rnew, npart. cbv zeta. cbn [s_m s_t s_p s_v s_w s_om s_be s_sc].
    unfold total_energy, shift, momentum, npart. cbn [s_m s_v]. rewrite Em, Ep, Ev, map_length, shift_back, (view_pot _ pi A P H), (view_kin _ pi A P H) by auto.
    unfold net_force. rewrite Lm. repeat split; auto. ring.
Qed.
(** Chain systems: whatever indices the (re-)indexing chooses in the two runs, both succeed and show the same motion. *)
Theorem C82_chain_run pi A d u I CI r l t set set' hs : renumbering (length set) pi -> isometry A -> sized I -> covariant (length set) pi A u I ->
  agree I CI (length set) -> (2 <= length set)%nat -> reframed pi A d u set set' ->
  (forall o1 o2 o1' o2', chain_new I t set o1 -> chain_new I t set' o2 ->
     run_steps (chain_step I CI l) o1 hs o1' -> run_steps (chain_step I CI l) o2 hs o2' ->
     exists c c', o1' = Ok c /\ o2' = Ok c' /\ same_motion pi A d u t (c_st c) (c_st c')) /\
  (u = vzero \/ balanced I -> forall o1 o2 o1' o2', archain_new I r t set o1 -> archain_new I r t set' o2 ->
     run_steps (archain_step I CI r l) o1 hs o1' -> run_steps (archain_step I CI r l) o2 hs o2' ->
     exists c c', o1' = Ok c /\ o2' = Ok c' /\ same_motion pi A d u t (c_st c) (c_st c')).
Proof.
  intros P H SZ CO AG Hn RF. pose proof RF as (L & _).
  assert (AG' : agree I CI (length set')) by (rewrite L; auto). assert (Hn' : (2 <= length set')%nat) by (rewrite L; auto).
  assert (SM : forall s1 s1' s2 s2', same_physics s1 s1' -> same_physics s2 s2' -> same_motion pi A d u t s1' s2' -> same_motion pi A d u t s1 s2).
  { intros s1 s1' s2 s2' (E1 & E2 & E3 & E4) (F1 & F2 & F3 & F4). unfold same_motion, npart. rewrite E1, E2, E3, E4, F1, F2, F3, F4. auto. }
  split.
  - intros o1 o2 o1' o2' N1 N2 R1 R2.
    destruct (proj2 (C72_chain_run_is_simple_run I CI l t set hs SZ AG Hn) _ _ N1 R1) as (c & -> & S1 & _).
    destruct (proj2 (C72_chain_run_is_simple_run I CI l t set' hs SZ AG' Hn') _ _ N2 R2) as (c' & -> & S2 & _).
    exists c, c'. split; [auto|]. split; [auto|]. eapply SM; [exact S1|exact S2|]. apply C82_simple_run; auto.
  - intros U o1 o2 o1' o2' N1 N2 R1 R2.
    destruct (proj2 (C72_archain_run_is_regularised_run I CI r l t set hs SZ AG Hn) _ _ N1 R1) as (c & -> & S1 & _).
    destruct (proj2 (C72_archain_run_is_regularised_run I CI r l t set' hs SZ AG' Hn') _ _ N2 R2) as (c' & -> & S2 & _).
    exists c, c'. split; [auto|]. split; [auto|]. eapply SM; [exact S1|exact S2|]. apply C82_regularised_run; auto.
Qed.
(** Non-vacuity: a quarter turn about z and the reflection in the origin are isometries; exchanging two of three particles is a
    renumbering; the reframed list exists. *)
Definition quarter (x : vec) : vec := mkV (- vy x) (vx x) (vz x).
Example C82_case : let set := [mkB 1 (mkV 0 0 0) (mkV 0 0 0); mkB 2 (mkV 1 0 0) (mkV 0 1 0); mkB 3 (mkV 0 5 0) (mkV 0 0 1)] in
  let pi := fun k => match k with 0 => 1 | 1 => 0 | k => k end%nat in
  isometry quarter /\ (forall a b, cross (quarter a) (quarter b) = quarter (cross a b)) /\ isometry vneg /\ renumbering (length set) pi /\
  reframed pi quarter (mkV 7 0 0) (mkV 0 0 1) set [mkB 2 (mkV 7 1 0) (mkV (-1) 0 1); mkB 1 (mkV 7 0 0) (mkV 0 0 1); mkB 3 (mkV 2 0 0) (mkV 0 0 2)].
Proof.
  cbv zeta. split; [|split; [|split; [|split]]].
  - unfold quarter. repeat split; intros; try vring; destruct a, b; unfold dot; cbn [vx vy vz]; ring.
  - intros [] []. unfold quarter. vunf. f_equal; ring.
  - repeat split; intros; vring.
  - apply perm_swap.
  - split; [reflexivity|]. intros k b Hk. destruct k as [|[|[|k]]]; [| | |cbn [length] in Hk; lia]; cbn [nth_error]; intros E; injection E as <-;
    cbn [b_m b_p b_v quarter vx vy vz]; unfold quarter; vunf; do 2 f_equal; f_equal; ring.
Qed.

Print Assumptions C82_accelerations.
Print Assumptions C82_energy.
Print Assumptions C82_pn1_boost_refuted.
Print Assumptions C82_newton_covariant.
Print Assumptions C82_pn_covariant.
Print Assumptions C82_simple_run.
Print Assumptions C82_regularised_run.
Print Assumptions C82_chain_run.
