From Coq Require Import Permutation.
From Verif Require Import Inv_Spec Force_Proofs System_Proofs System_Proofs2 Build_Proofs Chain_Proofs.
Open Scope R_scope.

Lemma dot_zero_l x : dot vzero x = 0. Proof. vring. Qed.
Lemma dot_zero_r x : dot x vzero = 0. Proof. vring. Qed.
Lemma shift_none a h : vadd a (vscal h vzero) = a. Proof. vring. Qed.
Lemma shift_more a t u h : vadd (vadd a (vscal t u)) (vscal h u) = vadd a (vscal (t + h) u). Proof. vring. Qed.

Section ISO.
  Variable A : vec -> vec.
  Hypothesis ISO : isometry A.
  Lemma A_add a b : A (vadd a b) = vadd (A a) (A b). Proof. apply ISO. Qed.
  Lemma A_scal k a : A (vscal k a) = vscal k (A a). Proof. apply ISO. Qed.
  Lemma A_dot a b : dot (A a) (A b) = dot a b. Proof. apply ISO. Qed.
  Lemma A_neg a : A (vneg a) = vneg (A a).
  Proof. replace (vneg a) with (vscal (-1) a) by vring. rewrite A_scal. generalize (A a); intros; vring. Qed.
  Lemma A_sub a b : A (vsub a b) = vsub (A a) (A b).
  Proof. rewrite vsub_as_add, A_add, A_neg. generalize (A a), (A b); intros; vring. Qed.
  Lemma A_zero : A vzero = vzero.
  Proof. replace vzero with (vscal 0 vzero) at 1 by vring. rewrite A_scal. generalize (A vzero); intros; vring. Qed.
  Lemma A_norm2 a : norm2 (A a) = norm2 a. Proof. apply A_dot. Qed.
  Lemma A_norm a : norm (A a) = norm a. Proof. unfold norm. rewrite A_norm2. auto. Qed.
  Lemma shift_sub a b d : vsub (vadd (A a) d) (vadd (A b) d) = A (vsub a b).
  Proof. rewrite A_sub. generalize (A a), (A b); intros; vring. Qed.

  (** A pair term that turns with its arguments. *)
  Definition turns (F F' : pair_force) : Prop := forall dr dv i j, F' (A dr) (A dv) i j = (A (fst (F dr dv i j)), A (snd (F dr dv i j))).
  Lemma turns_acc F F' s d u acc acc' k : turns F F' -> (forall k, acc' k = A (acc k)) ->
    add_acc F' (direct_calls (seen A d u s)) acc' k = A (add_acc F (direct_calls s) acc k).
  Proof.
    intros T. unfold direct_calls. change (sn (seen A d u s)) with (sn s). unfold add_acc. revert acc acc'.
    induction (all_pairs (sn s)) as [|[i j] l IH]; intros acc acc' E; cbn [map fold_left]; auto.
    apply IH. intros k'. unfold apply_pair, true_call, seen. cbn [c_dr c_dv c_i c_j sp sv].
    rewrite !shift_sub, T. destruct (F (vsub (sp s j) (sp s i)) (vsub (sv s j) (sv s i)) i j) as [fi fj]. cbn [fst snd].
    unfold upd. destruct (k' =? j)%nat, (j =? i)%nat; rewrite ?E, ?A_add; try reflexivity.
    destruct (k' =? i)%nat; rewrite ?E, ?A_add; reflexivity.
    destruct (k' =? i)%nat; rewrite ?E, ?A_add; reflexivity.
  Qed.
  Lemma newton_turns m : turns (newton_pair m) (newton_pair m).
  Proof. intros dr dv i j. rewrite !newton_pair_eq, A_norm. cbn [fst snd]. rewrite ?A_neg, ?A_scal. reflexivity. Qed.
  Lemma tidal_turns m k tau rad : turns (tidal_pair m k tau rad) (tidal_pair m k tau rad).
  Proof. intros dr dv i j. unfold tidal_pair. cbv zeta. cbn [fst snd]. rewrite A_norm, A_dot. rewrite ?A_neg, ?A_add, ?A_scal. reflexivity. Qed.
  Lemma pn1_turns ic m v v' : (forall k, v' k = A (v k)) -> turns (pn1_pair ic m v) (pn1_pair ic m v').
  Proof.
    intros E dr dv i j. unfold pn1_pair. cbv zeta. cbn [fst snd]. rewrite !E, !A_norm2. rewrite <- (A_neg dr), <- A_scal, !A_dot.
    rewrite ?A_neg, ?A_scal, ?A_sub, ?A_scal, ?A_neg. reflexivity.
  Qed.
  Lemma pn2_turns ic m v v' : (forall k, v' k = A (v k)) -> turns (pn2_pair ic m v) (pn2_pair ic m v').
  Proof.
    intros E dr dv i j. unfold pn2_pair. cbv zeta. cbn [fst snd]. rewrite !E, !A_norm2. rewrite <- (A_neg dr), <- A_scal, !A_dot.
    rewrite ?A_neg, ?A_scal, ?A_sub, ?A_scal, ?A_neg. reflexivity.
  Qed.
  Lemma pn25_turns ic m : turns (pn25_pair ic m) (pn25_pair ic m).
  Proof.
    intros dr dv i j. unfold pn25_pair. cbv zeta. cbn [fst snd]. rewrite !A_norm2. rewrite <- (A_neg dr), <- A_scal, !A_dot.
    rewrite ?A_neg, ?A_scal, ?A_sub, ?A_scal, ?A_neg. reflexivity.
  Qed.
  Lemma drag_turns m c cs v v' i : v' i = A (v i) -> gas_drag_acc m c cs v' i = A (gas_drag_acc m c cs v i).
  Proof.
    intros E. unfold gas_drag_acc. cbv zeta. rewrite E, A_norm. destruct (Rlt_dec (norm (v i)) (cs i)); rewrite A_neg, A_scal; reflexivity.
  Qed.
  Lemma kinetic_seen d s : kinetic_energy (seen A d vzero s) = kinetic_energy s.
  Proof. unfold kinetic_energy. cbn [seen sn sm sv]. f_equal. apply rsum_ext. intros i _. rewrite vadd_0_r, A_dot. auto. Qed.
  Lemma potential_seen d u s : potential_energy (seen A d u s) = potential_energy s.
  Proof.
    unfold potential_energy. cbn [seen sn sm sp]. f_equal.
    generalize 0. generalize (all_pairs (sn s)). induction l as [|[i j] l IH]; intros r; cbn [fold_left fst snd]; auto.
    rewrite shift_sub, A_norm. apply IH.
  Qed.
End ISO.

(** * Energies of renumbered systems *)
Lemma rsum_reindex n (pi : nat -> nat) f : renumbering n pi -> rsum (fun k => f (pi k)) n = rsum f n.
Proof. intros P. rewrite !rsum_lsumR. rewrite <- (lsumR_map f pi). apply lsumR_perm; auto. Qed.
Lemma kinetic_relabel pi s : renumbering (sn s) pi -> kinetic_energy (relabel pi s) = kinetic_energy s.
Proof. intros P. unfold kinetic_energy. cbn [relabel sn sm sv]. f_equal. apply (rsum_reindex _ pi (fun i => sm s i * dot (sv s i) (sv s i))); auto. Qed.
Lemma potential_relabel pi s : renumbering (sn s) pi -> potential_energy (relabel pi s) = potential_energy s.
Proof.
  intros P. unfold potential_energy. rewrite !pe_fold_direct. f_equal. f_equal. change (sn (relabel pi s)) with (sn s).
  set (g := fun ij : nat * nat => sm s (fst ij) * sm s (snd ij) / norm (vsub (sp s (fst ij)) (sp s (snd ij)))).
  rewrite (lsumR_ext _ (fun ab => g (upair (pi (fst ab)) (pi (snd ab))))).
  - rewrite <- (lsumR_map g (fun ab => upair (pi (fst ab)) (pi (snd ab)))). apply lsumR_perm. apply links_perm; auto.
  - intros [a b] _. unfold g, upair. cbn [relabel sm sp fst snd]. destruct (Nat.le_ge_cases (pi a) (pi b)).
    + rewrite Nat.min_l, Nat.max_r by auto. auto.
    + rewrite Nat.min_r, Nat.max_l by auto. rewrite (Rmult_comm (sm s (pi a))), (norm_anti (sp s (pi a))). auto.
Qed.
(** Energies depend on the entries below n only. *)
Definition sys_eq (s s' : sys) : Prop := sn s = sn s' /\ forall k, (k < sn s)%nat -> sm s k = sm s' k /\ sp s k = sp s' k /\ sv s k = sv s' k.
Lemma kinetic_ext s s' : sys_eq s s' -> kinetic_energy s = kinetic_energy s'.
Proof. intros (E & H). unfold kinetic_energy. rewrite <- E. f_equal. apply rsum_ext. intros i Hi. destruct (H i Hi) as (-> & _ & ->). auto. Qed.
Lemma potential_ext s s' : sys_eq s s' -> potential_energy s = potential_energy s'.
Proof.
  intros (E & H). unfold potential_energy. rewrite !pe_fold_direct, <- E. f_equal. f_equal. apply lsumR_ext. intros [a b] Hin.
  apply all_pairs_in in Hin. cbn [fst snd]. destruct (H a) as (-> & -> & _); [lia|]. destruct (H b) as (-> & -> & _); [lia|]. auto.
Qed.

(** * Views of lists *)
Section VIEW.
  Variables (n : nat) (pi : nat -> nat) (A : vec -> vec).
  Hypotheses (PI : renumbering n pi) (ISO : isometry A).
  Lemma pi_lt k : (k < n)%nat -> (pi k < n)%nat.
  Proof. intros. apply (index_fun_inj n pi PI); auto. Qed.
  Lemma view_length d l : length (view n pi A d l) = n.
  Proof. unfold view. rewrite map_length, seq_length. auto. Qed.
  Lemma renum_length m : length (renum n pi m) = n.
  Proof. unfold renum. rewrite map_length, seq_length. auto. Qed.
  Lemma view_nth d l k : (k < n)%nat -> nth k (view n pi A d l) vzero = vadd (A (nth (pi k) l vzero)) d.
  Proof.
    intros H. unfold view. rewrite (nth_indep _ vzero (vadd (A (nth (pi 0%nat) l vzero)) d)) by (rewrite map_length, seq_length; auto).
    rewrite (map_nth (fun k => vadd (A (nth (pi k) l vzero)) d)), seq_nth; auto.
  Qed.
  Lemma renum_nth m k : (k < n)%nat -> nth k (renum n pi m) 0 = nth (pi k) m 0.
  Proof.
    intros H. unfold renum. rewrite (nth_indep _ 0 (nth (pi 0%nat) m 0)) by (rewrite map_length, seq_length; auto).
    rewrite (map_nth (fun k => nth (pi k) m 0)), seq_nth; auto.
  Qed.
  Lemma view_advance d u a b h : length a = n -> length b = n ->
    advance (view n pi A d a) (view n pi A u b) h = view n pi A (vadd d (vscal h u)) (advance a b h).
  Proof.
    intros Ha Hb. apply vlist_ext; [rewrite advance_length, !view_length by (rewrite !view_length; auto); auto|].
    rewrite advance_length, view_length by (rewrite !view_length; auto). intros k Hk.
    rewrite advance_nth by (rewrite !view_length; auto). rewrite !view_nth, advance_nth by (auto; congruence).
    rewrite (A_add A ISO), (A_scal A ISO). generalize (A (nth (pi k) a vzero)), (A (nth (pi k) b vzero)). intros; vring.
  Qed.
  Lemma view_vladd a b : length a = n -> length b = n ->
    vladd (view n pi A vzero a) (view n pi A vzero b) = view n pi A vzero (vladd a b).
  Proof.
    intros Ha Hb. apply vlist_ext; [rewrite vladd_length, !view_length by (rewrite !view_length; auto); auto|].
    rewrite vladd_length, view_length by (rewrite !view_length; auto). intros k Hk.
    rewrite vladd_nth by (rewrite !view_length; auto). rewrite !view_nth, vladd_nth by (auto; congruence).
    rewrite (A_add A ISO), !vadd_0_r. auto.
  Qed.
  Lemma A_vsum f k : A (vsum f k) = vsum (fun i => A (f i)) k.
  Proof. induction k as [|k IH]; cbn [vsum]; [apply A_zero; auto|]. rewrite (A_add A ISO), IH. auto. Qed.
  Lemma dot_vsum x f k : dot x (vsum f k) = rsum (fun i => dot x (f i)) k.
  Proof. induction k as [|k IH]; cbn [vsum rsum]; [apply dot_zero_r|]. rewrite <- IH. generalize (vsum f k), (f k). clear. intros; vring. Qed.
  Lemma view_contract uu m a b : length m = n ->
    contract (renum n pi m) (view n pi A uu a) (view n pi A vzero b) = contract m a b + dot uu (A (net_force m b)).
  Proof.
    intros Hm. unfold contract, net_force. rewrite renum_length, Hm, A_vsum, dot_vsum, <- rsum_add.
    rewrite <- (rsum_reindex n pi (fun i => dot (nth i a vzero) (nth i b vzero) * nth i m 0 + dot uu (A (vscal (nth i m 0) (nth i b vzero))))) by auto.
    apply rsum_ext. intros i Hi. rewrite !view_nth, renum_nth, vadd_0_r, (A_scal A ISO) by auto. rewrite <- (A_dot A ISO (nth (pi i) a vzero) (nth (pi i) b vzero)).
    generalize (A (nth (pi i) a vzero)), (A (nth (pi i) b vzero)), (nth (pi i) m 0). clear. intros; vring.
  Qed.
  Lemma view_sys d u m p v : length m = n ->
    sys_eq (sys_of (renum n pi m) (view n pi A d p) (view n pi A u v)) (seen A d u (relabel pi (sys_of m p v))).
  Proof.
    intros Hm. split; [cbn [sys_of seen relabel sn]; rewrite renum_length; auto|]. cbn [sys_of seen relabel sn sm sp sv]. rewrite renum_length.
    intros k Hk. rewrite renum_nth, !view_nth by auto. auto.
  Qed.
  Lemma view_pot d u m p v : length m = n ->
    potential_energy (sys_of (renum n pi m) (view n pi A d p) (view n pi A u v)) = potential_energy (sys_of m p v).
  Proof.
    intros Hm. rewrite (potential_ext _ _ (view_sys d u m p v Hm)), (potential_seen A ISO), potential_relabel; auto. cbn [sys_of sn]. rewrite Hm; auto.
  Qed.
  Lemma view_kin d uu m p v : length m = n ->
    kinetic_energy (sys_of (renum n pi m) (view n pi A d p) (view n pi A uu v)) =
    kinetic_energy (sys_of m p v) + (dot uu (A (net_force m v)) + 0.5 * (rsum (fun i => nth i m 0) n * dot uu uu)).
  Proof.
    intros Hm. unfold kinetic_energy, net_force. cbn [sys_of sn sm sv]. rewrite renum_length, Hm, A_vsum, dot_vsum.
    rewrite <- (rsum_reindex n pi (fun i => dot uu (A (vscal (nth i m 0) (nth i v vzero))))) by auto.
    rewrite <- (rsum_reindex n pi (fun i => nth i m 0)) by auto.
    rewrite <- (rsum_reindex n pi (fun i => nth i m 0 * dot (nth i v vzero) (nth i v vzero))) by auto.
    rewrite (Rmult_comm (rsum _ n) (dot uu uu)), <- !rsum_scal, <- !rsum_add.
    apply rsum_ext. intros i Hi. rewrite !view_nth, renum_nth, (A_scal A ISO) by auto. rewrite <- (A_dot A ISO (nth (pi i) v vzero) (nth (pi i) v vzero)).
    generalize (A (nth (pi i) v vzero)), (nth (pi i) m 0). clear. intros [x y z] mm. destruct uu as [a b c]. vunf. replace 0.5 with (/ 2) by lra. field.
  Qed.
  (** ** Steps of the plain system *)
  Variable (u : vec) (I : inter).
  Hypotheses (SZ : sized I) (CO : covariant n pi A u I).
  (** [dd]: shift of the origin at time 0. *)
  Definition G (dd : vec) (s s' : st) : Prop :=
    npart s = n /\ s_m s' = renum n pi (s_m s) /\ s_t s' = s_t s /\ s_p s' = view n pi A (vadd dd (vscal (s_t s) u)) (s_p s) /\
    s_v s' = view n pi A u (s_v s) /\ (I_dep I = true -> s_w s' = view n pi A u (s_w s)).
  (** [K]: what the boost adds to the kinetic energy, and takes from the binding energy. *)
  Definition G3 (dd : vec) (K : R) (s s' : st) : Prop := G dd s s' /\ s_om s' = s_om s /\ s_be s' = s_be s - K /\ s_sc s' = s_sc s.
  Definition shift (s : st) : R := dot u (A (momentum s)) + 0.5 * (rsum (fun i => nth i (s_m s) 0) n * dot u u).
  Lemma G_drift e dd s s' h : well_sized I e s -> G dd s s' -> G dd (drift s h) (drift s' h).
  Proof.
    intros (Lp & Lv & _) (N & Em & Et & Ep & Ev & Ew). unfold G, drift, npart in *. cbn [s_m s_t s_p s_v s_w].
    rewrite Em, Et, Ep, Ev. repeat split; auto. rewrite view_advance by congruence. f_equal. apply shift_more.
  Qed.
  Lemma G_kick_vel e dd s s' a h : well_sized I e s -> length a = n -> G dd s s' -> G dd (kick_vel s a h) (kick_vel s' (view n pi A vzero a) h).
  Proof.
    intros (Lp & Lv & _) La (N & Em & Et & Ep & Ev & Ew). unfold G, kick_vel, npart in *. cbn [s_m s_t s_p s_v s_w].
    rewrite Em, Et, Ep, Ev. repeat split; auto. rewrite view_advance by congruence. f_equal. apply shift_none.
  Qed.
  Lemma G_kick_aux e dd s s' a h : well_sized I e s -> length a = n -> G dd s s' -> G dd (kick_aux s a h) (kick_aux s' (view n pi A vzero a) h).
  Proof.
    intros (Lp & Lv & Lw & _) La (N & Em & Et & Ep & Ev & Ew). unfold G, kick_aux, npart in *. cbn [s_m s_t s_p s_v s_w].
    rewrite Em, Et, Ep, Ev. repeat split; auto. intros D. rewrite Ew by auto. rewrite view_advance by (auto; rewrite Lw; auto). f_equal. apply shift_none.
  Qed.
  Lemma G_tot dd s s' : (exists e, well_sized I e s) -> G dd s s' -> tot_vi I (s_m s') (s_p s') = view n pi A vzero (tot_vi I (s_m s) (s_p s)) /\ length (tot_vi I (s_m s) (s_p s)) = n.
  Proof.
    intros (e & Lp & Lv & Lw & _) (N & Em & Et & Ep & Ev & Ew). unfold npart in *. rewrite Em, Ep.
    destruct (SZ (s_m s) (s_p s) (s_v s)) as (L1 & L2 & L3); [congruence|congruence|].
    destruct (CO (vadd dd (vscal (s_t s) u)) (s_m s) (s_p s) (s_v s)) as (C1 & C2 & C3); [congruence|congruence|congruence|].
    unfold tot_vi. destruct (I_ind I); [|split; congruence]. rewrite C1, C2 by auto. split.
    - apply view_vladd; congruence.
    - rewrite vladd_length; congruence.
  Qed.
  Lemma G_vd dd s s' w w' : (exists e, well_sized I e s) -> G dd s s' -> I_dep I = true -> length w = n -> w' = view n pi A u w ->
    I_vd I (s_m s') (s_p s') w' = view n pi A vzero (I_vd I (s_m s) (s_p s) w) /\ length (I_vd I (s_m s) (s_p s) w) = n.
  Proof.
    intros (e & Lp & Lv & Lw & _) (N & Em & Et & Ep & Ev & Ew) D Hw ->. unfold npart in *. rewrite Em, Ep.
    destruct (SZ (s_m s) (s_p s) w) as (L1 & L2 & L3); [congruence|congruence|].
    destruct (CO (vadd dd (vscal (s_t s) u)) (s_m s) (s_p s) w) as (C1 & C2 & C3); [congruence|congruence|congruence|]. split; auto; congruence.
  Qed.
  Lemma G_real e dd vi vi' s s' h : well_sized I e s -> G dd s s' -> I_dep I = true -> length vi = n -> vi' = view n pi A vzero vi ->
    G dd (kick_real_vel I vi s h) (kick_real_vel I vi' s' h).
  Proof.
    intros W H D L ->. destruct (G_vd dd s s' (s_w s) (s_w s')) as (E & Lx); [eauto|auto|auto| |apply H; auto|].
    { destruct W as (_ & _ & Lw & _). rewrite Lw by auto. apply H. }
    unfold kick_real_vel. rewrite E, view_vladd by auto. apply (G_kick_vel e); auto. rewrite vladd_length; congruence.
  Qed.
  Lemma G_pseu e dd vi vi' s s' h : well_sized I e s -> G dd s s' -> I_dep I = true -> length vi = n -> vi' = view n pi A vzero vi ->
    G dd (kick_pseu_vel I vi s h) (kick_pseu_vel I vi' s' h).
  Proof.
    intros W H D L ->. destruct (G_vd dd s s' (s_v s) (s_v s')) as (E & Lx); [eauto|auto|auto| |apply H; auto|].
    { destruct W as (_ & Lv & _). rewrite Lv by auto. apply H. }
    unfold kick_pseu_vel. rewrite E, view_vladd by auto. apply (G_kick_aux e); auto. rewrite vladd_length; congruence.
  Qed.
  Lemma G_kick e dd s s' h : well_sized I e s -> G dd s s' -> G dd (kick I s h) (kick I s' h).
  Proof.
    intros W H. destruct (G_tot dd s s' ltac:(eauto) H) as (E & L).
    assert (LN : length (tot_vi I (s_m s) (s_p s)) = npart s) by (rewrite L; symmetry; apply H).
    unfold kick. destruct (I_dep I) eqn:D.
    - cbv zeta.
      assert (W1 : well_sized I e (kick_real_vel I (tot_vi I (s_m s) (s_p s)) s (0.5 * h))) by (apply ws_real; auto).
      assert (W2 : well_sized I e (kick_pseu_vel I (tot_vi I (s_m s) (s_p s)) (kick_real_vel I (tot_vi I (s_m s) (s_p s)) s (0.5 * h)) h)) by (apply ws_pseu; auto).
      apply (G_real e); auto. apply (G_pseu e); auto. apply (G_real e); auto.
    - unfold eval_total. rewrite D, E. apply (G_kick_vel e); auto.
  Qed.
  Lemma G_pre dd s s' : G dd s s' -> G dd (pre_iter I s) (pre_iter I s').
  Proof.
    intros H. unfold pre_iter. destruct (I_dep I) eqn:D; auto. destruct H as (N & Em & Et & Ep & Ev & Ew). unfold G, npart in *. cbn [s_m s_t s_p s_v s_w]. auto 10.
  Qed.
  Lemma pre_ws e s : well_sized I e s -> well_sized I e (pre_iter I s).
  Proof.
    intros (X & B & C0 & E0). unfold pre_iter. destruct (I_dep I) eqn:E.
    - unfold well_sized, npart in *. cbn [s_m s_p s_v s_w s_inc]. auto.
    - repeat split; auto. intros; congruence.
  Qed.
  Lemma simple_step_ws l s h : well_sized I 1 s -> well_sized I 1 (simple_step I l s h).
  Proof.
    intros W. unfold simple_step. apply (integrate_P drift (kick I) (well_sized I 1)); [intros; apply ws_drift; auto|intros; apply ws_kick; auto|].
    apply pre_ws; auto.
  Qed.
  Lemma G_step l dd s s' h : well_sized I 1 s -> G dd s s' -> G dd (simple_step I l s h) (simple_step I l s' h).
  Proof.
    intros W H. unfold simple_step. apply pre_ws in W. apply G_pre in H. revert W H. generalize (pre_iter I s), (pre_iter I s').
    unfold integrate. induction l as [|[c|c] l IH]; intros a b W H; cbn [fold_left run_op]; auto; apply IH.
    - apply ws_drift; auto.
    - apply (G_drift 1); auto.
    - apply ws_kick; auto.
    - apply (G_kick 1); auto.
  Qed.
  Lemma G_run l dd hs : forall s s', well_sized I 1 s -> G dd s s' -> G dd (fold_left (simple_step I l) hs s) (fold_left (simple_step I l) hs s').
  Proof. induction hs as [|h hs IH]; intros s s' W H; cbn [fold_left]; auto. apply IH; [apply simple_step_ws; auto|apply G_step; auto]. Qed.

  (** ** Steps of the regularised system: no boost, or forces that conserve momentum *)
  Hypothesis BU : u = vzero \/ balanced I.
  Lemma G_pot dd s s' : G dd s s' -> pot s' = pot s.
  Proof. intros (N & Em & Et & Ep & Ev & Ew). unfold pot. rewrite Em, Ep, Ev. apply view_pot; auto. Qed.
  Lemma G_kin dd s s' : G dd s s' -> kin s' = kin s + shift s.
  Proof. intros (N & Em & Et & Ep & Ev & Ew). unfold kin, shift. rewrite Em, Ep, Ev. rewrite view_kin; auto. Qed.
  Lemma A_quiet m a : (balanced I -> net_force m a = vzero) -> dot u (A (net_force m a)) = 0.
  Proof.
    intros H. destruct BU as [->|B]; [apply dot_zero_l|]. rewrite (H B), (A_zero A ISO). apply dot_zero_r.
  Qed.
  Lemma shift_same s s' : (balanced I -> conserves s s') -> s_m s' = s_m s -> shift s' = shift s.
  Proof.
    intros H E. unfold shift. rewrite E. destruct BU as [->|B]; [rewrite !dot_zero_l; auto|]. destruct (H B) as (-> & _). auto.
  Qed.
  Lemma G3_sc dd K s s' k : G3 dd K s s' -> G3 dd K (set_sc s k) (set_sc s' k).
  Proof. intros (H & E1 & E2 & E3). split; [exact H|]. repeat split; auto. Qed.
  Lemma G3_rdrift e r dd s s' h : well_sized I e s -> G3 dd (shift s) s s' -> G3 dd (shift s) (rdrift r s h) (rdrift r s' h).
  Proof.
    intros W H. pose proof H as (HG & E1 & E2 & E3). unfold rdrift.
    assert (Ex : pos_phy r s' h = pos_phy r s h).
    { unfold pos_phy. rewrite E1, E2, E3, (G_kin dd s s') by auto. replace (s_be s - shift s + (kin s + shift s)) with (s_be s + kin s) by ring. auto. }
    rewrite Ex. destruct (pos_phy r s h) as [dt sc]. apply (G3_sc _ _ _ _ sc) in H. destruct H as (H & E).
    split; [apply (G_drift e); auto|]. destruct E as (? & ? & ?). repeat split; auto.
  Qed.
  Lemma G3_omega r dd K s s' newt h : G3 dd K s s' -> length newt = n -> (balanced I -> net_force (s_m s) newt = vzero) ->
    G3 dd K (advance_omega I r s newt h) (advance_omega I r s' (view n pi A vzero newt) h).
  Proof.
    intros (H & E1 & E2 & E3) L Q. pose proof H as (N & Em & Et & Ep & Ev & Ew). split; [exact H|].
    unfold advance_omega. cbn [s_om s_be s_sc]. rewrite E1. repeat split; auto. f_equal. f_equal. unfold calc_domega_dt.
    destruct r; auto. rewrite Em, Ev, view_contract, A_quiet by auto. ring.
  Qed.
  Lemma G3_bindE r dd K s s' a h : G3 dd K s s' -> length a = n -> (balanced I -> net_force (s_m s) a = vzero) ->
    G3 dd K (advance_bindE I r s a h) (advance_bindE I r s' (view n pi A vzero a) h).
  Proof.
    intros (H & E1 & E2 & E3) L Q. pose proof H as (N & Em & Et & Ep & Ev & Ew). split; [exact H|].
    unfold advance_bindE. cbn [s_om s_be s_sc]. rewrite E2. repeat split; auto. unfold calc_dbindE_dt.
    destruct (I_ind I || I_dep I); [|ring]. destruct r; try ring. rewrite Em, Ev, view_contract, A_quiet by auto. ring.
  Qed.
  Lemma G3_kick_vel e dd K s s' a h : well_sized I e s -> length a = n -> G3 dd K s s' -> G3 dd K (kick_vel s a h) (kick_vel s' (view n pi A vzero a) h).
  Proof. intros W L (H & E). split; [apply (G_kick_vel e); auto|exact E]. Qed.
  Lemma G3_kick_aux e dd K s s' a h : well_sized I e s -> length a = n -> G3 dd K s s' -> G3 dd K (kick_aux s a h) (kick_aux s' (view n pi A vzero a) h).
  Proof. intros W L (H & E). split; [apply (G_kick_aux e); auto|exact E]. Qed.
  Lemma G3_real e dd K vi vi' s s' h : well_sized I e s -> G3 dd K s s' -> I_dep I = true -> length vi = n -> vi' = view n pi A vzero vi ->
    G3 dd K (kick_real_vel I vi s h) (kick_real_vel I vi' s' h).
  Proof. intros W (H & E) D L Ev. split; [apply (G_real e); auto|exact E]. Qed.
  Lemma G3_rkick e r dd K s s' h : well_sized I e s -> G3 dd K s s' -> G3 dd K (rkick I r s h) (rkick I r s' h).
  Proof.
    intros W0 H0. unfold rkick. pose proof H0 as (HG0 & _ & _ & E3).
    assert (Ex : vel_phy r s' h = vel_phy r s h) by (unfold vel_phy; rewrite E3, (G_pot dd s s'); auto).
    rewrite Ex. destruct (vel_phy r s h) as [dt sc]. clear Ex.
    assert (W : well_sized I e (set_sc s sc)) by apply W0. assert (H : G3 dd K (set_sc s sc) (set_sc s' sc)) by (apply G3_sc; auto). clear W0 H0 E3 HG0.
    revert W H. generalize (set_sc s sc), (set_sc s' sc). clear s s' sc h. intros s s' W H. cbv zeta.
    pose proof H as (HG & _). pose proof HG as (N & Em & Et & Ep & Ev & Ew). pose proof W as (Lp & Lv & Lw & _).
    destruct (SZ (s_m s) (s_p s) (s_v s)) as (L1 & L2 & L3); [exact Lp|exact Lv|]. change (length (s_m s)) with (npart s) in *. rewrite N in *.
    destruct (CO (vadd dd (vscal (s_t s) u)) (s_m s) (s_p s) (s_v s)) as (C1 & C2 & C3); [exact N|exact Lp|exact Lv|].
    assert (Q : balanced I -> net_force (s_m s) (I_newt I (s_m s) (s_p s)) = vzero /\ (I_ind I = true -> net_force (s_m s) (I_vi I (s_m s) (s_p s)) = vzero)).
    { intros B. destruct (B (s_m s) (s_p s) (s_v s)) as ((B1 & _) & B2 & _); [unfold npart in N; congruence|unfold npart in N; congruence|].
      split; auto. intros D. apply (B2 D). }
    rewrite Em, Ep.
    set (newt := I_newt I (s_m s) (s_p s)) in *. set (ext := I_vi I (s_m s) (s_p s)) in *.
    set (vi := if I_ind I then vladd ext newt else newt).
    assert (Lvi : length vi = n) by (unfold vi; destruct (I_ind I); [rewrite vladd_length; congruence|auto]).
    assert (Evi : (if I_ind I then vladd (I_vi I (renum n pi (s_m s)) (view n pi A (vadd dd (vscal (s_t s) u)) (s_p s))) (I_newt I (renum n pi (s_m s)) (view n pi A (vadd dd (vscal (s_t s) u)) (s_p s)))
      else I_newt I (renum n pi (s_m s)) (view n pi A (vadd dd (vscal (s_t s) u)) (s_p s))) = view n pi A vzero vi).
    { unfold vi. destruct (I_ind I); auto. rewrite C1, C2 by auto. apply view_vladd; auto. }
    rewrite Evi, C1. clear Evi.
    destruct (I_dep I) eqn:D.
    - assert (W1 : well_sized I e (kick_real_vel I vi s (0.5 * dt))) by (apply ws_real; auto; rewrite N; auto).
      assert (H1 : G3 dd K (kick_real_vel I vi s (0.5 * dt)) (kick_real_vel I (view n pi A vzero vi) s' (0.5 * dt))) by (apply (G3_real e); auto).
      assert (N1 : npart (kick_real_vel I vi s (0.5 * dt)) = n) by exact N.
      assert (M1 : s_m (kick_real_vel I vi s (0.5 * dt)) = s_m s) by reflexivity.
      revert W1 H1 N1 M1. generalize (kick_real_vel I vi s (0.5 * dt)), (kick_real_vel I (view n pi A vzero vi) s' (0.5 * dt)). intros s1 s1' W1 H1 N1 M1.
      assert (W2 : well_sized I e (rkick_pseu I r vi newt ext s1 dt)) by (apply ws_rpseu; auto; rewrite N1; auto).
      apply (G3_real e); auto. clear W2.
      destruct (G_vd dd s1 s1' (s_v s1) (s_v s1')) as (E & Lx); [eauto|apply H1|auto| |apply H1|].
      { destruct W1 as (_ & Lv1 & _). rewrite Lv1. auto. }
      assert (Qd : balanced I -> net_force (s_m s1) (I_vd I (s_m s1) (s_p s1) (s_v s1)) = vzero).
      { intros B. destruct W1 as (Lp1 & Lv1 & _). destruct (B (s_m s1) (s_p s1) (s_v s1) Lp1 Lv1) as (_ & _ & B3). apply (B3 D). }
      unfold rkick_pseu. rewrite E. set (vd := I_vd I (s_m s1) (s_p s1) (s_v s1)) in *. cbv zeta. rewrite (view_vladd vi vd) by auto.
      destruct (I_ind I) eqn:DI.
      + rewrite C2 by auto. rewrite (view_vladd ext vd) by auto. apply G3_bindE.
        * apply G3_omega; auto; [|intros B; cbn [kick_aux s_m]; rewrite M1; apply (Q B)].
          apply (G3_kick_aux e); auto. rewrite vladd_length; congruence.
        * rewrite vladd_length; congruence.
        * intros B. cbn [advance_omega kick_aux s_m]. rewrite net_force_add, (Qd B), M1, (proj2 (Q B) eq_refl) by congruence. apply vadd_0_l.
      + apply G3_bindE; auto. apply G3_omega; auto; [|intros B; cbn [kick_aux s_m]; rewrite M1; apply (Q B)].
        apply (G3_kick_aux e); auto. rewrite vladd_length; congruence.
    - assert (Qn : balanced I -> net_force (s_m s) newt = vzero) by (intros B; apply (Q B)).
      assert (Ho : G3 dd K (advance_omega I r s newt (0.5 * dt)) (advance_omega I r s' (view n pi A vzero newt) (0.5 * dt))) by (apply G3_omega; auto).
      assert (Wo : well_sized I e (advance_omega I r s newt (0.5 * dt))) by (apply ws_omega; auto).
      destruct (I_ind I) eqn:DI.
      + assert (Qe : balanced I -> net_force (s_m s) ext = vzero) by (intros B; apply (proj2 (Q B) eq_refl)).
        rewrite C2 by auto. apply G3_omega; auto. apply G3_bindE; auto. apply (G3_kick_vel e); auto; [apply ws_bindE; auto|]. apply G3_bindE; auto.
      + apply G3_omega; auto. apply (G3_kick_vel e); auto.
  Qed.
  Lemma G3_pre dd K s s' : G3 dd K s s' -> G3 dd K (pre_iter I s) (pre_iter I s').
  Proof. intros (H & E). split; [apply G_pre; auto|]. unfold pre_iter. destruct (I_dep I); exact E. Qed.
  Lemma regu_step_ws r l s h : well_sized I 3 s -> well_sized I 3 (regu_step I r l s h).
  Proof.
    intros W. unfold regu_step. apply (integrate_P (rdrift r) (rkick I r) (well_sized I 3)); [intros; apply ws_rdrift; auto|intros; apply ws_rkick; auto|].
    apply pre_ws; auto.
  Qed.
  Lemma rdrift_m r s h : s_m (rdrift r s h) = s_m s. Proof. unfold rdrift. destruct (pos_phy r s h). auto. Qed.
  Lemma rkick_m r s h : s_m (rkick I r s h) = s_m s.
  Proof. unfold rkick. destruct (vel_phy r s h). cbv zeta. unfold rkick_pseu. cbv zeta. destruct (I_dep I), (I_ind I); reflexivity. Qed.
  Definition H3 (dd : vec) (s s' : st) : Prop := G3 dd (shift s) s s'.
  Lemma H3_step r l dd s s' h : well_sized I 3 s -> H3 dd s s' -> H3 dd (regu_step I r l s h) (regu_step I r l s' h).
  Proof.
    intros W H. unfold regu_step. assert (H0 : H3 dd (pre_iter I s) (pre_iter I s')).
    { unfold H3. replace (shift (pre_iter I s)) with (shift s) by (unfold pre_iter; destruct (I_dep I); auto). apply G3_pre; auto. }
    apply pre_ws in W. clear H. revert W H0. generalize (pre_iter I s), (pre_iter I s').
    unfold integrate. induction l as [|[c|c] l IH]; intros a b W H; cbn [fold_left run_op]; auto; apply IH.
    - apply ws_rdrift; auto.
    - unfold H3. rewrite (shift_same a); [apply (G3_rdrift 3); auto| |apply rdrift_m].
      intros _. apply conserves_rdrift. destruct W as (X & Y & _). congruence.
    - apply ws_rkick; auto.
    - unfold H3. rewrite (shift_same a); [apply (G3_rkick 3); auto| |apply rkick_m]. intros B. apply (conserves_rkick I 3); auto.
  Qed.
  Lemma H3_run r l dd hs : forall s s', well_sized I 3 s -> H3 dd s s' -> H3 dd (fold_left (regu_step I r l) hs s) (fold_left (regu_step I r l) hs s').
  Proof. induction hs as [|h hs IH]; intros s s' W H; cbn [fold_left]; auto. apply IH; [apply regu_step_ws; auto|apply H3_step; auto]. Qed.
End VIEW.
