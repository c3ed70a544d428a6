(** Ordinary numbers: the special-value system computes what the real-number system computes. *)
From Verif Require Import Nan_Spec Nan_Proofs Nan_Proofs2 Nan_Proofs3 Nan_Proofs4 Ctrl_Spec Ctrl_Proofs BS_Proofs2 Force_Proofs System_Proofs2.
Open Scope R_scope.

Lemma fin_length l : length (fin l) = length l. Proof. apply map_length. Qed.
Lemma xcoords_fin l : xcoords (map efin l) = fin (coords l).
Proof. induction l as [|v l IH]; [reflexivity|]. cbn [map xcoords coords flat_map app efin ex ey ez]. unfold xcoords, coords in IH. rewrite IH. reflexivity. Qed.
Lemma evscal_fin h v : evscal (Fin h) (efin v) = efin (vscal h v).
Proof. unfold evscal, efin, vscal. cbn [ex ey ez vx vy vz emul]. repeat (f_equal; try ring). Qed.
Lemma scaled_fin h l : xcoords (map (evscal (Fin h)) (map efin l)) = fin (scaled l h).
Proof. unfold scaled. rewrite <- xcoords_fin, !map_map. f_equal. apply map_ext. intros v. apply evscal_fin. Qed.
Lemma add_at_fin : forall inc off ds, xadd_at off (fin ds) (fin inc) = fin (add_at off ds inc).
Proof.
  induction inc as [|x inc IH]; intros [|off] ds; try reflexivity.
  - destruct ds as [|d ds]; [reflexivity|]. cbn [fin map xadd_at add_at eadd]. f_equal. apply (IH 0%nat ds).
  - cbn [fin map xadd_at add_at]. f_equal. apply (IH off ds).
Qed.
Lemma xadvance_fin a b h : xadvance (map efin a) (map efin b) (Fin h) = map efin (advance a b h).
Proof.
  unfold xadvance, advance. rewrite combine_map, !map_map. apply map_ext. intros [x y]. cbn [fst snd]. apply efin_adv.
Qed.
Lemma xsync_fin s off ds inc : xsync (emb_st s) off (fin ds) (fin inc) = fin (sync s off ds inc).
Proof. unfold xsync, sync. cbn [xs_sync emb_st]. destruct (s_sync s); [apply add_at_fin|reflexivity]. Qed.
Lemma drift_fin s h : xdrift (emb_st s) (Fin h) = emb_st (drift s h).
Proof.
  unfold xdrift. cbn [xs_m xs_t xs_p xs_v xs_inc]. change (xs_m (emb_st s)) with (fin (s_m s)). change (xs_p (emb_st s)) with (map efin (s_p s)).
  change (xs_v (emb_st s)) with (map efin (s_v s)). change (xs_inc (emb_st s)) with (fin (s_inc s)). change (xs_t (emb_st s)) with (Fin (s_t s)).
  change [Fin h] with (fin [h]). rewrite xadvance_fin, scaled_fin, !xsync_fin. reflexivity.
Qed.
Lemma nth_efin k p : nth k (map efin p) ezerov = efin (nth k p vzero).
Proof. change ezerov with (efin vzero). apply map_nth. Qed.
Lemma nth_fin k m : nth k (fin m) (Fin 0) = Fin (nth k m 0). Proof. unfold fin. apply (map_nth Fin). Qed.
Lemma evsub_fin a b : evsub (efin a) (efin b) = efin (vsub a b). Proof. reflexivity. Qed.
Lemma enorm_fin v : enorm (efin v) = Fin (norm v).
Proof.
  unfold enorm, efin. cbn [ex ey ez emul eadd esqrt]. destruct (Rlt_dec (vx v * vx v + vy v * vy v + vz v * vz v) 0); [nra|]. unfold norm, norm2. repeat f_equal.
Qed.
Lemma force_fin m p acc i j : (i <> j)%nat -> nth i p vzero <> nth j p vzero -> forall k,
  xforce (fin m) (map efin p) (fun k => efin (acc k)) (i, j) k = efin (apply_pair (newton_pair (sm (sys_of m p []))) acc (true_call (sys_of m p []) (i, j)) k).
Proof.
  intros Hij Hne k. unfold xforce. cbv zeta. rewrite !nth_efin, !nth_fin, evsub_fin, enorm_fin.
  assert (N : 0 < norm (vsub (nth j p vzero) (nth i p vzero))).
  { apply norm_pos. intros E. apply Hne. apply vec_eq.
    - apply (f_equal vx) in E. cbn in E. lra.
    - apply (f_equal vy) in E. cbn in E. lra.
    - apply (f_equal vz) in E. cbn in E. lra. }
  cbn [emul]. rewrite ediv_fin by (apply Rgt_not_eq; repeat apply Rmult_lt_0_compat; exact N).
  unfold apply_pair, newton_pair, true_call, sys_of, upd. cbn [sp sm sn sv c_i c_j c_dr c_dv].
  set (d := vsub (nth j p vzero) (nth i p vzero)) in *. clearbody d.
  destruct (k =? i)%nat eqn:Q1.
  - apply Nat.eqb_eq in Q1. subst k. destruct (i =? j)%nat eqn:Q2; [apply Nat.eqb_eq in Q2; congruence|]. reflexivity.
  - destruct (k =? j)%nat eqn:Q2; [|reflexivity]. apply Nat.eqb_eq in Q2. subst k. rewrite Q1. reflexivity.
Qed.
Lemma xforce_ext m p a b ij k : (forall k, a k = b k) -> xforce m p a ij k = xforce m p b ij k.
Proof. intros H. destruct ij as [i j]. unfold xforce. cbv zeta. rewrite !H. reflexivity. Qed.
Lemma pairs_fin m p l : Forall (fun ij => fst ij <> snd ij /\ nth (fst ij) p vzero <> nth (snd ij) p vzero) l -> forall xa acc, (forall k, xa k = efin (acc k)) ->
  forall k, fold_left (xforce (fin m) (map efin p)) l xa k = efin (add_acc (newton_pair (sm (sys_of m p []))) (map (true_call (sys_of m p [])) l) acc k).
Proof.
  unfold add_acc. induction l as [|[i j] l IH]; intros F xa acc H k; cbn [fold_left map]; [apply H|]. inversion F as [|? ? F1 F2]; subst. cbn [fst snd] in F1.
  apply IH; [exact F2|]. intros k'. rewrite (xforce_ext _ _ _ (fun k => efin (acc k))) by exact H. apply force_fin; tauto.
Qed.
Lemma collides_no n p : collides n p = false -> Forall (fun ij => fst ij <> snd ij /\ nth (fst ij) p vzero <> nth (snd ij) p vzero) (all_pairs n).
Proof.
  intros H. apply Forall_forall. intros [i j] Hin. split; [apply all_pairs_in in Hin; cbn; lia|]. intros E. unfold collides in H.
  assert (X : existsb (fun ij => let a := nth (fst ij) p vzero in let b := nth (snd ij) p vzero in
    if Req_EM_T (vx a) (vx b) then if Req_EM_T (vy a) (vy b) then if Req_EM_T (vz a) (vz b) then true else false else false else false) (all_pairs n) = true).
  { apply existsb_exists. exists (i, j). split; [exact Hin|]. cbv zeta. rewrite E. destruct (Req_EM_T _ _); [|congruence]. destruct (Req_EM_T _ _); [|congruence].
    destruct (Req_EM_T _ _); [reflexivity|congruence]. }
  exact (eq_true_false_abs _ X H).
Qed.
Lemma newton_fin m p : collides (length m) p = false -> xnewton (fin m) (map efin p) = map efin (newton_acc m p).
Proof.
  intros H. unfold xnewton, newton_acc. cbv zeta. unfold tolist. rewrite map_map. replace (length (fin m)) with (length m) by (symmetry; apply map_length).
  apply map_ext. intros k. unfold direct_calls. change (sn (sys_of m p [])) with (length m). apply pairs_fin; [apply collides_no; exact H|reflexivity].
Qed.
Lemma kick_fin s h : collides (length (s_m s)) (s_p s) = false -> xkick (emb_st s) (Fin h) = emb_st (kick newton_only s h).
Proof.
  intros H. unfold xkick, kick. cbn [newton_only I_dep]. change (eval_total newton_only (s_m s) (s_p s) (s_v s)) with (newton_acc (s_m s) (s_p s)).
  change (xs_m (emb_st s)) with (fin (s_m s)). change (xs_p (emb_st s)) with (map efin (s_p s)).
  change (xs_v (emb_st s)) with (map efin (s_v s)). change (xs_inc (emb_st s)) with (fin (s_inc s)). change (xs_t (emb_st s)) with (Fin (s_t s)).
  cbv zeta. rewrite newton_fin by exact H. rewrite xadvance_fin, scaled_fin, xsync_fin, fin_length. reflexivity.
Qed.
Lemma ops_fin h : forall l s s', safe_ops h l s = Ok s' -> fold_left (fun s o => xop s (Fin h) o) l (emb_st s) = emb_st s'.
Proof.
  induction l as [|[c|c] l IH]; intros s s' E; cbn [safe_ops fold_left] in *; [congruence| |].
  - cbn [xop emul]. rewrite drift_fin. apply IH, E.
  - destruct (collides (length (s_m s)) (s_p s)) eqn:Q; [discriminate|]. cbn [xop emul]. rewrite kick_fin by exact Q. apply IH, E.
Qed.
Lemma run_fin kdk s h n q dy : safe_run kdk s h n = Ok (q, dy) -> xrun kdk (emb_st s) (Fin h) n = Ok (emb_st q, fin dy).
Proof.
  unfold safe_run, xrun. destruct n as [|n]; [discriminate|]. intros E. apply obind_ok in E. destruct E as (s' & E & E2). injection E2 as <- <-.
  assert (0 < INR (S n)) by (apply lt_0_INR; lia). rewrite ediv_fin by lra.
  assert (C0 : xclear (emb_st s) = emb_st (clear_increment s)) by (unfold xclear, emb_st, clear_increment; cbn; f_equal; unfold fin; rewrite !map_map; reflexivity).
  rewrite C0, (ops_fin _ _ _ _ E). reflexivity.
Qed.
Lemma to_vecs_fin : forall k l, xto_vecs k (fin l) = map efin (to_vecs k l).
Proof. induction k as [|k IH]; intros l; [reflexivity|]. destruct l as [|x [|y [|z l]]]; try reflexivity. cbn [fin map xto_vecs to_vecs efin vx vy vz]. f_equal. apply IH. Qed.
Lemma read_fin s y q : read newton_only s y = Ok q -> xread (emb_st s) (fin y) = Ok (emb_st q).
Proof.
  unfold read, xread. change (xs_m (emb_st s)) with (fin (s_m s)). cbv zeta. rewrite !fin_length. unfold npart.
  assert (V : variable_number newton_only 1 (length (s_m s)) = (length (s_m s) * 3 * 2 + 1)%nat) by (unfold variable_number; cbn [newton_only I_dep Nat.b2n Nat.add]; lia).
  rewrite V. destruct (length y =? length (s_m s) * 3 * 2 + 1)%nat; [|discriminate]. intros E. apply obind_ok in E. destruct E as (t & E1 & E). injection E as <-.
  unfold fin at 1. rewrite aget_map, E1. cbn [omap obind]. f_equal. unfold emb_st. cbn [s_m s_t s_p s_v s_inc s_sync newton_only I_dep].
  unfold load_coords, fin. rewrite !skipn_map. fold (fin (skipn pos_offset y)). fold (fin (skipn (vel_offset (length (s_m s))) y)). rewrite !to_vecs_fin.
  unfold pos_offset, vel_offset, aux_offset.
  replace ((length (s_m s) * 3 + 1 - 1) / 3)%nat with (length (s_m s)) by (replace (length (s_m s) * 3 + 1 - 1)%nat with (length (s_m s) * 3)%nat by lia; rewrite Nat.div_mul; lia).
  replace ((length (s_m s) * 6 + 1 - (length (s_m s) * 3 + 1)) / 3)%nat with (length (s_m s))
    by (replace (length (s_m s) * 6 + 1 - (length (s_m s) * 3 + 1))%nat with (length (s_m s) * 3)%nat by lia; rewrite Nat.div_mul; lia).
  reflexivity.
Qed.
Lemma write_fin s : xwrite (emb_st s) = fin (write newton_only s).
Proof. unfold xwrite, write. cbn [newton_only I_dep emb_st xs_t xs_p xs_v]. rewrite !xcoords_fin, app_nil_r. unfold fin. cbn [map]. rewrite map_app. reflexivity. Qed.
Lemma worst_fin atol rtol a b c : 0 < atol -> 0 <= rtol -> xwo_error atol rtol (fin a) (fin b) (fin c) = Fin (worst atol rtol a b c) /\ 0 <= worst atol rtol a b c.
Proof.
  intros Ha Hr. unfold xwo_error, worst. rewrite zip3_fin, fold_left_map_eq. assert (G : forall l m, 0 <= m ->
    fold_left (fun z x => emax z (wo_ratio atol rtol (fin3 x))) l (Fin m) = Fin (fold_left (fun m '(a, b, b') => Rmax m (Rabs (b' - b) / (atol + Rmax (Rabs b) (Rabs a) * rtol))) l m) /\
    0 <= fold_left (fun m '(a, b, b') => Rmax m (Rabs (b' - b) / (atol + Rmax (Rabs b) (Rabs a) * rtol))) l m).
  { induction l as [|[[x y] w] l IH]; intros m Hm; cbn [fold_left]; [auto|]. cbn [fin3]. unfold wo_ratio at 2. rewrite esub_fin. cbn [eabs]. rewrite emax_fin. cbn [emul eadd].
    assert (0 <= Rmax (Rabs y) (Rabs x)) by (apply Rle_trans with (Rabs y); [apply Rabs_pos|apply Rmax_l]).
    rewrite ediv_fin by nra. rewrite emax_fin. apply IH. apply Rle_trans with m; [exact Hm|apply Rmax_l]. }
  apply G. lra.
Qed.
Lemma real_call_agree tries M kdk atol rtol cf s1 s2 b s h b' s' h' : (M <= 24)%nat -> 0 < atol -> 0 <= rtol -> guards cf = (s1, s2) -> 0 < s1 -> 0 < s2 -> h <> 0 ->
  real_call tries M kdk atol rtol s1 s2 b s h = Ok (b', s', h') ->
  xbs_call tries M kdk (xwo_error atol rtol) (configured cf) (emb_bs b) (emb_st s) (Fin h) = Ok (emb_bs b', emb_st s', Fin h').
Proof.
  intros HM Ha Hr G H1 H2 Hh E. unfold xbs_call.
  apply (iterate_agree tries M kdk st xst emb_st (write newton_only) xwrite (read newton_only) xread set_sync xcollect (safe_run kdk) (xrun kdk) (worst atol rtol) (xwo_error atol rtol)
    (real_next s1 s2) (fun o e => next (configured cf) o (Err1 e)) real_limit (limiter (configured cf))); auto.
  - apply write_fin.
  - apply read_fin.
  - apply run_fin.
  - intros x y z. apply worst_fin; auto.
  - intros x y z. apply worst_fin; auto.
  - intros k e Hk He. unfold real_next. destruct (Req_EM_T e 0) as [Z|Z].
    + subst e. cbn [next Ctrl_Model.nonzero]. destruct (Req_EM_T 0 0); [|lra]. rewrite max_get by lia. split; [reflexivity|]. pose proof (factors (2 * k + 1)). lra.
    + rewrite (next_pos cf (2 * k + 1) s1 s2 e) by (auto; lia || lra). split; [reflexivity|]. apply Rmult_lt_0_compat; [exact H1|apply exp_pos].
  - intros k r Hk. unfold limiter, real_limit. rewrite min_get, max_get by lia. cbn [obind]. rewrite in_range_fin by apply factors_le. split; [reflexivity|].
    pose proof (factors (2 * k + 1)). pose proof (clamp_bounds (low_factor (2 * k + 1)) (high_factor (2 * k + 1)) r (factors_le _)). lra.
Qed.
(** A safe run is the plain run. *)
Lemma safe_ops_integrate h : forall l s s', safe_ops h l s = Ok s' -> s' = integrate drift (kick newton_only) l s h.
Proof.
  unfold integrate. induction l as [|[c|c] l IH]; intros s s' E; cbn [safe_ops fold_left run_op] in *; [congruence|apply IH, E|].
  destruct (collides (length (s_m s)) (s_p s)); [discriminate|apply IH, E].
Qed.
Lemma safe_run_is_run kdk s h n q dy : safe_run kdk s h n = Ok (q, dy) -> simple_run newton_only kdk s h n = Ok (q, dy).
Proof.
  unfold safe_run, simple_run. destruct n as [|n]; [discriminate|]. intros E. apply obind_ok in E. destruct E as (s' & E & E2). rewrite <- (safe_ops_integrate _ _ _ _ E). exact E2.
Qed.

(** * The RMS checker on the system *)
Lemma xadd_at_length : forall inc off ds, length (xadd_at off ds inc) = length inc.
Proof. induction inc as [|x inc IH]; intros [|off] [|d ds]; cbn [xadd_at length]; auto. Qed.
Definition keeps (n : nat) (s : xst) : Prop := length (xs_m s) = n /\ length (xs_inc s) = (6 * n + 1)%nat /\ xs_sync s = true.
Lemma xsync_length s off ds inc : length (xsync s off ds inc) = length inc.
Proof. unfold xsync. destruct (xs_sync s); auto. apply xadd_at_length. Qed.
Lemma op_keeps n s h o : keeps n s -> keeps n (xop s h o).
Proof.
  intros (A & B & D0). destruct o as [c|c]; cbn [xop]; unfold keeps, xdrift, xkick; cbn [xs_m xs_inc xs_sync]; rewrite ?xsync_length; auto.
Qed.
Lemma ops_keep n h l : forall s, keeps n s -> keeps n (fold_left (fun s o => xop s h o) l s).
Proof. induction l as [|o l IH]; intros s H; cbn [fold_left]; auto. apply IH, op_keeps, H. Qed.
Lemma clear_keeps n s : keeps n s -> keeps n (xclear s).
Proof. intros (A & B & D0). unfold keeps, xclear. cbn [xs_m xs_inc xs_sync]. rewrite map_length. auto. Qed.
Lemma run_keeps kdk n p h k q dy : keeps n p -> xrun kdk p h k = Ok (q, dy) -> length dy = (6 * n + 1)%nat /\ keeps n q.
Proof.
  intros H E. unfold xrun in E. cbv zeta in E. injection E as E1 E2. pose proof (ops_keep n (ediv h (Fin (INR k))) (nsteps_ops kdk k) _ (clear_keeps n p H)) as K0. rewrite E1 in K0.
  subst dy. rewrite E1. split; [apply K0|exact K0].
Qed.
Lemma read_keeps n p y q : keeps n p -> xread p y = Ok q -> keeps n q.
Proof.
  intros (A & B & D0) E. unfold xread in E. cbv zeta in E. destruct (_ =? _)%nat; [|discriminate]. apply obind_ok in E. destruct E as (t & _ & E). injection E as <-. unfold keeps. auto.
Qed.
Definition numbers (s : xst) : Prop := finite (xs_t s) /\ Forall finite (xcoords (xs_p s)) /\ Forall finite (xcoords (xs_v s)).
Lemma to_vecs_finite : forall k l, Forall finite l -> Forall finite (xcoords (xto_vecs k l)).
Proof.
  induction k as [|k IH]; intros l H; [constructor|]. destruct l as [|x [|y [|z l]]]; try constructor. 
  - inversion H; auto.
  - cbn [xto_vecs xcoords flat_map app ex ey ez]. inversion H as [|? ? H1 H2]; subst. inversion H2 as [|? ? H3 H4]; subst. inversion H4 as [|? ? H5 H6]; subst.
    constructor; [exact H3|]. constructor; [exact H5|]. apply IH. exact H6.
Qed.
Lemma forall_skipn {A} (Q : A -> Prop) k : forall l, Forall Q l -> Forall Q (skipn k l).
Proof. induction k as [|k IH]; intros [|x l] H; cbn; auto. inversion H; auto. Qed.
Lemma read_numbers p y q : Forall finite y -> xread p y = Ok q -> numbers q.
Proof.
  intros H E. unfold xread in E. cbv zeta in E. destruct (_ =? _)%nat; [|discriminate]. apply obind_ok in E. destruct E as (t & E1 & E). injection E as <-. unfold numbers. cbn [xs_t xs_p xs_v].
  apply aget_nth_error, nth_error_In in E1. split; [rewrite Forall_forall in H; apply H, E1|]. split; [apply to_vecs_finite, (forall_skipn finite pos_offset y H)|apply to_vecs_finite, (forall_skipn finite (vel_offset (length (xs_m p))) y H)].
Qed.
Lemma rms_call tries M kdk atol rtol c b s h b' s' h' : 0 < atol -> 0 <= rtol -> length (xs_p s) = length (xs_m s) -> length (xs_v s) = length (xs_m s) ->
  length (xs_inc s) = (6 * length (xs_m s) + 1)%nat -> numbers s ->
  xbs_call tries M kdk (xrms_error atol rtol) c b s h = Ok (b', s', h') ->
  numbers s' /\ exists p0 p h k q dy, keeps (length (xs_m s)) p0 /\ xread p0 (xwrite s) = Ok p /\ (1 <= k <= M)%nat /\ xrun kdk p h (h_at (M + 1) k) = Ok (q, dy) /\ Forall finite dy.
Proof.
  intros Ha Hr L1 L2 L3 (N1 & N2 & N3) E. unfold xbs_call, xiterate in E. cbv zeta in E.
  assert (K0 : keeps (length (xs_m s)) (xcollect s true)) by (unfold keeps; cbn; auto).
  assert (Fi : Forall finite (xwrite s)) by (unfold xwrite; constructor; [exact N1|apply Forall_app; auto]).
  assert (Li : length (xwrite s) = (6 * length (xs_m s) + 1)%nat) by (unfold xwrite; cbn [length]; rewrite app_length, !xcoords_length; lia).
  destruct (attempts_rms M kdk xst xread xcollect (xrun kdk) atol rtol (fun o e => next c o (Err1 e)) (limiter c) Ha Hr _ (keeps (length (xs_m s)))
    (fun p h n q dy => run_keeps kdk (length (xs_m s)) p h n q dy) (read_keeps (length (xs_m s))) _ Fi Li tries b _ h b' s' h' K0 E) as [(q & p3 & dy & Iq & Fd & Fz & Er & ->) Fr].
  split; [|exact Fr]. exact (read_numbers q _ p3 Fz Er).
Qed.

(** A step that is not a number (or infinite) leaves a time that is not a number. *)
Lemma nf_add a b : ~ finite a \/ ~ finite b -> ~ finite (eadd a b).
Proof.
  intros H [r E]. destruct a as [x| | |], b as [y| | |]; cbn in E; try discriminate. destruct H as [H|H]; apply H; eexists; reflexivity.
Qed.
Lemma nf_mul c h : c <> 0 -> ~ finite h -> ~ finite (emul (Fin c) h).
Proof.
  intros Hc H [r E]. destruct h as [x| | |]; cbn in E; try discriminate; [apply H; eexists; reflexivity| |];
    unfold esgn in E; destruct (Rlt_dec 0 c); try discriminate; destruct (Rlt_dec c 0); try discriminate; lra.
Qed.
Lemma nf_div h n : ~ finite h -> ~ finite (ediv h (Fin n)).
Proof.
  intros H [r E]. destruct h as [x| | |]; cbn in E; try discriminate; [apply H; eexists; reflexivity| |]; destruct (Rlt_dec n 0); discriminate.
Qed.
Definition head_nf (s : xst) : Prop := exists T r, xs_inc s = T :: r /\ ~ finite T.
Lemma head_op s h o n : keeps n s -> ~ finite h -> (forall c, o = D c -> c <> 0) -> head_nf s \/ isD o = true -> head_nf (xop s h o).
Proof.
  intros (A & B & Sy) Hh Hc H. destruct o as [c|c]; cbn [xop isD] in *.
  - unfold head_nf, xdrift, xsync. cbn [xs_inc]. rewrite Sy. destruct (xs_inc s) as [|T r] eqn:E; [cbn in B; lia|].
    unfold time_offset, pos_offset. cbn [xadd_at]. eexists _, _. split; [reflexivity|]. apply nf_add. right. apply nf_mul; auto.
  - destruct H as [(T & r & E & N)|H]; [|discriminate]. unfold head_nf, xkick, xsync. cbn [xs_inc]. rewrite Sy, E. unfold vel_offset.
    replace (length (xs_m s) * 3 + 1)%nat with (S (length (xs_m s) * 3)) by lia. cbn [xadd_at]. eexists _, _. split; [reflexivity|exact N].
Qed.
Lemma head_ops h n : ~ finite h -> forall l s, keeps n s -> (forall c, In (D c) l -> c <> 0) -> head_nf s \/ existsb isD l = true -> head_nf (fold_left (fun s o => xop s h o) l s).
Proof.
  intros Hh. induction l as [|o l IH]; intros s Ks Hc H; cbn [fold_left]; [destruct H as [H|H]; [exact H|discriminate]|].
  apply IH; [apply op_keeps, Ks|intros c Hi; apply Hc; right; exact Hi|].
  destruct H as [H|H]; [left; apply (head_op _ _ _ n); auto; intros c ->; apply Hc; left; reflexivity|]. cbn [existsb] in H.
  destruct (isD o) eqn:Q; [left; apply (head_op _ _ _ n); auto; intros c ->; apply Hc; left; reflexivity|right; exact H].
Qed.
Lemma nsteps_coefs kdk n c : In (D c) (nsteps_ops kdk n) -> c <> 0.
Proof.
  assert (A : forall a b k, In (D c) (alternate a b k) -> D c = a \/ D c = b) by (induction k as [|k IH]; cbn [alternate In]; [tauto|intros [H|[H|H]]; auto]).
  assert (Z : forall x, 0 < x -> D c = D x -> c <> 0) by (intros x Hx E; injection E as ->; apply Rgt_not_eq; exact Hx).
  destruct kdk; unfold nsteps_ops, kdk_ops, dkd_ops; intros [H|H]; try discriminate; try (apply (Z 0.5); [lra|congruence]);
    apply in_app_or in H; destruct H as [H|H].
  - apply A in H. destruct H as [H|H]; [apply (Z 1); [lra|exact H]|discriminate].
  - destruct H as [H|[H|[]]]; [apply (Z 1); [lra|congruence]|discriminate].
  - apply A in H. destruct H as [H|H]; [discriminate|apply (Z 1); [lra|exact H]].
  - destruct H as [H|[H|[]]]; [discriminate|apply (Z 0.5); [lra|congruence]].
Qed.
Lemma run_nf kdk n p h k q dy : keeps n p -> ~ finite h -> xrun kdk p h k = Ok (q, dy) -> ~ Forall finite dy.
Proof.
  intros Ks Hh E F. unfold xrun in E. cbv zeta in E. injection E as E1 E2.
  destruct (head_ops (ediv h (Fin (INR k))) n (nf_div _ _ Hh) (nsteps_ops kdk k) _ (clear_keeps n p Ks) (fun c => nsteps_coefs kdk k c) (or_intror (proj1 (nsteps_both kdk k)))) as (T & r & E & N).
  rewrite E1 in E2, E. rewrite <- E2, E in F. inversion F; subst. contradiction.
Qed.
Lemma h_at_ge2 M k : (1 <= k <= M)%nat -> (2 <= h_at (M + 1) k)%nat.
Proof.
  intros H. unfold h_at. destruct (M + 1 <=? 11)%nat eqn:Q; [|lia]. apply Nat.leb_le in Q. do 11 (destruct k as [|k]; [cbn; lia|]). lia.
Qed.
Lemma nan_not_finite l : (0 < l)%nat -> ~ Forall finite (repeat NaN l).
Proof. intros H F. destruct l as [|l]; [lia|]. cbn [repeat] in F. apply Forall_inv in F. destruct F as [z Z]. discriminate. Qed.
Lemma rms_refuses_twin tries M kdk atol rtol c b s h m t o : 0 < atol -> 0 <= rtol -> fits m s -> xs_t s = Fin t -> numbers s -> twin s ->
  xbs_call tries M kdk (xrms_error atol rtol) c b s h <> Ok o.
Proof.
  intros Ha Hr (Em & L1 & L2 & L3) Et Nu Tw E. destruct o as [[b' s'] h']. subst m.
  destruct (rms_call tries M kdk atol rtol c b s h b' s' h') as [_ (p0 & p & h0 & k & q & dy & K0 & Er & Hk & Ru & Fd)]; auto.
  destruct K0 as (M0 & I0 & S0). destruct (read_back (xs_m p0) s p0 t) as (p' & Er' & Rp & Tp & Pp & Vp); try congruence; [rewrite M0; auto|].
  assert (p' = p) by congruence. subst p'.
  assert (D0 : finite h0 \/ ~ finite h0) by (destruct h0; [left; eexists; reflexivity|right; intros [x X]; discriminate..]).
  destruct D0 as [[hh ->]|D0].
  - pose proof (h_at_ge2 M k Hk). assert (Tw' : twin p).
    { destruct Tw as (i & j & x & u & Hij & A1 & A2 & A3 & A4). exists i, j, x, u. destruct Rp as (Mp & _). rewrite Mp, Pp, Vp, M0. auto. }
    destruct (run_lost kdk (xs_m p0) p hh (h_at (M + 1) k) t Rp ltac:(lia) Tp (or_introl (conj Tw' H))) as (s2 & E2 & _).
    rewrite E2 in Ru. injection Ru as _ <-. pose proof (Forall_inv_tail Fd) as F2.
    assert (2 <= length (xs_m s))%nat by (destruct Tw as (i & j & x & u & Hij & _); lia). rewrite M0 in F2.
    exact (nan_not_finite (6 * length (xs_m s)) ltac:(lia) F2).
  - apply (run_nf kdk (length (xs_m s)) p h0 (h_at (M + 1) k) q dy); auto. destruct Rp as (Mp & _ & _ & Ip & Sp). unfold keeps. rewrite Mp, Ip, Sp, M0. auto.
Qed.
