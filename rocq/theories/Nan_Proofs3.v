(** A particle added twice: what the sub-stepped leapfrogs make of it. *)
From Verif Require Import Nan_Spec Nan_Proofs Nan_Proofs2 Force_Proofs BS_Proofs2 BS_Proofs3.
Open Scope R_scope.

Definition nn (l : list evec) (k : nat) : Prop := nth k l ezerov = nanv.
Definition alln (n : nat) (l : list evec) : Prop := forall k, (k < n)%nat -> nn l k.

Lemma evadd_nan_l a : evadd nanv a = nanv.
Proof. unfold evadd, nanv. cbn [ex ey ez]. rewrite !eadd_nan_l. reflexivity. Qed.
Lemma evadd_nan_r a : evadd a nanv = nanv.
Proof. unfold evadd, nanv. cbn [ex ey ez]. rewrite !eadd_nan_r. reflexivity. Qed.
Lemma evscal_nan h : evscal h nanv = nanv.
Proof. unfold evscal, nanv. cbn [ex ey ez]. rewrite !emul_nan_l. reflexivity. Qed.

(** * The pair loop *)
Definition dead (p : list evec) (ij : nat * nat) : Prop :=
  let dr := evsub (nth (snd ij) p ezerov) (nth (fst ij) p ezerov) in
  let r := enorm dr in let rr3 := ediv (Fin 1) (emul (emul r r) r) in
  emul (ex dr) rr3 = NaN /\ emul (ey dr) rr3 = NaN /\ emul (ez dr) rr3 = NaN.
Lemma dead_force m p acc i j : (i <> j)%nat -> dead p (i, j) -> xforce m p acc (i, j) i = nanv /\ xforce m p acc (i, j) j = nanv.
Proof.
  intros Hij (D1 & D2 & D3). cbn [fst snd] in *. unfold xforce. cbv zeta in *. rewrite D1, D2, D3. rewrite !Nat.eqb_refl.
  assert (Q : (j =? i)%nat = false) by (apply Nat.eqb_neq; lia). rewrite Q.
  rewrite !emul_nan_l, !eadd_nan_r, !esub_nan_r. auto.
Qed.
Lemma force_keeps m p acc ij k : acc k = nanv -> xforce m p acc ij k = nanv.
Proof.
  intros H. destruct ij as [i j]. unfold xforce. cbv zeta.
  destruct (k =? i)%nat eqn:Q; [apply Nat.eqb_eq in Q; subst; rewrite H; unfold nanv; cbn [ex ey ez]; rewrite !eadd_nan_l; reflexivity|].
  destruct (k =? j)%nat eqn:Q2; [apply Nat.eqb_eq in Q2; subst; rewrite H; unfold nanv; cbn [ex ey ez]; rewrite !esub_nan_l; reflexivity|exact H].
Qed.
Lemma fold_keeps m p l : forall acc k, acc k = nanv -> fold_left (xforce m p) l acc k = nanv.
Proof. induction l as [|ij l IH]; intros acc k H; cbn [fold_left]; auto. apply IH, force_keeps, H. Qed.
Lemma fold_dead m p i j : (i <> j)%nat -> dead p (i, j) -> forall l, In (i, j) l -> forall acc, fold_left (xforce m p) l acc i = nanv /\ fold_left (xforce m p) l acc j = nanv.
Proof.
  intros Hij Hd. induction l as [|ij l IH]; intros Hin acc; [destruct Hin|]. cbn [fold_left]. destruct Hin as [->|Hin]; [|apply IH; auto].
  destruct (dead_force m p acc i j Hij Hd) as [A B]. split; apply fold_keeps; auto.
Qed.
Lemma tolist_nth n (f : nat -> evec) k : (k < n)%nat -> nth k (tolist n f) ezerov = f k.
Proof.
  intros H. unfold tolist. rewrite (nth_indep _ _ (f 0%nat)) by (rewrite map_length, seq_length; exact H). rewrite map_nth, seq_nth by exact H. reflexivity.
Qed.
Lemma dead_newton m p i j : (i < j < length m)%nat -> dead p (i, j) -> nn (xnewton m p) i /\ nn (xnewton m p) j.
Proof.
  intros H Hd. unfold nn, xnewton. rewrite !tolist_nth by lia. apply fold_dead; [lia|exact Hd|]. apply all_pairs_in. lia.
Qed.
Lemma dead_same p i j x : nth i p ezerov = efin x -> nth j p ezerov = efin x -> dead p (i, j).
Proof.
  intros E1 E2. unfold dead. cbn [fst snd]. rewrite E1, E2. cbv zeta. unfold evsub, efin, enorm. cbn [ex ey ez]. rewrite !esub_fin. cbn [emul eadd].
  replace (vx x - vx x) with 0 by lra. replace (vy x - vy x) with 0 by lra. replace (vz x - vz x) with 0 by lra. replace (0 * 0 + 0 * 0 + 0 * 0) with 0 by lra.
  assert (Q : esqrt (Fin 0) = Fin 0) by (cbn [esqrt]; destruct (Rlt_dec 0 0); [lra|]; rewrite sqrt_0; reflexivity). rewrite Q. cbn [emul]. replace (0 * 0 * 0) with 0 by lra.
  assert (Q2 : ediv (Fin 1) (Fin 0) = PInf) by (cbn [ediv]; destruct (Req_EM_T 0 0); [|lra]; unfold esgn; destruct (Rlt_dec 0 1); [reflexivity|lra]). rewrite Q2.
  assert (Q3 : emul (Fin 0) PInf = NaN) by (cbn [emul]; unfold esgn; destruct (Rlt_dec 0 0); [lra|]; reflexivity). auto.
Qed.
Lemma dead_nan p i j : nn p i \/ nn p j -> dead p (i, j).
Proof.
  intros H. unfold dead. cbn [fst snd]. cbv zeta.
  assert (E : evsub (nth j p ezerov) (nth i p ezerov) = nanv)
    by (destruct H as [->| ->]; unfold evsub, nanv; cbn [ex ey ez]; rewrite ?esub_nan_r, ?esub_nan_l; reflexivity).
  rewrite E. unfold nanv. cbn [ex]. rewrite !emul_nan_l. auto.
Qed.
Lemma newton_nan m p i : (2 <= length m)%nat -> (i < length m)%nat -> nn p i -> alln (length m) (xnewton m p).
Proof.
  intros H2 Hi Hn k Hk. destruct (lt_eq_lt_dec i k) as [[L|E]|L].
  - apply (dead_newton m p i k); [lia|]. apply dead_nan. auto.
  - subst k. destruct (Nat.eq_dec i 0) as [Z|Z].
    + apply (dead_newton m p i 1%nat); [lia|]. apply dead_nan. auto.
    + apply (dead_newton m p 0%nat i); [lia|]. apply dead_nan. auto.
  - apply (dead_newton m p k i); [lia|]. apply dead_nan. auto.
Qed.
Lemma xnewton_length m p : length (xnewton m p) = length m.
Proof. unfold xnewton, tolist. rewrite map_length, seq_length. reflexivity. Qed.

(** * Arrays of vectors *)
Lemma xadvance_length : forall a b h, length b = length a -> length (xadvance a b h) = length a.
Proof. intros a b h L. unfold xadvance. rewrite map_length, combine_length, L. apply Nat.min_id. Qed.
Lemma xadvance_nth : forall a b h k, (k < length a)%nat -> length b = length a -> nth k (xadvance a b h) ezerov = evadd (nth k a ezerov) (evscal h (nth k b ezerov)).
Proof.
  unfold xadvance. induction a as [|x a IH]; intros [|y b] h [|k] Hk L; cbn [length] in *; try lia; cbn [combine map nth fst snd]; auto. apply IH; lia.
Qed.
Lemma xcoords_length l : length (xcoords l) = (3 * length l)%nat.
Proof. induction l as [|x l IH]; cbn [xcoords flat_map app length] in *; [reflexivity|]. unfold xcoords in IH. lia. Qed.
Lemma xcoords_app a b : xcoords (a ++ b) = xcoords a ++ xcoords b.
Proof. apply flat_map_app. Qed.
Lemma add_at_skip a : forall ds b, xadd_at (length a) ds (a ++ b) = a ++ xadd_at 0 ds b.
Proof. induction a as [|x a IH]; intros ds b; cbn [length app xadd_at]; [reflexivity|]. rewrite IH. reflexivity. Qed.
Lemma add_at_coords h : forall a d r, length d = length a -> xadd_at 0 (xcoords (map (evscal h) d)) (xcoords a ++ r) = xcoords (xadvance a d h) ++ r.
Proof.
  induction a as [|x a IH]; intros [|y d] r L; cbn [length] in L; try discriminate.
  - cbn [xcoords map flat_map app xadvance combine]. destruct r; reflexivity.
  - cbn [xcoords map flat_map app xadvance combine xadd_at fst snd]. unfold xcoords, xadvance in IH. rewrite IH by lia. reflexivity.
Qed.
Lemma nan_list : forall l, alln (length l) l -> l = repeat nanv (length l).
Proof.
  induction l as [|x l IH]; intros H; [reflexivity|]. cbn [length repeat]. f_equal; [apply (H 0%nat); cbn; lia|]. apply IH. intros k Hk. apply (H (S k)). cbn. lia.
Qed.
Lemma xcoords_repeat k : xcoords (repeat nanv k) = repeat NaN (3 * k).
Proof.
  induction k as [|k IH]; [reflexivity|]. replace (3 * S k)%nat with (S (S (S (3 * k)))) by lia. cbn [repeat xcoords flat_map app nanv ex ey ez].
  unfold xcoords in IH. rewrite IH. reflexivity.
Qed.

(** * One run of sub-steps with collection on *)
Record vw := mkW { w_t : ext; w_p : list evec; w_v : list evec; w_T : ext; w_ip : list evec; w_iv : list evec }.
Definition wst (m : list ext) (w : vw) : xst := mkXs m (w_t w) (w_p w) (w_v w) (w_T w :: xcoords (w_ip w) ++ xcoords (w_iv w)) true.
Definition sized (n : nat) (w : vw) : Prop := length (w_p w) = n /\ length (w_v w) = n /\ length (w_ip w) = n /\ length (w_iv w) = n.
Definition wop (m : list ext) (hs : R) (w : vw) (o : op) : vw :=
  match o with
  | D c => mkW (eadd (w_t w) (Fin (c * hs))) (xadvance (w_p w) (w_v w) (Fin (c * hs))) (w_v w) (eadd (w_T w) (Fin (c * hs))) (xadvance (w_ip w) (w_v w) (Fin (c * hs))) (w_iv w)
  | K c => let a := xnewton m (w_p w) in
           mkW (w_t w) (w_p w) (xadvance (w_v w) a (Fin (c * hs))) (w_T w) (w_ip w) (xadvance (w_iv w) a (Fin (c * hs)))
  end.
Lemma wop_sized m hs w o : sized (length m) w -> sized (length m) (wop m hs w o).
Proof.
  intros (L1 & L2 & L3 & L4). destruct o as [c|c]; unfold wop, sized; cbn [w_p w_v w_ip w_iv]; rewrite ?xadvance_length; rewrite ?xnewton_length; auto; congruence.
Qed.
Lemma wop_st m hs w o : sized (length m) w -> xop (wst m w) (Fin hs) o = wst m (wop m hs w o).
Proof.
  intros (L1 & L2 & L3 & L4). destruct o as [c|c]; cbn [xop emul]; unfold xdrift, xkick, wst, wop, xsync; cbn [xs_m xs_t xs_p xs_v xs_inc xs_sync w_t w_p w_v w_T w_ip w_iv]; f_equal.
  - unfold time_offset, pos_offset. cbn [xadd_at]. f_equal.
    assert (N : forall l, xadd_at 0 [] l = l) by (intros [|]; reflexivity). rewrite N. apply add_at_coords. congruence.
  - unfold vel_offset. replace (length m * 3 + 1)%nat with (S (length (xcoords (w_ip w)))) by (rewrite xcoords_length, L3; lia). cbn [xadd_at]. f_equal.
    rewrite add_at_skip. f_equal. rewrite <- (app_nil_r (xcoords (w_iv w))), add_at_coords, app_nil_r; [reflexivity|]. rewrite xnewton_length. congruence.
Qed.
Definition wops (m : list ext) (hs : R) := fold_left (wop m hs).
Lemma wops_st m hs l : forall w, sized (length m) w -> fold_left (fun s o => xop s (Fin hs) o) l (wst m w) = wst m (wops m hs l w) /\ sized (length m) (wops m hs l w).
Proof.
  unfold wops. induction l as [|o l IH]; intros w H; cbn [fold_left]; [auto|]. rewrite wop_st by auto. apply IH, wop_sized, H.
Qed.
Lemma wops_time m hs l : forall w t T, w_t w = Fin t -> w_T w = Fin T ->
  w_t (wops m hs l w) = Fin (t + drift_sum l * hs) /\ w_T (wops m hs l w) = Fin (T + drift_sum l * hs).
Proof.
  unfold wops. induction l as [|[c|c] l IH]; intros w t T E1 E2; cbn [fold_left drift_sum].
  - rewrite E1, E2. split; f_equal; ring.
  - destruct (IH (wop m hs w (D c)) (t + c * hs) (T + c * hs)) as [A B]; [cbn; rewrite E1; reflexivity|cbn; rewrite E2; reflexivity|].
    rewrite A, B. split; f_equal; ring.
  - apply IH; assumption.
Qed.

(** Stages of the decay: 1 the particle's velocity is lost, 2 its position, 3 all velocities, 4 everything. *)
Definition stage (i j : nat) (n k : nat) (w : vw) : Prop :=
  (k = 0%nat -> exists x u, nth i (w_p w) ezerov = efin x /\ nth j (w_p w) ezerov = efin x /\ nth i (w_v w) ezerov = efin u /\ nth j (w_v w) ezerov = efin u) /\
  ((1 <= k)%nat -> nn (w_v w) i) /\ ((2 <= k)%nat -> nn (w_p w) i) /\ ((3 <= k)%nat -> alln n (w_v w) /\ alln n (w_iv w)) /\
  ((4 <= k)%nat -> alln n (w_p w) /\ alln n (w_ip w)).
Definition next_stage (k : nat) (o : op) : nat :=
  match k, o with 0, K _ => 1 | 1, D _ => 2 | 2, K _ => 3 | 3, D _ => 4 | _, _ => k end.
Lemma adv_nan_l a b h k : (k < length a)%nat -> length b = length a -> nn a k -> nn (xadvance a b h) k.
Proof. intros H L N. unfold nn. rewrite xadvance_nth by auto. rewrite N. apply evadd_nan_l. Qed.
Lemma adv_nan_r a b h k : (k < length a)%nat -> length b = length a -> nn b k -> nn (xadvance a b h) k.
Proof. intros H L N. unfold nn. rewrite xadvance_nth by auto. rewrite N, evscal_nan. apply evadd_nan_r. Qed.
Lemma adv_all_l n a b h : length a = n -> length b = length a -> alln n a -> alln n (xadvance a b h).
Proof. intros E L H k Hk. apply adv_nan_l; auto. lia. Qed.
Lemma adv_all_r n a b h : length a = n -> length b = length a -> alln n b -> alln n (xadvance a b h).
Proof. intros E L H k Hk. apply adv_nan_r; auto. lia. Qed.
Lemma efin_adv x u h : evadd (efin x) (evscal (Fin h) (efin u)) = efin (vadd x (vscal h u)).
Proof.
  unfold evadd, evscal, efin, vadd, vscal. cbn [ex ey ez vx vy vz emul eadd]. f_equal; f_equal; ring.
Qed.
Lemma stage_step m hs i j k w o : (i < j < length m)%nat -> sized (length m) w -> stage i j (length m) k w -> stage i j (length m) (next_stage k o) (wop m hs w o).
Proof.
  intros H Sz (S0 & S1 & S2 & S3 & S4). pose proof Sz as (L1 & L2 & L3 & L4). set (n := length m) in *.
  pose proof (xnewton_length m (w_p w)) as La. fold n in La.
  destruct o as [c|c]; unfold wop.
  - assert (Kp : (1 <= next_stage k (D c))%nat -> (1 <= k)%nat) by (destruct k as [|[|[|[|k]]]]; cbn; lia).
    assert (K2 : (2 <= next_stage k (D c))%nat -> (1 <= k)%nat) by (destruct k as [|[|[|[|k]]]]; cbn; lia).
    assert (K3 : (3 <= next_stage k (D c))%nat -> (3 <= k)%nat) by (destruct k as [|[|[|[|k]]]]; cbn; lia).
    assert (K4 : (4 <= next_stage k (D c))%nat -> (3 <= k)%nat) by (destruct k as [|[|[|[|k]]]]; cbn; lia).
    unfold stage. cbn [w_t w_p w_v w_T w_ip w_iv]. split; [|split; [|split; [|split]]].
    + intros E. assert (k = 0%nat) by (destruct k as [|[|[|[|k]]]]; cbn in E; lia). destruct (S0 H0) as (x & u & A & B & U & V).
      exists (vadd x (vscal (c * hs) u)), u. rewrite !xadvance_nth by (try lia; congruence). rewrite A, B, U, V, efin_adv. auto.
    + intros E. apply S1. auto.
    + intros E. apply adv_nan_r; [lia|congruence|]. apply S1; auto.
    + intros E. apply S3. auto.
    + intros E. destruct (S3 (K4 E)) as [A B]. split; apply adv_all_r; auto; congruence.
  - assert (K2 : (2 <= next_stage k (K c))%nat -> (2 <= k)%nat) by (destruct k as [|[|[|[|k]]]]; cbn; lia).
    assert (K3 : (3 <= next_stage k (K c))%nat -> (2 <= k)%nat) by (destruct k as [|[|[|[|k]]]]; cbn; lia).
    assert (K4 : (4 <= next_stage k (K c))%nat -> (4 <= k)%nat) by (destruct k as [|[|[|[|k]]]]; cbn; lia).
    unfold stage. cbn [w_t w_p w_v w_T w_ip w_iv]. split; [|split; [|split; [|split]]].
    + intros E. exfalso. destruct k as [|[|[|[|k]]]]; cbn in E; lia.
    + intros E. destruct (Nat.eq_dec k 0) as [Z|Z]; [|apply adv_nan_l; [lia|congruence|apply S1; lia]].
      destruct (S0 Z) as (x & u & A & B & _). apply adv_nan_r; [lia|congruence|].
      apply (dead_newton m (w_p w) i j); [fold n; lia|]. apply (dead_same _ _ _ x); auto.
    + intros E. apply S2; auto.
    + intros E. pose proof (newton_nan m (w_p w) i ltac:(fold n; lia) ltac:(fold n; lia) (S2 (K3 E))) as A. fold n in A.
      split; apply adv_all_r; auto; congruence.
    + intros E. apply S4; auto.
Qed.
Lemma stage_ops m hs i j l : (i < j < length m)%nat -> forall k w, sized (length m) w -> stage i j (length m) k w ->
  stage i j (length m) (fold_left next_stage l k) (wops m hs l w).
Proof.
  intros H. unfold wops. induction l as [|o l IH]; intros k w Sz St; cbn [fold_left]; auto. apply IH; [apply wop_sized, Sz|apply stage_step; auto].
Qed.
Lemma stage4 l : fold_left next_stage l 4%nat = 4%nat.
Proof. induction l as [|o l IH]; cbn [fold_left]; auto. Qed.
Lemma nsteps_stage kdk n : (2 <= n)%nat -> fold_left next_stage (nsteps_ops kdk n) 0%nat = 4%nat.
Proof.
  intros H. destruct n as [|[|n]]; [lia|lia|]. destruct kdk; unfold nsteps_ops, kdk_ops, dkd_ops; replace (S (S n) - 1)%nat with (S n) by lia;
    cbn [alternate app fold_left next_stage]; destruct n as [|n]; cbn [alternate app fold_left next_stage]; auto; apply stage4.
Qed.

(** A state without numbers stays so, and so does every increment. *)
Definition gone (n : nat) (d k : bool) (w : vw) : Prop :=
  alln n (w_p w) /\ alln n (w_v w) /\ (d = true -> alln n (w_ip w)) /\ (k = true -> alln n (w_iv w)).
Lemma gone_step m hs d k w o : (2 <= length m)%nat -> sized (length m) w -> gone (length m) d k w ->
  gone (length m) (match o with D _ => true | K _ => d end) (match o with K _ => true | D _ => k end) (wop m hs w o).
Proof.
  intros H (L1 & L2 & L3 & L4) (P & V & Di & Ki). pose proof (xnewton_length m (w_p w)) as La.
  pose proof (newton_nan m (w_p w) 0%nat H ltac:(lia) (P 0%nat ltac:(lia))) as Na.
  destruct o as [c|c]; unfold gone, wop; cbn [w_p w_v w_ip w_iv].
  - split; [apply adv_all_l; auto; congruence|]. split; [exact V|]. split; [intros _; apply adv_all_r; auto; congruence|exact Ki].
  - split; [exact P|]. split; [apply adv_all_l; auto; congruence|]. split; [exact Di|intros _; apply adv_all_r; auto; congruence].
Qed.
Definition isD (o : op) := match o with D _ => true | K _ => false end.
Lemma gone_ops m hs l : (2 <= length m)%nat -> forall d k w, sized (length m) w -> gone (length m) d k w ->
  gone (length m) (existsb isD l || d) (existsb (fun o => negb (isD o)) l || k) (wops m hs l w).
Proof.
  intros H. unfold wops. induction l as [|o l IH]; intros d k w Sz G; cbn [fold_left existsb]; auto.
  pose proof (IH _ _ _ (wop_sized m hs w o Sz) (gone_step m hs d k w o H Sz G)) as Q. destruct o as [c|c]; cbn [isD negb orb] in *; rewrite ?orb_true_r in *; exact Q.
Qed.
Lemma nsteps_both kdk n : existsb isD (nsteps_ops kdk n) = true /\ existsb (fun o => negb (isD o)) (nsteps_ops kdk n) = true.
Proof.
  destruct kdk; unfold nsteps_ops, kdk_ops, dkd_ops; cbn [existsb isD negb orb]; rewrite existsb_app; cbn [existsb isD negb orb]; rewrite ?orb_true_r; auto.
Qed.

(** * Runs as the iterator calls them *)
Definition ready_x (m : list ext) (s : xst) : Prop :=
  xs_m s = m /\ length (xs_p s) = length m /\ length (xs_v s) = length m /\ length (xs_inc s) = (6 * length m + 1)%nat /\ xs_sync s = true.
Lemma cleared m s : ready_x m s -> xclear s = wst m (mkW (xs_t s) (xs_p s) (xs_v s) (Fin 0) (repeat ezerov (length m)) (repeat ezerov (length m))).
Proof.
  intros (<- & L1 & L2 & L3 & Sy). unfold xclear, wst. cbn [w_t w_p w_v w_T w_ip w_iv]. rewrite Sy. f_equal.
  assert (G : forall l : list ext, map (fun _ => Fin 0) l = repeat (Fin 0) (length l)) by (induction l; cbn; congruence).
  assert (Z : forall k, xcoords (repeat ezerov k) = repeat (Fin 0) (3 * k)).
  { induction k as [|k IH]; [reflexivity|]. replace (3 * S k)%nat with (S (S (S (3 * k)))) by lia. cbn [repeat xcoords flat_map app ezerov ex ey ez].
    unfold xcoords in IH. rewrite IH. reflexivity. }
  rewrite G, L3, !Z, <- repeat_app. replace (6 * length (xs_m s) + 1)%nat with (S (3 * length (xs_m s) + 3 * length (xs_m s))) by lia. reflexivity.
Qed.
Lemma run_view kdk m s h n t : ready_x m s -> (0 < n)%nat -> xs_t s = Fin t ->
  exists w, xrun kdk s (Fin h) n = Ok (wst m w, w_T w :: xcoords (w_ip w) ++ xcoords (w_iv w)) /\ sized (length m) w /\
    w_t w = Fin (t + h) /\ w_T w = Fin h /\
    w = wops m (h / INR n) (nsteps_ops kdk n) (mkW (xs_t s) (xs_p s) (xs_v s) (Fin 0) (repeat ezerov (length m)) (repeat ezerov (length m))).
Proof.
  intros Rd Hn Et. set (w0 := mkW (xs_t s) (xs_p s) (xs_v s) (Fin 0) (repeat ezerov (length m)) (repeat ezerov (length m))).
  assert (Sz : sized (length m) w0) by (destruct Rd as (_ & L1 & L2 & _); unfold sized, w0; cbn [w_p w_v w_ip w_iv]; rewrite !repeat_length; auto).
  exists (wops m (h / INR n) (nsteps_ops kdk n) w0). assert (0 < INR n) by (apply lt_0_INR; lia).
  destruct (wops_st m (h / INR n) (nsteps_ops kdk n) w0 Sz) as [E Sz'].
  destruct (wops_time m (h / INR n) (nsteps_ops kdk n) w0 t 0 Et eq_refl) as [T1 T2].
  rewrite nsteps_drift in T1, T2 by exact Hn.
  split; [|split; [exact Sz'|split; [rewrite T1; f_equal; field; lra|split; [rewrite T2; f_equal; field; lra|reflexivity]]]].
  unfold xrun. rewrite ediv_fin by lra. rewrite (cleared m s Rd). fold w0. rewrite E. reflexivity.
Qed.
Lemma wst_ready m w : sized (length m) w -> ready_x m (wst m w).
Proof.
  intros (L1 & L2 & L3 & L4). unfold ready_x, wst. cbn [xs_m xs_p xs_v xs_inc xs_sync]. cbn [length]. rewrite app_length, !xcoords_length, L3, L4.
  repeat split; auto; lia.
Qed.
(** The first pass over a state with a duplicated particle, and every later one. *)
Definition twin (s : xst) : Prop :=
  exists i j x u, (i < j < length (xs_m s))%nat /\ nth i (xs_p s) ezerov = efin x /\ nth j (xs_p s) ezerov = efin x /\ nth i (xs_v s) ezerov = efin u /\ nth j (xs_v s) ezerov = efin u.
Definition all_gone (s : xst) : Prop := (2 <= length (xs_m s))%nat /\ alln (length (xs_m s)) (xs_p s) /\ alln (length (xs_m s)) (xs_v s).
Lemma wst_inc_nan (m : list ext) w : sized (length m) w -> alln (length m) (w_ip w) -> alln (length m) (w_iv w) -> xcoords (w_ip w) ++ xcoords (w_iv w) = repeat NaN (6 * length m).
Proof.
  intros (_ & _ & L3 & L4) A B. rewrite (nan_list (w_ip w)), (nan_list (w_iv w)) by (rewrite ?L3, ?L4; assumption). rewrite !xcoords_repeat, L3, L4, <- repeat_app. f_equal. lia.
Qed.
Lemma run_any kdk m s h n t : ready_x m s -> (0 < n)%nat -> xs_t s = Fin t ->
  exists s' r, xrun kdk s (Fin h) n = Ok (s', Fin h :: r) /\ length r = (6 * length m)%nat /\ ready_x m s'.
Proof.
  intros Rd Hn Et. destruct (run_view kdk m s h n t Rd Hn Et) as (w & E & Sz & T1 & T2 & _). exists (wst m w), (xcoords (w_ip w) ++ xcoords (w_iv w)).
  rewrite E, T2. split; [reflexivity|]. split; [|apply wst_ready; exact Sz]. destruct Sz as (_ & _ & L3 & L4). rewrite app_length, !xcoords_length. lia.
Qed.
Lemma run_lost kdk m s h n t : ready_x m s -> (0 < n)%nat -> xs_t s = Fin t -> (twin s /\ (2 <= n)%nat) \/ all_gone s ->
  exists s', xrun kdk s (Fin h) n = Ok (s', Fin h :: repeat NaN (6 * length m)) /\ ready_x m s'.
Proof.
  intros Rd Hn Et Hs. destruct (run_view kdk m s h n t Rd Hn Et) as (w & E & Sz & T1 & T2 & Ew). exists (wst m w).
  split; [|apply wst_ready; exact Sz]. rewrite E, T2. do 3 f_equal. apply wst_inc_nan; [exact Sz| |].
  all: pose proof Rd as (Em & L1 & L2 & _); unfold twin, all_gone in Hs; rewrite ?Em in Hs.
  all: set (w0 := mkW (xs_t s) (xs_p s) (xs_v s) (Fin 0) (repeat ezerov (length m)) (repeat ezerov (length m))) in *.
  all: assert (Sz0 : sized (length m) w0) by (unfold sized, w0; cbn [w_p w_v w_ip w_iv]; rewrite !repeat_length; auto).
  all: destruct Hs as [[(i & j & x & u & Hij & A1 & A2 & A3 & A4) N2]|(G1 & G2 & G3)].
  1, 3: assert (St : stage i j (length m) 0 w0) by (unfold stage, w0; cbn [w_t w_p w_v w_T w_ip w_iv]; split; [intros _; exists x, u; auto|]; repeat split; intros; lia);
    pose proof (stage_ops m (h / INR n) i j (nsteps_ops kdk n) Hij 0%nat w0 Sz0 St) as Q; rewrite (nsteps_stage kdk n N2), <- Ew in Q;
    destruct Q as (_ & _ & _ & Q3 & Q4); first [apply Q4; lia|apply Q3; lia].
  all: assert (G : gone (length m) false false w0) by (unfold gone, w0; cbn [w_p w_v w_ip w_iv]; repeat split; auto; discriminate);
    pose proof (gone_ops m (h / INR n) (nsteps_ops kdk n) G1 false false w0 Sz0 G) as Q; destruct (nsteps_both kdk n) as [B1 B2]; rewrite B1, B2, <- Ew in Q;
    destruct Q as (_ & _ & Q3 & Q4); auto.
Qed.
