(** A first call that accepts, on the real numbers; used to exhibit runs. *)
From Verif Require Import Force_Proofs System_Proofs2 BS_Proofs2 Nan_Spec Nan_Proofs Nan_Proofs2 Nan_Proofs3 Nan_Proofs4 Nan_Proofs5.
Open Scope R_scope.
Lemma first_accept tries M kdk (P : Type) wr rd collect run err nx lim (p : P) h p1 p2 p3 p4 dy0 dy1 : (3 <= M)%nat -> (0 < tries)%nat ->
  run (collect p true) h (h_at (M + 1) 0) = Ok (p1, dy0) -> rd p1 (wr p) = Ok p2 -> run p2 h (h_at (M + 1) 1) = Ok (p3, dy1) ->
  let y := zipw (fun x y => x + (x - y) * coef_at (M + 1) 1 0) dy1 dy0 in
  err (wr p) dy1 y <= 1 -> rd p3 (zipw Rplus (wr p) y) = Ok p4 ->
  exists b' h', iterate tries M kdk P wr rd collect run err nx lim (bs_init M) p h = Ok (b', collect p4 false, h').
Proof.
  intros HM Ht R0 Rd1 R1 y He Rd2. destruct tries as [|tries]; [lia|]. unfold iterate. cbv zeta. cbn [attempts].
  rewrite (bs_h_ok M) by lia. cbn [obind]. rewrite R0. cbn [obind]. change (b_ext (count_try (bs_init M))) with (repeat (@nil R) (M + 1)).
  destruct (aset_ok (repeat (@nil R) (M + 1)) 0 dy0) as (t0 & T0 & Lt0); [rewrite repeat_length; lia|]. rewrite repeat_length in Lt0. rewrite T0. cbn [obind].
  change (b_rank (count_try (bs_init M))) with (M - 1)%nat. replace (M - 1 + 1)%nat with (S (M - 1)) by lia.
  cbn [rows]. rewrite Rd1. cbn [obind]. rewrite (bs_h_ok M) by lia. cbn [obind]. rewrite R1. cbn [obind].
  unfold row_table. cbn [b_ext set_row]. destruct (aset_ok t0 1 dy1 ltac:(lia)) as (t1 & T1 & Lt1). rewrite T1. cbn [obind].
  unfold extrapolate. cbn [extrap_loop].
  assert (Cf : bs_coef (M + 1) 1 (1 - 1) = Ok (coef_at (M + 1) 1 0)).
  { unfold bs_coef. destruct (1 * (M + 1) + (1 - 1) <? (M + 1) * (M + 1))%nat eqn:Q; [reflexivity|apply Nat.ltb_ge in Q; nia]. }
  rewrite Cf. cbn [obind]. rewrite !(aget_set _ _ _ _ _ T1). cbn [Nat.eqb obind]. rewrite (aget_set _ _ _ _ _ T0). cbn [Nat.eqb obind]. fold y.
  destruct (aset_ok t1 0 y ltac:(lia)) as (t2 & T2 & Lt2). rewrite T2. cbn [obind].
  rewrite !(aget_set _ _ _ _ _ T2). cbn [Nat.eqb obind]. rewrite (aget_set _ _ _ _ _ T1). cbn [Nat.eqb obind]. cbv zeta.
  set (f := h * nx (2 * 1 + 1)%nat (err (wr p) dy1 y)). cbn [b_ideal b_cpl set_row count_try bs_init].
  destruct (aset_ok (repeat 0 (M + 1)) 1 f) as (id & I1 & Li1); [rewrite repeat_length; lia|]. rewrite I1. cbn [obind].
  rewrite (bs_cost_ok M kdk) by lia. cbn [obind].
  destruct (aset_ok (repeat 0 (M + 1)) 1 (INR (cost_at (M + 1) kdk 1) / f)) as (cp & P1 & Lp1); [rewrite repeat_length; lia|]. rewrite P1. cbn [obind].
  unfold in_converged_window. cbn [b_rank b_first b_ext set_row count_try bs_init]. rewrite orb_true_r. destruct (Rle_dec (err (wr p) dy1 y) 1); [|contradiction].
  rewrite (aget_set _ _ _ _ _ T2). cbn [Nat.eqb obind]. rewrite Rd2. cbn [obind]. cbv zeta.
  unfold set_next_iteration, accept1. cbn [b_first b_rank b_reject b_ideal b_cpl set_row count_try bs_init negb set_rank].
  rewrite (aget_set _ _ _ _ _ I1). cbn [Nat.eqb obind]. eauto.
Qed.
(** For any two arrays some absolute tolerance accepts. *)
Lemma worst_bound y0 y1 y1' : exists a, forall atol, a <= atol -> 1 <= atol -> worst atol 0 y0 y1 y1' <= 1.
Proof.
  unfold worst. generalize (zip3 y0 y1 y1'). intros l.
  assert (G : exists a, forall atol, a <= atol -> 1 <= atol -> forall m, m <= 1 ->
    fold_left (fun m '(a, b, b') => Rmax m (Rabs (b' - b) / (atol + Rmax (Rabs b) (Rabs a) * 0))) l m <= 1).
  { induction l as [|[[x y] w] l (a & IH)]; [exists 0; intros; cbn; lra|]. exists (Rmax a (Rabs (w - y))). intros atol Ha H1 m Hm. cbn [fold_left].
    pose proof (Rmax_l a (Rabs (w - y))). pose proof (Rmax_r a (Rabs (w - y))). apply IH; [lra|exact H1|]. apply Rmax_lub; [exact Hm|].
    rewrite Rmult_0_r, Rplus_0_r. apply Rmult_le_reg_r with atol; [lra|]. unfold Rdiv. rewrite Rmult_assoc, Rinv_l by lra. lra. }
  destruct G as (a & G). exists a. intros atol A B. apply G; auto. lra.
Qed.
