(** C74: when the predictor-corrector loop of IAS15 counts as converged. *)
From Verif Require Import Vec Ctrl_Model Ctrl_Proofs Ias_Model Ias_Spec Ias_Proofs.
From Coq Require Import Psatz.
Open Scope R_scope.

(** The loop has converged when every entry of the last correction of b6 is below 1e-16 of the largest rate of change. *)
Theorem C74_converged ys ds : length ds = length ys -> (exists k, (k < length ys)%nat /\ nth k ys 0 <> 0) ->
  (egt (Fin 1) (ias_pcerr ys ds) = true <-> exists k, (k < length ys)%nat /\ forall j, (j < length ys)%nat -> Rabs (nth j ds 0) < 1e-16 * Rabs (nth k ys 0)).
Proof.
  intros L (k0 & Hk0 & Nz). unfold ias_pcerr, mr_error2.
  pose (q := fun x : R * R => let '(s, b) := x in (Rabs b, 0 + Rabs s * 1e-16)).
  assert (E : forall l a, fold_left (fun '(md, ms) '(s, d) => (Rmax md (Rabs d), Rmax ms (0 + Rabs s * 1e-16))) l a =
              fold_left (fun '(md, ms) x => (Rmax md (fst (q x)), Rmax ms (snd (q x)))) l a).
  { induction l as [|[a b] l IH]; intros [u v]; cbn [fold_left]; auto. }
  rewrite E. destruct (mr_fold q (combine ys ds) 0 0) as [A B]. destruct (fold_left _ (combine ys ds) (0, 0)) as [md ms]. cbn [fst snd] in A, B.
  assert (IN : forall j, (j < length ys)%nat -> In (nth j ys 0, nth j ds 0) (combine ys ds)) by (intros j Hj; rewrite <- combine_nth by auto; apply nth_In; rewrite combine_length, L, Nat.min_id; auto).
  assert (P0 : 0 < Rabs (nth k0 ys 0)) by (apply Rabs_pos_lt; auto).
  assert (Q : 0 < ms). { apply Rlt_le_trans with (0 + Rabs (nth k0 ys 0) * 1e-16); [lra|]. apply B. right. eexists. split; [apply (IN k0 Hk0)|]. cbn [q snd]. lra. }
  assert (X : egt (Fin 1) (ediv (Fin md) (Fin ms)) = true <-> md < ms).
  { unfold ediv. destruct (Req_EM_T ms 0); [lra|]. cbn [egt]. destruct (rgtb_spec 1 (md / ms)) as [H|H]; split; intros G; auto; try discriminate.
    - apply Rmult_lt_reg_r with (/ ms); [apply Rinv_0_lt_compat; auto|]. rewrite Rinv_r by lra. exact H.
    - exfalso. apply H. apply Rmult_lt_reg_r with ms; auto. unfold Rdiv. rewrite Rmult_assoc, Rinv_l; lra. }
  rewrite X. split.
  - intros H. destruct (proj1 (B ms) (Rle_refl _)) as [H0|([s b] & Hin & H0)]; [lra|]. cbn [q snd] in H0.
    apply In_nth with (d := (0, 0)) in Hin. destruct Hin as (j & Hj & Ej). rewrite combine_length, L, Nat.min_id in Hj. rewrite combine_nth in Ej by auto. injection Ej as E1 E2.
    exists j. split; auto. intros i Hi. pose proof (proj1 (A md) (Rle_refl _)) as [_ A']. specialize (A' _ (IN i Hi)). cbn [q fst] in A'. rewrite E1. lra.
  - intros (k & Hk & H). apply Rlt_le_trans with (1e-16 * Rabs (nth k ys 0)).
    + (* the largest correction is one of the corrections *)
      clear -A H L IN Hk P0. destruct (Rlt_dec md (1e-16 * Rabs (nth k ys 0))) as [|N]; auto. exfalso.
      assert (T : md <= 1e-16 * Rabs (nth k ys 0)).
      { apply A. split; [pose proof (Rabs_pos (nth k ys 0)); lra|]. intros [a b] Hin. apply In_nth with (d := (0, 0)) in Hin. destruct Hin as (j & Hj & Ej). rewrite combine_length, L, Nat.min_id in Hj.
        rewrite combine_nth in Ej by auto. injection Ej as E1 E2. cbn [q fst snd]. rewrite <- E2. left. apply H; auto. }
      assert (EQ : md = 1e-16 * Rabs (nth k ys 0)) by lra.
      (* md is attained *)
      assert (AT : exists t, t < md /\ 0 <= t /\ forall x, In x (combine ys ds) -> fst (q x) <= t).
      { assert (F : forall l : list (R * R), (forall x, In x l -> Rabs (snd x) < md) -> 0 < md -> exists t, t < md /\ 0 <= t /\ forall x, In x l -> fst (q x) <= t).
        { induction l as [|x l IH]; intros Hl Hp; [exists 0; repeat split; auto; [lra|intros y []]|]. destruct IH as (t & T1 & T2 & T3); [intros y Hy; apply Hl; right; auto|auto|].
          exists (Rmax t (Rabs (snd x))). split; [apply Rmax_lub_lt; auto; apply Hl; left; auto|]. split; [apply Rle_trans with t; auto; apply Rmax_l|].
          intros y [<-|Hy]; [destruct x; cbn [q fst snd]; apply Rmax_r|apply Rle_trans with t; auto; apply Rmax_l]. }
        apply F.
        - intros [a b] Hin. apply In_nth with (d := (0, 0)) in Hin. destruct Hin as (j & Hj & Ej). rewrite combine_length, L, Nat.min_id in Hj. rewrite combine_nth in Ej by auto. injection Ej as E1 E2. cbn [q fst snd]. rewrite <- E2, EQ. apply H; auto.
        - rewrite EQ. specialize (H k Hk). pose proof (Rabs_pos (nth k ds 0)). lra. }
      destruct AT as (t & T1 & T2 & T3). assert (md <= t) by (apply A; split; auto). lra.
    + apply B. right. eexists. split; [apply (IN k Hk)|]. cbn [q snd]. lra.
Qed.
(** Without any rate of change the ratio is not a number and neither test of the loop ever succeeds. *)
Theorem C74_all_zero_never_converges ys ds last : length ds = length ys -> (forall k, nth k ys 0 = 0) -> (forall k, nth k ds 0 = 0) ->
  ias_pcerr ys ds = NaN /\ egt (Fin 1) (ias_pcerr ys ds) = false /\ ele last (ias_pcerr ys ds) = false.
Proof.
  intros L Zy Zd. assert (E : ias_pcerr ys ds = NaN).
  { unfold ias_pcerr, mr_error2.
    assert (G : forall l, (forall x, In x l -> x = (0, 0)) -> fold_left (fun '(md, ms) '(s, d) => (Rmax md (Rabs d), Rmax ms (0 + Rabs s * 1e-16))) l (0, 0) = (0, 0)).
    { induction l as [|x l IH]; intros H; cbn [fold_left]; auto. rewrite (H x) by (left; auto). cbn beta iota. rewrite Rabs_R0, Rmult_0_l, Rplus_0_l, Rmax_left by lra. apply IH. intros y Hy. apply H. right. auto. }
    rewrite G.
    - unfold ediv. destruct (Req_EM_T 0 0); [|lra]. unfold esgn. destruct (Rlt_dec 0 0); [lra|auto].
    - intros [a b] Hin. apply In_nth with (d := (0, 0)) in Hin. destruct Hin as (j & Hj & Ej). rewrite combine_length, L, Nat.min_id in Hj. rewrite combine_nth in Ej by auto. injection Ej as <- <-. rewrite Zy, Zd. reflexivity. }
  rewrite E. split; auto. split; auto. destruct last; reflexivity.
Qed.
Example C74_converged_case : egt (Fin 1) (ias_pcerr [1; 3] [0; 2e-16]) = true.
Proof.
  apply C74_converged; [reflexivity|exists 0%nat; cbn [nth length]; split; [lia|lra]|]. exists 1%nat. cbn [nth length]. split; [lia|].
  intros [|[|j]] Hj; cbn [nth]; [rewrite Rabs_R0, Rabs_pos_eq; lra|rewrite !Rabs_pos_eq; lra|lia].
Qed.
(** Which particles count as slow: the plain and the chain system measure the step in time, the regularised ones in time divided by the scale; the
    chain systems look at links of the chain instead of particles. *)
Theorem C74_slow_particles I s c h i :
  (slow (view_simple I s) h i <-> (i < length (s_m s))%nat /\ norm (nth i (s_v s) vzero) * Rabs h < 1e-6 * norm (nth i (s_p s) vzero)) /\
  (slow (view_chain I c) h i <-> (i < length (s_m (c_st c)))%nat /\ norm (nth i (c_cv c) vzero) * Rabs h < 1e-6 * norm (nth i (c_cp c) vzero)) /\
  (s_sc s <> 0 -> (slow (view_regu I s) h i <-> (i < length (s_m s))%nat /\ norm (nth i (s_v s) vzero) * Rabs (h / s_sc s) < 1e-6 * norm (nth i (s_p s) vzero))) /\
  (s_sc (c_st c) <> 0 -> (slow (view_archain I c) h i <-> (i < length (s_m (c_st c)))%nat /\ norm (nth i (c_cv c) vzero) * Rabs (h / s_sc (c_st c)) < 1e-6 * norm (nth i (c_cp c) vzero))).
Proof.
  unfold slow, view_simple, view_chain, view_regu, view_archain, npart. cbn [w_n w_scale w_vel w_pos]. replace (h / 1) with h by field. repeat split; try tauto; try lra; intros; destruct H; try tauto; lra.
Qed.
(** The entries that count: the time does in the regularised systems only. *)
Theorem C74_counted_entries I s c : w_regu (view_simple I s) = false /\ w_regu (view_chain I c) = false /\ w_regu (view_regu I s) = true /\ w_regu (view_archain I c) = true /\
  w_dep (view_simple I s) = I_dep I /\ w_dep (view_chain I c) = I_dep I /\ w_dep (view_regu I s) = I_dep I /\ w_dep (view_archain I c) = I_dep I.
Proof. repeat split. Qed.
Print Assumptions C74_slow_particles. Print Assumptions C74_counted_entries. Print Assumptions C74_converged. Print Assumptions C74_all_zero_never_converges.
