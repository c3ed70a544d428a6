(** C34, data and step of every call of the Bulirsch-Stoer iterator on a function. *)
From Verif Require Import BS_Model BS_Spec BS_Proofs BS_Proofs2 BS_Proofs3 BS_Proofs4 Bsel_Spec Bsel_Proofs Bsel_Props Bfun_Spec Bfun_Proofs.
Open Scope R_scope.

(** Row [j] of an attempt with step [h] begun at [ts]: the modified midpoint rule (C34_midpoint_rule) over the whole step with the
    sub-steps of row j, always from the caller's data but started [j] steps late. *)
Definition function_row (M : nat) (func : list R -> R -> list R) (data : list R) (ts h : R) (j : nat) : list R :=
  fst (midpoint func data (ts + INR j * h) h (substeps (M + 1) j)).
(** Every call, for every function, error estimator and step controller: the returned data are the extrapolation of the rows of the
    accepted attempt, the row, rank, accepted step and next step are those of the published rule, and the returned time is that of
    the accepted attempt plus k + 2 steps. *)
Theorem C34_selection tries M kdk err next lim func b data time h : (3 <= M)%nat -> steady M b ->
  (forall x s, length x = length data -> length (func x s) = length data) ->
  exists E, (forall ts, errors_of M (length data) (err data) (function_row M func data ts) (E ts)) /\
  match fiterate tries M kdk err next lim func b data time h with
  | Ok (b', data', time', h1) => exists k hk ts, fselects M kdk next lim E tries (b_rank b) (b_first b) h time (Some (b_rank b', k, hk, h1, ts)) /\ (1 <= k <= M)%nat /\
      extrapolant (M + 1) (length data) (function_row M func data ts hk) 0 k data' /\ E ts hk k <= 1 /\ time' = ts + (INR k + 2) * hk /\
      (steady M b' \/ b_first b = true /\ k = M) /\ b_first b' = b_first b
  | Abort => fselects M kdk next lim E tries (b_rank b) (b_first b) h time None
  | UB => False
  end.
Proof.
  intros HM HS LF. exists (ferr M err func data). split.
  - intros ts h0 k y e1 Hk Y E1. unfold ferr.
    assert (Y' : extrapolant (M + 1) (length data) (function_row M func data ts h0) 0 k (tabv (M + 1) (length data) (ftab M func data ts h0) 0 k)) by (apply tabv_extrapolant; lia).
    assert (E1' : extrapolant (M + 1) (length data) (function_row M func data ts h0) 1 k (tabv (M + 1) (length data) (ftab M func data ts h0) 1 k)) by (apply tabv_extrapolant; lia).
    rewrite (extrapolant_unique _ _ _ _ _ _ _ Y Y'), (extrapolant_unique _ _ _ _ _ _ _ E1 E1'). reflexivity.
  - pose proof (fattempts_sel M kdk err next lim func data HM LF tries b time h (steady_usable M b HS) (proj1 HS) (proj1 (proj2 HS))) as A.
    unfold fiterate. destruct (fattempts _ _ _ _ _ _ _ _ _ _ _) as [[[[b' d] t'] h1]| |]; auto.
    destruct A as (k & hk & tk & A1 & A2 & A3 & A4 & A5 & A6 & A7 & A8 & A9). exists k, hk, tk. split; auto. split; auto. subst d. split; [apply tabv_extrapolant; lia|].
    split.
    { clear - A1. remember (Some (b_rank b', k, hk, h1, tk)) as res. revert Heqres. induction A1; intros Q; try discriminate; auto. injection Q; intros; subst; auto. }
    split; auto. split; auto.
    assert (RR : (1 <= b_rank b' <= M - 1)%nat \/ b_first b = true /\ k = M).
    { destruct (b_first b) eqn:Ef; [|left; apply A7; auto].
      assert (X : b_rank b' = k).
      { clear - A1. remember true as fi. remember (Some (b_rank b', k, hk, h1, tk)) as res. revert Heqfi Heqres. induction A1 as [rank first h ts|t rank first h ts k0 A B r|t rank first h ts k0 res A B C r H IH|t rank first h ts res U H IH]; intros F Q; subst; try discriminate.
        - injection Q. intros. subst. auto.
        - destruct C; discriminate.
        - apply IH; auto. }
      destruct (Nat.eq_dec k M); [auto|left; lia]. }
    destruct RR as [RR|RR]; [left|right; exact RR]. split; auto. split; auto. split; [lia|]. split; [auto|]. intros _. lia.
Qed.
(** If all rows of an attempt agree, the returned data are theirs. *)
Theorem C34_exact_rows tries M kdk err next lim func b data time h b' data' time' h1 (Y : R -> R -> list R) : (3 <= M)%nat -> steady M b ->
  (forall x s, length x = length data -> length (func x s) = length data) ->
  (forall ts g j, (j <= M)%nat -> function_row M func data ts g j = Y ts g) ->
  fiterate tries M kdk err next lim func b data time h = Ok (b', data', time', h1) ->
  exists k hk ts, (1 <= k <= M)%nat /\ data' = Y ts hk /\ time' = ts + (INR k + 2) * hk.
Proof.
  intros HM HS LF HR H. destruct (C34_selection tries M kdk err next lim func b data time h HM HS LF) as (E & _ & A). rewrite H in A.
  destruct A as (k & hk & ts & _ & Hk & X & _ & T & _). destruct X as (L & X). exists k, hk, ts. split; auto. split; auto.
  assert (Ly : length (Y ts hk) = length data). { rewrite <- (HR ts hk 0%nat ltac:(lia)). apply (ftab_length M func data LF ts hk 0). }
  apply nth_ext with (d := 0) (d' := 0); [congruence|]. intros c Hc. rewrite L in Hc. destruct (X c Hc) as (_ & U).
  rewrite (U [nth c (Y ts hk) 0]); [cbn; ring|]. split; [cbn; lia|]. intros i Hi. rewrite HR by lia. cbn. ring.
Qed.
(** The flag of the first step is only cleared by calls on particle systems: an iterator that serves functions keeps it, so it
    tests every row, never shortens a step within a call (a failed attempt is repeated with the same step from a later time) and
    proposes the ideal step of the accepted row. *)
Theorem C34_never_shortens tries M kdk err next lim func b data time h b' data' time' h1 : (3 <= M)%nat -> steady M b -> b_first b = true ->
  (forall x s, length x = length data -> length (func x s) = length data) ->
  fiterate tries M kdk err next lim func b data time h = Ok (b', data', time', h1) ->
  exists k (failed : nat) e1, (1 <= k <= b_rank b + 1)%nat /\ (failed < tries)%nat /\ b_first b' = true /\ b_rank b' = k /\
    let ts := time + INR failed * (INR (b_rank b) + 2) * h in
    extrapolant (M + 1) (length data) (function_row M func data ts h) 0 k data' /\ extrapolant (M + 1) (length data) (function_row M func data ts h) 1 k e1 /\
    err data e1 data' <= 1 /\ time' = ts + (INR k + 2) * h /\ h1 = h * lim (2 * k + 1)%nat (h * next (2 * k + 1)%nat (err data e1 data') / h).
Proof.
  intros HM HS Hf LF H. destruct (C34_selection tries M kdk err next lim func b data time h HM HS LF) as (E & HE & A). rewrite H in A.
  destruct A as (k & hk & ts & A1 & A2 & A3 & A4 & A5 & A6 & A7). rewrite Hf in A1, A7.
  assert (X : exists failed, (failed < tries)%nat /\ hk = h /\ ts = time + INR failed * (INR (b_rank b) + 2) * h /\ b_rank b' = k /\ (1 <= k <= b_rank b + 1)%nat /\ h1 = limited M kdk next lim (E ts) h k k).
  { clear - A1. remember true as fi. remember (Some (b_rank b', k, hk, h1, ts)) as res. revert Heqfi Heqres. induction A1 as [rank first h ts0|t rank first h ts0 k0 A B r|t rank first h ts0 k0 res A B C r H IH|t rank first h ts0 res U H IH]; intros F Q; subst; try discriminate.
    - injection Q. intros. subst. exists 0%nat. cbn [INR]. split; [lia|]. split; auto. split; [ring|]. split; auto. split; [apply A|]. reflexivity.
    - destruct C; discriminate.
    - destruct (IH eq_refl eq_refl) as (f & F1 & F2 & F3 & F4 & F5 & F6). exists (S f). split; [lia|]. split; auto. split; [rewrite F3, S_INR; ring|]. auto. }
  destruct X as (failed & F1 & -> & F3 & F4 & F5 & F6). subst ts.
  set (ts := time + INR failed * (INR (b_rank b) + 2) * h) in *.
  exists k, failed, (tabv (M + 1) (length data) (function_row M func data ts h) 1 k).
  assert (X1 : extrapolant (M + 1) (length data) (function_row M func data ts h) 1 k (tabv (M + 1) (length data) (function_row M func data ts h) 1 k)) by (apply tabv_extrapolant; lia).
  pose proof (HE ts h k data' _ A2 A3 X1) as Q. split; auto. split; auto. split; auto. split; auto. cbv zeta. fold ts. split; auto. split; auto. rewrite <- Q. split; auto. split; auto.
  rewrite F6. unfold limited, step_for, ideal_len. rewrite Nat.leb_refl. reflexivity.
Qed.
(** Data and time therefore drift apart on every function: for x' = c the data of an iterator that serves functions advance by one
    step and the time by at least three, so that x' - x is never c (t' - t). *)
Lemma constant_rows M c x ts g j : (j <= M)%nat -> function_row M (fun d _ => map (fun _ => c) d) [x] ts g j = [x + c * g].
Proof.
  intros Hj. unfold function_row, midpoint. cbv zeta. set (n := substeps (M + 1) j). assert (Hn : (0 < n)%nat) by (apply (h_at_pos M); auto).
  set (k := g / INR n). assert (LOOP : forall i a t m, m + k = a -> exists t', mid_loop (fun (d : list R) (_ : R) => map (fun _ => c) d) i k [x + c * m] [x + c * a] t = ([x + c * (m + INR i * k)], [x + c * (a + INR i * k)], t')).
  { induction i as [|i IH]; intros a t m E; [cbn [mid_loop INR]; exists t; rewrite !Rmult_0_l, !Rplus_0_r; reflexivity|]. cbn [mid_loop].
    assert (adv [x + c * m] (map (fun _ : R => c) [x + c * a]) (2 * k) = [x + c * (a + k)]) as -> by (unfold adv; cbn; rewrite <- E; f_equal; ring).
    destruct (IH (a + k) (t + k) a eq_refl) as (t' & ->). exists t'. rewrite !S_INR. replace (m + (INR i + 1) * k) with (a + INR i * k) by (rewrite <- E; ring). replace (a + (INR i + 1) * k) with (a + k + INR i * k) by ring. reflexivity. }
  assert (adv [x] (map (fun _ : R => c) [x]) k = [x + c * k]) as -> by (unfold adv; cbn; f_equal; ring).
  destruct (LOOP (n - 1)%nat k (ts + INR j * g + k) 0 ltac:(ring)) as (t' & Q). replace (x + c * 0) with x in Q by ring. rewrite Q. cbn [fst].
  unfold adv. cbn. f_equal. assert (INR n = INR (n - 1) + 1) as Hi by (rewrite minus_INR by lia; cbn; ring). assert (0 < INR n) by (apply lt_0_INR; auto).
  replace g with (INR n * k) by (unfold k; field; lra). rewrite Hi. field_simplify. lra.
Qed.
Theorem C34_consistent_refuted tries M kdk err next lim b c x time h b' data' time' h1 : (3 <= M)%nat -> steady M b -> b_first b = true -> 0 < h -> c <> 0 ->
  fiterate tries M kdk err next lim (fun d _ => map (fun _ => c) d) b [x] time h = Ok (b', data', time', h1) ->
  data' = [x + c * h] /\ time' - time >= 3 * h /\ data' <> [x + c * (time' - time)].
Proof.
  intros HM HS Hf Hh Hc H. assert (LF : forall (d : list R) (s : R), length d = length [x] -> length (map (fun _ => c) d) = length [x]) by (intros; rewrite map_length; auto).
  destruct (C34_never_shortens _ _ _ _ _ _ _ _ _ _ _ _ _ _ _ HM HS Hf LF H) as (k & f & e1 & K1 & K2 & K3 & K4 & X & _ & _ & T & _).
  assert (KM : (k <= M)%nat) by (destruct HS as (_ & _ & ? & _); lia).
  assert (D : data' = [x + c * h]).
  { destruct X as (L & X). cbn in L. destruct data' as [|d [|? ?]]; try discriminate. destruct (X 0%nat ltac:(cbn; lia)) as (_ & U). cbn [nth] in U. rewrite (U [x + c * h]); [cbn; f_equal; ring|].
    split; [cbn; lia|]. intros i Hi. rewrite constant_rows by lia. cbn. ring. }
  assert (G : time' - time >= 3 * h).
  { rewrite T. assert (1 <= INR k) by (change 1 with (INR 1); apply le_INR; lia). pose proof (pos_INR f). pose proof (pos_INR (b_rank b)).
    assert (0 <= INR f * (INR (b_rank b) + 2) * h) by (apply Rmult_le_pos; [apply Rmult_le_pos; lra|lra]). nra. }
  split; auto. split; auto. rewrite D. intros Q. injection Q as Q. assert (c * (h - (time' - time)) = 0) by lra. apply Rmult_integral in H0. destruct H0; [contradiction|lra].
Qed.
(** The hypotheses are met by a fresh iterator, and calls return: with an estimator that accepts anything. *)
Example C34_selection_case : steady 7 (bs_init 7) /\ b_first (bs_init 7) = true /\
  exists b' d' t' h1, fiterate 1 7 false (fun _ _ _ => 0) (fun _ _ => 1) (fun _ r => r) (fun x _ => x) (bs_init 7) [1; 2] 0 1 = Ok (b', d', t', h1).
Proof.
  split; [apply C76_initial; lia|]. split; [reflexivity|]. destruct (fiterate_zero_error 0 7 false (fun _ _ => 1) (fun _ r => r) (fun x _ => x) [1; 2] 0 1 ltac:(lia)) as (b' & d' & t' & h1 & H & _).
  eauto.
Qed.
Print Assumptions C34_selection. Print Assumptions C34_exact_rows. Print Assumptions C34_never_shortens. Print Assumptions C34_consistent_refuted.
