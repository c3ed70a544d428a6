From Verif Require Import Fsim_Spec Kahan_Proofs Kahan_Proofs2 Fsim_Proofs Fsim_Proofs2.
From Flocq Require Import Sterbenz Plus_error Relative Ulp.
From Coq Require Import Lra Lia.
Open Scope R_scope.

Section P.
Variables (emin prec : Z) (choice : Z -> bool).
Context { prec_gt_0_ : Prec_gt_0 prec }.
Notation fmt := (fmt emin prec).
Notation rnd := (rnd emin prec choice).
Notation fexp := (FLT_exp emin prec).
Notation u := (u prec).
Notation ulp := (ulp radix2 (FLT_exp emin prec)).
Notation plain := (plain emin prec choice).
Notation tick := (tick emin prec choice).
Notation ffar := (ffar emin prec choice).
Notation floop := (floop emin prec choice).

Lemma nearest z g : fmt g -> Rabs (rnd z - z) <= Rabs (g - z).
Proof. intros Fg. destruct (round_N_pt radix2 fexp choice z) as [_ N]. apply N. exact Fg. Qed.
Lemma half_ulp z : Rabs (rnd z - z) <= / 2 * ulp z.
Proof. apply error_le_half_ulp; auto with typeclass_instances. Qed.
Lemma ulp_mono x y : 0 <= x <= y -> ulp x <= ulp y.
Proof. intros. apply ulp_le; auto with typeclass_instances. rewrite !Rabs_pos_eq; lra. Qed.
Lemma above x y : fmt x -> fmt y -> 0 <= x < y -> x + ulp x <= y.
Proof.
  intros Fx Fy H. rewrite <- succ_eq_pos by lra. apply succ_le_lt; auto with typeclass_instances. lra.
Qed.
Lemma ulp_big x : 0 < x -> x * bpow radix2 (- prec) < ulp x.
Proof. intros. rewrite <- (Rabs_pos_eq x) at 1 by lra. apply ulp_FLT_gt; auto. Qed.
(** Two numbers of the format are not too close. *)
Lemma gap_rel x y : fmt x -> fmt y -> 0 <= x < y -> y * bpow radix2 (- prec - 1) <= y - x.
Proof.
  intros Fx Fy H. unfold Zminus. rewrite bpow_plus. change (bpow radix2 (-(1))) with (/ 2). assert (B : bpow radix2 (- prec) <= 1).
  { change 1 with (bpow radix2 0). apply bpow_le. red in prec_gt_0_. lia. }
  pose proof (bpow_gt_0 radix2 (- prec)) as B0.
  destruct (Rle_dec (y / 2) x) as [L|L].
  - pose proof (above x y Fx Fy H). pose proof (ulp_big x ltac:(lra)). nra.
  - nra.
Qed.
Hypothesis Hemin : (emin <= - prec - 3)%Z.
Lemma far0 t e : fmt t -> fmt e -> 0 < e -> 0 <= t <= 2 * e -> ffar t e 0 = if Req_EM_T t e then false else true.
Proof.
  intros Ft Fe He Ht. unfold Fsim_Model.ffar. destruct (Req_EM_T t e) as [->|N].
  - unfold fdiv, fsub. rewrite Rminus_diag_eq by reflexivity. rewrite (rnd_0 emin prec choice). unfold Rdiv. rewrite Rmult_0_l, (rnd_0 emin prec choice), Rabs_R0.
    destruct (Rlt_dec 0 0); [lra|reflexivity].
  - destruct (Rlt_dec _ _) as [|L]; [reflexivity|exfalso]. apply L. clear L. unfold fdiv, fsub.
    assert (G : e * bpow radix2 (- prec - 1) <= Rabs (t - e)).
    { destruct (Rlt_dec t e) as [Q|Q].
      - rewrite Rabs_left by lra. pose proof (gap_rel t e Ft Fe ltac:(lra)). lra.
      - rewrite Rabs_pos_eq by lra. pose proof (gap_rel e t Fe Ft ltac:(lra)). pose proof (bpow_gt_0 radix2 (- prec - 1)). nra. }
    pose proof (rnd_sub_err emin prec choice t e Ft Fe) as E. set (x := rnd (t - e)) in *. assert (U := u_half prec). assert (U0 := u_pos prec).
    assert (X : / 2 * Rabs (t - e) <= Rabs x).
    { pose proof (Rabs_triang (x - (t - e)) (- x)) as T. rewrite Rabs_Ropp in T. replace (x - (t - e) + - x) with (- (t - e)) in T by ring. rewrite Rabs_Ropp in T. pose proof (Rabs_pos (t - e)). nra. }
    assert (Q : bpow radix2 (- prec - 2) <= Rabs (x / e)).
    { replace (- prec - 2)%Z with (- prec - 1 + -1)%Z by ring. rewrite bpow_plus. change (bpow radix2 (-1)) with (/ 2).
      unfold Rdiv. rewrite Rabs_mult, (Rabs_pos_eq (/ e)) by (left; apply Rinv_0_lt_compat; auto).
      apply Rmult_le_reg_r with e; auto. rewrite (Rmult_assoc (Rabs x)), Rinv_l, Rmult_1_r by lra. lra. }
    assert (FQ : fmt (bpow radix2 (- prec - 2))).
    { apply generic_format_bpow. unfold FLT_exp. red in prec_gt_0_. lia. }
    pose proof (bpow_gt_0 radix2 (- prec - 2)) as BP.
    apply Rlt_le_trans with (1 := BP). destruct (Rle_dec 0 (x / e)) as [S|S].
    + rewrite (Rabs_pos_eq (x / e)) in Q by auto. apply Rle_trans with (2 := Rle_abs _). rewrite <- (rnd_id emin prec choice (bpow radix2 (- prec - 2))) by auto. apply rnd_le; auto.
    + rewrite (Rabs_left (x / e)) in Q by lra. rewrite <- Rabs_Ropp. apply Rle_trans with (2 := Rle_abs _).
      assert (rnd (x / e) <= - bpow radix2 (- prec - 2)); [|lra]. rewrite <- (rnd_id emin prec choice (- bpow radix2 (- prec - 2))) by (apply fmt_opp; auto). apply rnd_le; auto. lra.
Qed.

Hypothesis Hprec : (4 <= prec)%Z.
Lemma rnd1 : rnd 1 = 1.
Proof. apply rnd_id; auto. apply fmt_1; auto; lia. Qed.
(** One drift of the full step. *)
Lemma kdk_tick t h : fmt h -> tick plain leapfrog_kdk t h = rnd (t + h).
Proof.
  intros Fh. unfold Fsim_Model.tick, leapfrog_kdk, drifts. cbn [flat_map app fold_left add Fsim_Model.plain]. unfold fmul. rewrite rnd1, Rmult_1_l, (rnd_id emin prec choice h) by auto. reflexivity.
Qed.
Lemma exact_rest t e : fmt t -> fmt e -> e / 2 <= t <= 2 * e -> fmt (e - t).
Proof. intros Ft Fe H. apply sterbenz; auto with typeclass_instances. lra. Qed.
Lemma chosen1 h t e : fchosen emin prec choice h t e = if Rle_dec (Rabs h) (Rabs (rnd (e - t))) then h else rnd (e - t).
Proof. unfold fchosen. rewrite fsub1 by auto. reflexivity. Qed.

Section Exact.
  Variables (e h0 : R).
  Hypothesis Fe : fmt e. Hypothesis Fh : fmt h0. Hypothesis He : bpow radix2 (emin + prec) <= e. Hypothesis Hh : ulp e <= h0.
  Lemma e_pos : 0 < e. Proof. eapply Rlt_le_trans; [apply bpow_gt_0|exact He]. Qed.
  Lemma ulp_e : 0 < ulp e <= e / 8.
  Proof.
    pose proof e_pos as P. split.
    - eapply Rlt_trans; [|apply ulp_big; auto]. apply Rmult_lt_0_compat; auto. apply bpow_gt_0.
    - assert (B : bpow radix2 (emin + prec - 1) <= Rabs e) by (rewrite Rabs_pos_eq by lra; eapply Rle_trans; [|exact He]; apply bpow_le; lia).
      pose proof (ulp_FLT_le radix2 emin prec e B) as L. rewrite Rabs_pos_eq in L by lra.
      assert (bpow radix2 (1 - prec) <= / 8) by (change (/ 8) with (bpow radix2 (-3)); apply bpow_le; lia). nra.
  Qed.
  (** The last step from a point near the end, whichever side. *)
  Lemma closing m h t seen : fmt t -> e / 2 <= t <= 2 * e -> t <> e -> Rabs (e - t) < Rabs h -> floop plain leapfrog_kdk e 0 (S (S m)) h t seen = Some (e :: t :: seen).
  Proof.
    intros Ft Ht Hne Hlt. pose proof e_pos as P. rewrite floop_S. cbn [now Fsim_Model.plain]. rewrite far0 by (auto; lra). destruct (Req_EM_T t e); [contradiction|].
    rewrite chosen1. rewrite (rnd_id emin prec choice (e - t)) by (auto; apply exact_rest; auto). destruct (Rle_dec _ _); [lra|].
    rewrite kdk_tick by (apply exact_rest; auto). replace (t + (e - t)) with e by ring. rewrite (rnd_id emin prec choice e) by auto.
    rewrite floop_S. cbn [now Fsim_Model.plain]. rewrite far0 by (auto; lra). destruct (Req_EM_T e e); [reflexivity|contradiction].
  Qed.
  (** A step that aims at the end time from afar misses it by at most one unit in the last place. *)
  Lemma aim t : fmt t -> 0 <= t < e -> let r := rnd (e - t) in Rabs (t + r - e) <= / 2 * ulp e /\ Rabs (rnd (t + r) - e) <= ulp e.
  Proof.
    intros Ft Ht r. assert (A : Rabs (t + r - e) <= / 2 * ulp e).
    { replace (t + r - e) with (r - (e - t)) by ring. apply Rle_trans with (1 := half_ulp (e - t)). apply Rmult_le_compat_l; [lra|]. apply ulp_mono. lra. }
    split; auto. pose proof (nearest (t + r) e Fe) as N. replace (e - (t + r)) with (- (t + r - e)) in N by ring. rewrite Rabs_Ropp in N.
    replace (rnd (t + r) - e) with ((rnd (t + r) - (t + r)) + (t + r - e)) by ring. pose proof (Rabs_triang (rnd (t + r) - (t + r)) (t + r - e)). lra.
  Qed.
  Lemma exact_loop : forall n t seen, fmt t -> 0 <= t <= e -> e - t <= INR n * (h0 / 2) ->
    exists tr, floop plain leapfrog_kdk e 0 (n + 3) h0 t seen = Some (e :: tr ++ seen) /\ Forall (fun t => 0 <= t <= e + ulp e) tr.
  Proof.
    pose proof e_pos as P. destruct ulp_e as [U1 U2].
    induction n as [|n IH]; intros t seen Ft Ht Hn.
    - cbn [INR] in Hn. assert (t = e) by lra. subst t. exists []. cbn [Nat.add]. rewrite floop_S. cbn [now Fsim_Model.plain]. rewrite far0 by (auto; lra).
      destruct (Req_EM_T e e); [auto|contradiction].
    - destruct (Req_EM_T t e) as [->|Ne].
      { exists []. cbn [Nat.add]. rewrite floop_S. cbn [now Fsim_Model.plain]. rewrite far0 by (auto; lra). destruct (Req_EM_T e e); [auto|contradiction]. }
      assert (Lt : t < e) by lra.
      destruct (aim t Ft ltac:(lra)) as [A1 A2]. cbv zeta in A1, A2. set (r := rnd (e - t)) in *.
      assert (Fr : fmt r) by (apply rnd_fmt; auto). assert (Pr : 0 <= r) by (apply rnd_nonneg; auto; lra).
      apply abs_le in A1. apply abs_le in A2.
      replace (S n + 3)%nat with (S (n + 3)) by lia. rewrite floop_S. cbn [now Fsim_Model.plain]. rewrite far0 by (auto; lra). destruct (Req_EM_T t e); [contradiction|].
      rewrite chosen1. fold r. rewrite (Rabs_pos_eq h0), (Rabs_pos_eq r) by lra. destruct (Rle_dec h0 r) as [L|L].
      + rewrite kdk_tick by auto. destruct (Rle_dec (t + h0) e) as [In|Out].
        * set (t1 := rnd (t + h0)). assert (F1 : fmt t1) by (apply rnd_fmt; auto).
          assert (B1 : t1 <= e) by (unfold t1; rewrite <- (rnd_id emin prec choice e) by auto; apply rnd_le; auto).
          assert (B2 : t + h0 / 2 <= t1).
          { pose proof (half_ulp (t + h0)) as H. fold t1 in H. apply abs_le in H. pose proof (ulp_mono (t + h0) e ltac:(lra)). lra. }
          destruct (IH t1 (t :: seen) F1) as (tr & E & Fa); [lra| |].
          { rewrite S_INR in Hn. lra. }
          exists (tr ++ [t]). rewrite E, <- app_assoc. split; [reflexivity|]. apply Forall_app. split; auto. constructor; [lra|constructor].
        * (* the step reaches beyond the end: only from below e/2 *)
          assert (Half : t < e / 2).
          { destruct (Rlt_dec t (e / 2)); auto. exfalso. apply Out. unfold r in L. rewrite rnd_id in L by (auto; apply exact_rest; auto; lra). lra. }
          set (t1 := rnd (t + h0)). assert (F1 : fmt t1) by (apply rnd_fmt; auto).
          assert (B : e <= t1 <= e + ulp e).
          { split; [unfold t1; rewrite <- (rnd_id emin prec choice e) by auto; apply rnd_le; auto; lra|].
            apply Rle_trans with (rnd (t + r)); [apply rnd_le; auto; lra|lra]. }
          destruct (Req_EM_T t1 e) as [E1|E1].
          -- exists [t]. replace (n + 3)%nat with (S (n + 2)) by lia. rewrite floop_S. cbn [now Fsim_Model.plain]. rewrite far0 by (auto; lra).
             destruct (Req_EM_T t1 e); [|contradiction]. rewrite E1. split; [reflexivity|]. constructor; [lra|constructor].
          -- exists [t1; t]. replace (n + 3)%nat with (S (S (n + 1))) by lia. rewrite closing; auto; [|lra|].
             ++ split; [reflexivity|]. constructor; [lra|]. constructor; [lra|constructor].
             ++ rewrite (Rabs_left1 (e - t1)), Rabs_pos_eq by lra. lra.
      + rewrite kdk_tick by auto. set (t1 := rnd (t + r)) in *. assert (F1 : fmt t1) by (apply rnd_fmt; auto).
        destruct (Req_EM_T t1 e) as [E1|E1].
        -- exists [t]. replace (n + 3)%nat with (S (n + 2)) by lia. rewrite floop_S. cbn [now Fsim_Model.plain]. rewrite far0 by (auto; lra).
           destruct (Req_EM_T t1 e); [|contradiction]. rewrite E1. split; [reflexivity|]. constructor; [lra|constructor].
        -- assert (Half : t < e / 2).
           { destruct (Rlt_dec t (e / 2)); auto. exfalso. apply E1. unfold t1, r. rewrite (rnd_id emin prec choice (e - t)) by (auto; apply exact_rest; auto; lra).
             replace (t + (e - t)) with e by ring. apply rnd_id; auto. }
           exists [t1; t]. replace (n + 3)%nat with (S (S (n + 1))) by lia. rewrite closing; auto; [|lra|].
           ++ split; [reflexivity|]. constructor; [lra|]. constructor; [lra|constructor].
           ++ rewrite (Rabs_pos_eq r) by auto. apply Rabs_def1; lra.
  Qed.
End Exact.

(** * Steps too small to be seen by the clock *)
Lemma absorbed t x : fmt t -> 0 < t -> 4 * Rabs x < ulp t -> rnd (t + x) = t.
Proof.
  intros Ft Pt Hx. pose proof (nearest (t + x) t Ft) as N. replace (t - (t + x)) with (- x) in N by ring. rewrite Rabs_Ropp in N.
  assert (A : - Rabs x <= x <= Rabs x) by (apply abs_le; lra). apply abs_le in N. set (s := rnd (t + x)) in *. assert (Fs : fmt s) by (apply rnd_fmt; auto).
  destruct (Rtotal_order s t) as [L|[E|G]]; auto; exfalso.
  - assert (Ps : 0 <= s) by (apply rnd_nonneg; auto; pose proof (ulp_le_id radix2 fexp t Pt Ft); lra).
    assert (Q : pred radix2 fexp t <= t - ulp t / 2).
    { rewrite pred_eq_pos by lra. unfold pred_pos. destruct (Req_bool_spec t (bpow radix2 (mag radix2 t - 1))) as [Eq|Ne]; [|pose proof (ulp_ge_0 radix2 fexp t); lra].
      assert (ulp t / 2 <= bpow radix2 (fexp (mag radix2 t - 1)%Z)); [|lra].
      rewrite ulp_neq_0 by lra. unfold cexp. change (/ 2) with (bpow radix2 (-1)). unfold Rdiv. change (/ 2) with (bpow radix2 (-1)). rewrite <- bpow_plus. apply bpow_le. unfold FLT_exp. lia. }
    assert (s <= pred radix2 fexp t) by (apply pred_ge_gt; auto with typeclass_instances). lra.
  - pose proof (above t s Ft Fs ltac:(lra)). lra.
Qed.
Lemma stuck_tick ops t h : fmt t -> 0 < t -> (forall a, In a (drifts ops) -> 4 * Rabs (fmul emin prec choice (rnd a) h) < ulp t) -> tick plain ops t h = t.
Proof.
  intros Ft Pt. unfold Fsim_Model.tick. cbn [add Fsim_Model.plain]. induction (drifts ops) as [|a l IH]; intros H; cbn [fold_left]; auto.
  unfold fadd. rewrite absorbed; auto. - apply IH. intros; apply H; right; auto. - apply H. left; auto.
Qed.
Lemma stuck ops e tol h t : fmt t -> 0 < t -> ffar t e tol = true -> Rabs h <= Rabs (rnd (e - t)) -> (forall a, In a (drifts ops) -> 4 * Rabs (fmul emin prec choice (rnd a) h) < ulp t) ->
  forall fuel seen, floop plain ops e tol fuel h t seen = None.
Proof.
  intros Ft Pt Hf Hr Ha. induction fuel as [|n IH]; intros seen; [reflexivity|]. rewrite floop_S. cbn [now Fsim_Model.plain]. rewrite Hf, chosen1. destruct (Rle_dec _ _); [|contradiction].
  rewrite stuck_tick; auto.
Qed.
End P.

(** * Ties to even *)
Section Even.
Variables (emin prec : Z).
Context { prec_gt_0_ : Prec_gt_0 prec }.
Definition even_tie (n : Z) : bool := negb (Z.even n).
Notation rnd := (rnd emin prec even_tie).
Hypothesis Hemin : (emin <= - prec - 3)%Z.
Hypothesis Hprec : (4 <= prec)%Z.
Notation b := (bpow radix2 (prec - 1)).
Lemma unit_round z : b <= z < 2 * b -> rnd z = IZR (Znearest even_tie z).
Proof.
  intros H. unfold Kahan_Model.rnd, round, scaled_mantissa, cexp.
  assert (M : mag radix2 z = prec :> Z).
  { apply mag_unique. rewrite Rabs_pos_eq by (pose proof (bpow_gt_0 radix2 (prec - 1)); lra). split; [lra|]. replace (bpow radix2 prec) with (2 * b); [lra|].
    replace prec with (prec - 1 + 1)%Z at 2 by ring. rewrite bpow_plus. change (bpow radix2 1) with 2. ring. }
  rewrite M. unfold FLT_exp. replace (Z.max (prec - prec) emin) with 0%Z by lia. cbn [bpow Z.opp]. rewrite Rmult_1_r. unfold F2R. cbn [Fnum Fexp bpow]. ring.
Qed.
Lemma b_int : b = IZR (2 * 2 ^ (prec - 2)).
Proof. rewrite <- IZR_Zpower by lia. f_equal. replace (prec - 1)%Z with (1 + (prec - 2))%Z by ring. rewrite Zpower_plus by lia. reflexivity. Qed.
Lemma b_big : 8 <= b. Proof. change 8 with (bpow radix2 3). apply bpow_le. lia. Qed.
(** A tie above an even or an odd number. *)
Lemma tie n : (2 ^ (prec - 1) <= n < 2 ^ prec)%Z -> rnd (IZR n + / 2) = IZR (if Z.even n then n else n + 1).
Proof.
  intros H. assert (E : b = IZR (2 ^ (prec - 1))) by (rewrite <- IZR_Zpower by lia; reflexivity).
  assert (H1 : b <= IZR n <= 2 * b - 1).
  { rewrite E. split; [apply IZR_le; lia|]. replace (2 * IZR (2 ^ (prec - 1)) - 1) with (IZR (2 ^ prec - 1)); [apply IZR_le; lia|].
    rewrite minus_IZR. replace prec with (Z.succ (prec - 1)) at 1 by lia. rewrite Z.pow_succ_r, mult_IZR by lia. reflexivity. }
  rewrite unit_round by lra. f_equal. unfold Znearest. assert (F : Zfloor (IZR n + / 2) = n) by (apply Zfloor_imp; rewrite plus_IZR; lra). rewrite F.
  rewrite Rcompare_Eq by lra. unfold even_tie. destruct (Z.even n); cbn [negb]; auto. apply Zceil_imp. rewrite minus_IZR, plus_IZR. lra.
Qed.
End Even.
