From Verif Require Import Fsim_Spec Kahan_Proofs Kahan_Proofs2 Fsim_Proofs Fsim_Proofs2 Fsim_Proofs3 Fsim_Proofs4 System_Spec.
From Coq Require Import Lra Lia.
Open Scope R_scope.

(** * The library's schemes in double precision *)
Lemma total_drifts l : total (drifts l) = drift_sum l.
Proof. induction l as [|[c|c] l IH]; cbn [drifts flat_map app total fold_right drift_sum]; auto. unfold drifts, total in IH. rewrite IH. reflexivity. Qed.
Lemma scheme_sizes l : In l schemes -> (length (drifts l) <= 40)%nat /\ weight (drifts l) <= 21 /\ Rabs (total (drifts l) - 1) <= 1e-14 /\ forall a, In a (drifts l) -> / 32 <= Rabs a.
Proof.
  intros H. rewrite total_drifts. repeat (destruct H as [<-|H]; [unfold leapfrog_dkd, leapfrog_kdk, symplectic4, symplectic6, symplectic8, symplectic10, drifts;
    cbn [flat_map app length weight fold_right drift_sum]; split; [lia|]; split; [|split; [apply Rabs_le; lra|]];
    [repeat match goal with |- context [Rabs ?x] => first [rewrite (Rabs_pos_eq x) by lra | rewrite (Rabs_left x) by lra] end; lra|];
    intros a Ha; repeat (destruct Ha as [<-|Ha]; [first [rewrite Rabs_pos_eq by lra; lra | rewrite Rabs_left by lra; lra]|]); destruct Ha|]). destruct H.
Qed.
Notation "'u53'" := (bpow radix2 (-53)).
Lemma u53_small : 0 < u53 <= 1 / 9007199254740992.
Proof. split; [apply bpow_gt_0|]. cbn. lra. Qed.
Lemma pow_grow x n : 0 <= x -> INR n * x <= / 2 -> (1 + x) ^ n <= 1 + 2 * INR n * x.
Proof.
  intros Hx. induction n as [|n IH]; intros H; [cbn; lra|]. rewrite S_INR in *. cbn [pow]. assert (P := pos_INR n). assert (I := IH ltac:(nra)).
  apply Rle_trans with ((1 + x) * (1 + 2 * INR n * x)); [apply Rmult_le_compat_l; lra|]. assert (INR n * x * x <= / 2 * x); [|nra]. apply Rmult_le_compat_r; nra.
Qed.
Section Double.
Variable choice : Z -> bool.
Instance p53 : Prec_gt_0 53 := eq_refl.
Notation fmt := (fmt (-1074) 53).
Lemma double_underflow l e h0 : In l schemes -> bpow radix2 (-900) <= e -> bpow radix2 (-90) * e <= h0 -> no_underflow (-1074) 53 (drifts l) (Rmin h0 (u53 * e / 2)).
Proof.
  intros Hl He Hh a Ha. destruct (scheme_sizes l Hl) as (_ & _ & _ & A). specialize (A a Ha). change (/ 32) with (bpow radix2 (-5)) in A. split.
  - eapply Rle_trans; [|exact A]. apply bpow_le. lia.
  - assert (M : bpow radix2 (-990) <= Rmin h0 (u53 * e / 2)).
    { apply Rmin_glb.
      - apply Rle_trans with (2 := Hh). change (-990)%Z with (-90 + -900)%Z. rewrite bpow_plus. apply Rmult_le_compat_l; auto. apply bpow_ge_0.
      - apply Rle_trans with (bpow radix2 (-954)); [apply bpow_le; lia|]. change (-954)%Z with (-53 + (-900 + -1))%Z. rewrite !bpow_plus. change (bpow radix2 (-1)) with (/ 2).
        unfold Rdiv. rewrite Rmult_assoc. apply Rmult_le_compat_l; [apply bpow_ge_0|]. apply Rmult_le_compat_r; lra. }
    apply Rle_trans with (bpow radix2 (-5) * bpow radix2 (-990)); [rewrite <- bpow_plus; apply bpow_le; lia|]. apply Rmult_le_compat; auto; apply bpow_ge_0.
Qed.
Lemma plain_double l e tol h0 t0 n : In l schemes -> fmt e -> fmt tol -> fmt h0 -> fmt t0 -> bpow radix2 (-900) <= e -> bpow radix2 (-30) <= tol <= 1 ->
  0 <= t0 <= e -> bpow radix2 (-38) * e <= h0 -> e - t0 <= INR n * (h0 / 2) ->
  exists tr last, floop (-1074) 53 choice (plain (-1074) 53 choice) l e tol (S (S n)) h0 t0 [] = Some (last :: tr) /\ (length tr <= S n)%nat /\
    ended (-1074) 53 choice e tol last /\ Forall (fun t => 0 <= t <= e + bpow radix2 (-40) * e) (last :: tr).
Proof.
  intros Hl Fe Ftol Fh Ft He Htol Ht Hh Hn. assert (Pe : 0 < e) by (eapply Rlt_le_trans; [apply bpow_gt_0|exact He]).
  destruct (scheme_sizes l Hl) as (Sk & Sw & St & Sa). pose proof u53_small as U.
  assert (Eu : u 53 = u53) by (apply u_eq).
  assert (PU : 0 < u53 * e <= 1 / 9007199254740992 * e) by (split; [apply Rmult_lt_0_compat; lra|apply Rmult_le_compat_r; lra]).
  assert (B38 : bpow radix2 (-38) = 32768 * u53) by (cbn; lra). assert (Ph : 0 < h0) by (rewrite B38 in Hh; lra).
  set (hm := Rmin h0 (2 * e)). assert (Hm : 0 <= hm <= h0 /\ hm <= 2 * e) by (unfold hm; split; [split; [apply Rmin_glb; lra|apply Rmin_l]|apply Rmin_r]).
  set (ep := plain_error u53 (length (drifts l)) (weight (drifts l)) 1e-14 e hm).
  assert (E : 0 <= ep <= 3612 * (u53 * e) + 1e-14 * hm).
  { unfold ep, plain_error. set (k := length (drifts l)) in *. assert (K : INR (k + 2) <= 42) by (replace 42 with (INR 42) by (cbn; lra); apply le_INR; lia). assert (K0 := pos_INR (k + 2)).
    assert (G : 0 <= (1 + u53) ^ (k + 2) - 1 <= 84 * u53).
    { split; [assert (1 <= (1 + u53) ^ (k + 2)) by (apply pow_R1_Rle; lra); lra|]. assert (INR (k + 2) * u53 <= 42 * u53) by (apply Rmult_le_compat_r; lra). pose proof (pow_grow u53 (k + 2) ltac:(lra) ltac:(lra)). lra. }
    assert (W : 0 <= (1 + 2 * weight (drifts l)) * e <= 43 * e) by (pose proof (weight_pos (drifts l)); split; [apply Rmult_le_pos; lra|apply Rmult_le_compat_r; lra]).
    split; [apply Rplus_le_le_0_compat; apply Rmult_le_pos; lra|]. apply Rplus_le_compat_r. apply Rle_trans with (84 * u53 * (43 * e)); [apply Rmult_le_compat; lra|lra]. }
  assert (T : bpow radix2 (-30) * e <= tol * e) by (apply Rmult_le_compat_r; lra). change (bpow radix2 (-30)) with (/ 1073741824) in T.
  rewrite B38, Rmult_assoc in Hh. assert (B40 : bpow radix2 (-40) = 8192 * u53) by (cbn; lra). assert (Eh : ep <= h0 / 2) by lra.
  destruct (plain_run (-1074) 53 choice l e tol h0 t0 1e-14 n) as (tr & last & A & B & C0 & Fa); auto; try lra.
  - apply Rle_trans with (2 := proj1 Htol). apply bpow_le. lia.
  - rewrite Eu. apply double_underflow; auto. apply Rle_trans with (32768 * (u53 * e)); [|exact Hh]. rewrite <- Rmult_assoc, <- B38. apply Rmult_le_compat_r; [lra|]. apply bpow_le. lia.
  - rewrite Eu. fold hm. fold ep. lra.
  - rewrite Eu. fold hm. fold ep. lra.
  - rewrite Eu. fold hm. fold ep. apply Rle_trans with (1 := Hn). apply Rmult_le_compat_l; [apply pos_INR|lra].
  - exists tr, last. split; auto. split; auto. split; auto. revert Fa. apply Forall_impl. intros t. rewrite Eu. fold hm. fold ep. rewrite B40. assert (Q : u53 * e = 1 / 9007199254740992 * e) by (f_equal; cbn; lra). lra.
Qed.
Lemma comp_double l e tol h0 t0 n : In l schemes -> fmt e -> fmt tol -> fmt h0 -> fmt t0 -> bpow radix2 (-900) <= e -> bpow radix2 (-30) <= tol <= 1 ->
  0 <= t0 <= e -> bpow radix2 (-90) * e <= h0 -> e - t0 <= INR n * (h0 / 2) ->
  exists tr last, floop (-1074) 53 choice (compensated (-1074) 53 choice) l e tol (S (S n)) h0 (k_of t0) [] = Some (last :: tr) /\ (length tr <= S n)%nat /\
    ended (-1074) 53 choice e tol (k_real last) /\ Forall (fun k => k_real k <= e + bpow radix2 (-38) * e) (last :: tr).
Proof.
  intros Hl Fe Ftol Fh Ft He Htol Ht Hh Hn. assert (Pe : 0 < e) by (eapply Rlt_le_trans; [apply bpow_gt_0|exact He]).
  destruct (scheme_sizes l Hl) as (Sk & Sw & St & Sa). pose proof u53_small as U. pose proof (weight_pos (drifts l)) as W0.
  assert (Eu : u 53 = u53) by (apply u_eq).
  assert (PU : 0 < u53 * e <= 1 / 9007199254740992 * e) by (split; [apply Rmult_lt_0_compat; lra|apply Rmult_le_compat_r; lra]).
  assert (PV : 0 < u53 * (u53 * e) <= 1 / 9007199254740992 * (u53 * e)) by (split; [apply Rmult_lt_0_compat; lra|apply Rmult_le_compat_r; lra]).
  assert (B90 : bpow radix2 (-90) = 65536 * (u53 * u53)) by (rewrite <- bpow_plus; change 65536 with (bpow radix2 16); rewrite <- bpow_plus; reflexivity).
  rewrite B90, !Rmult_assoc in Hh. assert (Ph : 0 < h0) by lra.
  set (hm := Rmin h0 (2 * e)). assert (Hm : 0 <= hm <= h0 /\ hm <= 2 * e) by (unfold hm; split; [split; [apply Rmin_glb; lra|apply Rmin_l]|apply Rmin_r]).
  assert (UH : 0 <= u53 * hm <= 1 / 9007199254740992 * hm) by (split; [apply Rmult_le_pos; lra|apply Rmult_le_compat_r; lra]).
  assert (UH2 : u53 * hm <= u53 * (2 * e)) by (apply Rmult_le_compat_l; lra).
  assert (VH : 0 <= u53 * (u53 * hm) <= 1 / 9007199254740992 * (u53 * hm)) by (split; [apply Rmult_le_pos; lra|apply Rmult_le_compat_r; lra]).
  set (gap := comp_gap u53 (weight (drifts l)) e hm). set (ep := comp_error u53 (length (drifts l)) (weight (drifts l)) 1e-14 e hm).
  assert (WH : 0 <= weight (drifts l) * hm <= 21 * hm) by (split; [apply Rmult_le_pos; lra|apply Rmult_le_compat_r; lra]).
  assert (WU : 0 <= u53 * (weight (drifts l) * hm) <= u53 * (21 * hm)) by (split; [apply Rmult_le_pos; lra|apply Rmult_le_compat_l; lra]).
  assert (G : 0 <= gap <= 54 * (u53 * e) + 3402 * (u53 * hm)) by (unfold gap, comp_gap; lra).
  assert (K : 0 <= INR (length (drifts l)) <= 40) by (split; [apply pos_INR|replace 40 with (INR 40) by (cbn; lra); apply le_INR; lia]).
  assert (KG : 0 <= INR (length (drifts l)) * gap <= 40 * (54 * (u53 * e) + 3402 * (u53 * hm))) by (split; [apply Rmult_le_pos; lra|apply Rmult_le_compat; lra]).
  assert (UKG : 0 <= u53 * (INR (length (drifts l)) * gap) <= u53 * (40 * (54 * (u53 * e) + 3402 * (u53 * hm)))) by (split; [apply Rmult_le_pos; lra|apply Rmult_le_compat_l; lra]).
  assert (E : 0 <= ep <= 504 * (u53 * hm) + 15120 * (u53 * (u53 * e)) + 952560 * (u53 * (u53 * hm)) + 1e-14 * hm) by (unfold ep, comp_error; fold gap; split; lra).
  assert (T : bpow radix2 (-30) * e <= tol * e) by (apply Rmult_le_compat_r; lra). change (bpow radix2 (-30)) with (/ 1073741824) in T.
  assert (Eh : ep <= h0 / 2) by lra. assert (B38 : bpow radix2 (-38) = 32768 * u53) by (cbn; lra).
  destruct (comp_run (-1074) 53 choice l e tol h0 t0 1e-14 n) as (tr & last & A & B & C0 & Fa); auto; try lra.
  - apply Rle_trans with (2 := proj1 Htol). apply bpow_le. lia.
  - rewrite Eu. apply double_underflow; auto. rewrite B90, !Rmult_assoc. exact Hh.
  - rewrite Eu. assert (INR (length (drifts l)) * u53 <= 40 * u53) by (apply Rmult_le_compat_r; lra). lra.
  - rewrite Eu. fold hm. fold gap. fold ep. lra.
  - rewrite Eu. fold hm. fold ep. lra.
  - rewrite Eu. fold hm. fold ep. apply Rle_trans with (1 := Hn). apply Rmult_le_compat_l; [apply pos_INR|lra].
  - exists tr, last. split; auto. split; auto. split; auto. revert Fa. apply Forall_impl. intros t. rewrite Eu. fold hm. fold gap. fold ep. rewrite B38. assert (Q : u53 * e = 1 / 9007199254740992 * e) by (f_equal; cbn; lra). lra.
Qed.
End Double.

(** * Ties to even: what happens at the end *)
Section Even.
Variables (emin prec : Z).
Context { prec_gt_0_ : Prec_gt_0 prec }.
Notation rnd := (rnd emin prec even_tie).
Notation fmt := (fmt emin prec).
Hypothesis Hemin : (emin <= - prec - 3)%Z.
Hypothesis Hprec : (4 <= prec)%Z.
Notation b := (bpow radix2 (prec - 1)).
Lemma b_IZR : b = IZR (2 ^ (prec - 1)). Proof. rewrite <- IZR_Zpower by lia; reflexivity. Qed.
Lemma fmt_int n : (0 <= n < 2 ^ prec)%Z -> fmt (IZR n).
Proof.
  intros H. unfold Kahan_Model.fmt. replace (IZR n) with (F2R (Float radix2 n 0)) by (unfold F2R; cbn; ring). apply generic_format_FLT. exists (Float radix2 n 0); auto; cbn [Fnum Fexp]; [|lia].
  rewrite Z.abs_eq by lia. change (Zpower radix2 prec) with (2 ^ prec)%Z. lia.
Qed.
Lemma pow_split : (2 ^ prec = 2 * 2 ^ (prec - 1) /\ 2 ^ (prec - 1) = 2 * 2 ^ (prec - 2) /\ 4 <= 2 ^ (prec - 2))%Z.
Proof.
  split; [replace prec with (Z.succ (prec - 1)) at 1 by lia; apply Z.pow_succ_r; lia|]. split; [replace (prec - 1)%Z with (Z.succ (prec - 2)) by lia; apply Z.pow_succ_r; lia|].
  change 4%Z with (2 ^ 2)%Z. apply Z.pow_le_mono_r; lia.
Qed.
(** The drift-kick-drift leapfrog one unit in the last place before the end: both halves of the last step are absorbed. *)
Lemma half_lost h : 1 <= h -> fmt h -> tick emin prec even_tie (plain emin prec even_tie) leapfrog_dkd b 1 = b.
Proof.
  intros Hh Fh. unfold tick, leapfrog_dkd, drifts. cbn [flat_map app fold_left add plain].
  assert (H2 : fmt (/ 2)) by (change (/ 2) with (bpow radix2 (-1)); apply generic_format_bpow; unfold FLT_exp; lia).
  replace 0.5 with (/ 2) by lra. unfold fmul. rewrite (rnd_id emin prec even_tie (/ 2)), Rmult_1_r, (rnd_id emin prec even_tie (/ 2)) by auto.
  destruct pow_split as (P1 & P2 & P3). assert (T : fadd emin prec even_tie b (/ 2) = b).
  { unfold fadd. rewrite b_IZR, (tie emin prec Hemin Hprec) by lia. rewrite P2, Z.even_mul. reflexivity. }
  rewrite T, T. reflexivity.
Qed.
Lemma dkd_hangs h : 1 <= h -> fmt h -> forall fuel seen, floop emin prec even_tie (plain emin prec even_tie) leapfrog_dkd (b + 1) 0 fuel h b seen = None.
Proof.
  intros Hh Fh. assert (B := b_big prec Hprec). destruct pow_split as (P1 & P2 & P3).
  assert (Fb : fmt b) by (rewrite b_IZR; apply fmt_int; lia). assert (Fb1 : fmt (b + 1)) by (rewrite b_IZR, <- plus_IZR; apply fmt_int; lia).
  assert (Far : ffar emin prec even_tie b (b + 1) 0 = true).
  { rewrite far0 by (auto; try lra). destruct (Req_EM_T b (b + 1)); [lra|reflexivity]. }
  assert (One : rnd (b + 1 - b) = 1) by (replace (b + 1 - b) with 1 by ring; apply rnd1; auto).
  assert (Ch : forall h, 1 <= h -> fchosen emin prec even_tie h b (b + 1) = 1).
  { intros x Hx. rewrite chosen1 by auto. rewrite One, !Rabs_pos_eq by lra. destruct (Rle_dec x 1); [lra|reflexivity]. }
  intros fuel. clear Fh. revert h Hh. induction fuel as [|n IH]; intros h Hh seen; [reflexivity|]. rewrite floop_S. cbn [now plain]. rewrite Far, Ch by auto.
  rewrite (half_lost 1) by (try lra; apply fmt_1; auto; lia). apply IH. lra.
Qed.
(** The kick-drift-kick leapfrog that aims at the end from far away reads one unit in the last place beyond it. *)
Lemma kdk_over h : b + 2 <= h -> fmt h -> forall n seen,
  floop emin prec even_tie (plain emin prec even_tie) leapfrog_kdk (b + 3) 0 (S (S (S n))) h (3 / 2) seen = Some (b + 3 :: b + 4 :: 3 / 2 :: seen).
Proof.
  intros Hh Fh n seen. assert (B := b_big prec Hprec). destruct pow_split as (P1 & P2 & P3).
  assert (Ev : Z.even (2 ^ (prec - 1)) = true) by (rewrite P2, Z.even_mul; reflexivity).
  assert (Fe : fmt (b + 3)) by (rewrite b_IZR, <- plus_IZR; apply fmt_int; lia).
  assert (Ft : fmt (3 / 2)).
  { unfold Kahan_Model.fmt. apply generic_format_FLT. exists (Float radix2 3 (-1)); cbn [Fnum Fexp]; [unfold F2R; cbn; lra| |lia]. change (Z.abs 3) with 3%Z. change (Zpower radix2 prec) with (2 ^ prec)%Z. lia. }
  assert (R1 : rnd (b + 3 - 3 / 2) = b + 2).
  { replace (b + 3 - 3 / 2) with (IZR (2 ^ (prec - 1) + 1) + / 2) by (rewrite plus_IZR, b_IZR; lra). rewrite (tie emin prec Hemin Hprec) by lia.
    rewrite Z.even_add, Ev. cbn [Z.even Bool.eqb]. rewrite b_IZR, <- plus_IZR. f_equal. ring. }
  assert (R2 : rnd (3 / 2 + (b + 2)) = b + 4).
  { replace (3 / 2 + (b + 2)) with (IZR (2 ^ (prec - 1) + 3) + / 2) by (rewrite plus_IZR, b_IZR; lra). rewrite (tie emin prec Hemin Hprec) by lia.
    rewrite Z.even_add, Ev. cbn [Z.even Bool.eqb]. rewrite b_IZR, <- plus_IZR. f_equal. ring. }
  assert (F2 : fmt (b + 2)) by (rewrite b_IZR, <- plus_IZR; apply fmt_int; lia).
  assert (F4 : fmt (b + 4)) by (rewrite b_IZR, <- plus_IZR; apply fmt_int; lia).
  assert (Far : forall t, fmt t -> 0 <= t <= 2 * (b + 3) -> ffar emin prec even_tie t (b + 3) 0 = if Req_EM_T t (b + 3) then false else true) by (intros; apply far0; auto; lra).
  assert (Q : rnd (b + 3 - (b + 4)) = - (1)) by (replace (b + 3 - (b + 4)) with (- (1)) by ring; apply rnd_id; auto; apply fmt_opp; auto; apply fmt_1; auto; lia).
  rewrite floop_S. cbn [now plain]. rewrite Far by (auto; lra). destruct (Req_EM_T (3 / 2) (b + 3)); [lra|].
  rewrite chosen1 by auto. rewrite R1, !Rabs_pos_eq by lra.
  assert (E : (if Rle_dec h (b + 2) then h else b + 2) = b + 2) by (destruct (Rle_dec h (b + 2)); lra). rewrite E.
  rewrite kdk_tick by (auto; lia). rewrite R2.
  rewrite floop_S. cbn [now plain]. rewrite Far by (auto; lra). destruct (Req_EM_T (b + 4) (b + 3)); [lra|].
  rewrite chosen1 by auto. rewrite Q, Rabs_Ropp, (Rabs_pos_eq 1), (Rabs_pos_eq (b + 2)) by lra. destruct (Rle_dec (b + 2) 1); [lra|].
  rewrite kdk_tick by (auto; try lia; apply fmt_opp; auto; apply fmt_1; auto; lia). replace (b + 4 + - (1)) with (b + 3) by ring. rewrite (rnd_id emin prec even_tie (b + 3)) by auto.
  rewrite floop_S. cbn [now plain]. rewrite Far by (auto; lra). destruct (Req_EM_T (b + 3) (b + 3)); [reflexivity|contradiction].
Qed.
End Even.
