From Verif Require Import Fsim_Spec Kahan_Proofs Fsim_Proofs Fsim_Proofs2.
From Coq Require Import Lra Lia.
Open Scope R_scope.

Section P.
Variables (emin prec : Z) (choice : Z -> bool).
Context { prec_gt_0_ : Prec_gt_0 prec }.
Notation fmt := (fmt emin prec).
Notation rnd := (rnd emin prec choice).
Notation u := (u prec).
Notation kfmt := (kfmt emin prec).
Notation k_add := (k_add emin prec choice).

(** The number a compensated clock stands for. *)
Definition kval (k : kahan) : R := k_real k - k_err k.

(** One addition, in either order of magnitude. *)
Lemma k_add_step k x : kfmt k -> fmt x ->
  Rabs (kval (k_add k x) - (kval k + x)) <= 7 * u * (Rabs x + Rabs (k_err k)) /\
  Rabs (k_err (k_add k x)) <= 9 * u * (Rabs (k_real k) + Rabs x + Rabs (k_err k)).
Proof.
  intros [Fr Fs] Fx. assert (U0 := u_pos prec). assert (U := u_half prec). unfold kval.
  pose proof (rnd_sub_err emin prec choice x (k_err k) Fx Fs) as EA. set (r := k_real k) in *. set (s := k_err k) in *. set (a := rnd (x - s)) in *.
  assert (Fa : fmt a) by (apply rnd_fmt; auto).
  assert (XS : Rabs (x - s) <= Rabs x + Rabs s) by (pose proof (Rabs_triang x (- s)) as T; rewrite Rabs_Ropp in T; exact T).
  pose proof (Rabs_pos x) as Px. pose proof (Rabs_pos s) as Ps. pose proof (Rabs_pos r) as Pr. pose proof (Rabs_pos (x - s)) as Pxs.
  assert (A1 : Rabs a <= (1 + u) * Rabs (x - s)).
  { pose proof (Rabs_triang (a - (x - s)) (x - s)) as T. replace (a - (x - s) + (x - s)) with a in T by ring. lra. }
  assert (A2 : Rabs a <= 3 / 2 * (Rabs x + Rabs s)) by nra.
  assert (E1 : Rabs (a - (x - s)) <= u * (Rabs x + Rabs s)) by (apply Rle_trans with (1 := EA); apply Rmult_le_compat_l; lra).
  destruct (Rle_dec (Rabs a) (Rabs r)) as [L|L].
  - pose proof (kahan_exact emin prec choice k x Fr L) as E. fold r s a in E. split.
    + rewrite E. replace (r + a - (r - s + x)) with (a - (x - s)) by ring. nra.
    + pose proof (rnd_add_err emin prec choice r a Fr Fa) as S1.
      assert (Er : k_err (k_add k x) = rnd (r + a) - (r + a)).
      { change (k_real (k_add k x)) with (rnd (r + a)) in E. lra. }
      rewrite Er. apply Rle_trans with (1 := S1). pose proof (Rabs_triang r a). pose proof (Rabs_pos a). nra.
  - apply Rnot_le_lt in L. unfold Kahan_Model.k_add, Kahan_Model.fadd, Kahan_Model.fsub. cbv zeta. cbn [k_real k_err]. fold r s a.
    pose proof (rnd_add_err emin prec choice r a Fr Fa) as S1. set (sm := rnd (r + a)) in *. assert (Fsm : fmt sm) by (apply rnd_fmt; auto).
    pose proof (rnd_sub_err emin prec choice sm r Fsm Fr) as S2. set (y := rnd (sm - r)) in *. assert (Fy : fmt y) by (apply rnd_fmt; auto).
    pose proof (rnd_sub_err emin prec choice y a Fy Fa) as S3. set (er := rnd (y - a)) in *.
    pose proof (Rabs_triang r a) as T1. pose proof (Rabs_pos a) as Pa.
    assert (Q1 : Rabs (sm - (r + a)) <= 2 * u * Rabs a) by nra.
    assert (Q2 : Rabs (sm - r) <= 2 * Rabs a).
    { replace (sm - r) with (sm - (r + a) + a) by ring. pose proof (Rabs_triang (sm - (r + a)) a). nra. }
    assert (Q3 : Rabs (y - (sm - r)) <= 2 * u * Rabs a) by nra.
    assert (Q4 : Rabs (y - a) <= 4 * u * Rabs a).
    { replace (y - a) with ((y - (sm - r)) + (sm - (r + a))) by ring. pose proof (Rabs_triang (y - (sm - r)) (sm - (r + a))). lra. }
    assert (Q4' : Rabs (y - a) <= 2 * Rabs a) by nra.
    assert (Q5 : Rabs (er - (y - a)) <= 2 * u * Rabs a) by (apply Rle_trans with (1 := S3); replace (2 * u * Rabs a) with (u * (2 * Rabs a)) by ring; apply Rmult_le_compat_l; lra).
    assert (Q6 : u * Rabs a <= u * (3 / 2 * (Rabs x + Rabs s))) by (apply Rmult_le_compat_l; lra). assert (Q7 : 0 <= u * Rabs r) by (apply Rmult_le_pos; lra).
    split.
    + replace (sm - er - (r - s + x)) with (- (er - (y - a)) + (- (y - (sm - r)) + (a - (x - s)))) by ring.
      pose proof (Rabs_triang (- (er - (y - a))) (- (y - (sm - r)) + (a - (x - s)))) as T2. pose proof (Rabs_triang (- (y - (sm - r))) (a - (x - s))) as T3.
      rewrite Rabs_Ropp in T2. rewrite Rabs_Ropp in T3. lra.
    + replace er with ((er - (y - a)) + (y - a)) by ring. pose proof (Rabs_triang (er - (y - a)) (y - a)). lra.
Qed.

Lemma comp_fold h dl B : 0 < h -> 36 * u <= 1 -> 0 <= dl -> forall l k ex L,
  no_underflow emin prec l h -> kfmt k -> Rabs (k_err k) <= dl -> Rabs (kval k - ex) <= L ->
  18 * u * (B + 3 * h * weight l) <= dl ->
  Rabs ex + L + h * weight l + (24 * u * h * weight l + 7 * u * INR (length l) * dl) <= B ->
  let k' := fold_left (fun c a => k_add c (fmul emin prec choice (rnd a) h)) l k in
  kfmt k' /\ Rabs (k_err k') <= dl /\ Rabs (kval k' - (ex + h * total l)) <= L + (24 * u * h * weight l + 7 * u * INR (length l) * dl).
Proof.
  intros Hh Hu Hdl. assert (U0 := u_pos prec). assert (U := u_half prec).
  induction l as [|a l IH]; intros k ex L HU Fk He Hv HB Hx; cbv zeta; cbn [fold_left].
  - cbn [total weight fold_right length INR]. split; auto. split; auto. rewrite !Rmult_0_r, Rmult_0_l, !Rplus_0_r. exact Hv.
  - destruct (HU a (or_introl eq_refl)) as [H1 H2]. destruct (drift_arg emin prec choice a h Hh H1 H2) as [Fx Ex]. set (x := fmul emin prec choice (rnd a) h) in *.
    destruct (k_add_step k x Fk Fx) as [S1 S2].
    cbn [total weight fold_right] in *. fold (total l) (weight l) in *. pose proof (weight_pos l) as Pw.
    change (length (a :: l)) with (S (length l)) in *. rewrite S_INR in *. set (N := INR (length l)) in *. assert (PN : 0 <= N) by apply pos_INR.
    pose proof (Rabs_pos a) as Pa. set (ah := Rabs a * h) in *. assert (Pah : 0 <= ah) by (unfold ah; nra).
    assert (W : (1 + u) * (1 + u) - 1 <= 3 * u) by nra.
    assert (X1 : Rabs (x - a * h) <= 3 * u * ah) by (apply Rle_trans with (1 := Ex); apply Rmult_le_compat_r; auto).
    assert (X2 : Rabs x <= 3 * ah).
    { replace x with ((x - a * h) + a * h) by ring. pose proof (Rabs_triang (x - a * h) (a * h)) as T. rewrite (Rabs_mult a), (Rabs_pos_eq h) in T by lra. fold ah in T. nra. }
    assert (Hw : h * (Rabs a + weight l) = ah + h * weight l) by (unfold ah; ring).
    assert (PL : 0 <= L) by (eapply Rle_trans; [apply Rabs_pos|exact Hv]). pose proof (Rabs_pos ex) as Pex.
    assert (Z1 : 0 <= u * h * weight l) by (apply Rmult_le_pos; [apply Rmult_le_pos|]; lra).
    assert (Z2 : 0 <= u * N * dl) by (apply Rmult_le_pos; [apply Rmult_le_pos|]; lra).
    assert (Z3 : 0 <= h * weight l) by (apply Rmult_le_pos; lra).
    assert (Z4 : 0 <= u * ah) by (apply Rmult_le_pos; lra). assert (Z5 : 0 <= u * dl) by (apply Rmult_le_pos; lra).
    assert (R1 : Rabs (k_real k) <= B + dl).
    { replace (k_real k) with ((kval k - ex) + (ex + k_err k)) by (unfold kval; ring).
      pose proof (Rabs_triang (kval k - ex) (ex + k_err k)). pose proof (Rabs_triang ex (k_err k)). nra. }
    replace (ex + h * (a + total l)) with (ex + a * h + h * total l) by ring.
    assert (V1 : Rabs (kval (k_add k x) - (ex + a * h)) <= L + (24 * u * ah + 7 * u * dl)).
    { replace (kval (k_add k x) - (ex + a * h)) with ((kval (k_add k x) - (kval k + x)) + ((kval k - ex) + (x - a * h))) by ring.
      pose proof (Rabs_triang (kval (k_add k x) - (kval k + x)) ((kval k - ex) + (x - a * h))). pose proof (Rabs_triang (kval k - ex) (x - a * h)).
      assert (7 * u * (Rabs x + Rabs (k_err k)) <= 7 * u * (3 * ah + dl)) by (apply Rmult_le_compat_l; lra). lra. }
    destruct (IH (k_add k x) (ex + a * h) (L + (24 * u * ah + 7 * u * dl))) as (F' & E' & V').
    + intros b Hb. apply HU. right. auto.
    + apply k_add_fmt; auto.
    + apply Rle_trans with (1 := S2).
      assert (9 * u * (Rabs (k_real k) + Rabs x + Rabs (k_err k)) <= 9 * u * (B + dl + 3 * ah + dl)) by (apply Rmult_le_compat_l; lra).
      assert (18 * u * (B + 3 * ah) <= dl) by (apply Rle_trans with (2 := HB); apply Rmult_le_compat_l; [lra|]; nra).
      assert (18 * u * dl <= dl / 2) by nra. nra.
    + exact V1.
    + apply Rle_trans with (2 := HB). apply Rmult_le_compat_l; [lra|]. nra.
    + pose proof (Rabs_triang ex (a * h)) as T. rewrite (Rabs_mult a), (Rabs_pos_eq h) in T by lra. fold ah in T.
      replace (24 * u * h * (Rabs a + weight l)) with (24 * u * ah + 24 * u * h * weight l) in Hx by (unfold ah; ring). nra.
    + split; auto. split; auto. apply Rle_trans with (1 := V'). apply Req_le. unfold ah. ring.
Qed.

Lemma comp_tick ops k h e kap gap : 0 < h -> 128 * u <= 1 -> 8 * (INR (length (drifts ops)) * u) <= 1 -> no_underflow emin prec (drifts ops) h ->
  kfmt k -> k_real k <= e -> 0 <= kval k -> Rabs (total (drifts ops) - 1) <= kap ->
  forall hm, h <= hm -> gap = comp_gap u (weight (drifts ops)) e hm -> 0 < e -> Rabs (k_err k) <= gap ->
  let k' := tick emin prec choice (compensated emin prec choice) ops k h in
  kfmt k' /\ Rabs (k_err k') <= gap /\ Rabs (kval k' - (kval k + h)) <= comp_error u (length (drifts ops)) (weight (drifts ops)) kap e hm.
Proof.
  intros Hh Hu Hk HU Fk Hr Hv Ht hm Hm Hg He Hs. cbv zeta. assert (U0 := u_pos prec).
  set (S := weight (drifts ops)) in *. set (n := length (drifts ops)) in *. assert (PS : 0 <= S) by apply weight_pos.
  set (X := 3 * S * hm). assert (PX : 0 <= X) by (unfold X; nra). assert (Gg : gap = 54 * u * (e + X)) by (rewrite Hg; reflexivity).
  assert (Pg : 0 <= gap) by (rewrite Gg; nra). assert (PN : 0 <= INR n) by apply pos_INR.
  assert (hS : 0 <= h * S) by nra. assert (hS3 : 3 * (h * S) <= X) by (unfold X; nra).
  assert (K1 : 7 * u * INR n * gap <= (e + X) / 2).
  { rewrite Gg. replace (7 * u * INR n * (54 * u * (e + X))) with (378 * u * (INR n * u) * (e + X)) by ring.
    assert (378 * u * (INR n * u) <= / 2) by nra. nra. }
  assert (K2 : gap <= (e + X) / 2) by (rewrite Gg; nra).
  destruct (comp_fold h gap (2 * (e + X)) Hh ltac:(lra) Pg (drifts ops) k (kval k) 0 HU Fk Hs) as (F & E & V).
  - rewrite Rminus_diag_eq, Rabs_R0 by reflexivity. lra.
  - fold S. rewrite Gg. assert (18 * u * (2 * (e + X) + 3 * h * S) <= 18 * u * (3 * (e + X))) by (apply Rmult_le_compat_l; nra). nra.
  - fold S n. rewrite (Rabs_pos_eq (kval k)) by auto. apply abs_le in Hs. assert (kval k <= e + gap) by (unfold kval; lra).
    assert (24 * u * h * S <= X / 8) by nra. nra.
  - fold S n in V. split; [exact F|]. split; [exact E|].
    change (tick emin prec choice (compensated emin prec choice) ops k h) with (fold_left (fun c a => k_add c (fmul emin prec choice (rnd a) h)) (drifts ops) k).
    set (k' := fold_left _ _ k) in *.
    replace (kval k' - (kval k + h)) with ((kval k' - (kval k + h * total (drifts ops))) + h * (total (drifts ops) - 1)) by ring.
    pose proof (Rabs_triang (kval k' - (kval k + h * total (drifts ops))) (h * (total (drifts ops) - 1))) as T. rewrite (Rabs_mult h), (Rabs_pos_eq h) in T by lra.
    assert (Pk : 0 <= kap) by (eapply Rle_trans; [apply Rabs_pos|exact Ht]).
    assert (h * Rabs (total (drifts ops) - 1) <= hm * kap) by (apply Rmult_le_compat; auto; [lra|apply Rabs_pos]).
    unfold comp_error. rewrite <- Hg. assert (24 * u * h * S <= 24 * u * hm * S) by (apply Rmult_le_compat_r; auto; apply Rmult_le_compat_l; lra). nra.
Qed.

Lemma comp_run ops e tol h0 t0 kap n : fmt e -> fmt tol -> fmt h0 -> fmt t0 -> 0 < e -> tol <= 1 -> bpow radix2 (emin + prec - 1) <= tol ->
  0 <= t0 <= e -> 0 < h0 -> Rabs (total (drifts ops) - 1) <= kap -> no_underflow emin prec (drifts ops) (Rmin h0 (u * e / 2)) ->
  128 * u <= 1 -> 8 * (INR (length (drifts ops)) * u) <= 1 ->
  let hm := Rmin h0 (2 * e) in
  let gap := comp_gap u (weight (drifts ops)) e hm in
  let ep := comp_error u (length (drifts ops)) (weight (drifts ops)) kap e hm in
  2 * (2 * u * e + 2 * gap + ep) <= tol * e -> ep < h0 -> e - t0 <= INR n * (h0 - ep) ->
  exists tr last, floop emin prec choice (compensated emin prec choice) ops e tol (S (S n)) h0 (k_of t0) [] = Some (last :: tr) /\ (length tr <= S n)%nat /\
    ended emin prec choice e tol (k_real last) /\ Forall (fun k => k_real k <= e + (2 * u * e + 2 * gap + ep)) (last :: tr).
Proof.
  intros Fe Ftol Fh Ft He Ht1 Htn Ht Hh0 Hk HU Hu Hku hm gap ep Htol Hp Hn. assert (U0 := u_pos prec). assert (U := u_half prec).
  assert (Ps : 0 <= weight (drifts ops)) by apply weight_pos. assert (Pk : 0 <= kap) by (eapply Rle_trans; [apply Rabs_pos|exact Hk]).
  assert (Phm : 0 < hm) by (apply Rmin_glb_lt; lra). assert (PSh : 0 <= weight (drifts ops) * hm) by (apply Rmult_le_pos; lra).
  assert (Pgap : 0 <= gap) by (unfold gap, comp_gap; apply Rmult_le_pos; nra). assert (PN := pos_INR (length (drifts ops))).
  assert (Hep : 0 <= ep).
  { unfold ep, comp_error. fold gap. apply Rplus_le_le_0_compat; apply Rmult_le_pos; try lra; [apply Rplus_le_le_0_compat; [nra|apply Rmult_le_pos; lra]|].
    apply Rplus_le_le_0_compat; auto. apply Rmult_le_pos; lra. }
  assert (Pue : 0 < u * e) by (apply Rmult_lt_0_compat; auto). assert (Hm : 0 < Rmin h0 (u * e / 2)) by (apply Rmin_glb_lt; lra).
  destruct (any_loop emin prec choice kahan (compensated emin prec choice) ops kval (fun k => kfmt k /\ 0 <= kval k /\ Rabs (k_err k) <= gap) e tol h0 gap ep Fe He Ftol Fh Ht1 Pgap Hep)
    with (n := n) (c := k_of t0) (h := h0) (seen := @nil kahan) as (tr & last & A & B & Cc & Dd); auto.
  - intros c (F & P & E). cbn [now compensated]. split; [apply F|]. split; auto. unfold kval. replace (k_real c - (k_real c - k_err c)) with (k_err c) by ring. auto.
  - intros c h (F & P & E) Fhh L1 L2 Lc Le. cbn [now compensated] in Lc.
    assert (Hh : 0 < h) by lra. assert (HU' : no_underflow emin prec (drifts ops) h).
    { intros a Ha. destruct (HU a Ha) as [H1 H2]. split; auto. apply Rle_trans with (1 := H2). apply Rmult_le_compat_l; auto. apply Rabs_pos. }
    destruct (comp_tick ops c h e kap gap Hh Hu Hku HU' F Lc P Hk hm L2 eq_refl He E) as (F' & E' & V').
    split; auto. split; auto. split; auto. apply abs_le in V'. fold ep in V'. lra.
  - split; [split; [exact Ft|apply fmt_0]|]. unfold kval. cbn [k_of k_real k_err]. rewrite Rabs_R0. lra.
  - cbn [now compensated k_of k_real]. unfold sg. lra.
  - unfold kval. cbn [k_of k_real k_err]. lra.
  - rewrite app_nil_r in A. exists tr, last. split; [exact A|]. split; [exact B|]. split.
    + cbn [now compensated] in Cc. split; auto. rewrite <- u_unit by auto. inversion Dd as [|? ? [[[F _] _] L]]; subst. apply (not_far_near emin prec choice); auto.
    + cbn [now compensated] in Dd. revert Dd. apply Forall_impl. intros a [_ L]. exact L.
Qed.
End P.
