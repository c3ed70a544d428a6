From Verif Require Import Fsim_Spec Kahan_Proofs Fsim_Proofs.
From Coq Require Import Lra Lia.
Open Scope R_scope.

Lemma weight_pos l : 0 <= weight l.
Proof. induction l as [|a l IH]; cbn [weight fold_right]; [lra|]. fold (weight l). pose proof (Rabs_pos a). lra. Qed.
Lemma abs_tri a b : Rabs (a + b) <= Rabs a + Rabs b. Proof. apply Rabs_triang. Qed.
Lemma abs_le x b : Rabs x <= b -> - b <= x <= b.
Proof. intros H. unfold Rabs in H. destruct (Rcase_abs x); lra. Qed.

Section P.
Variables (emin prec : Z) (choice : Z -> bool).
Context { prec_gt_0_ : Prec_gt_0 prec }.
Notation fmt := (fmt emin prec).
Notation rnd := (rnd emin prec choice).
Notation u := (u prec).

(** One drift argument: the rounded literal times the step. *)
Lemma drift_arg a h : 0 < h -> bpow radix2 (emin + prec - 1) <= Rabs a -> bpow radix2 (emin + prec) <= Rabs a * h ->
  fmt (fmul emin prec choice (rnd a) h) /\ Rabs (fmul emin prec choice (rnd a) h - a * h) <= ((1 + u) * (1 + u) - 1) * (Rabs a * h).
Proof.
  intros Hh H1 H2. split; [apply rnd_fmt; auto|]. assert (U0 := u_pos prec). assert (U := u_half prec).
  pose proof (rnd_rel emin prec choice a H1) as A. set (b := rnd a) in *.
  assert (B : (1 - u) * Rabs a <= Rabs b <= (1 + u) * Rabs a).
  { pose proof (Rabs_triang (b - a) a) as T. replace (b - a + a) with b in T by ring. pose proof (Rabs_triang (b - a) (- b)) as T2.
    replace (b - a + - b) with (- a) in T2 by ring. rewrite !Rabs_Ropp in T2. lra. }
  assert (Bh : bpow radix2 (emin + prec - 1) <= Rabs (b * h)).
  { rewrite Rabs_mult, (Rabs_pos_eq h) by lra. replace (emin + prec)%Z with ((emin + prec - 1) + 1)%Z in H2 by ring. rewrite bpow_plus in H2. change (bpow radix2 1) with 2 in H2.
    pose proof (Rabs_pos a). assert (/ 2 * Rabs a <= Rabs b) by nra. nra. }
  apply (rnd_rel emin prec choice) in Bh. rewrite Rabs_mult, (Rabs_pos_eq h) in Bh by lra. unfold Kahan_Model.fmul.
  pose proof (Rabs_triang (rnd (b * h) - b * h) ((b - a) * h)) as T. replace (rnd (b * h) - b * h + (b - a) * h) with (rnd (b * h) - a * h) in T by ring.
  rewrite (Rabs_mult (b - a)), (Rabs_pos_eq h) in T by lra. pose proof (Rabs_pos a). pose proof (Rabs_pos b).
  assert (Rabs (b - a) * h <= u * Rabs a * h) by (apply Rmult_le_compat_r; lra).
  assert (u * (Rabs b * h) <= u * ((1 + u) * Rabs a * h)) by (apply Rmult_le_compat_l; [lra|]; apply Rmult_le_compat_r; lra). nra.
Qed.

(** The plain clock through a list of drifts. *)
Lemma plain_fold h : 0 < h -> forall l j t ex m, no_underflow emin prec l h -> fmt t -> Rabs ex <= m -> Rabs (t - ex) <= ((1 + u) ^ (j + 2) - 1) * m ->
  let t' := fold_left (fun c a => fadd emin prec choice c (fmul emin prec choice (rnd a) h)) l t in
  fmt t' /\ Rabs (t' - (ex + h * total l)) <= ((1 + u) ^ (j + length l + 2) - 1) * (m + h * weight l).
Proof.
  intros Hh. assert (U0 := u_pos prec). assert (U := u_half prec).
  induction l as [|a l IH]; intros j t ex m HU Ft Hm H; cbv zeta; cbn [fold_left].
  - cbn [total weight fold_right length]. split; auto. rewrite !Rmult_0_r, !Rplus_0_r, Nat.add_0_r. auto.
  - destruct (HU a (or_introl eq_refl)) as [H1 H2]. destruct (drift_arg a h Hh H1 H2) as [Fx Ex]. set (x := fmul emin prec choice (rnd a) h) in *.
    pose proof (rnd_add_err emin prec choice t x Ft Fx) as E.
    replace (j + length (a :: l) + 2)%nat with (S j + length l + 2)%nat by (cbn [length]; lia).
    cbn [total weight fold_right]. fold (total l) (weight l).
    replace (ex + h * (a + total l)) with (ex + a * h + h * total l) by ring. replace (m + h * (Rabs a + weight l)) with (m + Rabs a * h + h * weight l) by ring.
    apply IH.
    + intros b Hb. apply HU. right. auto.
    + apply rnd_fmt; auto.
    + pose proof (Rabs_triang ex (a * h)) as T. rewrite Rabs_mult, (Rabs_pos_eq h) in T by lra. lra.
    + set (g := (1 + u) ^ (j + 2) - 1) in *. replace ((1 + u) ^ (S j + 2) - 1) with ((1 + u) * g + u) by (unfold g; cbn [Nat.add pow]; ring).
      assert (G : (1 + u) * (1 + u) - 1 <= g).
      { unfold g. replace (j + 2)%nat with (S (S j)) by lia. cbn [pow]. assert (1 <= (1 + u) ^ j) by (apply pow_R1_Rle; lra). nra. }
      unfold fadd. set (s := rnd (t + x)) in *. pose proof (Rabs_pos a) as Pa. pose proof (Rabs_pos ex) as Pe.
      assert (D : Rabs (t + x - (ex + a * h)) <= g * m + ((1 + u) * (1 + u) - 1) * (Rabs a * h)).
      { replace (t + x - (ex + a * h)) with ((t - ex) + (x - a * h)) by ring. pose proof (Rabs_triang (t - ex) (x - a * h)). lra. }
      assert (N : Rabs (t + x) <= (m + Rabs a * h) + (g * m + ((1 + u) * (1 + u) - 1) * (Rabs a * h))).
      { replace (t + x) with ((t + x - (ex + a * h)) + (ex + a * h)) by ring.
        pose proof (Rabs_triang (t + x - (ex + a * h)) (ex + a * h)). pose proof (Rabs_triang ex (a * h)) as T. rewrite Rabs_mult, (Rabs_pos_eq h) in T by lra. lra. }
      assert (Q : Rabs (s - (ex + a * h)) <= Rabs (s - (t + x)) + Rabs (t + x - (ex + a * h))).
      { replace (s - (ex + a * h)) with ((s - (t + x)) + (t + x - (ex + a * h))) by ring. apply Rabs_triang. }
      assert (W : ((1 + u) * (1 + u) - 1) * (Rabs a * h) <= g * (Rabs a * h)) by (apply Rmult_le_compat_r; [nra|lra]).
      set (wa := ((1 + u) * (1 + u) - 1) * (Rabs a * h)) in *. set (ah := Rabs a * h) in *. nra.
Qed.
Lemma plain_tick ops t h e kap : 0 < h -> no_underflow emin prec (drifts ops) h -> fmt t -> 0 <= t <= e -> h <= 2 * e -> Rabs (total (drifts ops) - 1) <= kap ->
  fmt (tick emin prec choice (plain emin prec choice) ops t h) /\
  Rabs (tick emin prec choice (plain emin prec choice) ops t h - (t + h)) <= plain_error u (length (drifts ops)) (weight (drifts ops)) kap e h.
Proof.
  intros Hh HU Ft Ht He Hk. assert (U0 := u_pos prec).
  destruct (plain_fold h Hh (drifts ops) 0 t t t HU Ft) as [F E].
  - rewrite Rabs_pos_eq; lra.
  - rewrite Rminus_diag_eq, Rabs_R0 by reflexivity. apply Rmult_le_pos; [|lra]. assert (1 <= (1 + u) ^ (0 + 2)) by (apply pow_R1_Rle; lra). lra.
  - cbn [Nat.add] in E. unfold tick. cbn [add plain]. set (t' := fold_left _ _ t) in *. split; [exact F|].
    set (k := length (drifts ops)) in *. set (s := weight (drifts ops)) in *. assert (Ps : 0 <= s) by apply weight_pos.
    unfold plain_error. set (g := (1 + u) ^ (k + 2) - 1) in *. assert (Pg : 0 <= g) by (unfold g; assert (1 <= (1 + u) ^ (k + 2)) by (apply pow_R1_Rle; lra); lra).
    assert (A : g * (t + h * s) <= g * ((1 + 2 * s) * e)) by (apply Rmult_le_compat_l; auto; nra).
    replace (t' - (t + h)) with ((t' - (t + h * total (drifts ops))) + h * (total (drifts ops) - 1)) by ring.
    pose proof (Rabs_triang (t' - (t + h * total (drifts ops))) (h * (total (drifts ops) - 1))) as T. rewrite (Rabs_mult h), (Rabs_pos_eq h) in T by lra.
    assert (h * Rabs (total (drifts ops) - 1) <= h * kap) by (apply Rmult_le_compat_l; lra). lra.
Qed.
Lemma u_unit : u = unit_roundoff prec. Proof. apply u_eq. Qed.

Lemma plain_run ops e tol h0 t0 kap n : fmt e -> fmt tol -> fmt h0 -> fmt t0 -> 0 < e -> tol <= 1 -> bpow radix2 (emin + prec - 1) <= tol ->
  0 <= t0 <= e -> 0 < h0 -> Rabs (total (drifts ops) - 1) <= kap -> no_underflow emin prec (drifts ops) (Rmin h0 (u * e / 2)) ->
  let ep := plain_error u (length (drifts ops)) (weight (drifts ops)) kap e (Rmin h0 (2 * e)) in
  2 * (2 * u * e + ep) <= tol * e -> ep < h0 -> e - t0 <= INR n * (h0 - ep) ->
  exists tr last, floop emin prec choice (plain emin prec choice) ops e tol (S (S n)) h0 t0 [] = Some (last :: tr) /\ (length tr <= S n)%nat /\
    ended emin prec choice e tol last /\ Forall (fun t => 0 <= t <= e + (2 * u * e + ep)) (last :: tr).
Proof.
  intros Fe Ftol Fh Ft He Ht1 Htn Ht Hh0 Hk HU ep Htol Hp Hn. assert (U0 := u_pos prec). assert (U := u_half prec).
  assert (Ps : 0 <= weight (drifts ops)) by apply weight_pos. assert (Pk : 0 <= kap) by (eapply Rle_trans; [apply Rabs_pos|exact Hk]).
  assert (Pg : 0 <= (1 + u) ^ (length (drifts ops) + 2) - 1) by (assert (1 <= (1 + u) ^ (length (drifts ops) + 2)) by (apply pow_R1_Rle; lra); lra).
  assert (Hep : 0 <= ep).
  { unfold ep, plain_error. assert (0 <= Rmin h0 (2 * e)) by (apply Rmin_glb; lra).
    apply Rplus_le_le_0_compat; [|apply Rmult_le_pos; auto]. apply Rmult_le_pos; auto. apply Rmult_le_pos; lra. }
  assert (Hm : 0 < Rmin h0 (u * e / 2)) by (apply Rmin_glb_lt; nra).
  destruct (any_loop emin prec choice R (plain emin prec choice) ops (fun t => t) (fun t => fmt t /\ 0 <= t) e tol h0 0 ep Fe He Ftol Fh Ht1 (Rle_refl 0) Hep) with (n := n) (c := t0) (h := h0) (seen := @nil R)
    as (tr & last & A & B & C & D); auto.
  - intros c [F P]. cbn [now plain]. split; auto. split; auto. rewrite Rminus_diag_eq, Rabs_R0 by reflexivity. lra.
  - intros c h [F P] Fhh L1 L2 Lc Le. cbn [now plain] in Lc.
    assert (Hh : 0 < h) by lra. assert (HU' : no_underflow emin prec (drifts ops) h).
    { intros a Ha. destruct (HU a Ha) as [H1 H2]. split; auto. apply Rle_trans with (1 := H2). apply Rmult_le_compat_l; auto. apply Rabs_pos. }
    assert (L3 : h <= 2 * e) by (apply Rle_trans with (1 := L2); apply Rmin_r).
    destruct (plain_tick ops c h e kap Hh HU' F (conj P Lc) L3 Hk) as [F' E'].
    assert (E2 : Rabs (tick emin prec choice (plain emin prec choice) ops c h - (c + h)) <= ep).
    { apply Rle_trans with (1 := E'). unfold ep, plain_error. apply Rplus_le_compat_l. apply Rmult_le_compat_l; auto. }
    split; auto. split; auto. apply abs_le in E2. lra.
  - unfold sg. lra.
  - split; [auto|lra].
  - cbn [now plain]. unfold sg. assert (0 <= u * e) by (apply Rmult_le_pos; lra). lra.
  - rewrite app_nil_r in A. exists tr, last. split; [exact A|]. split; [exact B|]. split.
    + cbn [now plain] in C. split; auto. rewrite <- u_unit. inversion D as [|? ? [[F P] L]]; subst. apply (not_far_near emin prec choice); auto.
    + cbn [now plain] in D. revert D. apply Forall_impl. intros a [[F P] L]. split; auto. unfold sg in L. lra.
Qed.
End P.
