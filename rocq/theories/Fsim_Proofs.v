From Verif Require Import Fsim_Model Kahan_Proofs.
From Flocq Require Import Sterbenz Plus_error Relative Ulp.
From Coq Require Import Lra Lia.
Open Scope R_scope.

Section P.
Variables (emin prec : Z) (choice : Z -> bool).
Context { prec_gt_0_ : Prec_gt_0 prec }.
Notation fmt := (fmt emin prec).
Notation rnd := (rnd emin prec choice).
Notation fadd := (fadd emin prec choice).
Notation fsub := (fsub emin prec choice).
Notation fmul := (fmul emin prec choice).
Notation fdiv := (fdiv emin prec choice).
Notation u := (u prec).

Lemma u_half : u <= / 2.
Proof. rewrite u_eq. change (/ 2) with (bpow radix2 (-1)). apply bpow_le. red in prec_gt_0_. lia. Qed.
Lemma rnd_sub_err x y : fmt x -> fmt y -> Rabs (rnd (x - y) - (x - y)) <= u * Rabs (x - y).
Proof. intros. unfold Rminus at 1 3 4. apply rnd_add_err; auto. apply fmt_opp; auto. Qed.
(** Relative error of a product or quotient that does not underflow. *)
Lemma rnd_rel x : bpow radix2 (emin + prec - 1) <= Rabs x -> Rabs (rnd x - x) <= u * Rabs x.
Proof.
  intros H. unfold Kahan_Proofs.u, u_ro.
  apply relative_error_N_FLT; auto.
Qed.
Lemma rnd_0 : rnd 0 = 0. Proof. apply rnd_id; auto. apply fmt_0. Qed.
Lemma rnd_nonneg x : 0 <= x -> 0 <= rnd x.
Proof. intros. rewrite <- rnd_0. apply rnd_le; auto. Qed.
(** |rnd x| and |x| against a representable bound. *)
Lemma rnd_abs_le x b : fmt b -> Rabs x <= b -> Rabs (rnd x) <= b.
Proof.
  intros Fb H. apply Rabs_le. assert (- b <= x <= b) by (unfold Rabs in H; destruct (Rcase_abs x); lra).
  split.
  - rewrite <- (rnd_id emin prec choice (- b)) by (apply fmt_opp; auto). apply rnd_le; auto; lra.
  - rewrite <- (rnd_id emin prec choice b) by auto. apply rnd_le; auto; lra.
Qed.
(** What the loop condition tells. *)
Lemma near_not_far t e tol s : fmt t -> fmt e -> fmt tol -> 0 < e -> Rabs (t - e) <= s -> 2 * s <= tol * e -> ffar emin prec choice t e tol = false.
Proof.
  intros Ft Fe Ftol He H Hs. unfold ffar. destruct (Rlt_dec _ _) as [L|]; [exfalso|reflexivity].
  assert (Rabs (fdiv (fsub t e) e) <= tol); [|lra]. apply rnd_abs_le; auto.
  pose proof (rnd_sub_err t e Ft Fe) as A. pose proof u_half as U. pose proof (u_pos prec) as U0.
  unfold Rdiv. rewrite Rabs_mult, (Rabs_pos_eq (/ e)) by (left; apply Rinv_0_lt_compat; auto).
  apply Rmult_le_reg_r with e; auto. rewrite Rmult_assoc, Rinv_l, Rmult_1_r by lra.
  assert (Rabs (fsub t e) <= 2 * Rabs (t - e)).
  { unfold Kahan_Model.fsub. pose proof (Rabs_triang (rnd (t - e) - (t - e)) (t - e)) as T. replace (rnd (t - e) - (t - e) + (t - e)) with (rnd (t - e)) in T by ring.
    pose proof (Rabs_pos (t - e)). nra. }
  lra.
Qed.
Lemma not_far_near t e tol : fmt t -> fmt e -> 0 < e -> bpow radix2 (emin + prec - 1) <= tol -> ffar emin prec choice t e tol = false ->
  (1 - u) * (1 - u) * Rabs (t - e) <= tol * e.
Proof.
  intros Ft Fe He Htol H. unfold ffar in H. destruct (Rlt_dec _ _) as [|L]; [discriminate|]. apply Rnot_lt_le in L. clear H.
  pose proof (rnd_sub_err t e Ft Fe) as A. pose proof u_half as U. pose proof (u_pos prec) as U0.
  set (x := fsub t e) in *. change (rnd (t - e)) with x in A.
  assert (X : (1 - u) * Rabs (t - e) <= Rabs x).
  { pose proof (Rabs_triang (x - (t - e)) (- x)) as T. rewrite Rabs_Ropp in T. replace (x - (t - e) + - x) with (- (t - e)) in T by ring. rewrite Rabs_Ropp in T. lra. }
  assert (Q : (1 - u) * Rabs (x / e) <= tol).
  { destruct (Rle_dec (bpow radix2 (emin + prec - 1)) (Rabs (x / e))) as [B|B].
    - apply rnd_rel in B. unfold fdiv in L.
      pose proof (Rabs_triang (rnd (x / e) - x / e) (- rnd (x / e))) as T. rewrite Rabs_Ropp in T. replace (rnd (x / e) - x / e + - rnd (x / e)) with (- (x / e)) in T by ring.
      rewrite Rabs_Ropp in T. lra.
    - apply Rnot_le_lt in B. pose proof (Rabs_pos (x / e)). nra. }
  assert (E : Rabs (x / e) * e = Rabs x) by (unfold Rdiv; rewrite Rabs_mult, (Rabs_pos_eq (/ e)) by (left; apply Rinv_0_lt_compat; auto); field; lra).
  assert ((1 - u) * Rabs x <= tol * e) by (rewrite <- E; nra). nra.
Qed.
Lemma fsub1 x y : fmul (fsub x y) 1 = rnd (x - y).
Proof. unfold Kahan_Model.fmul, Kahan_Model.fsub. rewrite Rmult_1_r. apply rnd_id; auto. apply rnd_fmt; auto. Qed.

Lemma floop_S {C} (k : clock C) ops e tol n h c seen : floop emin prec choice k ops e tol (S n) h c seen =
  if ffar emin prec choice (now k c) e tol then floop emin prec choice k ops e tol n (fchosen emin prec choice h (now k c) e) (tick emin prec choice k ops c (fchosen emin prec choice h (now k c) e)) (c :: seen)
  else Some (c :: seen).
Proof. reflexivity. Qed.
(** * Any clock *)
Section Any.
  Variables (C : Type) (k : clock C) (ops : list op) (val : C -> R) (Inv : C -> Prop) (e tol h0 dl ep : R).
  Hypothesis Fe : fmt e. Hypothesis He : 0 < e. Hypothesis Ftol : fmt tol. Hypothesis Fh : fmt h0. Hypothesis Ht1 : tol <= 1.
  Hypothesis Hdl : 0 <= dl.
  Hypothesis Hep : 0 <= ep.
  Hypothesis Hinv : forall c, Inv c -> fmt (now k c) /\ 0 <= val c /\ Rabs (now k c - val c) <= dl.
  Hypothesis Hstep : forall c h, Inv c -> fmt h -> Rmin h0 (u * e / 2) <= h -> h <= Rmin h0 (2 * e) -> now k c <= e -> ep <= val c + h ->
    Inv (tick emin prec choice k ops c h) /\ Rabs (val (tick emin prec choice k ops c h) - (val c + h)) <= ep.
  Definition sg : R := 2 * u * e + 2 * dl + ep.
  Hypothesis Htol : 2 * sg <= tol * e.
  Hypothesis Hprog : ep < h0.

  Lemma any_loop : forall n c h seen, Inv c -> (h = h0 \/ ffar emin prec choice (now k c) e tol = false) -> now k c <= e + sg -> e - val c <= INR n * (h0 - ep) ->
    exists tr last, floop emin prec choice k ops e tol (S (S n)) h c seen = Some (last :: tr ++ seen) /\ (length tr <= S n)%nat /\
      ffar emin prec choice (now k last) e tol = false /\ Forall (fun c => Inv c /\ now k c <= e + sg) (last :: tr).
  Proof.
    assert (U0 := u_pos prec). assert (U := u_half). assert (S0 : 0 < u * e) by (apply Rmult_lt_0_compat; auto).
    assert (Se : 2 * sg <= e) by nra.
    induction n as [|n IH]; intros c h seen Ic Hh Hle Hn.
    - exists [], c. destruct (Hinv c Ic) as (F & P & V). cbn [INR] in Hn.
      assert (N : ffar emin prec choice (now k c) e tol = false).
      { apply near_not_far with sg; auto. apply Rabs_le. assert (-dl <= now k c - val c <= dl) by (unfold Rabs in V; destruct (Rcase_abs (now k c - val c)); lra).
        unfold sg in *. lra. }
      rewrite floop_S, N. split; [reflexivity|]. split; [cbn; lia|]. split; auto.
    - destruct (ffar emin prec choice (now k c) e tol) eqn:N.
      2:{ exists [], c. rewrite floop_S, N. split; [reflexivity|]. split; [cbn; lia|]. split; auto. }
      destruct Hh as [->|]; [|discriminate].
      destruct (Hinv c Ic) as (F & P & V). assert (V' : -dl <= now k c - val c <= dl) by (unfold Rabs in V; destruct (Rcase_abs (now k c - val c)); lra).
      assert (Lt : now k c < e - sg).
      { destruct (Rlt_dec (now k c) (e - sg)) as [|Q]; auto. exfalso. rewrite (near_not_far _ _ _ sg) in N; auto; [discriminate|]. apply Rabs_le. lra. }
      assert (Sg : 2 * u * e <= sg) by (unfold sg; lra). assert (Dl : dl <= e / 4) by (unfold sg in Se; lra).
      rewrite floop_S, N. unfold fchosen. rewrite fsub1. cbv zeta.
      set (t := now k c) in *. set (rest := rnd (e - t)).
      assert (R1 := rnd_sub_err e t Fe F). rewrite (Rabs_pos_eq (e - t)) in R1 by lra. assert (R2 : (1 - u) * (e - t) <= rest <= (1 + u) * (e - t)).
      { fold rest in R1. unfold Rabs in R1. destruct (Rcase_abs (rest - (e - t))); lra. }
      assert (R3 : rest > 0) by nra. assert (R4 : u * e / 2 <= rest) by nra. assert (R5 : rest <= 2 * e) by nra.
      assert (M : u * (e - t) <= 2 * (u * e)) by nra.
      rewrite (Rabs_pos_eq h0), (Rabs_pos_eq rest) by lra.
      destruct (Rle_dec h0 rest) as [Hr|Hr].
      + destruct (Hstep c h0 Ic Fh) as (I1 & E1); try (fold t; lra). { apply Rmin_l. } { apply Rmin_glb; lra. }
        set (c1 := tick emin prec choice k ops c h0) in *. destruct (Hinv c1 I1) as (F1 & P1 & V1).
        assert (V1' : -dl <= now k c1 - val c1 <= dl) by (unfold Rabs in V1; destruct (Rcase_abs (now k c1 - val c1)); lra).
        assert (E1' : -ep <= val c1 - (val c + h0) <= ep) by (unfold Rabs in E1; destruct (Rcase_abs (val c1 - (val c + h0))); lra).
        destruct (IH c1 h0 (c :: seen) I1) as (tr & last & A & B & Cc & Dd); auto.
        * unfold sg. lra.
        * rewrite S_INR in Hn. nra.
        * exists (tr ++ [c]), last. rewrite A. rewrite <- app_assoc. split; [reflexivity|]. rewrite app_length. cbn [length].
          split; [lia|]. split; [exact Cc|]. inversion Dd; subst. constructor; auto. apply Forall_app. split; auto.
      + apply Rnot_le_lt in Hr. destruct (Hstep c rest Ic) as (I1 & E1); try (fold t; lra).
        { apply rnd_fmt; auto. } { apply Rle_trans with (2 := R4). apply Rmin_r. } { apply Rmin_glb; lra. } { unfold sg in Se. nra. }
        set (c1 := tick emin prec choice k ops c rest) in *. destruct (Hinv c1 I1) as (F1 & P1 & V1).
        assert (V1' : -dl <= now k c1 - val c1 <= dl) by (unfold Rabs in V1; destruct (Rcase_abs (now k c1 - val c1)); lra).
        assert (E1' : -ep <= val c1 - (val c + rest) <= ep) by (unfold Rabs in E1; destruct (Rcase_abs (val c1 - (val c + rest))); lra).
        assert (N1 : ffar emin prec choice (now k c1) e tol = false) by (apply near_not_far with sg; auto; apply Rabs_le; unfold sg; lra).
        exists [c], c1. rewrite floop_S, N1. split; [reflexivity|]. cbn [length]. split; [lia|]. split; auto.
        constructor; [split; auto; unfold sg; lra|]. constructor; [split; auto|constructor].
  Qed.
End Any.
End P.
