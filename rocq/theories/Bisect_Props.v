(** C39: math::root_bisection. *)
From Coq Require Import Reals Lra Lia.
From Verif Require Import Bisect_Model Bisect_Proofs.
Open Scope R_scope.

(** After any number of iterations: the interval has been halved that many times, lies inside the
    original one, and still has end points at which f has opposite signs (or a zero). *)
Theorem C39_bracket f n low high low' high' :
  f low * f high <= 0 ->
  bis_iter f n low high = (low', high') ->
  f low' * f high' <= 0
  /\ Rabs (high' - low') = Rabs (high - low) / 2 ^ n
  /\ Rmin low high <= Rmin low' high' /\ Rmax low' high' <= Rmax low high.
Proof.
  intros O I. destruct (bis_iter_inv _ _ _ _ _ _ I) as (W & In & Op).
  split; [apply Op; auto|]. split; auto.
  assert (between low high low') by apply In, between_l.
  assert (between low high high') by apply In, between_r.
  unfold between in *. unfold Rmin at 2, Rmax at 1.
  destruct (Rle_dec low' high'); lra.
Qed.

(** Whatever the call returns is within relative distance eps of a root lying between the two ends
    (the ends may be given in either order). *)
Theorem C39_result eps f low high r :
  0 < eps <= 1 ->
  (forall x, Rmin low high <= x <= Rmax low high -> continuity_pt f x) ->
  f low * f high <= 0 ->
  bisection eps f low high r ->
  exists x, Rmin low high <= x <= Rmax low high /\ f x = 0 /\ Rabs (r - x) <= eps * Rabs r.
Proof. intros. apply (bis_result eps f low high r); auto. Qed.

(** The call returns as soon as 0 is not a root. *)
Theorem C39_terminates eps f low high :
  0 < eps ->
  (forall x, Rmin low high <= x <= Rmax low high -> continuity_pt f x) ->
  f low * f high <= 0 ->
  (Rmin low high <= 0 <= Rmax low high -> f 0 <> 0) ->
  exists r, bisection eps f low high r.
Proof.
  intros E C O N.
  destruct (Rle_dec (Rmin low high) 0) as [A|A].
  - destruct (Rle_dec 0 (Rmax low high)) as [B|B].
    + destruct (roots_away f) as (d & Hd & D); [apply C; auto|apply N; auto|].
      apply (bis_terminates eps f low high d); auto.
    + apply (bis_terminates eps f low high (- Rmax low high)); auto; [lra|].
      intros x (Hx & Hy) _. rewrite Rabs_left; lra.
  - apply (bis_terminates eps f low high (Rmin low high)); auto; [lra|].
    intros x (Hx & Hy) _. rewrite Rabs_right; lra.
Qed.

Theorem C39_deterministic eps f low high r s :
  bisection eps f low high r -> bisection eps f low high s -> r = s.
Proof. apply bisection_det. Qed.

(** A call without a sign change does not fail: it returns (a value within relative distance eps of)
    the lower end. *)
Theorem C39_no_sign_change_returns_low eps f low high r :
  0 < eps <= 1 ->
  (forall x y, Rmin low high <= x <= Rmax low high -> Rmin low high <= y <= Rmax low high -> 0 < f x * f y) ->
  bisection eps f low high r ->
  Rabs (r - low) <= eps * Rabs r.
Proof.
  intros E P B. destruct (bisection_final _ _ _ _ _ B) as (n & a & b & I & N & ->).
  rewrite <- (bis_iter_nosign f n low high a b P I).
  apply final_close; auto. apply between_l.
Qed.

(** Termination needs the hypothesis on 0: for f(x) = x on [-1,1] the exact loop never ends (in floating
    point it ends when the interval underflows). *)
Theorem C39_root_at_zero_loops eps r : 0 < eps < 1 -> ~ bisection eps (fun x => x) (-1) 1 r.
Proof.
  intros E.
  assert (Z : forall h, 0 < h -> ~ bisection eps (fun x => x) 0 h r).
  { assert (G : forall l h s, bisection eps (fun x => x) l h s -> l = 0 -> 0 < h -> False).
    { induction 1 as [l h N|l h l' h' s C S B IH]; intros -> H.
      - apply N. unfold bis_continue. rewrite Rminus_0_r, (Rabs_right h) by lra. nra.
      - apply bis_step_cases in S; cbv zeta in S.
        destruct S as [(P & -> & ->)|(P & -> & ->)]; [apply IH; lra|]. nra. }
    intros h H B. exact (G _ _ _ B eq_refl H). }
  intros B. inversion B as [? ? N|? ? l' h' ? C S B']; subst.
  - apply N. unfold bis_continue. rewrite !Rabs_right; lra.
  - apply bis_step_cases in S; cbv zeta in S. destruct S as [(P & _ & _)|(P & -> & ->)].
    + replace (0.5 * (1 + -1)) with 0 in P by lra. lra.
    + replace (0.5 * (1 + -1)) with 0 in B' by lra. exact (Z 1 ltac:(lra) B').
Qed.

(** Non-vacuity: x^2 = 2 on [1,2] (and on [2,1]): the call returns a value within 10^-3 of sqrt 2. *)
Example C39_case : exists r, bisection (1/1000) (fun x => x * x - 2) 1 2 r /\ Rabs (r - sqrt 2) <= Rabs r / 1000.
Proof.
  assert (C : forall x, Rmin 1 2 <= x <= Rmax 1 2 -> continuity_pt (fun x => x * x - 2) x)
    by (intros; apply derivable_continuous_pt; reg).
  assert (M : Rmin 1 2 = 1) by (unfold Rmin; destruct (Rle_dec 1 2); lra).
  assert (X : Rmax 1 2 = 2) by (unfold Rmax; destruct (Rle_dec 1 2); lra).
  destruct (C39_terminates (1/1000) (fun x => x * x - 2) 1 2) as (r & B); auto; try lra.
  exists r; split; auto.
  destruct (C39_result (1/1000) (fun x => x * x - 2) 1 2 r) as (x & Hx & Z & D); auto; try lra.
  rewrite M, X in Hx. replace (sqrt 2) with x; [lra|].
  rewrite <- (sqrt_square x) by lra. f_equal; lra.
Qed.

Print Assumptions C39_bracket.
Print Assumptions C39_result.
Print Assumptions C39_terminates.
Print Assumptions C39_deterministic.
Print Assumptions C39_no_sign_change_returns_low.
Print Assumptions C39_root_at_zero_loops.
