(** C96: root_bisection and root_newton on IEEE 754 numbers, for every format and every callable. *)
From Verif Require Import Ibis_Model Ibis_Spec Ibis_Proofs Ibis_Proofs2 Ibis_Proofs3 Ibis_Proofs4 Ieee_Proofs Ieee_Proofs2 Ieee_Proofs3 Ieee_Props2 Islice_Proofs Islice_Proofs2.
From Coq Require Import Lra Lia Bool Arith.
Open Scope R_scope.
Section Any.
Context {prec emax : Z} { prec_gt_0_ : Prec_gt_0 prec } { prec_lt_emax_ : Prec_lt_emax prec emax }.
Hypothesis Hp : (1 < prec)%Z.
Notation fl := (binary_float prec emax).
Notation L := (least prec emax).
Notation eps := (bpow radix2 (1 - prec)).
Notation fin a := (is_finite a = true).
Implicit Types f : fl -> fl.

(** For every callable, whatever it returns: the ends stay finite and between the ones given, and the call returns - or it arrives at two neighbouring numbers,
    both no larger than the least normal number. *)
Theorem C96_terminates_or_tiny f (low high : fl) : good_end low -> good_end high ->
  (forall n, within_ends low high (fst (b_iter f n (low, high))) /\ within_ends low high (snd (b_iter f n (low, high)))) /\
  (ends f low high \/ exists n, near_zero (fst (b_iter f n (low, high))) /\ near_zero (snd (b_iter f n (low, high))) /\
     Rabs (B2R (snd (b_iter f n (low, high))) - B2R (fst (b_iter f n (low, high)))) = bpow radix2 L).
Proof.
  intros Gl Gh. split; [intros n; destruct (iter_good Hp f n low high Gl Gh) as (_ & _ & A & B); auto|].
  destruct (term_or Hp f low high Gl Gh) as [E|(k & _ & A & B & D)]; auto. right. exists k. auto.
Qed.
(** So it always returns when zero is not between the ends, nor any subnormal number. *)
Theorem C96_terminates_away f (low high : fl) : good_end low -> good_end high -> (forall x, within_ends low high x -> least_normal prec emax < Rabs (B2R x)) -> ends f low high.
Proof.
  intros Gl Gh H. apply ends_by; auto. intros n A _. destruct (iter_good Hp f n low high Gl Gh) as (_ & _ & W & _). specialize (H _ W). unfold near_zero in A. lra.
Qed.
(** And when values that are not zero are so large that products of two of them do not underflow, the callable keeps one strict sign on the tiny numbers between the ends,
    and the lower end is not tiny. *)
Theorem C96_terminates f k (low high : fl) : good_end low -> good_end high -> (L <= 2 * k)%Z -> (forall x, within_ends low high x -> sizeable k (f x)) ->
  (forall x y, within_ends low high x -> within_ends low high y -> near_zero x -> near_zero y -> same_sign (f x) (f y)) -> ~ near_zero low -> ends f low high.
Proof.
  intros Gl Gh Hk Sz Sg Nl. apply ends_by; auto. intros n A B. destruct (iter_good Hp f n low high Gl Gh) as (_ & _ & W1 & W2).
  destruct (low_or Hp f k low high Hk Gl Gh Sz n) as [E|N]; [rewrite E in A; auto|]. apply N. apply Sg; auto.
Qed.
(** What is returned lies between the ends given, and within two relative epsilons (plus the least subnormal number) of both ends of the last interval;
    if no product underflows and the values at the ends given have no common sign, the same is true of that last interval. *)
Theorem C96_result f (low high : fl) n r : good_end low -> good_end high -> b_returns f low high n r ->
  exists l h, (l, h) = b_iter f n (low, high) /\ within_ends low high r /\ within_ends low high l /\ within_ends low high h /\
    within_ends l h r /\ Rabs (B2R h - B2R l) <= 2 * eps * Rabs (B2R h) + bpow radix2 L /\
    (forall k, (L <= 2 * k)%Z -> (forall x, within_ends low high x -> sizeable k (f x)) -> ~ same_sign (f low) (f high) -> ~ same_sign (f l) (f h)).
Proof.
  intros Gl Gh (_ & R2 & ->). destruct (iter_good Hp f n low high Gl Gh) as (A & B & W1 & W2).
  assert (Br : forall k, (L <= 2 * k)%Z -> (forall x, within_ends low high x -> sizeable k (f x)) -> ~ same_sign (f low) (f high) -> ~ same_sign (f (fst (b_iter f n (low, high)))) (f (snd (b_iter f n (low, high))))).
  { intros k Hk Sz N. exact (bracket Hp f k low high Hk Gl Gh Sz N n). }
  destruct (b_iter f n (low, high)) as (l, h) eqn:E. cbn [fst snd] in *. exists l, h. split; [reflexivity|]. destruct (mid_in Hp l h A B) as (W & _).
  split; [exact (within_trans low high l h _ W1 W2 W)|]. split; auto. split; auto. split; auto. split; [apply close; auto|exact Br].
Qed.
(** If moreover the signs of the values are those of a continuous real function, that function has a root within that distance of the result. *)
Theorem C96_root f (g : R -> R) k (low high : fl) n r : good_end low -> good_end high -> b_returns f low high n r -> (L <= 2 * k)%Z -> (forall x, within_ends low high x -> sizeable k (f x)) ->
  (forall y, Rmin (B2R low) (B2R high) <= y <= Rmax (B2R low) (B2R high) -> continuity_pt g y) ->
  (forall x, within_ends low high x -> (0 < g (B2R x) -> positive (f x)) /\ (g (B2R x) < 0 -> negative (f x))) -> ~ same_sign (f low) (f high) ->
  exists y, Rmin (B2R low) (B2R high) <= y <= Rmax (B2R low) (B2R high) /\ g y = 0 /\ exists h, within_ends low high h /\ Rabs (B2R r - y) <= 2 * eps * Rabs (B2R h) + bpow radix2 L.
Proof.
  intros Gl Gh R Hk Sz Cg Sg N. destruct (C96_result f low high n r Gl Gh R) as (l & h & _ & _ & Wl & Wh & Wr & Cl & Br). specialize (Br k Hk Sz N).
  assert (Mid : forall y, Rmin (B2R l) (B2R h) <= y <= Rmax (B2R l) (B2R h) -> Rmin (B2R low) (B2R high) <= y <= Rmax (B2R low) (B2R high)).
  { intros y Hy. destruct Wl as (_ & Wl), Wh as (_ & Wh). unfold Rmin, Rmax in *. destruct (Rle_dec (B2R l) (B2R h)), (Rle_dec (B2R low) (B2R high)); lra. }
  assert (Opp : g (B2R l) * g (B2R h) <= 0).
  { destruct (Rle_or_lt (g (B2R l) * g (B2R h)) 0) as [X|X]; auto. exfalso. apply Br. destruct (Sg l Wl) as (P1 & N1), (Sg h Wh) as (P2 & N2).
    destruct (Rtotal_order 0 (g (B2R l))) as [Y|[Y|Y]]; [left; split; [apply P1|apply P2]; nra|nra|right; split; [apply N1|apply N2]; nra]. }
  assert (Ivt : exists y, Rmin (B2R l) (B2R h) <= y <= Rmax (B2R l) (B2R h) /\ g y = 0).
  { destruct (Rtotal_order (B2R l) (B2R h)) as [X|[X|X]].
    - rewrite Rmin_left, Rmax_right in * by lra. assert (Cn : forall a, B2R l <= a <= B2R h -> continuity_pt g a) by (intros a Ha; apply Cg, Mid; exact Ha).
      destruct (Rle_or_lt (g (B2R l)) 0) as [Y|Y].
      + destruct (Rtotal_order (g (B2R l)) 0) as [Z1|[Z1|Z1]]; [|exists (B2R l); split; [lra|exact Z1]|lra].
        destruct (Rtotal_order (g (B2R h)) 0) as [Z2|[Z2|Z2]]; [nra|exists (B2R h); split; [lra|exact Z2]|].
        destruct (Ranalysis5.IVT_interv g (B2R l) (B2R h) Cn X Z1 Z2) as (y & Hy & E). exists y. auto.
      + destruct (Rtotal_order (g (B2R h)) 0) as [Z2|[Z2|Z2]]; [|exists (B2R h); split; [lra|exact Z2]|nra].
        destruct (Ranalysis5.IVT_interv (fun a => - g a) (B2R l) (B2R h)) as (y & Hy & E); [intros a Ha; apply (continuity_pt_opp g); auto|auto|cbn; lra|cbn; lra|]. exists y. split; auto. cbn in E. lra.
    - exists (B2R l). split; [unfold Rmin, Rmax; destruct (Rle_dec _ _); lra|]. rewrite <- X in Opp. nra.
    - rewrite Rmin_right, Rmax_left in * by lra. assert (Cn : forall a, B2R h <= a <= B2R l -> continuity_pt g a) by (intros a Ha; apply Cg, Mid; exact Ha).
      destruct (Rle_or_lt (g (B2R h)) 0) as [Y|Y].
      + destruct (Rtotal_order (g (B2R h)) 0) as [Z1|[Z1|Z1]]; [|exists (B2R h); split; [lra|exact Z1]|lra].
        destruct (Rtotal_order (g (B2R l)) 0) as [Z2|[Z2|Z2]]; [nra|exists (B2R l); split; [lra|exact Z2]|].
        destruct (Ranalysis5.IVT_interv g (B2R h) (B2R l) Cn X Z1 Z2) as (y & Hy & E). exists y. auto.
      + destruct (Rtotal_order (g (B2R l)) 0) as [Z2|[Z2|Z2]]; [|exists (B2R l); split; [lra|exact Z2]|nra].
        destruct (Ranalysis5.IVT_interv (fun a => - g a) (B2R h) (B2R l)) as (y & Hy & E); [intros a Ha; apply (continuity_pt_opp g); auto|auto|cbn; lra|cbn; lra|]. exists y. split; auto. cbn in E. lra. }
  destruct Ivt as (y & Hy & Gy). exists y. split; [apply Mid; exact Hy|]. split; [exact Gy|]. exists h. split; [exact Wh|]. eapply Rle_trans; [|exact Cl].
  destruct Wr as (_ & Wr). unfold Rmin, Rmax in Wr, Hy. destruct (Rle_dec (B2R l) (B2R h)); unfold Rabs; repeat match goal with |- context [Rcase_abs ?z] => destruct (Rcase_abs z) end; lra.
Qed.
(** No diagnosis of a missing root: if no product with the value at the upper end is positive - the value there is NaN, or zero, or the products underflow -
    the upper end never moves and the result is next to it. *)
Theorem C96_silent f (low high : fl) n r : good_end low -> good_end high -> b_returns f low high n r -> (forall x, igt (imul (f x) (f high)) izero = false) ->
  Rabs (B2R r - B2R high) <= 2 * eps * Rabs (B2R high) + bpow radix2 L.
Proof.
  intros Gl Gh R N. assert (E : forall m, snd (b_iter f m (low, high)) = high).
  { induction m as [|m IH]; [reflexivity|]. rewrite iter_S. destruct (b_iter f m (low, high)) as (a, b). cbn [snd] in IH. subst b. unfold b_step. cbn [fst snd]. rewrite N. reflexivity. }
  destruct (C96_result f low high n r Gl Gh R) as (l & h & I & _ & _ & _ & (_ & Wr) & Cl & _). assert (Eh : h = high) by (rewrite <- (E n), <- I; reflexivity). subst h.
  eapply Rle_trans; [|exact Cl]. unfold Rmin, Rmax in Wr. destruct (Rle_dec (B2R l) (B2R high)); unfold Rabs; repeat match goal with |- context [Rcase_abs ?z] => destruct (Rcase_abs z) end; lra.
Qed.
(** A NaN of the callable at the upper end is such a case. *)
Theorem C96_nan f (high : fl) : f high = B754_nan -> forall x, igt (imul (f x) (f high)) izero = false.
Proof. intros -> x. destruct (f x) as [[]|[]| |[]]; reflexivity. Qed.

(** f(x) = x on an interval [0, high]: exact bisection would halve for ever (C39_root_at_zero_loops); in IEEE arithmetic the call returns,
    because the product mid * high underflows first. *)
Theorem C96_root_at_zero_ends (low high : fl) : (L + 2 * prec <= -2)%Z -> good_end low -> good_end high -> 0 <= B2R low <= B2R high -> ~ near_zero high -> ends (fun x => x) low high.
Proof. intros HL Gl Gh H N. apply id_ends; auto. Qed.

(** The mean anomaly of a parabolic orbit, |M| > epsilon: the call returns, for every such M. *)
Theorem C96_parabolic (M low high : fl) : (L <= - 4 * prec)%Z -> good_end low -> good_end high -> ~ near_zero low -> fin M -> eps < Rabs (B2R M) -> ends (parabolic M) low high.
Proof.
  intros HL Gl Gh Nl FM HM. apply (C96_terminates (parabolic M) (- 2 * prec)); auto; [lia| |].
  - intros x _. apply parabolic_size; auto.
  - assert (Q : (L + 2 * prec <= -2)%Z) by lia. intros x y (Fx & _) (Fy & _) Nx Ny. destruct (parabolic_sign Hp M x Q FM HM Fx Nx) as (A & B). destruct (parabolic_sign Hp M y Q FM HM Fy Ny) as (A' & B').
    destruct (Rtotal_order 0 (B2R M)) as [X|[X|X]]; [right; auto| |left; auto]. exfalso. rewrite <- X, Rabs_R0 in HM. pose proof (bpow_gt_0 radix2 (1 - prec)). lra.
Qed.
(** A sign change at zero whose values do not shrink: the call never returns, in any format (the ends become zero and the least subnormal number). *)
Theorem C96_always_returns_refuted (low high : fl) : (2 < prec)%Z -> good_end low -> B2R low = 0 -> good_end high -> 0 < B2R high ->
  negative (sign_at_zero low) /\ positive (sign_at_zero high) /\ ~ ends sign_at_zero low high.
Proof.
  intros P3 Gl Zl Gh Ph. destruct (one_signs (prec:=prec) (emax:=emax)) as (O1 & O2 & _). split; [|split; [|apply sign_loops; auto]]; unfold sign_at_zero.
  - destruct (igt low izero) eqn:E; auto. apply (gt_zero_fin low (proj1 Gl)) in E. lra.
  - rewrite (proj2 (gt_zero_fin high (proj1 Gh)) Ph). exact O1.
Qed.
End Any.
Print Assumptions C96_always_returns_refuted.
Section Newton.
Context {prec emax : Z} { prec_gt_0_ : Prec_gt_0 prec } { prec_lt_emax_ : Prec_lt_emax prec emax }.
Notation fl := (binary_float prec emax).
Implicit Types f : fl -> fl.
(** root_newton returns the first iterate that moved by at most epsilon, or the thousandth. *)
Theorem C96_newton f : exists n, (1 <= n <= 1000)%nat /\ newton f = iterate f n /\ (forall i, (S i < n)%nat -> ~ settled f i) /\ ((n < 1000)%nat -> settled f (Nat.pred n)).
Proof.
  destruct (loop_spec f 1000 0 ione) as (n & A & B & C1 & D & E). exists n. assert (Hn : (0 < n)%nat) by (apply C1; discriminate). split; [lia|]. split.
  - unfold newton. change (@izero prec emax) with (iterate f 0). rewrite B. destruct (Nat.eqb_spec n 0); [lia|reflexivity].
  - split; [intros i Hi; apply D; lia|exact E].
Qed.
(** A NaN among the iterates up to the result is the result. *)
Theorem C96_newton_nan f k : iterate f k = B754_nan -> (forall i, (i < k)%nat -> ~ settled f i) -> (k <= 1000)%nat -> newton f = B754_nan.
Proof.
  intros H N Hk. destruct (C96_newton f) as (n & A & -> & B & D). assert (Up : forall j, (k <= j)%nat -> iterate f j = B754_nan).
  { intros j Hj. induction Hj as [|j Hj IH]; auto. cbn [iterate]. rewrite IH. apply isub_nan_l. }
  destruct (Nat.le_gt_cases k n) as [Q|Q]; [apply Up; exact Q|]. exfalso. destruct (Nat.lt_ge_cases n 1000) as [Z1|Z1]; [|lia]. apply (N (Nat.pred n)); [lia|auto].
Qed.
End Newton.
Print Assumptions C96_terminates_or_tiny.
Print Assumptions C96_terminates_away.
Print Assumptions C96_terminates.
Print Assumptions C96_result.
Print Assumptions C96_root.
Print Assumptions C96_silent.
Print Assumptions C96_root_at_zero_ends.
Print Assumptions C96_parabolic.
Print Assumptions C96_newton.
Print Assumptions C96_newton_nan.

(** Doubles. *)
#[local] Instance p53 : Prec_gt_0 53 := eq_refl.
#[local] Instance e1024 : Prec_lt_emax 53 1024 := eq_refl.
Notation dbl := (binary_float 53 1024).
Definition d_pow (e : Z) (H : SpecFloat.bounded 53 1024 4503599627370496 e = true) : dbl := @B754_finite 53 1024 false 4503599627370496 e H.
Definition d1 : dbl := d_pow (-52) eq_refl.
Definition d2 : dbl := d_pow (-51) eq_refl.
Definition d_half : dbl := d_pow (-53) eq_refl.
Definition d_quarter : dbl := d_pow (-54) eq_refl.
Definition d_eighth : dbl := d_pow (-55) eq_refl.
Definition d_small : dbl := d_pow (-652) eq_refl.
Definition d_2p60 : dbl := d_pow 8 eq_refl.
Definition d_pi : dbl := @B754_finite 53 1024 false 7074237752028440 (-51) eq_refl.
Ltac dcompute := apply B2SF_inj; vm_compute; reflexivity.
Lemma d_pow_val e H : B2R (d_pow e H) = bpow radix2 (e + 52).
Proof. unfold d_pow, B2R, F2R. cbn [Fnum Fexp cond_Zopp]. rewrite Z.add_comm, bpow_plus. f_equal. Qed.
Lemma d_good e H : (e + 52 <= 1022)%Z -> good_end (d_pow e H).
Proof. intros E. split; [reflexivity|]. rewrite d_pow_val, Rabs_right by (apply Rle_ge, bpow_ge_0). apply bpow_le. lia. Qed.
(** -2^-600 below 1/4, 2^-600 from there on. *)
Definition faint (x : dbl) : dbl := if ilt x d_quarter then ineg d_small else d_small.
(** The sign change of a callable with small values is missed: on [1/8, 1] the call returns a number next to 1, where the callable has the same sign as at 3/4 and 1/2. *)
Theorem C96_finds_sign_change_refuted : negative (faint d_eighth) /\ positive (faint d1) /\ exists n r, b_returns faint d_eighth d1 n r /\ Rabs (B2R r - 1) <= bpow radix2 (-50).
Proof.
  split; [reflexivity|]. split; [reflexivity|]. assert (G1 : good_end d_eighth) by (apply d_good; lia). assert (G2 : good_end d1) by (apply d_good; lia).
  assert (V1 : B2R d1 = 1) by (unfold d1; rewrite d_pow_val; reflexivity). assert (V8 : B2R d_eighth = / 8) by (unfold d_eighth; rewrite d_pow_val; cbn; lra).
  assert (P : (1 < 53)%Z) by lia.
  destruct (C96_terminates_away P faint d_eighth d1 G1 G2) as (n & r & R).
  { intros x (_ & X). rewrite V1, V8 in X. rewrite Rmin_left in X by lra. rewrite Rabs_right by lra. unfold least_normal. apply Rlt_le_trans with (/ 8); [|lra]. change (/ 8) with (bpow radix2 (-3)). apply bpow_lt. reflexivity. }
  exists n, r. split; [exact R|]. pose proof (C96_silent P faint d_eighth d1 n r G1 G2 R) as Q. rewrite V1, Rabs_R1, Rmult_1_r in Q. eapply Rle_trans; [apply Q|].
  - intros x. unfold faint. destruct (ilt x d_quarter); vm_compute; reflexivity.
  - assert (bpow radix2 (least 53 1024) <= bpow radix2 (1 - 53)) by (apply bpow_le; vm_compute; discriminate). change (bpow radix2 (-50)) with (bpow radix2 (2 + (1 - 53))). rewrite (bpow_plus radix2 2). change (bpow radix2 2) with 4. pose proof (bpow_gt_0 radix2 (1 - 53)). lra.
Qed.
Print Assumptions C96_finds_sign_change_refuted.
(** root_newton stops at a number that is not near a root: the step of size 1 is lost in the rounding of 2^60. *)
Definition far (x : dbl) : dbl := if ieq x izero then ineg d_2p60 else d1.
Theorem C96_newton_root_refuted : newton far = d_2p60 /\ far d_2p60 = d1.
Proof.
  split; [|reflexivity]. destruct (C96_newton far) as (n & A & -> & B & D).
  assert (I1 : iterate far 1 = d_2p60) by dcompute. assert (I2 : iterate far 2 = d_2p60). { change (iterate far 2) with (isub (iterate far 1) (far (iterate far 1))). rewrite I1. dcompute. }
  assert (S0 : ~ settled far 0). { unfold settled. rewrite I1. intros [X|X]; vm_compute in X; discriminate X. }
  assert (S1 : settled far 1). { unfold settled. rewrite I1, I2. left. vm_compute. reflexivity. }
  destruct n as [|[|[|n]]]; [lia|exfalso; apply S0, D; lia|exact I2|exfalso; apply (B 1%nat); [lia|exact S1]].
Qed.
Print Assumptions C96_newton_root_refuted.
(** Cases: x - 1 on [1/2, 2] has the signs of the real function; the parabolic orbit with M = 1 on [-pi, pi]. *)
Example C96_case_root : exists n r, b_returns (fun x => isub x d1) d_half d2 n r /\ exists h, within_ends d_half d2 h /\ Rabs (B2R r - 1) <= 2 * bpow radix2 (1 - 53) * Rabs (B2R h) + bpow radix2 (least 53 1024).
Proof.
  assert (G1 : good_end d_half) by (apply d_good; lia). assert (G2 : good_end d2) by (apply d_good; lia). assert (P : (1 < 53)%Z) by lia.
  assert (V1 : B2R d1 = 1) by (unfold d1; rewrite d_pow_val; reflexivity). assert (Vh : B2R d_half = / 2) by (unfold d_half; rewrite d_pow_val; cbn; lra). assert (V2 : B2R d2 = 2) by (unfold d2; rewrite d_pow_val; cbn; lra).
  assert (E : ends (fun x => isub x d1) d_half d2).
  { apply (C96_terminates_away P); auto. intros x (_ & X). rewrite Vh, V2 in X. rewrite Rmin_left in X by lra. rewrite Rabs_right by lra. unfold least_normal. apply Rlt_le_trans with (/ 8); [|lra]. change (/ 8) with (bpow radix2 (-3)). apply bpow_lt. reflexivity. }
  destruct E as (n & r & R). exists n, r. split; [exact R|].
  assert (F1 : is_finite d1 = true) by reflexivity.
  destruct (C96_root P (fun x => isub x d1) (fun y => y - 1) (-106) d_half d2 n r G1 G2 R) as (y & _ & Hy & h & Wh & B).
  - vm_compute. discriminate.
  - intros x _. apply (diff_size P d1 x); [vm_compute; discriminate|exact F1|]. rewrite V1, Rabs_R1. change 1 with (bpow radix2 0). apply bpow_lt. reflexivity.
  - intros y _. apply continuity_pt_minus; [apply derivable_continuous_pt, derivable_pt_id|apply continuity_pt_const; intros ? ?; reflexivity].
  - intros x (Fx & _). destruct (diff_sign P x d1 Fx F1) as (A & B). rewrite V1 in A, B. split; auto.
  - intros [(X & _)|(_ & X)]; vm_compute in X; discriminate X.
  - exists h. split; [exact Wh|]. replace 1 with y by lra. exact B.
Qed.
Example C96_case_parabolic : ends (parabolic d1) (ineg d_pi) d_pi /\ ~ same_sign (parabolic d1 (ineg d_pi)) (parabolic d1 d_pi).
Proof.
  assert (P : (1 < 53)%Z) by lia. assert (V1 : B2R d1 = 1) by (unfold d1; rewrite d_pow_val; reflexivity).
  assert (Vp : 3 < B2R d_pi < 4). { unfold d_pi, B2R, F2R. cbn [Fnum Fexp cond_Zopp]. change (bpow radix2 (-51)) with (/ 2251799813685248). lra. }
  assert (B4 : 4 <= bpow radix2 (1024 - 2)) by (change 4 with (bpow radix2 2); apply bpow_le; lia).
  assert (Vn : B2R (ineg d_pi) = - B2R d_pi) by (unfold ineg; apply B2R_Bopp).
  split.
  - apply (C96_parabolic P).
    + vm_compute. discriminate.
    + split; [reflexivity|]. rewrite Vn, Rabs_left by lra. lra.
    + split; [reflexivity|]. rewrite Rabs_right by lra. lra.
    + unfold near_zero, least_normal. rewrite Vn, Rabs_left by lra. assert (bpow radix2 (least 53 1024 + 53 - 1) < 1) by (change 1 with (bpow radix2 0); apply bpow_lt; reflexivity). lra.
    + reflexivity.
    + rewrite V1, Rabs_R1. change 1 with (bpow radix2 0). apply bpow_lt. reflexivity.
  - intros [(X & _)|(_ & X)]; vm_compute in X; discriminate X.
Qed.
