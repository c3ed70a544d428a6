From Verif Require Import Ibis_Model Ibis_Spec Ibis_Proofs Ibis_Proofs2 Ieee_Proofs Ieee_Proofs2 Ieee_Proofs3 Ieee_Props2 Kahan_Proofs Islice_Proofs Islice_Proofs2.
From Flocq Require Import Relative.
From Coq Require Import Lra Lia Bool Arith.
Open Scope R_scope.
Section P.
Context {prec emax : Z} { prec_gt_0_ : Prec_gt_0 prec } { prec_lt_emax_ : Prec_lt_emax prec emax }.
Hypothesis Hp : (1 < prec)%Z.
Notation fl := (binary_float prec emax).
Notation rne := (rne prec emax).
Notation L := (least prec emax).
Notation fmt := (Kahan_Model.fmt L prec).
Notation fin a := (is_finite a = true).
Implicit Types f : fl -> fl.

Lemma step_cases f (l h : fl) : (b_step f (l, h) = (l, b_mid l h) /\ igt (imul (f (b_mid l h)) (f h)) izero = true) \/ (b_step f (l, h) = (b_mid l h, h) /\ igt (imul (f (b_mid l h)) (f h)) izero = false).
Proof. unfold b_step. cbn [fst snd]. destruct (igt _ _); auto. Qed.
Lemma step_good f (l h : fl) : good_end l -> good_end h -> good_end (fst (b_step f (l, h))) /\ good_end (snd (b_step f (l, h))) /\
  within_ends l h (fst (b_step f (l, h))) /\ within_ends l h (snd (b_step f (l, h))).
Proof.
  intros Gl Gh. destruct (mid_in Hp l h Gl Gh) as (W & G). assert (Wl : within_ends l h l) by (split; [apply Gl|]; unfold Rmin, Rmax; destruct (Rle_dec _ _); lra).
  assert (Wh : within_ends l h h) by (split; [apply Gh|]; unfold Rmin, Rmax; destruct (Rle_dec _ _); lra).
  destruct (step_cases f l h) as [(-> & _)|(-> & _)]; cbn [fst snd]; auto.
Qed.
Lemma iter_S f n (s : fl * fl) : b_iter f (S n) s = b_step f (b_iter f n s).
Proof. revert s. induction n as [|n IH]; intros s; [reflexivity|]. change (b_iter f (S (S n)) s) with (b_iter f (S n) (b_step f s)). rewrite IH. reflexivity. Qed.
Lemma iter_good f n : forall l h : fl, good_end l -> good_end h -> good_end (fst (b_iter f n (l, h))) /\ good_end (snd (b_iter f n (l, h))) /\
  within_ends l h (fst (b_iter f n (l, h))) /\ within_ends l h (snd (b_iter f n (l, h))).
Proof.
  induction n as [|n IH]; intros l h Gl Gh.
  - cbn [b_iter fst snd]. split; auto. split; auto. split; (split; [apply Gl || apply Gh|]; unfold Rmin, Rmax; destruct (Rle_dec _ _); lra).
  - rewrite iter_S. destruct (IH l h Gl Gh) as (A & B & C1 & D). destruct (b_iter f n (l, h)) as (a, b). cbn [fst snd] in *.
    destruct (step_good f a b A B) as (E & F & G & H). split; auto. split; auto. destruct G as (G1 & G2), H as (H1 & H2). destruct C1 as (_ & C1), D as (_ & D).
    split; (split; [auto|]); unfold Rmin, Rmax in *; destruct (Rle_dec (B2R a) (B2R b)), (Rle_dec (B2R l) (B2R h)); lra.
Qed.
Lemma ends_step f (l h : fl) : b_continue l h = true -> ends f (fst (b_step f (l, h))) (snd (b_step f (l, h))) -> ends f l h.
Proof.
  intros C (n & r & R1 & R2 & R3). rewrite <- surjective_pairing in *. exists (S n), r. split; [|split; [exact R2|exact R3]].
  intros [|k] Hk; [exact C|]. apply (R1 k). lia.
Qed.
(** A pair of neighbouring numbers around zero at which the loop does not stop. *)
Definition stuck (s : fl * fl) : Prop := b_continue (fst s) (snd s) = true /\ near_zero (fst s) /\ near_zero (snd s) /\ Rabs (B2R (snd s) - B2R (fst s)) = bpow radix2 L.
Lemma term f n : forall l h : fl, good_end l -> good_end h -> Rabs (B2R h - B2R l) <= INR n * bpow radix2 L -> ends f l h \/ exists k, stuck (b_iter f k (l, h)).
Proof.
  pose proof (bpow_gt_0 radix2 L) as B0. induction n as [|n IH]; intros l h Gl Gh H.
  - destruct (b_continue l h) eqn:C; [|left; exists O, (b_mid l h); split; [intros k Hk; lia|split; [exact C|reflexivity]]].
    destruct (progress Hp l h Gl Gh C) as [(m & Fm & M)|S]; [exfalso|right; exists O; split; auto].
    cbn [INR] in H. unfold Rabs in H. unfold Rmin, Rmax in M. destruct (Rcase_abs _), (Rle_dec _ _); lra.
  - destruct (b_continue l h) eqn:C; [|left; exists O, (b_mid l h); split; [intros k Hk; lia|split; [exact C|reflexivity]]].
    destruct (progress Hp l h Gl Gh C) as [(m & Fm & M)|Sk]; [|right; exists O; split; auto].
    destruct (mid_val Hp l h Gl Gh) as (Fx & Vx). destruct (step_good f l h Gl Gh) as (G1 & G2 & _).
    assert (X : Rmin (B2R l) (B2R h) + bpow radix2 L <= B2R (b_mid l h) /\ B2R (b_mid l h) + bpow radix2 L <= Rmax (B2R l) (B2R h)).
    { assert (Y : Rmin (B2R l) (B2R h) < B2R (b_mid l h) < Rmax (B2R l) (B2R h)).
      { rewrite Vx. unfold Rmin, Rmax in *. destruct (Rle_dec (B2R l) (B2R h)); [|rewrite rmid_comm]; apply (rmid_strict _ m); auto; apply B2R_fmt. }
      split; apply fmt_gap; try apply B2R_fmt; try tauto; unfold Rmin, Rmax; destruct (Rle_dec _ _); apply B2R_fmt. }
    assert (Len : Rabs (B2R (snd (b_step f (l, h))) - B2R (fst (b_step f (l, h)))) <= INR n * bpow radix2 L).
    { rewrite S_INR in H. assert (H2 : Rabs (B2R h - B2R l) - bpow radix2 L <= INR n * bpow radix2 L) by lra. eapply Rle_trans; [|exact H2].
      destruct (step_cases f l h) as [(-> & _)|(-> & _)]; cbn [fst snd]; unfold Rmin, Rmax in X; unfold Rabs; destruct (Rle_dec (B2R l) (B2R h)); repeat match goal with |- context [Rcase_abs ?z] => destruct (Rcase_abs z) end; lra. }
    destruct (IH _ _ G1 G2 Len) as [E|(k & Sk)]; [left; apply ends_step; auto|]. right. exists (S k). rewrite <- surjective_pairing in Sk. exact Sk.
Qed.
Lemma term_or f (l h : fl) : good_end l -> good_end h -> ends f l h \/ exists k, stuck (b_iter f k (l, h)).
Proof.
  intros Gl Gh. pose proof (bpow_gt_0 radix2 L) as B0. set (z := up (Rabs (B2R h - B2R l) / bpow radix2 L)). apply (term f (Z.to_nat z)); auto.
  assert (A : Rabs (B2R h - B2R l) / bpow radix2 L < IZR z) by apply (proj1 (archimed _)). assert (A0 : 0 <= Rabs (B2R h - B2R l) / bpow radix2 L) by (apply Rmult_le_pos; [apply Rabs_pos|left; apply Rinv_0_lt_compat; auto]).
  assert (Z0 : (0 <= z)%Z) by (apply le_IZR; lra). rewrite INR_IZR_INZ, Z2Nat.id by auto. apply Rmult_lt_compat_r with (r := bpow radix2 L) in A; auto. unfold Rdiv in A. rewrite Rmult_assoc, Rinv_l, Rmult_1_r in A by lra. lra.
Qed.

(** * Signs *)
Lemma gt_zero_fin (a : fl) : fin a -> igt a izero = true <-> 0 < B2R a.
Proof. intros F. rewrite igt_key by (auto using finite_not_nan). rewrite (proj1 (key_fin a F)). reflexivity. Qed.
Lemma lt_zero_fin (a : fl) : fin a -> ilt a izero = true <-> B2R a < 0.
Proof. intros F. rewrite ilt_key by (auto using finite_not_nan). rewrite (proj1 (key_fin a F)). reflexivity. Qed.
Lemma mul_same (a b : fl) : igt (imul a b) izero = true -> same_sign a b.
Proof.
  intros H. destruct (is_finite a) eqn:Fa, (is_finite b) eqn:Fb.
  - destruct (cr_mul a b Fa Fb) as (C1 & C2). destruct (Rlt_or_le (Rabs (rne (B2R a * B2R b))) (bpow radix2 emax)) as [X|X].
    + destruct (C1 X) as (F & V). apply gt_zero_fin in H; auto. rewrite V in H. assert (P : 0 < B2R a * B2R b).
      { destruct (Rlt_or_le 0 (B2R a * B2R b)) as [Q|Q]; auto. exfalso. pose proof (rne_le (prec:=prec) (emax:=emax) _ _ Q) as W. rewrite rne_0 in W. lra. }
      unfold same_sign, positive, negative. rewrite !gt_zero_fin, !lt_zero_fin by auto. destruct (Rtotal_order 0 (B2R a)) as [Y|[Y|Y]]; [left|nra|right]; split; nra.
    + destruct (C2 X) as (C3 & C4). destruct (Rtotal_order 0 (B2R a * B2R b)) as [P|[P|P]].
      * unfold same_sign, positive, negative. rewrite !gt_zero_fin, !lt_zero_fin by auto. destruct (Rtotal_order 0 (B2R a)) as [Y|[Y|Y]]; [left|nra|right]; split; nra.
      * rewrite <- P, rne_0, Rabs_R0 in X. pose proof (bpow_gt_0 radix2 emax). lra.
      * rewrite (C4 P) in H. discriminate H.
  - unfold same_sign, positive, negative. destruct a as [z1|z1| |z1 m1 e1 Hb1]; try discriminate Fa; destruct b as [z2|z2| |z2 m2 e2 Hb2]; try discriminate Fb; try (destruct z1); try (destruct z2); try discriminate; auto.
  - unfold same_sign, positive, negative. destruct a as [z1|z1| |z1 m1 e1 Hb1]; try discriminate Fa; destruct b as [z2|z2| |z2 m2 e2 Hb2]; try discriminate Fb; try (destruct z1); try (destruct z2); try discriminate; auto.
  - unfold same_sign, positive, negative. destruct a as [z1|z1| |z1 m1 e1 Hb1]; try discriminate Fa; destruct b as [z2|z2| |z2 m2 e2 Hb2]; try discriminate Fb; try (destruct z1); try (destruct z2); try discriminate; auto.
Qed.
Lemma same_mul (a b : fl) k : (L <= 2 * k)%Z -> sizeable k a -> sizeable k b -> same_sign a b -> igt (imul a b) izero = true.
Proof.
  intros Hk Sa Sb Ss. destruct (is_finite a) eqn:Fa, (is_finite b) eqn:Fb.
  - specialize (Sa Fa). specialize (Sb Fb). unfold same_sign, positive, negative in Ss. rewrite !gt_zero_fin, !lt_zero_fin in Ss by auto.
    assert (P : bpow radix2 (2 * k) <= B2R a * B2R b).
    { replace (2 * k)%Z with (k + k)%Z by lia. rewrite bpow_plus. assert (Na : B2R a <> 0) by (intros E; lra). assert (Nb : B2R b <> 0) by (intros E; lra). specialize (Sa Na). specialize (Sb Nb). pose proof (bpow_gt_0 radix2 k) as B0.
      destruct Ss as [(X & Y)|(X & Y)]; [rewrite Rabs_right in Sa, Sb by lra|rewrite Rabs_left in Sa, Sb by lra]; nra. }
    pose proof (bpow_gt_0 radix2 (2 * k)) as B0. destruct (cr_mul a b Fa Fb) as (C1 & C2). destruct (Rlt_or_le (Rabs (rne (B2R a * B2R b))) (bpow radix2 emax)) as [X|X].
    + destruct (C1 X) as (F & V). apply gt_zero_fin; auto. rewrite V. pose proof (rne_le (prec:=prec) (emax:=emax) _ _ P) as W. rewrite (rne_of (bpow radix2 (2 * k))) in W by (apply fmt_bp; auto). lra.
    + destruct (C2 X) as (C3 & _). rewrite C3 by lra. reflexivity.
  - unfold same_sign, positive, negative in Ss. destruct a as [z1|z1| |z1 m1 e1 Hb1]; try discriminate Fa; destruct b as [z2|z2| |z2 m2 e2 Hb2]; try discriminate Fb; try (destruct z1); try (destruct z2); try discriminate; destruct Ss as [(X & Y)|(X & Y)]; try discriminate; reflexivity.
  - unfold same_sign, positive, negative in Ss. destruct a as [z1|z1| |z1 m1 e1 Hb1]; try discriminate Fa; destruct b as [z2|z2| |z2 m2 e2 Hb2]; try discriminate Fb; try (destruct z1); try (destruct z2); try discriminate; destruct Ss as [(X & Y)|(X & Y)]; try discriminate; reflexivity.
  - unfold same_sign, positive, negative in Ss. destruct a as [z1|z1| |z1 m1 e1 Hb1]; try discriminate Fa; destruct b as [z2|z2| |z2 m2 e2 Hb2]; try discriminate Fb; try (destruct z1); try (destruct z2); try discriminate; destruct Ss as [(X & Y)|(X & Y)]; try discriminate; reflexivity.
Qed.
Lemma pos_neg (a : fl) : positive a -> negative a -> False.
Proof. unfold positive, negative, igt, ilt. destruct (Bcompare a izero) as [[]|]; discriminate. Qed.
Lemma same_trans (a b c : fl) : same_sign a b -> same_sign b c -> same_sign a c.
Proof. unfold same_sign. pose proof (pos_neg b). tauto. Qed.
Lemma same_sym (a b : fl) : same_sign a b -> same_sign b a. Proof. unfold same_sign. tauto. Qed.

(** Without underflow, the ends keep values without a common strict sign; or the lower end has not moved. *)
Lemma bracket_step f k (l h : fl) : (L <= 2 * k)%Z -> good_end l -> good_end h -> (forall x, within_ends l h x -> sizeable k (f x)) -> ~ same_sign (f l) (f h) ->
  ~ same_sign (f (fst (b_step f (l, h)))) (f (snd (b_step f (l, h)))).
Proof.
  intros Hk Gl Gh Sz N. destruct (mid_in Hp l h Gl Gh) as (W & _). destruct (step_cases f l h) as [(-> & C)|(-> & C)]; cbn [fst snd].
  - apply mul_same in C. intros X. apply N. eapply same_trans; eauto.
  - intros X. rewrite (same_mul _ _ k Hk) in C; auto; [discriminate|]. apply Sz. split; [apply Gh|]. unfold Rmin, Rmax. destruct (Rle_dec _ _); lra.
Qed.
Lemma low_step f k (l h : fl) : (L <= 2 * k)%Z -> good_end l -> good_end h -> (forall x, within_ends l h x -> sizeable k (f x)) ->
  fst (b_step f (l, h)) = l \/ ~ same_sign (f (fst (b_step f (l, h)))) (f (snd (b_step f (l, h)))).
Proof.
  intros Hk Gl Gh Sz. destruct (mid_in Hp l h Gl Gh) as (W & _). destruct (step_cases f l h) as [(-> & C)|(-> & C)]; cbn [fst snd]; [left; reflexivity|right].
  intros X. rewrite (same_mul _ _ k Hk) in C; auto; [discriminate|]. apply Sz. split; [apply Gh|]. unfold Rmin, Rmax. destruct (Rle_dec _ _); lra.
Qed.
Lemma within_trans (l h a b x : fl) : within_ends l h a -> within_ends l h b -> within_ends a b x -> within_ends l h x.
Proof. intros (_ & A) (_ & B) (F & X). split; auto. unfold Rmin, Rmax in *. destruct (Rle_dec (B2R a) (B2R b)), (Rle_dec (B2R l) (B2R h)); lra. Qed.
Lemma bracket f k (l h : fl) : (L <= 2 * k)%Z -> good_end l -> good_end h -> (forall x, within_ends l h x -> sizeable k (f x)) -> ~ same_sign (f l) (f h) ->
  forall n, ~ same_sign (f (fst (b_iter f n (l, h)))) (f (snd (b_iter f n (l, h)))).
Proof.
  intros Hk Gl Gh Sz N n. induction n as [|n IH]; [exact N|]. rewrite iter_S. destruct (iter_good f n l h Gl Gh) as (A & B & C1 & D). destruct (b_iter f n (l, h)) as (a, b). cbn [fst snd] in *.
  apply (bracket_step f k a b Hk A B); [intros x Hx; apply Sz; exact (within_trans l h a b x C1 D Hx)|exact IH].
Qed.
Lemma low_or f k (l h : fl) : (L <= 2 * k)%Z -> good_end l -> good_end h -> (forall x, within_ends l h x -> sizeable k (f x)) ->
  forall n, fst (b_iter f n (l, h)) = l \/ ~ same_sign (f (fst (b_iter f n (l, h)))) (f (snd (b_iter f n (l, h)))).
Proof.
  intros Hk Gl Gh Sz n. induction n as [|n IH]; [left; reflexivity|]. rewrite iter_S. destruct (iter_good f n l h Gl Gh) as (A & B & C1 & D). destruct (b_iter f n (l, h)) as (a, b). cbn [fst snd] in *.
  assert (Sz' : forall x, within_ends a b x -> sizeable k (f x)) by (intros x Hx; apply Sz; exact (within_trans l h a b x C1 D Hx)).
  destruct IH as [->|N].
  - destruct (low_step f k l b Hk A B Sz') as [E|E]; auto.
  - right. exact (bracket_step f k a b Hk A B Sz' N).
Qed.

(** * The result *)
Lemma close (l h : fl) : good_end l -> good_end h -> b_continue l h = false -> Rabs (B2R h - B2R l) <= 2 * bpow radix2 (1 - prec) * Rabs (B2R h) + bpow radix2 L.
Proof.
  intros Gl Gh C. assert (C' : Rabs (rne (B2R h - B2R l)) <= rne (Rabs (B2R h) * bpow radix2 (1 - prec))).
  { apply Rnot_lt_le. intros X. apply (cont_iff Hp l h Gl Gh) in X. congruence. }
  set (x := Rabs (B2R h - B2R l)). set (y := Rabs (B2R h) * bpow radix2 (1 - prec)) in *.
  pose proof (sub_near h l) as S1. unfold Islice_Spec.unit_roundoff in S1. pose proof (Rabs_triang_inv (B2R h - B2R l) (B2R h - B2R l - rne (B2R h - B2R l))) as T. replace (B2R h - B2R l - (B2R h - B2R l - rne (B2R h - B2R l))) with (rne (B2R h - B2R l)) in T by ring.
  rewrite (Rabs_minus_sym (B2R h - B2R l)) in T.
  assert (U : bpow radix2 (- prec) <= / 4). { change (/ 4) with (bpow radix2 (-2)). apply bpow_le. lia. }
  pose proof (bpow_gt_0 radix2 (- prec)) as U0. pose proof (bpow_gt_0 radix2 L) as B0.
  assert (Y0 : 0 <= y) by (unfold y; apply Rmult_le_pos; [apply Rabs_pos|apply bpow_ge_0]).
  assert (Yb : rne y <= y * (1 + bpow radix2 (- prec)) + bpow radix2 L / 2).
  { destruct (error_N_FLT radix2 L prec prec_gt_0_ even_choice y) as (ep & et & E1 & E2 & E3 & E4).
    change (round radix2 (FLT_exp L prec) (Znearest even_choice) y) with (rne y) in E4. rewrite E4. rewrite bpow_plus in E1. change (bpow radix2 1) with 2 in E1.
    apply Rabs_le_inv in E1, E2. nra. }
  assert (X0 : 0 <= x) by apply Rabs_pos. fold x in S1, T.
  assert (Q1 : bpow radix2 (- prec) * x <= / 4 * x) by (apply Rmult_le_compat_r; auto). assert (Q2 : y * bpow radix2 (- prec) <= y * / 4) by (apply Rmult_le_compat_l; auto).
  assert (3 / 4 * x <= y * (5 / 4) + bpow radix2 L / 2) by lra. unfold y in *. lra.
Qed.
Lemma mid_dist (l h : fl) : good_end l -> good_end h -> Rabs (B2R (b_mid l h) - B2R l) <= Rabs (B2R h - B2R l) /\ Rabs (B2R (b_mid l h) - B2R h) <= Rabs (B2R h - B2R l).
Proof.
  intros Gl Gh. destruct (mid_in Hp l h Gl Gh) as ((_ & W) & _). unfold Rmin, Rmax in W. unfold Rabs. destruct (Rle_dec _ _); repeat match goal with |- context [Rcase_abs ?z] => destruct (Rcase_abs z) end; lra.
Qed.
End P.
