From Verif Require Import Inum_Model Inum_Spec Ibis_Proofs Ibis_Proofs2 Ikah_Proofs2 Ieee_Proofs Ieee_Proofs2 Ieee_Proofs3 Ieee_Props2 Kahan_Proofs Islice_Spec Islice_Proofs Islice_Proofs2 Ianom_Proofs3.
From Coq Require Import Lra Lia Bool Arith.
Open Scope R_scope.
Section P.
Context {prec emax : Z} { prec_gt_0_ : Prec_gt_0 prec } { prec_lt_emax_ : Prec_lt_emax prec emax }.
Hypothesis Hp : (1 < prec)%Z.
Notation fl := (binary_float prec emax).
Notation rne := (Ieee_Spec.rne prec emax).
Notation L := (least prec emax).
Notation fmt := (Kahan_Model.fmt L prec).
Notation fin a := (is_finite a = true).
Notation eps := (bpow radix2 (1 - prec)).
Lemma igt_nan_l (a b : fl) : is_nan a = true -> igt a b = false.
Proof. intros H. rewrite (nan_eq a H). unfold igt. rewrite cmp_nan_l. reflexivity. Qed.
Lemma igt_nan_r (a b : fl) : is_nan b = true -> igt a b = false.
Proof. intros H. rewrite (nan_eq b H). unfold igt. rewrite cmp_nan_r. reflexivity. Qed.
Lemma igt_false (a b : fl) : is_nan a = false -> is_nan b = false -> igt a b = false <-> key a <= key b.
Proof.
  intros A B. pose proof (igt_key a b A B) as H. destruct (igt a b); split; intros K; auto; try discriminate.
  - pose proof (proj1 H eq_refl). lra.
  - destruct (Rle_or_lt (key a) (key b)) as [G|G]; auto. apply H in G. discriminate.
Qed.
Lemma range_key (lo x hi : fl) : leq lo hi -> is_nan x = false -> is_nan (in_range lo x hi) = false /\ key (in_range lo x hi) = Rmin (Rmax (key lo) (key x)) (key hi).
Proof.
  intros H N. destruct (leq_nan _ _ H) as (Nl & Nh). apply (leq_key lo hi Nl Nh) in H. unfold in_range. cbv zeta.
  destruct (igt lo x) eqn:G.
  - apply (igt_key lo x Nl N) in G. destruct (igt lo hi) eqn:G2; [apply (igt_key lo hi Nl Nh) in G2; lra|]. split; auto. rewrite Rmax_left by lra. rewrite Rmin_left by lra. reflexivity.
  - apply (igt_false lo x Nl N) in G. destruct (igt x hi) eqn:G2.
    + apply (igt_key x hi N Nh) in G2. split; auto. rewrite Rmax_right by lra. rewrite Rmin_right by lra. reflexivity.
    + apply (igt_false x hi N Nh) in G2. split; auto. rewrite Rmax_right by lra. rewrite Rmin_left by lra. reflexivity.
Qed.
(** Order of correctly rounded results. *)
Lemma cr_key x (a : fl) : correctly_rounded x a -> is_nan a = false /\ key a = Rmax (- bpow radix2 emax) (Rmin (rne x) (bpow radix2 emax)).
Proof.
  intros (C1 & C2). pose proof (bpow_gt_0 radix2 emax) as B. destruct (Rlt_or_le (Rabs (rne x)) (bpow radix2 emax)) as [H|H].
  - destruct (C1 H) as (F & V). split; [apply finite_not_nan; exact F|]. rewrite (proj1 (key_fin a F)), V. apply Rabs_def2 in H. rewrite Rmin_left by lra. rewrite Rmax_right by lra. reflexivity.
  - destruct (C2 H) as (P & N). destruct (Rtotal_order x 0) as [X|[X|X]].
    + rewrite (N X). split; [reflexivity|]. assert (rne x <= 0). { rewrite <- (rne_0 (prec:=prec) (emax:=emax)). apply rne_le. lra. } rewrite Rabs_left1 in H by lra. rewrite Rmin_left by lra. rewrite Rmax_left by lra. reflexivity.
    + rewrite X, rne_0, Rabs_R0 in H. lra.
    + rewrite (P X). split; [reflexivity|]. assert (0 <= rne x) by (apply rne_nonneg; lra). rewrite Rabs_right in H by lra. rewrite Rmin_right by lra. rewrite Rmax_right by lra. reflexivity.
Qed.
Lemma cr_mono x y (a b : fl) : correctly_rounded x a -> correctly_rounded y b -> x <= y -> key a <= key b.
Proof.
  intros A B H. destruct (cr_key _ _ A) as (_ & ->). destruct (cr_key _ _ B) as (_ & ->). pose proof (rne_le (prec:=prec) (emax:=emax) _ _ H). unfold Rmax, Rmin. repeat destruct (Rle_dec _ _); lra.
Qed.
Lemma zero_key : key (izero : fl) = 0. Proof. reflexivity. Qed.
Lemma one_key : key (ione : fl) = 1. Proof. destruct (one_val (prec:=prec) (emax:=emax)) as (F & V). rewrite (proj1 (key_fin _ F)). exact V. Qed.
Lemma one_nan : is_nan (ione : fl) = false. Proof. destruct (one_val (prec:=prec) (emax:=emax)) as (F & V). apply finite_not_nan. exact F. Qed.
Lemma leqk (a b : fl) : leq a b <-> is_nan a = false /\ is_nan b = false /\ key a <= key b.
Proof. split; [intros H; destruct (leq_nan a b H) as (A & B); split; auto; split; auto; apply (leq_key a b A B); exact H|intros (A & B & H); apply (leq_key a b A B); exact H]. Qed.
(** A number above zero is a positive finite number or infinity. *)
Lemma pos_cases (a : fl) : is_nan a = false -> 0 < key a -> fin a /\ 0 < B2R a \/ a = B754_infinity false.
Proof.
  intros N K. destruct a as [s|s| |s m e H]; [cbn in K; lra| |discriminate N|left; split; [reflexivity|exact K]]. destruct s; [|auto]. cbn [key] in K. pose proof (bpow_gt_0 radix2 emax). lra.
Qed.
Lemma zero_cases (a : fl) : is_nan a = false -> key a = 0 -> exists s, a = B754_zero s.
Proof.
  intros N K. destruct a as [s|s| |s m e H]; [eauto| |discriminate N|]. { exfalso. cbn [key] in K. pose proof (bpow_gt_0 radix2 emax). destruct s; lra. }
  apply zero_of; [reflexivity|exact K].
Qed.
(** Dividing a positive number by a positive number or infinity. *)
Lemma div_pos (g e : fl) : fin g -> 0 < B2R g -> is_nan e = false -> 0 < key e -> is_nan (idiv g e) = false /\ 0 <= key (idiv g e).
Proof.
  intros Fg Pg Ne Pe. destruct (pos_cases e Ne Pe) as [(Fe & Ve)| ->].
  - assert (N0 : B2R e <> 0) by lra. destruct (cr_key _ _ (cr_div g e Fg Fe N0)) as (N & K). split; auto. rewrite K. assert (0 <= rne (B2R g / B2R e)). { apply rne_nonneg. apply Rlt_le, Rdiv_lt_0_compat; lra. }
    pose proof (bpow_gt_0 radix2 emax). unfold Rmax, Rmin. repeat destruct (Rle_dec _ _); lra.
  - destruct g as [s|s| |s m x H]; try discriminate Fg; cbn; split; auto; lra.
Qed.
Lemma div_anti (g e e' : fl) : fin g -> 0 < B2R g -> is_nan e' = false -> is_nan e = false -> 0 < key e -> key e <= key e' -> key (idiv g e') <= key (idiv g e).
Proof.
  intros Fg Pg Ne' Ne Pe Le. destruct (pos_cases e' Ne') as [(Fe' & Ve')| ->]; [lra| |].
  - destruct (pos_cases e Ne Pe) as [(Fe & Ve)| ->].
    + apply (cr_mono (B2R g / B2R e') (B2R g / B2R e)); [apply cr_div; auto; lra|apply cr_div; auto; lra|]. rewrite (proj1 (key_fin e Fe)), (proj1 (key_fin e' Fe')) in Le. unfold Rdiv. apply Rmult_le_compat_l; [lra|]. apply Rinv_le; lra.
    + cbn [key] in Le. destruct (key_fin e' Fe') as (K & B). rewrite K in Le. lra.
  - replace (key (idiv g (B754_infinity false))) with 0; [apply div_pos; auto|]. destruct g as [s|s| |s m x H]; try discriminate Fg; reflexivity.
Qed.
(** Multiplying by a positive number. *)
Lemma mul_pos (g x : fl) : fin g -> 0 < B2R g -> is_nan x = false -> 0 <= key x -> is_nan (imul g x) = false /\ 0 <= key (imul g x).
Proof.
  intros Fg Pg N K. destruct (Rle_lt_or_eq_dec _ _ K) as [P|Z].
  - destruct (pos_cases x N P) as [(Fx & Vx)| ->].
    + destruct (cr_key _ _ (cr_mul g x Fg Fx)) as (Nm & Km). split; auto. rewrite Km. assert (0 <= rne (B2R g * B2R x)) by (apply rne_nonneg; nra). pose proof (bpow_gt_0 radix2 emax). unfold Rmax, Rmin. repeat destruct (Rle_dec _ _); lra.
    + pose proof (bpow_gt_0 radix2 emax). pose proof (sign_pos g Fg Pg) as S. destruct g as [s|s| |s m e H1]; try discriminate Fg; [cbn in Pg; lra|]. cbn in S. subst s. cbn. split; auto; lra.
  - destruct (zero_cases x N (eq_sym Z)) as (s & ->). destruct g as [s'|s'| |s' m e H1]; try discriminate Fg; cbn; split; auto; lra.
Qed.
Lemma mul_mono (g x y : fl) : fin g -> 0 < B2R g -> is_nan x = false -> is_nan y = false -> 0 <= key x -> key x <= key y -> key (imul g x) <= key (imul g y).
Proof.
  intros Fg Pg Nx Ny K Le. destruct (Rle_lt_or_eq_dec _ _ K) as [P|Z].
  - destruct (pos_cases y Ny) as [(Fy & Vy)| ->]; [lra| |].
    + destruct (pos_cases x Nx P) as [(Fx & Vx)| ->].
      * apply (cr_mono (B2R g * B2R x) (B2R g * B2R y)); [apply cr_mul; auto|apply cr_mul; auto|]. rewrite (proj1 (key_fin x Fx)), (proj1 (key_fin y Fy)) in Le. nra.
      * cbn [key] in Le. destruct (key_fin y Fy) as (Ky & B). rewrite Ky in Le. lra.
    + pose proof (sign_pos g Fg Pg) as S. replace (key (imul g (B754_infinity false))) with (bpow radix2 emax).
      * destruct (pos_cases x Nx P) as [(Fx & Vx)| ->].
        -- destruct (cr_key _ _ (cr_mul g x Fg Fx)) as (Nm & Km). rewrite Km. pose proof (bpow_gt_0 radix2 emax). unfold Rmax, Rmin. repeat destruct (Rle_dec _ _); lra.
        -- destruct g as [s|s| |s m e H1]; try discriminate Fg; [cbn in Pg; lra|]. cbn in S. subst s. cbn. lra.
      * destruct g as [s|s| |s m e H1]; try discriminate Fg; [cbn in Pg; lra|]. cbn in S. subst s. reflexivity.
  - destruct (zero_cases x Nx (eq_sym Z)) as (s & ->). replace (key (imul g (B754_zero s))) with 0 by (destruct g as [s'|s'| |s' m e H1]; try discriminate Fg; reflexivity). apply mul_pos; auto; lra.
Qed.
End P.
