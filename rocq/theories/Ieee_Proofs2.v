(** Vectors of IEEE 754 numbers: norms, comparisons, assignment. *)
From Verif Require Import Ieee_Model Ieee_Spec Ieee_Proofs Kahan_Proofs.
From Coq Require Import Lra Lia.
Open Scope R_scope.

Section P.
Context {prec emax : Z} { prec_gt_0_ : Prec_gt_0 prec } { prec_lt_emax_ : Prec_lt_emax prec emax }.
Notation fl := (binary_float prec emax).
Notation ivec := (ivec prec emax).
Notation rne := (rne prec emax).

Lemma some_nan_dec (v : ivec) : {some_nan v} + {forall c, is_nan (at_ c v) = false}.
Proof.
  destruct (is_nan (ix v)) eqn:X; [left; now exists CX|]. destruct (is_nan (iy v)) eqn:Y; [left; now exists CY|]. destruct (is_nan (iz v)) eqn:Z; [left; now exists CZ|].
  right. intros []; auto.
Qed.
Lemma norm2_nn (v : ivec) : (forall c, is_nan (at_ c v) = false) -> nn (inorm2 v).
Proof. intros N. unfold inorm2. repeat apply iadd_nn; apply sq_nn; [apply (N CX)|apply (N CY)|apply (N CZ)]. Qed.
Lemma norm2_nan (v : ivec) : some_nan v -> inorm2 v = B754_nan.
Proof.
  intros ([] & H); apply nan_eq in H; unfold inorm2; cbn [at_] in H; rewrite H, imul_nan_l, ?iadd_nan_r, ?iadd_nan_l, ?iadd_nan_r; auto.
Qed.
Lemma norm_norm2 (v : ivec) : inorm v = isqrt (inorm2 v).
Proof. reflexivity. Qed.
Lemma nn_inf (a : fl) : nn a -> is_inf a = true -> a = B754_infinity false.
Proof. intros (_ & S). destruct a; try discriminate. cbn in S. now subst. Qed.
Lemma iadd_inf (a b : fl) : nn a -> nn b -> is_inf a = true \/ is_inf b = true -> iadd a b = B754_infinity false.
Proof.
  intros A B [H|H]; [rewrite (nn_inf a A H)|rewrite (nn_inf b B H)].
  - destruct B as (N & S). destruct b; try discriminate; auto. cbn in S. now subst.
  - destruct A as (N & S). destruct a; try discriminate; auto. cbn in S. now subst.
Qed.
Lemma sq_inf (a : fl) : is_inf a = true -> imul a a = B754_infinity false.
Proof. destruct a as [s| s| |s m e H]; try discriminate. now destruct s. Qed.
Lemma norm2_inf (v : ivec) : (forall c, is_nan (at_ c v) = false) -> some_inf v -> inorm2 v = B754_infinity false.
Proof.
  intros N (c & H). pose proof (sq_nn _ (N CX)) as X. pose proof (sq_nn _ (N CY)) as Y. pose proof (sq_nn _ (N CZ)) as Z. cbn [at_] in *. unfold inorm2. apply sq_inf in H.
  destruct c; cbn [at_] in H; rewrite H in *; apply iadd_inf; auto; try (apply iadd_nn; auto); try (now right); left; rewrite iadd_inf; auto.
Qed.

(** Comparisons: an order on everything but NaN. *)
Definition key (a : fl) : R := match a with B754_infinity s => if s then - bpow radix2 emax else bpow radix2 emax | _ => B2R a end.
Lemma key_fin (a : fl) : is_finite a = true -> key a = B2R a /\ - bpow radix2 emax < B2R a < bpow radix2 emax.
Proof.
  intros F. split; [now destruct a|]. pose proof (abs_B2R_lt_emax prec emax a) as H. apply Rabs_def2 in H. lra.
Qed.
Lemma compare_key (a b : fl) : is_nan a = false -> is_nan b = false -> Bcompare a b = Some (Rcompare (key a) (key b)).
Proof.
  intros Na Nb. destruct (is_finite a) eqn:Fa, (is_finite b) eqn:Fb.
  - rewrite Bcompare_correct by auto. now rewrite (proj1 (key_fin a Fa)), (proj1 (key_fin b Fb)).
  - destruct (key_fin a Fa) as (K & B). rewrite K. clear K. pose proof (bpow_gt_0 radix2 emax). destruct b as [t| t| |t n f K]; try discriminate. destruct t; cbn [key]; [rewrite Rcompare_Gt by lra|rewrite Rcompare_Lt by lra]; destruct a as [s| s| |s m e H']; try discriminate; try reflexivity; now destruct s.
  - destruct (key_fin b Fb) as (K & B). rewrite K. clear K. pose proof (bpow_gt_0 radix2 emax). destruct a as [t| t| |t n f K]; try discriminate. destruct t; cbn [key]; [rewrite Rcompare_Lt by lra|rewrite Rcompare_Gt by lra]; destruct b as [s| s| |s m e H']; try discriminate; try reflexivity; now destruct s.
  - pose proof (bpow_gt_0 radix2 emax). destruct a as [t| t| |t n f K]; try discriminate; destruct b as [s| s| |s m e H']; try discriminate. destruct t, s; cbn [key].
    + rewrite Rcompare_Eq by lra; reflexivity.
    + rewrite Rcompare_Lt by lra; reflexivity.
    + rewrite Rcompare_Gt by lra; reflexivity.
    + rewrite Rcompare_Eq by lra; reflexivity.
Qed.
Lemma ilt_key (a b : fl) : is_nan a = false -> is_nan b = false -> ilt a b = true <-> key a < key b.
Proof. intros A B. unfold ilt. rewrite compare_key by auto. destruct (Rcompare_spec (key a) (key b)); split; intros; auto; try discriminate; lra. Qed.
Lemma igt_key (a b : fl) : is_nan a = false -> is_nan b = false -> igt a b = true <-> key b < key a.
Proof. intros A B. unfold igt. rewrite compare_key by auto. destruct (Rcompare_spec (key a) (key b)); split; intros; auto; try discriminate; lra. Qed.
Lemma ieq_key (a b : fl) : is_nan a = false -> is_nan b = false -> ieq a b = true <-> key a = key b.
Proof. intros A B. unfold ieq. rewrite compare_key by auto. destruct (Rcompare_spec (key a) (key b)); split; intros; auto; try discriminate; lra. Qed.
Lemma leq_key (a b : fl) : is_nan a = false -> is_nan b = false -> leq a b <-> key a <= key b.
Proof. intros A B. unfold leq. rewrite ilt_key, ieq_key by auto. lra. Qed.
Lemma cmp_nan_l (b : fl) : Bcompare (B754_nan : fl) b = None.
Proof. now destruct b. Qed.
Lemma cmp_nan_r (a : fl) : Bcompare a (B754_nan : fl) = None.
Proof. now destruct a as [s|[] | |[] m e H]. Qed.
Lemma leq_nan (a b : fl) : leq a b -> is_nan a = false /\ is_nan b = false.
Proof.
  unfold leq, ilt, ieq. intros H. split.
  - destruct (is_nan a) eqn:E; auto. apply nan_eq in E. subst. rewrite cmp_nan_l in H. destruct H; discriminate.
  - destruct (is_nan b) eqn:E; auto. apply nan_eq in E. subst. rewrite cmp_nan_r in H. destruct H; discriminate.
Qed.
Lemma same_ieq (a b : fl) : same a b -> is_nan a = false -> ieq a b = true.
Proof.
  intros [-> | (s & t & -> & ->)] N; [|reflexivity]. apply ieq_key; auto.
Qed.

Lemma smax_spec (a b : fl) : is_nan a = false -> is_nan b = false -> (smax a b = a \/ smax a b = b) /\ key (smax a b) = Rmax (key a) (key b).
Proof.
  intros A B. unfold smax. destruct (ilt a b) eqn:E.
  - apply ilt_key in E; auto. split; auto. rewrite Rmax_right; lra.
  - split; auto. rewrite Rmax_left; auto. destruct (Rlt_dec (key a) (key b)); [|lra]. apply ilt_key in r; auto. congruence.
Qed.
Lemma smin_spec (a b : fl) : is_nan a = false -> is_nan b = false -> (smin a b = a \/ smin a b = b) /\ key (smin a b) = Rmin (key a) (key b).
Proof.
  intros A B. unfold smin. destruct (ilt b a) eqn:E.
  - apply ilt_key in E; auto. split; auto. rewrite Rmin_right; lra.
  - split; auto. rewrite Rmin_left; auto. destruct (Rlt_dec (key b) (key a)); [|lra]. apply ilt_key in r; auto. congruence.
Qed.
Lemma iabs_nan (a : fl) : is_nan (iabs a) = is_nan a.
Proof. apply is_nan_Babs. Qed.
Lemma key_iabs (a : fl) : key (iabs a) = Rabs (key a).
Proof.
  destruct (is_finite a) eqn:F.
  - rewrite (proj1 (key_fin a F)). unfold iabs. rewrite (proj1 (key_fin (Babs a) ltac:(now rewrite is_finite_Babs))). apply B2R_Babs.
  - pose proof (bpow_gt_0 radix2 emax). destruct a as [t| t| |t n f K]; try discriminate; cbn; [destruct t|]; rewrite ?Rabs_Ropp, ?Rabs_R0; auto; rewrite Rabs_pos_eq; lra.
Qed.
Lemma abs_comp_same (a : fl) : same (abs_comp a) (iabs a).
Proof.
  unfold abs_comp, iabs, ineg, igt. destruct a as [s| s| |s m e H].
  - right. destruct s; [exists false, false|exists true, false]; split; reflexivity.
  - left. destruct s; reflexivity.
  - left. reflexivity.
  - left. destruct s; reflexivity.
Qed.

(** Assignment. *)
Lemma comp_eqb_refl c : comp_eqb c c = true.
Proof. now destruct c. Qed.
Lemma assign_vec_obj op t s (m : mem prec emax) : obj (assign_vec op t s m) t = iv2 op (obj m t) (obj m s) /\ forall o, o <> t -> obj (assign_vec op t s m) o = obj m o.
Proof.
  unfold assign_vec, obj, iv2, mset. cbn [ix iy iz]. split.
  - rewrite !PeanoNat.Nat.eqb_refl. cbn [comp_eqb andb]. destruct (PeanoNat.Nat.eqb s t); reflexivity.
  - intros o Ho. apply PeanoNat.Nat.eqb_neq in Ho. rewrite Ho. reflexivity.
Qed.
Lemma assign_scalar_obj op t s sc (m : mem prec emax) : obj (assign_scalar op t s sc m) t = ivs op (obj m t) (m s sc) /\ forall o, o <> t -> obj (assign_scalar op t s sc m) o = obj m o.
Proof.
  unfold assign_scalar, obj, ivs, mset. cbn [ix iy iz]. split.
  - rewrite !PeanoNat.Nat.eqb_refl. cbn [comp_eqb andb]. reflexivity.
  - intros o Ho. apply PeanoNat.Nat.eqb_neq in Ho. rewrite Ho. reflexivity.
Qed.
End P.
