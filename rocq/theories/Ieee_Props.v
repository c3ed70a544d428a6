(** C92: Vec3 on IEEE 754 numbers, special values included. *)
From Verif Require Import Ieee_Model Ieee_Spec Ieee_Proofs Ieee_Proofs2 Ieee_Proofs3 Kahan_Proofs Fnewt_Model Fnewt_Spec Fnewt_Proofs Fchain_Spec Ctrl_Model.
From Coq Require Import Lra Lia.
Open Scope R_scope.

Section C92.
Context {prec emax : Z} { prec_gt_0_ : Prec_gt_0 prec } { prec_lt_emax_ : Prec_lt_emax prec emax }.
Notation fl := (binary_float prec emax).
Notation ivec := (ivec prec emax).

(** Every operator acts on each component separately with one correct rounding. *)
Theorem C92_rounded c (u v : ivec) (s : fl) : is_finite (at_ c u) = true -> is_finite (at_ c v) = true -> is_finite s = true ->
  let x := B2R (at_ c u) in let y := B2R (at_ c v) in let r := B2R s in
  correctly_rounded (x + y) (at_ c (iv_add u v)) /\ correctly_rounded (x - y) (at_ c (iv_sub u v)) /\ correctly_rounded (x * y) (at_ c (iv_mul u v)) /\
  (y <> 0 -> correctly_rounded (x / y) (at_ c (iv_div u v))) /\
  correctly_rounded (x + r) (at_ c (iv_adds u s)) /\ correctly_rounded (x - r) (at_ c (iv_subs u s)) /\ correctly_rounded (x * r) (at_ c (iv_muls u s)) /\
  (r <> 0 -> correctly_rounded (x / r) (at_ c (iv_divs u s))) /\
  correctly_rounded (r + x) (at_ c (s_add s u)) /\ correctly_rounded (r - x) (at_ c (s_sub s u)) /\ correctly_rounded (r * x) (at_ c (s_mul s u)) /\
  (x <> 0 -> correctly_rounded (r / x) (at_ c (s_div s u))) /\ B2R (at_ c (iv_neg u)) = - x.
Proof.
  intros Fu Fv Fs. cbv zeta. rewrite (Rplus_comm (B2R s)), (Rmult_comm (B2R s)).
  destruct c; cbn [at_ iv_add iv_sub iv_mul iv_div iv_adds iv_subs iv_muls iv_divs iv2 ivs s_add s_sub s_mul s_div iv_neg ix iy iz] in *;
  repeat match goal with |- _ /\ _ => split end; auto using cr_add, cr_sub, cr_mul, cr_div; unfold ineg; apply B2R_Bopp.
Qed.
(** Orders that do not matter, bit for bit and for all values. *)
Theorem C92_commute (u v : ivec) (s : fl) :
  iv_add u v = iv_add v u /\ iv_mul u v = iv_mul v u /\ s_add s u = iv_adds u s /\ s_mul s u = iv_muls u s /\ idot u v = idot v u /\ idot v v = inorm2 v /\ iv_neg (iv_neg v) = v.
Proof.
  unfold iv_add, iv_mul, s_add, s_mul, iv_adds, iv_muls, iv2, ivs, idot.
  rewrite (iadd_comm (ix u)), (iadd_comm (iy u)), (iadd_comm (iz u)), (imul_comm (ix u) (ix v)), (imul_comm (iy u) (iy v)), (imul_comm (iz u) (iz v)).
  repeat split; auto. unfold iv_neg. cbn [ix iy iz]. rewrite !ineg_ineg. now destruct v.
Qed.
(** u - v against v - u: the same up to the sign, bit for bit, except that both are (either) zero when the components are equal. *)
Theorem C92_antisymmetric c (u v : ivec) : same (at_ c (iv_sub u v)) (at_ c (iv_neg (iv_sub v u))) /\ same (at_ c (icross u v)) (at_ c (iv_neg (icross v u))).
Proof.
  split; [destruct c; apply isub_anti|].
  destruct c; cbn [at_ icross iv_neg ix iy iz].
  - rewrite (imul_comm (iy v)), (imul_comm (iz v)). apply isub_anti.
  - rewrite (imul_comm (iz v)), (imul_comm (ix v)). apply isub_anti.
  - rewrite (imul_comm (ix v)), (imul_comm (iy v)). apply isub_anti.
Qed.
Theorem C92_same_means_equal (a b : fl) : same a b -> is_nan a = false -> ieq a b = true.
Proof. apply same_ieq. Qed.
(** v - v is +0 in every finite component and NaN in every other; cross(v, v) has no other values than +0 and NaN. *)
Theorem C92_self c (v : ivec) : at_ c (iv_sub v v) = (if is_finite (at_ c v) then B754_zero false else B754_nan) /\
  (at_ c (icross v v) = B754_zero false \/ at_ c (icross v v) = B754_nan) /\
  (forall K, (0 <= K)%Z -> (2 * K < emax)%Z -> (forall d, is_finite (at_ d v) = true /\ Rabs (B2R (at_ d v)) <= bpow radix2 K) -> at_ c (icross v v) = B754_zero false).
Proof.
  split; [destruct c; apply isub_self|].
  assert (G : forall a b : fl, isub (imul a b) (imul b a) = if is_finite (imul a b) then B754_zero false else B754_nan) by (intros; rewrite (imul_comm b); apply isub_self).
  split.
  - destruct c; cbn [at_ icross ix iy iz]; rewrite G; destruct (is_finite _); auto.
  - intros K K0 HK H. pose proof (least_neg (prec := prec) (emax := emax)). destruct c; cbn [at_ icross ix iy iz]; rewrite G;
    [destruct (bounded_mul (iy v) (iz v) K K) as (-> & _)|destruct (bounded_mul (iz v) (ix v) K K) as (-> & _)|destruct (bounded_mul (ix v) (iy v) K K) as (-> & _)]; auto; try lia; try apply (H CX); try apply (H CY); apply (H CZ).
Qed.
(** Compound assignment leaves in its target what the binary operator gives for the old values, also when both operands are the same object or the scalar
    is a component of the target, and touches no other object. *)
Theorem C92_assign (op : fl -> fl -> fl) t s sc (m : mem prec emax) :
  (obj (assign_vec op t s m) t = iv2 op (obj m t) (obj m s) /\ forall o, o <> t -> obj (assign_vec op t s m) o = obj m o) /\
  (obj (assign_scalar op t s sc m) t = ivs op (obj m t) (m s sc) /\ forall o, o <> t -> obj (assign_scalar op t s sc m) o = obj m o).
Proof. split; [apply assign_vec_obj|apply assign_scalar_obj]. Qed.

(** norm and norm2: NaN exactly if a component is NaN; otherwise not negative (nor -0), and infinite if a component is. *)
Theorem C92_norm (v : ivec) :
  (is_nan (inorm v) = true <-> some_nan v) /\ (is_nan (inorm2 v) = true <-> some_nan v) /\
  (~ some_nan v -> Bsign (inorm v) = false /\ Bsign (inorm2 v) = false /\ (some_inf v -> inorm v = B754_infinity false)) /\
  inorm (iv_neg v) = inorm v /\ inorm (iv_abs v) = inorm v /\ ire_norm v = idiv ione (inorm v).
Proof.
  assert (A : inorm (iv_neg v) = inorm v) by (unfold inorm, iv_neg; cbn [ix iy iz]; now rewrite !imul_neg_neg).
  assert (B : inorm (iv_abs v) = inorm v) by (unfold inorm, iv_abs; cbn [ix iy iz]; now rewrite !iabs_sq).
  destruct (some_nan_dec v) as [N|N].
  - assert (M : inorm v = B754_nan) by (rewrite norm_norm2, (norm2_nan v N); reflexivity). rewrite A, B, M, (norm2_nan v N). cbn [is_nan].
    split; [tauto|]. split; [tauto|]. split; [tauto|]. split; [reflexivity|]. split; [reflexivity|]. rewrite <- M. reflexivity.
  - pose proof (norm2_nn v N) as P. pose proof (isqrt_nn _ P) as Q. rewrite <- norm_norm2 in Q.
    assert (~ some_nan v) as NN by (intros (c & H); now rewrite N in H).
    destruct P as (P1 & P2), Q as (Q1 & Q2). rewrite P1, Q1. repeat split; auto; try tauto; try discriminate.
    intros I. rewrite norm_norm2, norm2_inf by auto. reflexivity.
Qed.
(** distance: the norm of the difference, the same both ways bit for bit; NaN exactly where a coordinate is NaN or both are the same infinity. *)
Theorem C92_distance (u v : ivec) :
  idistance u v = inorm (iv_sub u v) /\ idistance u v = idistance v u /\
  (all_finite v -> idistance v v = B754_zero false) /\
  (is_nan (idistance u v) = true <-> exists c, is_nan (at_ c u) = true \/ is_nan (at_ c v) = true \/ (is_inf (at_ c u) = true /\ at_ c u = at_ c v)) /\
  (is_nan (idistance u v) = false -> Bsign (idistance u v) = false).
Proof.
  assert (A : idistance u v = inorm (iv_sub u v)) by reflexivity.
  split; auto. split.
  - unfold idistance. rewrite (same_sq _ _ (isub_anti (ix u) (ix v))), (same_sq _ _ (isub_anti (iy u) (iy v))), (same_sq _ _ (isub_anti (iz u) (iz v))), !imul_neg_neg. reflexivity.
  - split.
    + intros F. unfold idistance. rewrite !isub_self. pose proof (F CX) as X. pose proof (F CY) as Y. pose proof (F CZ) as Z. cbn [at_] in X, Y, Z. rewrite X, Y, Z. reflexivity.
    + destruct (C92_norm (iv_sub u v)) as (P & _ & Q & _). rewrite A. split.
      * rewrite P. assert (G : forall a b : fl, is_nan (isub a b) = true <-> is_nan a = true \/ is_nan b = true \/ (is_inf a = true /\ a = b)).
        { intros a b. destruct (is_finite a) eqn:Fa, (is_finite b) eqn:Fb.
          - split; [|intros [H|[H|(H & _)]]; destruct a, b; discriminate]. intros H. exfalso.
            destruct (isub a b) eqn:E; try discriminate. pose proof (Bminus_correct prec emax _ _ mode_NE a b Fa Fb) as K. fold (isub a b) in K. rewrite E in K. destruct (Rlt_bool _ _); [destruct K as (_ & K & _)|destruct K as (K & _)]; discriminate.
          - destruct a as [s| s| |s m e H], b as [t| t| |t n f K]; try discriminate; cbn; split; try tauto; try discriminate; intros [H'|[H'|(H' & _)]]; discriminate.
          - destruct a as [s| s| |s m e H], b as [t| t| |t n f K]; try discriminate; cbn; split; try tauto; try discriminate; intros [H'|[H'|(_ & H')]]; discriminate.
          - destruct a as [s| s| |s m e H], b as [t| t| |t n f K]; try discriminate; cbn; try tauto. destruct s, t; cbn; split; intros H; try discriminate; auto; destruct H as [H|[H|(_ & H)]]; try discriminate. }
        split; intros (c & H); exists c; [destruct c; apply G; exact H|destruct c; apply G in H; exact H].
      * intros N. apply Q. rewrite <- P. congruence.
Qed.
(** No spurious overflow while the components stay below the square root of the largest number (double: 2^510). *)
Theorem C92_norm_in_range (v : ivec) K : (0 <= K)%Z -> (2 * K + 2 < emax)%Z -> (forall c, is_finite (at_ c v) = true /\ Rabs (B2R (at_ c v)) <= bpow radix2 K) ->
  is_finite (inorm v) = true /\ is_finite (inorm2 v) = true /\ B2R (inorm v) = fnorm (least prec emax) prec even_choice (real v).
Proof.
  intros K0 HK H. destruct (norm2_bounded v K K0 HK H) as (F & _).
  assert (is_finite (inorm v) = true) as G by (apply norm_finite; auto; intros c; apply finite_not_nan, H).
  repeat split; auto. apply link_norm; auto.
Qed.
(** Accuracy, away from underflow as well: three roundings. *)
Theorem C92_norm_accurate (v : ivec) E : (0 <= E)%Z -> (2 * E + 2 < emax)%Z -> (least prec emax + prec - 1 <= - (5 * E + 3))%Z ->
  all_finite v -> (forall a, tame E (co a (real v))) -> real v <> vzero -> within prec 3 (B2R (inorm v)) (norm (real v)).
Proof.
  intros E0 HE HL F T NZ. assert (H : forall c, is_finite (at_ c v) = true /\ Rabs (B2R (at_ c v)) <= bpow radix2 E).
  { intros c. split; auto. assert (G : forall x, tame E x -> Rabs x <= bpow radix2 E). { intros x [-> | (_ & Hx)]; auto. rewrite Rabs_R0. apply bpow_ge_0. }
    apply G. destruct c; [apply (T Fchain_Spec.X)|apply (T Fchain_Spec.Y)|apply (T Fchain_Spec.Z3)]. }
  destruct (C92_norm_in_range v E E0 HE H) as (_ & _ & ->).
  assert (Zr : forall x, zr (- E) E (co x (real v))). { intros x. apply T. }
  destruct (norm_near (least prec emax) prec even_choice E E0 HL 0 (real v) (real v) (fun x => near_refl _ _) Zr NZ) as (_ & _ & N).
  exact N.
Qed.

(** The two absolute values agree under ==, and so does the member with itself applied to the opposite. *)
Theorem C92_abs c (v : ivec) : same (at_ c (iv_abs_member v)) (at_ c (iv_abs v)) /\ (is_nan (at_ c v) = false -> ieq (at_ c (iv_abs_member v)) (at_ c (iv_abs v)) = true).
Proof.
  assert (S : same (at_ c (iv_abs_member v)) (at_ c (iv_abs v))) by (destruct c; apply abs_comp_same).
  split; auto. intros N. apply same_ieq; auto.
  assert (G : forall a : fl, is_nan a = false -> is_nan (abs_comp a) = false) by (intros a Ha; unfold abs_comp, ineg; destruct (igt a izero); rewrite ?is_nan_Bopp; auto).
  destruct c; apply G; auto.
Qed.
(** Maxima without NaN: one of the operands, and not below the others. *)
Theorem C92_max (u v : ivec) : ~ some_nan u -> ~ some_nan v ->
  (forall c, (at_ c (iv_max u v) = at_ c u \/ at_ c (iv_max u v) = at_ c v) /\ leq (at_ c u) (at_ c (iv_max u v)) /\ leq (at_ c v) (at_ c (iv_max u v)) /\
             (at_ c (iv_min u v) = at_ c u \/ at_ c (iv_min u v) = at_ c v) /\ leq (at_ c (iv_min u v)) (at_ c u) /\ leq (at_ c (iv_min u v)) (at_ c v)) /\
  (exists c, imax_component v = at_ c v) /\ (forall c, leq (at_ c v) (imax_component v)) /\
  (exists c, imax_abs v = iabs (at_ c v)) /\ (forall c, leq (iabs (at_ c v)) (imax_abs v)).
Proof.
  intros Nu Nv. assert (U : forall c, is_nan (at_ c u) = false) by (intros c; destruct (is_nan (at_ c u)) eqn:E; auto; exfalso; apply Nu; now exists c).
  assert (V : forall c, is_nan (at_ c v) = false) by (intros c; destruct (is_nan (at_ c v)) eqn:E; auto; exfalso; apply Nv; now exists c).
  split; [|split; [|split; [|split]]].
  - assert (G : forall a b : fl, is_nan a = false -> is_nan b = false -> (smax a b = a \/ smax a b = b) /\ leq a (smax a b) /\ leq b (smax a b) /\ (smin a b = a \/ smin a b = b) /\ leq (smin a b) a /\ leq (smin a b) b).
    { intros a b A B. destruct (smax_spec a b A B) as (P & K). destruct (smin_spec a b A B) as (P' & K').
      assert (is_nan (smax a b) = false) by (destruct P as [-> | -> ]; auto). assert (is_nan (smin a b) = false) by (destruct P' as [-> | -> ]; auto).
      rewrite !leq_key, K, K' by auto. pose proof (Rmax_l (key a) (key b)). pose proof (Rmax_r (key a) (key b)). pose proof (Rmin_l (key a) (key b)). pose proof (Rmin_r (key a) (key b)). tauto. }
    intros c. pose proof (G _ _ (U c) (V c)) as H. destruct c; exact H.
  - unfold imax_component. destruct (igt (ix v) (iy v)); [destruct (igt (ix v) (iz v))|destruct (igt (iy v) (iz v))]; [exists CX|exists CZ|exists CY|exists CZ]; reflexivity.
  - pose proof (V CX) as X. pose proof (V CY) as Y. pose proof (V CZ) as Z. cbn [at_] in X, Y, Z.
    assert (G : forall a b : fl, is_nan a = false -> is_nan b = false -> let g := if igt a b then a else b in is_nan g = false /\ key a <= key g /\ key b <= key g).
    { intros a b A B. cbv zeta. destruct (igt a b) eqn:E; [apply igt_key in E; auto; split; auto; lra|]. split; auto. split; [|lra]. destruct (Rlt_dec (key b) (key a)) as [L'|]; [|lra]. apply igt_key in L'; auto. congruence. }
    destruct (G _ _ X Y) as (M & M1 & M2). destruct (G _ _ M Z) as (M' & M3 & M4). fold (imax_component v) in M', M3, M4.
    intros c. apply leq_key; auto. destruct c; cbn [at_]; lra.
  - unfold imax_abs, smax. destruct (ilt (iabs (ix v)) (iabs (iy v))); [destruct (ilt (iabs (iy v)) (iabs (iz v)))|destruct (ilt (iabs (ix v)) (iabs (iz v)))]; [exists CZ|exists CY|exists CZ|exists CX]; reflexivity.
  - assert (W : forall c, is_nan (iabs (at_ c v)) = false) by (intros c; rewrite iabs_nan; auto).
    pose proof (W CX) as X. pose proof (W CY) as Y. pose proof (W CZ) as Z. cbn [at_] in X, Y, Z.
    destruct (smax_spec _ _ X Y) as (P & K). assert (is_nan (smax (iabs (ix v)) (iabs (iy v))) = false) as M by (destruct P as [-> | -> ]; auto).
    destruct (smax_spec _ _ M Z) as (P' & K'). fold (imax_abs v) in P', K'. assert (is_nan (imax_abs v) = false) as M' by (destruct P' as [-> | -> ]; auto).
    intros c. apply leq_key; auto. rewrite K', K. pose proof (Rmax_l (key (iabs (ix v))) (key (iabs (iy v)))). pose proof (Rmax_r (key (iabs (ix v))) (key (iabs (iy v)))).
    pose proof (Rmax_l (Rmax (key (iabs (ix v))) (key (iabs (iy v)))) (key (iabs (iz v)))). pose proof (Rmax_r (Rmax (key (iabs (ix v))) (key (iabs (iy v)))) (key (iabs (iz v)))).
    destruct c; cbn [at_]; lra.
Qed.
(** Finite components: max_abs is the real maximum of the magnitudes, without any rounding. *)
Theorem C92_max_abs_exact (v : ivec) : all_finite v -> is_finite (imax_abs v) = true /\ B2R (imax_abs v) = max_abs (real v).
Proof.
  intros F. assert (W : forall c, is_nan (iabs (at_ c v)) = false) by (intros c; rewrite iabs_nan; apply finite_not_nan, F).
  pose proof (W CX) as X. pose proof (W CY) as Y. pose proof (W CZ) as Z. cbn [at_] in X, Y, Z.
  assert (W' : forall c, is_finite (iabs (at_ c v)) = true) by (intros c; unfold iabs; rewrite is_finite_Babs; apply F).
  pose proof (W' CX) as X'. pose proof (W' CY) as Y'. pose proof (W' CZ) as Z'. cbn [at_] in X', Y', Z'.
  destruct (smax_spec _ _ X Y) as (P & K). assert (is_finite (smax (iabs (ix v)) (iabs (iy v))) = true) as M by (destruct P as [-> | -> ]; auto).
  destruct (smax_spec _ _ (finite_not_nan _ M) Z) as (P' & K'). fold (imax_abs v) in P', K'. assert (is_finite (imax_abs v) = true) as M' by (destruct P' as [-> | -> ]; auto).
  split; auto. destruct (key_fin _ M') as (E & _). rewrite <- E, K', K, !key_iabs. unfold max_abs, real. cbn [vx vy vz].
  pose proof (F CX) as FX. pose proof (F CY) as FY. pose proof (F CZ) as FZ. cbn [at_] in FX, FY, FZ.
  rewrite (proj1 (key_fin _ FX)), (proj1 (key_fin _ FY)), (proj1 (key_fin _ FZ)). reflexivity.
Qed.
(** With NaN: max_abs is NaN exactly when the x component is; vec_max and vec_min keep a NaN of their first argument and drop one of the second. *)
Theorem C92_max_nan (u v : ivec) c :
  (is_nan (imax_abs v) = true <-> is_nan (ix v) = true) /\
  (is_nan (at_ c u) = true -> at_ c (iv_max u v) = B754_nan /\ at_ c (iv_min u v) = B754_nan) /\
  (is_nan (at_ c v) = true -> at_ c (iv_max u v) = at_ c u /\ at_ c (iv_min u v) = at_ c u).
Proof.
  assert (A : forall b : fl, smax B754_nan b = B754_nan) by (intros; unfold smax, ilt; now rewrite cmp_nan_l).
  assert (B : forall a : fl, smax a B754_nan = a) by (intros; unfold smax, ilt; now rewrite cmp_nan_r).
  assert (A' : forall b : fl, smin B754_nan b = B754_nan) by (intros; unfold smin, ilt; now rewrite cmp_nan_r).
  assert (B' : forall a : fl, smin a B754_nan = a) by (intros; unfold smin, ilt; now rewrite cmp_nan_l).
  split; [|split].
  - unfold imax_abs. cbv zeta. split.
    + intros H. destruct (is_nan (ix v)) eqn:E; auto. exfalso. rewrite <- iabs_nan in E.
      assert (G : forall a b : fl, is_nan a = false -> is_nan (smax a b) = false).
      { intros a b Ha. destruct (is_nan b) eqn:Eb; [apply nan_eq in Eb; subst; now rewrite B|]. destruct (smax_spec a b Ha Eb) as ([-> | -> ] & _); auto. }
      rewrite G in H; [discriminate|]. now apply G.
    + intros H. apply nan_eq in H. rewrite H. change (iabs (B754_nan : fl)) with (B754_nan : fl). now rewrite !A.
  - intros H. apply nan_eq in H. destruct c; cbn [at_ iv_max iv_min ix iy iz] in *; rewrite H, ?A, ?A'; auto.
  - intros H. apply nan_eq in H. destruct c; cbn [at_ iv_max iv_min ix iy iz] in *; rewrite H, ?B, ?B'; auto.
Qed.
End C92.

(** * double: what does not hold *)
#[local] Instance p53 : Prec_gt_0 53 := eq_refl.
#[local] Instance e1024 : Prec_lt_emax 53 1024 := eq_refl.
Notation dbl := (binary_float 53 1024).
(** 1, 2, 5, 2^60, 2^600 and 2^-600. *)
Definition d1 : dbl := @B754_finite 53 1024 false 4503599627370496 (-52) eq_refl.
Definition d2 : dbl := @B754_finite 53 1024 false 4503599627370496 (-51) eq_refl.
Definition d5 : dbl := @B754_finite 53 1024 false 5629499534213120 (-50) eq_refl.
Definition d2p60 : dbl := @B754_finite 53 1024 false 4503599627370496 8 eq_refl.
Definition d2p600 : dbl := @B754_finite 53 1024 false 4503599627370496 548 eq_refl.
Definition d2m600 : dbl := @B754_finite 53 1024 false 4503599627370496 (-652) eq_refl.
Definition d0 : dbl := B754_zero false.
Ltac dcompute := apply B2SF_inj; vm_compute; reflexivity.

(** Addition is not associative. *)
Theorem C92_associative_refuted : exists u v w : ivec 53 1024, all_finite u /\ all_finite v /\ all_finite w /\
  ix (iv_add (iv_add u v) w) = d0 /\ ix (iv_add u (iv_add v w)) = d1.
Proof.
  exists (iv_fill d1), (iv_fill d2p60), (iv_fill (ineg d2p60)). repeat split; try (intros []; reflexivity); dcompute.
Qed.
(** The norm of a finite vector may be infinite, although the length of the vector is far inside the range, and zero although the vector is not zero;
    re_norm is then infinite. *)
Theorem C92_norm_range_refuted : exists u v : ivec 53 1024, all_finite u /\ inorm u = B754_infinity false /\ norm (real u) = bpow radix2 600 /\
  all_finite v /\ B2R (ix v) <> 0 /\ inorm v = d0 /\ ire_norm v = B754_infinity false.
Proof.
  exists (mkI d2p600 d0 d0), (mkI d2m600 d0 d0). split; [intros []; reflexivity|]. split; [dcompute|]. split.
  { assert (H : B2R d2p600 = bpow radix2 600). { unfold d2p600, B2R. unfold F2R. cbn [Fnum Fexp SpecFloat.cond_Zopp]. change 4503599627370496%Z with (Zpower radix2 52). rewrite IZR_Zpower by lia. rewrite <- bpow_plus. reflexivity. }
    unfold norm, norm2, Vec.dot, real. cbn [vx vy vz ix iy iz]. change (B2R d0) with 0. rewrite H. replace (bpow radix2 600 * bpow radix2 600 + 0 * 0 + 0 * 0) with (bpow radix2 600 * bpow radix2 600) by ring.
    apply sqrt_square, bpow_ge_0. }
  split; [intros []; reflexivity|]. split; [|split; dcompute].
  cbn [ix]. apply F2R_neq_0. discriminate.
Qed.
(** The member abs() turns +0 into -0: dividing by it gives minus infinity where vec_abs gives plus infinity. *)
Theorem C92_abs_zero_refuted : exists v : ivec 53 1024, all_finite v /\ ix (s_div ione (iv_abs_member v)) = B754_infinity true /\ ix (s_div ione (iv_abs v)) = B754_infinity false.
Proof. exists (iv_fill d0). split; [intros []; reflexivity|]. split; dcompute. Qed.
(** cross(v, v) of a finite vector may be NaN. *)
Theorem C92_cross_self_refuted : exists v : ivec 53 1024, all_finite v /\ iz (icross v v) = B754_nan.
Proof. exists (mkI d2p600 d2p600 d0). split; [intros []; reflexivity|dcompute]. Qed.
(** A NaN hides components: max_component of (5, NaN, 1) is 1, max_abs of (1, NaN, 2) is 2 but of (NaN, 1, 2) is NaN; vec_max depends on the order. *)
Theorem C92_max_nan_refuted : imax_component (mkI d5 B754_nan d1) = d1 /\ imax_abs (mkI d1 B754_nan d2) = d2 /\ imax_abs (mkI B754_nan d1 d2) = (B754_nan : dbl) /\
  ix (iv_max (iv_fill d1) (iv_fill B754_nan)) = d1 /\ ix (iv_max (iv_fill B754_nan) (iv_fill d1)) = (B754_nan : dbl).
Proof. repeat split; dcompute. Qed.
(** u - v and -(v - u) need not be the same bits. *)
Theorem C92_antisymmetric_bits_refuted : exists u : ivec 53 1024, all_finite u /\ ix (iv_sub u u) = B754_zero false /\ ix (iv_neg (iv_sub u u)) = B754_zero true.
Proof. exists (iv_fill d1). split; [intros []; reflexivity|]. split; dcompute. Qed.

(** The hypotheses can be met: (1, 2, 5) and (2, -5, 1) in double. *)
Definition ev1 : ivec 53 1024 := mkI d1 d2 d5.
Definition ev2 : ivec 53 1024 := mkI d2 (ineg d5) d1.
Example C92_rounded_example : at_ CY (iv_add ev1 ev2) = ineg (iadd d1 d2) /\ at_ CZ (icross ev1 ev2) = ineg (iadd d5 (iadd d2 d2)) /\ is_finite (idot ev1 ev2) = true.
Proof. repeat split; dcompute. Qed.
Example C92_finite_example : all_finite ev1 /\ all_finite ev2 /\ ~ some_nan ev1 /\ ~ some_nan ev2 /\ ~ some_inf ev1.
Proof. split; [intros []; reflexivity|]. split; [intros []; reflexivity|]. repeat split; intros ([] & H); discriminate. Qed.
Lemma B2R_d1 : B2R d1 = 1. Proof. unfold d1, B2R, F2R. cbn [Fnum Fexp SpecFloat.cond_Zopp]. change 4503599627370496%Z with (Zpower radix2 52). rewrite IZR_Zpower by lia. rewrite <- bpow_plus. reflexivity. Qed.
Lemma B2R_d2 : B2R d2 = 2. Proof. unfold d2, B2R, F2R. cbn [Fnum Fexp SpecFloat.cond_Zopp]. change 4503599627370496%Z with (Zpower radix2 52). rewrite IZR_Zpower by lia. rewrite <- bpow_plus. reflexivity. Qed.
Lemma B2R_d5 : B2R d5 = 5. Proof. unfold d5, B2R, F2R. cbn [Fnum Fexp SpecFloat.cond_Zopp]. replace 5629499534213120%Z with (5 * Zpower radix2 50)%Z by reflexivity. rewrite mult_IZR, IZR_Zpower by lia. rewrite Rmult_assoc, <- bpow_plus. cbn. lra. Qed.
Example C92_norm_accurate_example : within 53 3 (B2R (inorm ev1)) (norm (real ev1)).
Proof.
  apply (C92_norm_accurate ev1 3); try (unfold least; lia).
  - intros []; reflexivity.
  - assert (bpow radix2 (- 3) = / 8 /\ bpow radix2 3 = 8) as (E1 & E2) by (cbn; lra).
    intros []; right; unfold real; cbn [co ev1 ix iy iz vx vy vz]; change (- (3))%Z with (-3)%Z; rewrite ?B2R_d1, ?B2R_d2, ?B2R_d5, E1, E2, Rabs_pos_eq; lra.
  - unfold real, ev1. cbn [ix iy iz]. rewrite B2R_d1. intros H. apply (f_equal vx) in H. cbn in H. lra.
Qed.
Example C92_assign_example (m : mem 53 1024) : obj (assign_vec isub 4 4 m) 4 = iv_sub (obj m 4) (obj m 4) /\ obj (assign_scalar idiv 4 4 CX m) 4 = iv_divs (obj m 4) (m 4%nat CX).
Proof. split; apply C92_assign; exact CX. Qed.
Print Assumptions C92_rounded. Print Assumptions C92_commute. Print Assumptions C92_antisymmetric. Print Assumptions C92_same_means_equal. Print Assumptions C92_self. Print Assumptions C92_assign.
Print Assumptions C92_norm. Print Assumptions C92_distance. Print Assumptions C92_norm_in_range. Print Assumptions C92_norm_accurate. Print Assumptions C92_abs. Print Assumptions C92_max.
Print Assumptions C92_max_abs_exact. Print Assumptions C92_max_nan. Print Assumptions C92_associative_refuted. Print Assumptions C92_norm_range_refuted. Print Assumptions C92_abs_zero_refuted.
Print Assumptions C92_cross_self_refuted. Print Assumptions C92_max_nan_refuted. Print Assumptions C92_antisymmetric_bits_refuted.
