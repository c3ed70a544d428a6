(** C92: dot, cross and norm2 are exact on vectors of moderate integers. *)
From Verif Require Import Ieee_Model Ieee_Spec Ieee_Proofs Ieee_Proofs2 Ieee_Proofs3 Kahan_Proofs Fchain_Proofs2.
From Coq Require Import Lra Lia.
Open Scope R_scope.

Section C92.
Context {prec emax : Z} { prec_gt_0_ : Prec_gt_0 prec } { prec_lt_emax_ : Prec_lt_emax prec emax }.
Notation fl := (binary_float prec emax).
Notation ivec := (ivec prec emax).
(** The number [x] is the integer [m]. *)
Definition is_int (x : fl) (m : Z) : Prop := is_finite x = true /\ B2R x = IZR m.
Definition is_ivec (v : ivec) (a b c : Z) : Prop := is_int (ix v) a /\ is_int (iy v) b /\ is_int (iz v) c.
Lemma int_rne m : (Z.abs m <= 2 ^ prec)%Z -> rne prec emax (IZR m) = IZR m /\ Rabs (rne prec emax (IZR m)) < bpow radix2 emax.
Proof.
  intros H. assert (E : rne prec emax (IZR m) = IZR m).
  { unfold Ieee_Spec.rne. apply rnd_id. replace (IZR m) with (IZR m * bpow radix2 0) by (cbn; ring). apply (fmt_grid (least prec emax) prec m 0); auto.
    apply least_neg. }
  split; auto. rewrite E, <- abs_IZR. pose proof (prec_gt_0 prec) as P0. pose proof prec_lt_emax_ as P. unfold Prec_lt_emax in P.
  apply Rle_lt_trans with (bpow radix2 prec); [|apply bpow_lt; lia]. rewrite <- IZR_Zpower by lia. apply IZR_le. exact H.
Qed.
Lemma int_add (a b : fl) m k : is_int a m -> is_int b k -> (Z.abs (m + k) <= 2 ^ prec)%Z -> is_int (iadd a b) (m + k).
Proof.
  intros (Fa & Ea) (Fb & Eb) H. destruct (cr_add a b Fa Fb) as (C & _). rewrite Ea, Eb, <- plus_IZR in C. destruct (int_rne _ H) as (E & L). destruct (C L) as (F & V).
  split; auto. congruence.
Qed.
Lemma int_sub (a b : fl) m k : is_int a m -> is_int b k -> (Z.abs (m - k) <= 2 ^ prec)%Z -> is_int (isub a b) (m - k).
Proof.
  intros (Fa & Ea) (Fb & Eb) H. destruct (cr_sub a b Fa Fb) as (C & _). rewrite Ea, Eb, <- minus_IZR in C. destruct (int_rne _ H) as (E & L). destruct (C L) as (F & V).
  split; auto. congruence.
Qed.
Lemma int_mul (a b : fl) m k : is_int a m -> is_int b k -> (Z.abs (m * k) <= 2 ^ prec)%Z -> is_int (imul a b) (m * k).
Proof.
  intros (Fa & Ea) (Fb & Eb) H. destruct (cr_mul a b Fa Fb) as (C & _). rewrite Ea, Eb, <- mult_IZR in C. destruct (int_rne _ H) as (E & L). destruct (C L) as (F & V).
  split; auto. congruence.
Qed.
(** Vectors of integers of at most B with 3 B^2 <= 2^prec (in double: up to 54 794 158): the scalar product, the squared length and the vector
    product are exact, and so are sums, differences and products by component. *)
Theorem C92_integers_exact (u v : ivec) a b c d e f B : is_ivec u a b c -> is_ivec v d e f -> (3 * (B * B) <= 2 ^ prec)%Z ->
  (Z.abs a <= B)%Z -> (Z.abs b <= B)%Z -> (Z.abs c <= B)%Z -> (Z.abs d <= B)%Z -> (Z.abs e <= B)%Z -> (Z.abs f <= B)%Z ->
  is_int (idot u v) (a * d + b * e + c * f) /\ is_int (inorm2 u) (a * a + b * b + c * c) /\
  is_ivec (icross u v) (b * f - c * e) (c * d - a * f) (a * e - b * d) /\
  is_ivec (iv_add u v) (a + d) (b + e) (c + f) /\ is_ivec (iv_sub u v) (a - d) (b - e) (c - f) /\ is_ivec (iv_mul u v) (a * d) (b * e) (c * f).
Proof.
  intros (Ua & Ub & Uc) (Vd & Ve & Vf) HB Ha Hb Hc Hd He Hf.
  assert (P : forall x y, (Z.abs x <= B -> Z.abs y <= B -> Z.abs (x * y) <= B * B)%Z) by (intros x y Hx Hy; rewrite Z.abs_mul; apply Z.mul_le_mono_nonneg; lia).
  assert (Q : (B <= B * B)%Z).
  { assert (0 <= B)%Z by lia. destruct (Z.eq_dec B 0) as [->|]; [cbn; lia|]. rewrite <- (Z.mul_1_l B) at 1. apply Z.mul_le_mono_nonneg_r; lia. }
  assert (T : forall x y : fl, forall m k, is_int x m -> is_int y k -> (Z.abs m <= B)%Z -> (Z.abs k <= B)%Z -> is_int (imul x y) (m * k) /\ (Z.abs (m * k) <= B * B)%Z).
  { intros x y m k X Y Hm Hk. pose proof (P m k Hm Hk). split; auto. apply int_mul; auto. lia. }
  assert (S3 : forall x y z : fl, forall m k l, is_int x m -> is_int y k -> is_int z l -> (Z.abs m <= B * B)%Z -> (Z.abs k <= B * B)%Z -> (Z.abs l <= B * B)%Z -> is_int (iadd (iadd x y) z) (m + k + l)).
  { intros x y z m k l X Y Z0 Hm Hk Hl. apply int_add; [apply int_add; auto; lia|auto|lia]. }
  assert (D2 : forall x y : fl, forall m k, is_int x m -> is_int y k -> (Z.abs m <= B * B)%Z -> (Z.abs k <= B * B)%Z -> is_int (isub x y) (m - k)) by (intros; apply int_sub; auto; lia).
  assert (A1 : forall x y : fl, forall m k, is_int x m -> is_int y k -> (Z.abs m <= B)%Z -> (Z.abs k <= B)%Z -> is_int (iadd x y) (m + k)) by (intros; apply int_add; auto; lia).
  assert (D1 : forall x y : fl, forall m k, is_int x m -> is_int y k -> (Z.abs m <= B)%Z -> (Z.abs k <= B)%Z -> is_int (isub x y) (m - k)) by (intros; apply int_sub; auto; lia).
  destruct (T _ _ _ _ Ua Vd Ha Hd) as (X1 & X1'). destruct (T _ _ _ _ Ub Ve Hb He) as (X2 & X2'). destruct (T _ _ _ _ Uc Vf Hc Hf) as (X3 & X3').
  destruct (T _ _ _ _ Ua Ua Ha Ha) as (Y1 & Y1'). destruct (T _ _ _ _ Ub Ub Hb Hb) as (Y2 & Y2'). destruct (T _ _ _ _ Uc Uc Hc Hc) as (Y3 & Y3').
  destruct (T _ _ _ _ Ub Vf Hb Hf) as (Z1 & Z1'). destruct (T _ _ _ _ Uc Ve Hc He) as (Z2 & Z2'). destruct (T _ _ _ _ Uc Vd Hc Hd) as (Z3 & Z3').
  destruct (T _ _ _ _ Ua Vf Ha Hf) as (Z4 & Z4'). destruct (T _ _ _ _ Ua Ve Ha He) as (Z5 & Z5'). destruct (T _ _ _ _ Ub Vd Hb Hd) as (Z6 & Z6').
  split; [unfold idot; exact (S3 _ _ _ _ _ _ X1 X2 X3 X1' X2' X3')|]. split; [unfold inorm2; exact (S3 _ _ _ _ _ _ Y1 Y2 Y3 Y1' Y2' Y3')|].
  split; [unfold icross, is_ivec; cbn [ix iy iz]; exact (conj (D2 _ _ _ _ Z1 Z2 Z1' Z2') (conj (D2 _ _ _ _ Z3 Z4 Z3' Z4') (D2 _ _ _ _ Z5 Z6 Z5' Z6')))|].
  split; [unfold iv_add, iv2, is_ivec; cbn [ix iy iz]; exact (conj (A1 _ _ _ _ Ua Vd Ha Hd) (conj (A1 _ _ _ _ Ub Ve Hb He) (A1 _ _ _ _ Uc Vf Hc Hf)))|].
  split; [unfold iv_sub, iv2, is_ivec; cbn [ix iy iz]; exact (conj (D1 _ _ _ _ Ua Vd Ha Hd) (conj (D1 _ _ _ _ Ub Ve Hb He) (D1 _ _ _ _ Uc Vf Hc Hf)))|]. unfold iv_mul, iv2, is_ivec; cbn [ix iy iz]. split; [exact X1|split; [exact X2|exact X3]].
Qed.
(** Vec3() is the vector of positive zeros, neutral for addition and subtraction up to the sign of a zero; Vec3(s) has s in every component; the
    negation changes the sign of every number, zeros and infinities included. *)
Theorem C92_constructed c (v : ivec) (s : fl) :
  at_ c (iv_default : ivec) = B754_zero false /\ at_ c (iv_fill s) = s /\ same (at_ c (iv_add v iv_default)) (at_ c v) /\ same (at_ c (iv_sub v iv_default)) (at_ c v) /\
  at_ c (iv_add v (iv_fill s)) = at_ c (iv_adds v s) /\ at_ c (iv_mul v (iv_fill s)) = at_ c (iv_muls v s) /\
  (is_nan (at_ c v) = false -> Bsign (at_ c (iv_neg v)) = negb (Bsign (at_ c v)) /\ B2R (at_ c (iv_neg v)) = - B2R (at_ c v) /\ is_finite (at_ c (iv_neg v)) = is_finite (at_ c v)).
Proof.
  assert (Z : forall a : fl, same (iadd a izero) a /\ same (isub a izero) a).
  { intros a. unfold same, izero. destruct a as [z|z| |z m e H].
    - split; right; destruct z; repeat eexists.
    - split; left; reflexivity.
    - split; left; reflexivity.
    - set (x := B754_finite z m e H : fl). assert (F : is_finite x = true) by reflexivity. assert (F0 : is_finite (B754_zero false : fl) = true) by reflexivity.
      assert (G : rne prec emax (B2R x) = B2R x). { unfold Ieee_Spec.rne. apply rnd_id. unfold Kahan_Model.fmt. rewrite <- fexp_FLT. apply generic_format_B2R. }
      assert (L : Rabs (rne prec emax (B2R x)) < bpow radix2 emax). { rewrite G. apply abs_B2R_lt_emax. }
      assert (NZ : B2R x <> 0). { unfold x. cbn [B2R]. intros Q. apply eq_0_F2R in Q. cbn in Q. destruct z; discriminate. }
      split; left.
      + destruct (cr_add x (B754_zero false) F F0) as (C & _). cbn [B2R] in C. rewrite Rplus_0_r in C. destruct (C L) as (F1 & V). rewrite G in V.
        apply B2R_inj; [destruct (iadd x (B754_zero false)); try discriminate F1; auto; cbn in V; congruence|reflexivity|exact V].
      + destruct (cr_sub x (B754_zero false) F F0) as (C & _). cbn [B2R] in C. rewrite Rminus_0_r in C. destruct (C L) as (F1 & V). rewrite G in V.
        apply B2R_inj; [destruct (isub x (B754_zero false)); try discriminate F1; auto; cbn in V; congruence|reflexivity|exact V]. }
  split; [destruct c; reflexivity|]. split; [destruct c; reflexivity|]. split; [destruct c; cbn [at_ iv_add iv2 ix iy iz iv_default]; apply Z|].
  split; [destruct c; cbn [at_ iv_sub iv2 ix iy iz iv_default]; apply Z|]. split; [destruct c; reflexivity|]. split; [destruct c; reflexivity|].
  intros N. assert (E : at_ c (iv_neg v) = Bopp (at_ c v)) by (destruct c; reflexivity). rewrite E. split; [apply Bsign_Bopp; auto|]. split; [apply B2R_Bopp|apply is_finite_Bopp].
Qed.
End C92.
#[local] Instance p53' : Prec_gt_0 53 := eq_refl.
#[local] Instance e1024' : Prec_lt_emax 53 1024 := eq_refl.
(** (1, -3, 2) in double. *)
Definition w132 : ivec 53 1024 := mkI (@B754_finite 53 1024 false 4503599627370496 (-52) eq_refl) (@B754_finite 53 1024 true 6755399441055744 (-51) eq_refl) (@B754_finite 53 1024 false 4503599627370496 (-51) eq_refl).
Example C92_integers_case : is_ivec w132 1 (-3) 2 /\ is_int (idot w132 w132) 14 /\ is_int (inorm2 w132) 14.
Proof.
  assert (W : is_ivec w132 1 (-3) 2).
  { unfold is_ivec, is_int, w132. cbn [ix iy iz is_finite B2R SpecFloat.cond_Zopp]. unfold F2R. cbn [Fnum Fexp]. repeat split; try reflexivity.
    - replace 4503599627370496%Z with (1 * Zpower radix2 52)%Z by reflexivity. rewrite mult_IZR, IZR_Zpower by lia. rewrite Rmult_assoc, <- bpow_plus. cbn. ring.
    - change (- (6755399441055744))%Z with (-3 * Zpower radix2 51)%Z. rewrite mult_IZR, IZR_Zpower by lia. rewrite Rmult_assoc, <- bpow_plus. cbn. ring.
    - replace 4503599627370496%Z with (2 * Zpower radix2 51)%Z by reflexivity. rewrite mult_IZR, IZR_Zpower by lia. rewrite Rmult_assoc, <- bpow_plus. cbn. ring. }
  split; auto. destruct (C92_integers_exact w132 w132 1 (-3) 2 1 (-3) 2 1000 W W) as (A & B & _); try lia. auto.
Qed.
Print Assumptions C92_integers_exact. Print Assumptions C92_constructed.
