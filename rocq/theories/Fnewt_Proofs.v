From Verif Require Import Fnewt_Model Fnewt_Spec Kahan_Proofs Fsim_Proofs Fchain_Proofs.
From Flocq Require Import Relative Ulp.
From Coq Require Import Lra Lia.
Open Scope R_scope.

(** * Relative closeness *)
Section Near.
Variable W : R.
Hypothesis W1 : 1 <= W.
Definition near (k : nat) (x X : R) : Prop := exists q, x = X * q /\ / W ^ k <= q <= W ^ k.
Lemma Wk k : 1 <= W ^ k. Proof. apply pow_R1_Rle; auto. Qed.
Lemma Wk_pos k : 0 < W ^ k. Proof. pose proof (Wk k). lra. Qed.
Lemma iWk_pos k : 0 < / W ^ k. Proof. apply Rinv_0_lt_compat, Wk_pos. Qed.
Lemma W_mono k l : (k <= l)%nat -> W ^ k <= W ^ l. Proof. intros. apply Rle_pow; auto. Qed.
Lemma near_refl x : near 0 x x. Proof. exists 1. cbn [pow]. split; [ring|]. rewrite Rinv_1. lra. Qed.
Lemma near_le k l x X : (k <= l)%nat -> near k x X -> near l x X.
Proof.
  intros H (q & -> & Q). exists q. split; auto. pose proof (W_mono k l H). assert (/ W ^ l <= / W ^ k) by (apply Rinv_le_contravar; auto; apply Wk_pos). lra.
Qed.
Lemma near_mul k l x X y Y : near k x X -> near l y Y -> near (k + l) (x * y) (X * Y).
Proof.
  intros (p & -> & P) (q & -> & Q). exists (p * q). split; [ring|]. pose proof (iWk_pos k). pose proof (iWk_pos l). pose proof (Wk_pos k). pose proof (Wk_pos l).
  rewrite pow_add. rewrite Rinv_mult. split; apply Rmult_le_compat; lra.
Qed.
Lemma near_inv k x X : near k x X -> near k (/ x) (/ X).
Proof.
  intros (p & -> & P). pose proof (iWk_pos k). pose proof (Wk_pos k). exists (/ p). split; [apply Rinv_mult|]. split.
  - apply Rinv_le_contravar; lra.
  - rewrite <- (Rinv_inv (W ^ k)). apply Rinv_le_contravar; lra.
Qed.
Lemma near_sqrt k x X : 0 <= X -> near (2 * k) x X -> near k (sqrt x) (sqrt X).
Proof.
  intros HX (p & -> & P). pose proof (iWk_pos k). pose proof (Wk_pos k). pose proof (iWk_pos (2 * k)). exists (sqrt p). split; [apply sqrt_mult; lra|].
  assert (E : W ^ (2 * k) = W ^ k * W ^ k) by (rewrite <- pow_add; f_equal; lia). rewrite E in P. split.
  - rewrite <- (sqrt_square (/ W ^ k)) by lra. apply sqrt_le_1_alt. rewrite Rinv_mult in P. lra.
  - rewrite <- (sqrt_square (W ^ k)) by lra. apply sqrt_le_1_alt. lra.
Qed.
Lemma near_add k x X y Y : 0 <= X -> 0 <= Y -> near k x X -> near k y Y -> near k (x + y) (X + Y).
Proof.
  intros HX HY (p & -> & P) (q & -> & Q). destruct (Req_dec (X + Y) 0) as [Z|NZ].
  - assert (X = 0) by lra. assert (Y = 0) by lra. subst. exists 1. split; [ring|]. pose proof (Wk k). split; [|lra]. rewrite <- Rinv_1. apply Rinv_le_contravar; lra.
  - assert (0 < X + Y) by lra. exists ((X * p + Y * q) / (X + Y)). split; [field; auto|]. split.
    + apply Rmult_le_reg_r with (X + Y); auto. replace ((X * p + Y * q) / (X + Y) * (X + Y)) with (X * p + Y * q) by (field; auto).
      assert (X * / W ^ k <= X * p) by (apply Rmult_le_compat_l; lra). assert (Y * / W ^ k <= Y * q) by (apply Rmult_le_compat_l; lra). lra.
    + apply Rmult_le_reg_r with (X + Y); auto. replace ((X * p + Y * q) / (X + Y) * (X + Y)) with (X * p + Y * q) by (field; auto).
      assert (X * p <= X * W ^ k) by (apply Rmult_le_compat_l; lra). assert (Y * q <= Y * W ^ k) by (apply Rmult_le_compat_l; lra). lra.
Qed.
Lemma near_trans k l x y z : near k x y -> near l y z -> near (k + l) x z.
Proof. intros (p & -> & P) H. replace (y * p) with (p * y) by ring. replace z with (1 * z) by ring. apply near_mul; auto. exists p. split; [ring|auto]. Qed.
Lemma near_nonzero k x X : near k x X -> X <> 0 -> x <> 0.
Proof. intros (p & -> & P) H. pose proof (iWk_pos k). apply Rmult_integral_contrapositive; split; auto. lra. Qed.
Lemma near_zero k x : near k x 0 -> x = 0. Proof. intros (p & -> & _). ring. Qed.
Lemma near_nonneg k x X : near k x X -> 0 <= X -> 0 <= x.
Proof. intros (p & -> & P) H. pose proof (iWk_pos k). apply Rmult_le_pos; lra. Qed.
Lemma near_err k x X : near k x X -> Rabs (x - X) <= (W ^ k - 1) * Rabs X.
Proof.
  intros (p & -> & P). replace (X * p - X) with ((p - 1) * X) by ring. rewrite Rabs_mult. apply Rmult_le_compat_r; [apply Rabs_pos|].
  pose proof (Wk k). assert (2 <= W ^ k + / W ^ k).
  { set (v := W ^ k) in *. assert (0 <= (v - 1) * (v - 1) * / v) by (apply Rmult_le_pos; [nra|left; apply Rinv_0_lt_compat; lra]). replace ((v - 1) * (v - 1) * / v) with (v + / v - 2) in H0 by (field; lra). lra. }
  apply Rabs_le. lra.
Qed.
End Near.

(** * Ranges *)
Definition zr (lo hi : Z) (v : R) : Prop := v = 0 \/ bpow radix2 lo <= Rabs v <= bpow radix2 hi.
Lemma zr_mul a b c d x y : zr a b x -> zr c d y -> zr (a + c) (b + d) (x * y).
Proof.
  intros [->|X] [->|Y]; try (left; ring). right. rewrite Rabs_mult, !bpow_plus. pose proof (bpow_gt_0 radix2 a). pose proof (bpow_gt_0 radix2 c). split; apply Rmult_le_compat; try lra; apply Rabs_pos.
Qed.
Lemma zr_le a b c d x : (c <= a)%Z -> (b <= d)%Z -> zr a b x -> zr c d x.
Proof. intros H1 H2 [->|X]; [left; auto|right]. pose proof (bpow_le radix2 c a H1). pose proof (bpow_le radix2 b d H2). lra. Qed.
Lemma zr_add lo hi x y : 0 <= x -> 0 <= y -> zr lo hi x -> zr lo hi y -> zr lo (hi + 1) (x + y).
Proof.
  intros Hx Hy X Y. assert (B : bpow radix2 (hi + 1) = 2 * bpow radix2 hi) by (rewrite bpow_plus; change (bpow radix2 1) with 2; ring). pose proof (bpow_gt_0 radix2 hi). pose proof (bpow_gt_0 radix2 lo).
  unfold zr in *. rewrite !Rabs_pos_eq in * by lra. destruct X as [->|X], Y as [->|Y]; [left; ring|right; lra..].
Qed.
Lemma zr_inv a b x : x <> 0 -> zr a b x -> zr (- b) (- a) (/ x).
Proof.
  intros H [->|X]; [congruence|right]. rewrite Rabs_inv, !bpow_opp. pose proof (bpow_gt_0 radix2 a). split; apply Rinv_le_contravar; lra.
Qed.
Lemma zr_sqrt a b x : 0 <= x -> zr (2 * a) (2 * b) x -> zr a b (sqrt x).
Proof.
  intros H [->|X]; [left; apply sqrt_0|right]. rewrite Rabs_pos_eq in * by (auto using sqrt_pos).
  assert (Q : forall k, sqrt (bpow radix2 (2 * k)) = bpow radix2 k) by (intros k; replace (2 * k)%Z with (k + k)%Z by ring; rewrite bpow_plus; apply sqrt_square, bpow_ge_0).
  rewrite <- (Q a), <- (Q b). split; apply sqrt_le_1_alt; lra.
Qed.

Section P.
Variables (emin prec : Z) (choice : Z -> bool).
Context { prec_gt_0_ : Prec_gt_0 prec }.
Notation fmt := (fmt emin prec).
Notation rnd := (rnd emin prec choice).
Notation fadd := (fadd emin prec choice).
Notation fsub := (fsub emin prec choice).
Notation fmul := (fmul emin prec choice).
Notation u := (u prec).
Notation W := (w prec).

Lemma u_lt1 : 0 < u <= / 2. Proof. split; [apply u_pos|apply u_half; auto]. Qed.
Lemma w_u : W = / (1 - u). Proof. unfold w. rewrite <- u_uro. reflexivity. Qed.
Lemma w_ge : 1 + u <= W.
Proof.
  rewrite w_u. pose proof u_lt1. apply Rmult_le_reg_r with (1 - u); [lra|]. rewrite Rinv_l by lra.
  assert (0 <= u * u) by (apply Rmult_le_pos; lra). lra.
Qed.
Lemma w1 : 1 <= W. Proof. pose proof w_ge. pose proof u_lt1. lra. Qed.
Notation near := (near W).

Lemma near_rnd x : x = 0 \/ bpow radix2 (emin + prec - 1) <= Rabs x -> near 1 (rnd x) x.
Proof.
  intros [->|H].
  - exists 1. cbn [pow]. rewrite Fsim_Proofs.rnd_0 by auto. pose proof w1. split; [ring|]. rewrite Rmult_1_r. split; [|lra]. rewrite <- Rinv_1. apply Rinv_le_contravar; lra.
  - pose proof (Fsim_Proofs.rnd_rel emin prec choice x H) as E. assert (x <> 0) by (intros ->; rewrite Rabs_R0 in H; pose proof (bpow_gt_0 radix2 (emin + prec - 1)); lra).
    exists (rnd x / x). split; [field; auto|]. cbn [pow]. rewrite Rmult_1_r. pose proof w_ge. pose proof u_lt1.
    assert (B : Rabs (rnd x / x - 1) <= u).
    { replace (rnd x / x - 1) with ((rnd x - x) / x) by (field; auto). unfold Rdiv. rewrite Rabs_mult, Rabs_inv. assert (0 < Rabs x) by (apply Rabs_pos_lt; auto).
      apply Rmult_le_reg_r with (Rabs x); auto. rewrite Rmult_assoc, Rinv_l by lra. lra. }
    assert (W' : / W = 1 - u) by (rewrite w_u; apply Rinv_inv). rewrite W'. unfold Rabs in B. destruct (Rcase_abs _); lra.
Qed.
Lemma zr_rnd lo hi x : (emin <= lo)%Z -> (lo <= hi)%Z -> zr lo hi x -> zr lo hi (rnd x).
Proof.
  intros He Hl [->|X]; [left; apply Fsim_Proofs.rnd_0; auto|right].
  assert (F : forall k, (emin <= k)%Z -> fmt (bpow radix2 k)) by (intros k Hk; unfold Kahan_Model.fmt; apply generic_format_bpow; unfold FLT_exp; red in prec_gt_0_; lia).
  split; [|apply rnd_abs_le; auto; try lra; apply F; lia].
  destruct (Rle_dec 0 x) as [P|P].
  - rewrite (Rabs_pos_eq x) in X by auto. rewrite Rabs_pos_eq by (apply rnd_nonneg; auto). rewrite <- (rnd_id emin prec choice (bpow radix2 lo)) by auto. apply rnd_le; auto; lra.
  - assert (x < 0) by lra. rewrite (Rabs_left x) in X by auto.
    assert (B : rnd x <= - bpow radix2 lo). { rewrite <- (rnd_id emin prec choice (- bpow radix2 lo)) by (apply fmt_opp; auto). apply rnd_le; auto; lra. }
    pose proof (bpow_gt_0 radix2 lo). rewrite Rabs_left by lra. lra.
Qed.
Lemma zr_ok lo hi x : (emin + prec - 1 <= lo)%Z -> zr lo hi x -> x = 0 \/ bpow radix2 (emin + prec - 1) <= Rabs x.
Proof. intros H [->|X]; [left; auto|right]. pose proof (bpow_le radix2 _ _ H). lra. Qed.

Variable E : Z.
Hypothesis E0 : (0 <= E)%Z.
Hypothesis HE : (emin + prec - 1 <= - (5 * E + 3))%Z.
Lemma emin_le : (emin <= - (5 * E + 3))%Z. Proof. red in prec_gt_0_. lia. Qed.

(** Round a quantity in a range. *)
Lemma step k lo hi x X : (- (5 * E + 3) <= lo)%Z -> (lo <= hi)%Z -> zr lo hi x -> near k x X -> zr lo hi (rnd x) /\ near (k + 1) (rnd x) X.
Proof.
  intros H1 H2 Z N. pose proof emin_le. split; [apply zr_rnd; auto; lia|]. replace (k + 1)%nat with (1 + k)%nat by lia. apply near_trans with x; auto using w1.
  apply near_rnd. eapply zr_ok; [|exact Z]. lia.
Qed.

(** The force factor of a displacement whose components are known up to [a] roundings. *)
Lemma norm_near a d D : (forall x, near a (co x d) (co x D)) -> (forall x, zr (- E) E (co x d)) -> D <> vzero ->
  let s := fadd (fadd (fmul (vx d) (vx d)) (fmul (vy d) (vy d))) (fmul (vz d) (vz d)) in
  (zr (- 2 * E) (2 * E + 2) s /\ 0 <= s) /\ (zr (- E) (E + 1) (fnorm emin prec choice d) /\ 0 < fnorm emin prec choice d) /\ near (a + 3) (fnorm emin prec choice d) (norm D).
Proof.
  intros N Z HD s. pose proof w1 as W1.
  assert (Sq : forall x, (zr (- 2 * E) (2 * E) (fmul (co x d) (co x d)) /\ near (2 * a + 1) (fmul (co x d) (co x d)) (co x D * co x D)) /\ 0 <= fmul (co x d) (co x d)).
  { intros x. assert (ZZ : zr (- 2 * E) (2 * E) (co x d * co x d)). { pose proof (zr_mul _ _ _ _ _ _ (Z x) (Z x)) as K. eapply zr_le; [| |exact K]; lia. }
    split; [|apply rnd_nonneg; auto; apply Rle_0_sqr]. apply step; auto; try lia. replace (2 * a)%nat with (a + a)%nat by lia. apply near_mul; auto. }
  destruct (Sq X) as ((ZX & NX) & PX). destruct (Sq Y) as ((ZY & NY) & PY). destruct (Sq Z3) as ((ZZ & NZ) & PZ). cbn [co] in *.
  set (x2 := fmul (vx d) (vx d)) in *. set (y2 := fmul (vy d) (vy d)) in *. set (z2 := fmul (vz d) (vz d)) in *.
  assert (Dx : 0 <= vx D * vx D) by apply Rle_0_sqr. assert (Dy : 0 <= vy D * vy D) by apply Rle_0_sqr. assert (Dz : 0 <= vz D * vz D) by apply Rle_0_sqr.
  destruct (step (2 * a + 1) (- 2 * E) (2 * E + 1) (x2 + y2) (vx D * vx D + vy D * vy D)) as (Z1 & N1); try lia.
  { apply zr_add; auto. } { apply near_add; auto. }
  assert (P1 : 0 <= rnd (x2 + y2)) by (apply rnd_nonneg; auto; lra).
  destruct (step (2 * a + 2) (- 2 * E) (2 * E + 1 + 1) (fadd x2 y2 + z2) (vx D * vx D + vy D * vy D + vz D * vz D)) as (Z2 & N2); try lia.
  { apply zr_add; auto. eapply zr_le; [| |exact ZZ]; lia. }
  { apply near_add; [exact W1|lra|exact Dz|replace (2 * a + 2)%nat with (2 * a + 1 + 1)%nat by lia; exact N1|eapply near_le; [exact W1| |exact NZ]; lia]. }
  replace (2 * E + 1 + 1)%Z with (2 * E + 2)%Z in Z2 by ring.
  assert (Ps : 0 <= s) by (unfold s, Kahan_Model.fadd; apply rnd_nonneg; auto; unfold Kahan_Model.fadd in *; lra).
  assert (N2p : 0 < norm2 D) by (apply norm2_pos; auto). unfold norm2, dot in N2p.
  split; [split; auto|].
  destruct (step (a + 2) (- E) (E + 1) (sqrt s) (sqrt (vx D * vx D + vy D * vy D + vz D * vz D))) as (Z3' & N3); try lia.
  { apply zr_sqrt; auto. replace (2 * - E)%Z with (- 2 * E)%Z by ring. replace (2 * (E + 1))%Z with (2 * E + 2)%Z by ring. exact Z2. }
  { apply near_sqrt; auto; [lra|]. eapply near_le; [exact W1| |exact N2]. lia. }
  assert (Nf : near (a + 3) (fnorm emin prec choice d) (norm D)) by (eapply near_le; [exact W1| |exact N3]; lia).
  split; auto. split; [exact Z3'|]. assert (0 <= fnorm emin prec choice d) by (apply rnd_nonneg; auto; apply sqrt_pos).
  pose proof (near_nonzero W W1 _ _ _ Nf ltac:(pose proof (norm_pos D HD); lra)). lra.
Qed.

Lemma rr3_near a d D : (forall x, near a (co x d) (co x D)) -> (forall x, zr (- E) E (co x d)) -> D <> vzero ->
  (zr (- 3 * E) (3 * E + 3) (fcube emin prec choice (fnorm emin prec choice d))) /\
  zr (- (3 * E + 3)) (3 * E) (frr3 emin prec choice (fnorm emin prec choice d)) /\
  near (3 * a + 12) (frr3 emin prec choice (fnorm emin prec choice d)) (1 / (norm D * norm D * norm D)).
Proof.
  intros N Z HD. pose proof w1 as W1. destruct (norm_near a d D N Z HD) as (_ & (Zr & Pr) & Nr). set (r := fnorm emin prec choice d) in *.
  destruct (step (2 * a + 6) (- 2 * E) (2 * E + 2) (r * r) (norm D * norm D)) as (Z1 & N1); try lia.
  { eapply zr_le; [| |exact (zr_mul _ _ _ _ _ _ Zr Zr)]; lia. } { replace (2 * a + 6)%nat with ((a + 3) + (a + 3))%nat by lia. apply near_mul; auto. }
  destruct (step (3 * a + 10) (- 3 * E) (3 * E + 3) (fmul r r * r) (norm D * norm D * norm D)) as (Z2 & N2); try lia.
  { eapply zr_le; [| |exact (zr_mul _ _ _ _ _ _ Z1 Zr)]; lia. } { replace (3 * a + 10)%nat with ((2 * a + 6 + 1) + (a + 3))%nat by lia. apply near_mul; auto. }
  split; [exact Z2|]. pose proof (norm_pos D HD) as ND. assert (ND3 : 0 < norm D * norm D * norm D) by (repeat apply Rmult_lt_0_compat; auto).
  assert (NZ : fcube emin prec choice r <> 0) by (apply (near_nonzero W W1 _ _ _ N2); lra).
  destruct (step (3 * a + 11) (- (3 * E + 3)) (3 * E) (1 / fcube emin prec choice r) (1 / (norm D * norm D * norm D))) as (Z3' & N3); try lia.
  { unfold Rdiv. rewrite Rmult_1_l. apply (zr_le (- (3 * E + 3)) (- (- 3 * E))); [lia|lia|]. apply zr_inv; [exact NZ|exact Z2]. }
  { unfold Rdiv. rewrite !Rmult_1_l. apply near_inv; auto. eapply near_le; [exact W1| |exact N2]. lia. }
  split; [exact Z3'|]. eapply near_le; [exact W1| |exact N3]. lia.
Qed.

Lemma term_near a d D m x : (forall x, near a (co x d) (co x D)) -> (forall x, zr (- E) E (co x d)) -> D <> vzero -> zr (- E) E m ->
  let t := fterm emin prec choice (co x d) (frr3 emin prec choice (fnorm emin prec choice d)) m in
  zr (- (5 * E + 3)) (5 * E) t /\ near (4 * a + 14) t (co x D * m / (norm D * norm D * norm D)).
Proof.
  intros N Z HD Zm t. pose proof w1 as W1. destruct (rr3_near a d D N Z HD) as (_ & Zr & Nr). set (q := frr3 emin prec choice (fnorm emin prec choice d)) in *.
  destruct (step (4 * a + 12) (- (4 * E + 3)) (4 * E) (co x d * q) (co x D * (1 / (norm D * norm D * norm D)))) as (Z1 & N1); try lia.
  { eapply zr_le; [| |exact (zr_mul _ _ _ _ _ _ (Z x) Zr)]; lia. } { replace (4 * a + 12)%nat with (a + (3 * a + 12))%nat by lia. apply near_mul; auto. }
  destruct (step (4 * a + 13) (- (5 * E + 3)) (5 * E) (fmul (co x d) q * m) (co x D * (1 / (norm D * norm D * norm D)) * m)) as (Z2 & N2); try lia.
  { eapply zr_le; [| |exact (zr_mul _ _ _ _ _ _ Z1 Zm)]; lia. } { replace (4 * a + 13)%nat with (4 * a + 12 + 1 + 0)%nat by lia. apply near_mul; auto. apply near_refl. }
  split; [exact Z2|]. replace (co x D * m / (norm D * norm D * norm D)) with (co x D * (1 / (norm D * norm D * norm D)) * m) by (unfold Rdiv; ring).
  eapply near_le; [exact W1| |exact N2]. lia.
Qed.

(** * Accumulation *)
Lemma acc_step n a A c C S : fmt a -> fmt c -> Rabs (a - A) <= (W ^ n - 1) * S -> Rabs A <= S -> Rabs (c - C) <= (W ^ n - 1) * Rabs C ->
  Rabs (rnd (a + c) - (A + C)) <= (W ^ (n + 1) - 1) * (S + Rabs C).
Proof.
  intros Fa Fc HA HS HC. pose proof (rnd_add_err emin prec choice a c Fa Fc) as H. pose proof u_lt1. pose proof w_ge. pose proof (Wk W w1 n) as K.
  set (p := W ^ n) in *. rewrite pow_add. fold p. cbn [pow]. rewrite Rmult_1_r. set (T := S + Rabs C). assert (0 <= T) by (unfold T; pose proof (Rabs_pos A); pose proof (Rabs_pos C); lra).
  assert (B : Rabs (a + c - (A + C)) <= (p - 1) * T).
  { replace (a + c - (A + C)) with ((a - A) + (c - C)) by ring. eapply Rle_trans; [apply Rabs_triang|]. unfold T. lra. }
  assert (B2 : Rabs (a + c) <= p * T).
  { apply Fchain_Proofs.rabs_tri in B. assert (Rabs (A + C) <= T) by (eapply Rle_trans; [apply Rabs_triang|unfold T; lra]). lra. }
  replace (rnd (a + c) - (A + C)) with ((rnd (a + c) - (a + c)) + (a + c - (A + C))) by ring. eapply Rle_trans; [apply Rabs_triang|].
  assert (u * Rabs (a + c) <= u * (p * T)) by (apply Rmult_le_compat_l; lra).
  assert ((1 + u) * (p * T) <= W * (p * T)) by (apply Rmult_le_compat_r; [apply Rmult_le_pos; lra|auto]). lra.
Qed.
Lemma err_mono n k S x : (n <= k)%nat -> 0 <= S -> x <= (W ^ n - 1) * S -> x <= (W ^ k - 1) * S.
Proof. intros H HS Hx. eapply Rle_trans; [exact Hx|]. apply Rmult_le_compat_r; auto. pose proof (W_mono W w1 n k H). lra. Qed.

(** One call, seen by particle [k]. *)
Definition fc_i (c : fcall) : nat := snd (fst c).
Definition fc_j (c : fcall) : nat := snd c.
Definition fc_dr (c : fcall) : vec := fst (fst c).
Lemma fforce_at m acc c k x : fc_i c <> fc_j c ->
  let t := fun m => fterm emin prec choice (co x (fc_dr c)) (frr3 emin prec choice (fnorm emin prec choice (fc_dr c))) m in
  co x (fforce emin prec choice m acc c k) = if (k =? fc_j c)%nat then fsub (co x (acc k)) (t (m (fc_i c))) else if (k =? fc_i c)%nat then fadd (co x (acc k)) (t (m (fc_j c))) else co x (acc k).
Proof.
  destruct c as [[dr i] j]. unfold fc_i, fc_j, fc_dr. cbn [fst snd]. intros Hne. unfold fforce, upd. destruct (Nat.eqb_spec k j) as [->|].
  - destruct (Nat.eqb_spec j i); [congruence|]. destruct x; reflexivity.
  - destruct (Nat.eqb_spec k i) as [->|]; [destruct x; reflexivity|reflexivity].
Qed.

(** [C] is the call with the true displacement of [c]. *)
Definition call_near (a : nat) (c C : fcall) : Prop :=
  fc_i c = fc_i C /\ fc_j c = fc_j C /\ fc_i C <> fc_j C /\ fc_dr C <> vzero /\ forall x, near a (co x (fc_dr c)) (co x (fc_dr C)) /\ zr (- E) E (co x (fc_dr c)).
Lemma one_part_eq m x k C : fc_i C <> fc_j C -> let D := fc_dr C in let r3 := norm D * norm D * norm D in
  one_part m x k C = if (k =? fc_j C)%nat then - (co x D * m (fc_i C) / r3) else if (k =? fc_i C)%nat then co x D * m (fc_j C) / r3 else 0.
Proof.
  destruct C as [[D i] j]. unfold fc_i, fc_j, fc_dr. cbn [fst snd]. intros Hne. unfold one_part.
  destruct (Nat.eqb_spec k j) as [->|]; [destruct (Nat.eqb_spec j i); [congruence|]|destruct (Nat.eqb_spec k i)]; ring.
Qed.

Lemma call_step m acc c C k x n A S a : call_near a c C -> zr (- E) E (m (fc_i C)) -> zr (- E) E (m (fc_j C)) ->
  fmt (co x (acc k)) -> (4 * a + 14 <= n)%nat -> Rabs (co x (acc k) - A) <= (W ^ n - 1) * S -> Rabs A <= S ->
  let n' := (n + if orb (k =? fc_i C)%nat (k =? fc_j C)%nat then 1 else 0)%nat in
  fmt (co x (fforce emin prec choice m acc c k)) /\
  Rabs (co x (fforce emin prec choice m acc c k) - (A + one_part m x k C)) <= (W ^ n' - 1) * (S + Rabs (one_part m x k C)) /\
  Rabs (A + one_part m x k C) <= S + Rabs (one_part m x k C).
Proof.
  intros (Ei & Ej & Hne & HD & Hx) Zi Zj F Hn HA HS n'. pose proof w1 as W1.
  assert (S0 : 0 <= S) by (pose proof (Rabs_pos A); lra).
  assert (Nc : fc_i c <> fc_j c) by (rewrite Ei, Ej; auto). rewrite (fforce_at m acc c k x Nc). rewrite (one_part_eq m x k C Hne). cbv zeta.
  assert (T : forall q, zr (- E) E (m q) -> let t := fterm emin prec choice (co x (fc_dr c)) (frr3 emin prec choice (fnorm emin prec choice (fc_dr c))) (m q) in
     let g := co x (fc_dr C) * m q / (norm (fc_dr C) * norm (fc_dr C) * norm (fc_dr C)) in fmt t /\ Rabs (t - g) <= (W ^ n - 1) * Rabs g).
  { intros q Zq t g. split; [apply rnd_fmt; auto|]. eapply err_mono; [exact Hn|apply Rabs_pos|]. apply near_err; auto. apply term_near; auto; intros y; apply Hx. }
  rewrite Ei, Ej. subst n'. destruct (Nat.eqb_spec k (fc_j C)) as [Ek|].
  - replace (orb (k =? fc_i C)%nat true) with true by (destruct (k =? fc_i C)%nat; reflexivity). destruct (T (fc_i C) Zi) as (Ft & Et).
    split; [apply rnd_fmt; auto|]. split; [|eapply Rle_trans; [apply Rabs_triang|]; lra]. unfold Kahan_Model.fsub.
    apply (acc_step n _ _ (- _) (- _)); auto; [apply fmt_opp; auto|]. rewrite Rabs_Ropp.
    match goal with |- Rabs (- ?t - - ?g) <= _ => replace (- t - - g) with (- (t - g)) by ring end. rewrite Rabs_Ropp. exact Et.
  - destruct (Nat.eqb_spec k (fc_i C)) as [Ek|].
    + cbn [orb]. destruct (T (fc_j C) Zj) as (Ft & Et). split; [apply rnd_fmt; auto|]. split; [|eapply Rle_trans; [apply Rabs_triang|]; lra]. apply acc_step; auto.
    + cbn [orb]. rewrite Nat.add_0_r, Rabs_R0, !Rplus_0_r. auto.
Qed.

Lemma concerns_cons k c t : concerns k (c :: t) = ((if orb (k =? fc_i c)%nat (k =? fc_j c)%nat then 1 else 0) + concerns k t)%nat.
Proof. destruct c as [[d i] j]. reflexivity. Qed.

Lemma calls_err m a k x : forall calls trues, Forall2 (call_near a) calls trues -> Forall (fun C => zr (- E) E (m (fc_i C)) /\ zr (- E) E (m (fc_j C))) trues ->
  forall acc n A S, fmt (co x (acc k)) -> (4 * a + 14 <= n)%nat -> Rabs (co x (acc k) - A) <= (W ^ n - 1) * S -> Rabs A <= S ->
  fmt (co x (fadd_acc emin prec choice m calls acc k)) /\
  Rabs (co x (fadd_acc emin prec choice m calls acc k) - (A + parts m x k trues)) <= (W ^ (n + concerns k trues) - 1) * (S + abs_parts m x k trues).
Proof.
  intros calls trues H. induction H as [|c C calls trues Hc H IH]; intros HM acc n A S F Hn HA HS.
  - unfold fadd_acc. cbn [fold_left parts abs_parts concerns]. rewrite !Rplus_0_r, Nat.add_0_r. auto.
  - inversion HM as [|? ? (Zi & Zj) HM']; subst. destruct (call_step m acc c C k x n A S a Hc Zi Zj F Hn HA HS) as (F1 & B1 & B2).
    set (n' := (n + (if orb (k =? fc_i C)%nat (k =? fc_j C)%nat then 1 else 0))%nat) in *. assert (Hn' : (4 * a + 14 <= n')%nat) by (unfold n'; lia).
    destruct (IH HM' (fforce emin prec choice m acc c) n' _ _ F1 Hn' B1 B2) as (F2 & B3). unfold n' in B3.
    unfold fadd_acc in *. cbn [fold_left parts abs_parts]. rewrite concerns_cons. split; auto.
    rewrite <- !Rplus_assoc, Nat.add_assoc. exact B3.
Qed.
End P.
