(** C80: root_newton.  C81: stellar radii. *)
From Coq Require Import Reals Lra Lia.
From Verif Require Import Star_Model.
Open Scope R_scope.

(** n-fold iteration from x. *)
Fixpoint iterates (g : R -> R) (n : nat) (x : R) : R := match n with O => x | S k => g (iterates g k x) end.

(** C80.  Whatever the function: the call evaluates it between 1 and 1000 times, along the iteration x -> x - f x from 0,
    returns the last iterate, and stops before the 1000th evaluation only at the first iterate with |f| <= 2^-52. *)
Theorem C80_result : forall f, exists n, (1 <= n <= 1000)%nat /\ root_newton f = iterates (fun x => x - f x) n 0 /\
  (forall k, (k < n - 1)%nat -> / 2 ^ 52 < Rabs (f (iterates (fun x => x - f x) k 0))) /\
  (n = 1000%nat \/ Rabs (f (iterates (fun x => x - f x) (n - 1) 0)) <= / 2 ^ 52).
Proof.
  intros f. set (g := fun x => x - f x).
  assert (G : forall left j x, (1 <= left)%nat -> exists n, (1 <= n <= left)%nat /\ newton_loop f left (iterates g j 0) x = iterates g (j + n) 0 /\
    (forall k, (j <= k < j + n - 1)%nat -> / 2 ^ 52 < Rabs (f (iterates g k 0))) /\ (n = left \/ Rabs (f (iterates g (j + n - 1) 0)) <= / 2 ^ 52)).
  { induction left as [|left IH]; intros j x Hl; [lia|]. cbn [newton_loop]. set (z := iterates g j 0).
    assert (Ez : z - f z = iterates g (S j) 0) by reflexivity.
    assert (Ea : Rabs (z - f z - z) = Rabs (f z)) by (rewrite <- Rabs_Ropp; f_equal; ring). rewrite Ea. unfold newton_eps.
    destruct (Rle_dec (Rabs (f z)) (/ 2 ^ 52)) as [L|L].
    - exists 1%nat. split; [lia|]. split; [rewrite Ez; f_equal; lia|]. split; [intros; lia|]. right. replace (j + 1 - 1)%nat with j by lia. exact L.
    - apply Rnot_le_lt in L. destruct (Nat.eq_dec left 0) as [->|Nl].
      + exists 1%nat. split; [lia|]. cbn [newton_loop]. split; [rewrite Ez; f_equal; lia|]. split; [intros; lia|auto].
      + rewrite Ez. destruct (IH (S j) (iterates g (S j) 0)) as (n & Hn & E & K & S); [lia|]. exists (Datatypes.S n). split; [lia|].
        split; [rewrite E; f_equal; lia|]. split.
        * intros k Hk. destruct (Nat.eq_dec k j) as [->|]; [exact L|]. apply K. lia.
        * destruct S as [S|S]; [left; lia|right]. replace (j + Datatypes.S n - 1)%nat with (Datatypes.S j + n - 1)%nat by lia. exact S. }
  destruct (G 1000%nat 0%nat 1) as (n & Hn & E & K & S); [lia|]. exists n. split; [exact Hn|]. split; [exact E|]. split.
  - intros k Hk. apply K. lia.
  - exact S.
Qed.
Print Assumptions C80_result.

(** C80.  If x - f x contracts towards a root r with a factor q < 1, the result is within q/(1-q) 2^-52 of the root, or as
    close as 1000 contractions bring 0 to it. *)
Theorem C80_contraction : forall f r q, 0 <= q < 1 -> f r = 0 -> (forall x, Rabs (x - f x - r) <= q * Rabs (x - r)) ->
  Rabs (root_newton f - r) <= Rmax (q ^ 1000 * Rabs r) (q / (1 - q) * / 2 ^ 52).
Proof.
  intros f r q Hq Hr Hc. destruct (C80_result f) as (n & Hn & E & _ & S). rewrite E. clear E. set (g := fun x => x - f x) in *.
  destruct S as [->|S].
  - eapply Rle_trans; [|apply Rmax_l]. assert (K : forall k, Rabs (iterates g k 0 - r) <= q ^ k * Rabs r).
    { induction k as [|k IH]; cbn [iterates pow]; [rewrite Rmult_1_l, <- Rabs_Ropp; right; f_equal; ring|].
      eapply Rle_trans; [apply Hc|]. rewrite Rmult_assoc. apply Rmult_le_compat_l; [lra|exact IH]. }
    apply K.
  - eapply Rle_trans; [|apply Rmax_r]. destruct n as [|n]; [lia|]. replace (Datatypes.S n - 1)%nat with n in S by lia. cbn [iterates]. set (z := iterates g n 0) in *.
    assert (E2 : 0 < / 2 ^ 52) by (apply Rinv_0_lt_compat, pow_lt; lra). set (eps := / 2 ^ 52) in *. clearbody eps.
    pose proof (Hc z) as Cz. change (z - f z) with (g z) in Cz.
    assert (T : Rabs (z - r) <= Rabs (f z) + Rabs (g z - r)). { replace (z - r) with (f z + (g z - r)) by (unfold g; ring). apply Rabs_triang. }
    assert (D : (1 - q) * Rabs (z - r) <= eps) by lra.
    assert (D2 : Rabs (z - r) <= eps / (1 - q)). { apply Rmult_le_reg_l with (1 - q); [lra|]. eapply Rle_trans; [exact D|]. right. field. lra. }
    eapply Rle_trans; [exact Cz|]. replace (q / (1 - q) * eps) with (q * (eps / (1 - q))) by (field; lra).
    apply Rmult_le_compat_l; lra.
Qed.
Print Assumptions C80_contraction.

(** C80 fails without contraction: 3 x - 3 has one root, 1, and the result is 2^1000 away from it. *)
Theorem C80_finds_root_refuted : exists f, (forall x, f x = 0 <-> x = 1) /\ Rabs (root_newton f - 1) = 2 ^ 1000.
Proof.
  exists (fun x => 3 * x - 3). split; [intros x; split; intros; lra|].
  assert (P : forall n : nat, 1 <= Rabs ((-2) ^ n)). { intros n. rewrite <- RPow_abs. replace (Rabs (-2)) with 2 by (rewrite Rabs_left; lra). apply pow_R1_Rle. lra. }
  assert (E52 : / 2 ^ 52 < 1). { rewrite <- Rinv_1. apply Rinv_lt_contravar; [rewrite Rmult_1_l; apply pow_lt; lra|]. apply Rlt_pow_R1; [lra|lia]. }
  assert (G : forall left j x, (1 <= left)%nat -> newton_loop (fun x => 3 * x - 3) left (1 - (-2) ^ j) x = 1 - (-2) ^ (j + left)).
  { induction left as [|left IH]; intros j x Hl; [lia|]. cbn [newton_loop].
    assert (E : 1 - (-2) ^ j - (3 * (1 - (-2) ^ j) - 3) = 1 - (-2) ^ S j) by (cbn [pow]; ring). rewrite E.
    destruct (Rle_dec _ _) as [L|L].
    - exfalso. revert L. replace (1 - (-2) ^ S j - (1 - (-2) ^ j)) with (3 * (-2) ^ j) by (cbn [pow]; ring). rewrite Rabs_mult, (Rabs_right 3) by lra. specialize (P j). unfold newton_eps. lra.
    - destruct left as [|left]; [cbn [newton_loop]; f_equal; f_equal; lia|]. rewrite IH by lia. f_equal. f_equal. lia. }
  unfold root_newton. replace 0 with (1 - (-2) ^ 0) by (cbn; ring). rewrite G by lia. replace (1 - (-2) ^ (0 + 1000) - 1) with (- (-2) ^ 1000) by (cbn [Nat.add]; ring).
  rewrite Rabs_Ropp, <- RPow_abs. f_equal. rewrite Rabs_left; lra.
Qed.
Print Assumptions C80_finds_root_refuted.
(** The hypotheses of C80_contraction are met by x/2 - 1 (root 2, factor 1/2). *)
Example C80_case : 0 <= 1 / 2 < 1 /\ (2 / 2 - 1 = 0) /\ forall x, Rabs (x - (x / 2 - 1) - 2) <= 1 / 2 * Rabs (x - 2).
Proof. split; [lra|]. split; [lra|]. intros x. replace (x - (x / 2 - 1) - 2) with (1 / 2 * (x - 2)) by field. rewrite Rabs_mult, (Rabs_right (1 / 2)) by lra. lra. Qed.

(** * C81 *)
Lemma u_km_pos : 0 < u_km. Proof. unfold u_km. apply Rdiv_lt_0_compat; lra. Qed.
Lemma u_Rs_pos : 0 < u_Rs. Proof. pose proof u_km_pos. unfold u_Rs. lra. Qed.
Lemma u_C_pos : 0 < u_C.
Proof.
  pose proof u_km_pos. unfold u_C. apply Rmult_lt_0_compat; [lra|]. apply Rdiv_lt_0_compat; auto. unfold u_sec, u_year, u_pi. lra.
Qed.
Lemma s_pow_pos x y : 0 < x -> s_pow x y = Rpower x y.
Proof. intros H. unfold s_pow. destruct (Rlt_dec 0 x); [reflexivity|contradiction]. Qed.

(** C81.  For every mass: all radii are positive; a black hole's is where the escape speed is the speed of light; a neutron
    star's is 10 km; a star's is the solar radius for a solar mass and grows with the 3/4 power of the mass; a white
    dwarf's volume times its mass is constant, and is that of a hundredth of the solar radius at a solar mass. *)
Theorem C81_radii : forall m, 0 < m ->
  (forall t, 0 < stellar_radius t m) /\
  sqrt (2 * Gc * m / stellar_radius BH m) = u_C /\
  stellar_radius NS m = 10 * u_km /\
  stellar_radius STAR 1 = u_Rs /\ (stellar_radius STAR m) ^ 4 = u_Rs ^ 4 * m ^ 3 /\
  (stellar_radius WD m) ^ 3 * m = (u_Rs / 100) ^ 3.
Proof.
  intros m Hm. pose proof u_km_pos as P1. pose proof u_Rs_pos as P2. pose proof u_C_pos as P3.
  assert (U : u_Ms / m = / m) by (unfold u_Ms, Rdiv; ring). assert (U' : m / u_Ms = m) by (unfold u_Ms; field).
  assert (Hi : 0 < / m) by (apply Rinv_0_lt_compat; auto).
  split; [|split; [|split; [|split; [|split]]]].
  - intros [| | |]; cbn [stellar_radius].
    + unfold Gc. repeat apply Rdiv_lt_0_compat; auto; lra.
    + lra.
    + rewrite U', s_pow_pos by auto. apply Rmult_lt_0_compat; auto. apply exp_pos.
    + rewrite U, s_pow_pos by auto. apply Rmult_lt_0_compat; [lra|apply exp_pos].
  - cbn [stellar_radius]. replace (2 * Gc * m / (2 * Gc * m / u_C / u_C)) with (u_C * u_C) by (unfold Gc; field; lra). apply sqrt_square. lra.
  - reflexivity.
  - cbn [stellar_radius]. replace (1 / u_Ms) with 1 by (unfold u_Ms; field). rewrite s_pow_pos by lra. unfold Rpower. rewrite ln_1, Rmult_0_r, exp_0. ring.
  - cbn [stellar_radius]. rewrite U', s_pow_pos by auto. rewrite Rpow_mult_distr. f_equal. rewrite <- !Rpower_pow by (try apply exp_pos; auto). rewrite Rpower_mult. f_equal. cbn [INR]. lra.
  - cbn [stellar_radius]. rewrite U, s_pow_pos by auto. rewrite Rpow_mult_distr, <- (Rpower_pow 3 (Rpower _ _)) by apply exp_pos. rewrite Rpower_mult.
    replace (1.0 / 3 * INR 3) with 1 by (cbn [INR]; lra). rewrite Rpower_1 by auto. replace (0.01 * u_Rs) with (u_Rs / 100) by lra. field. lra.
Qed.
Print Assumptions C81_radii.
(** C81.  Radii of stars grow, those of white dwarfs shrink with the mass; black holes' are proportional to it. *)
Theorem C81_monotone : forall m m', 0 < m < m' ->
  stellar_radius STAR m < stellar_radius STAR m' /\ stellar_radius WD m' < stellar_radius WD m /\ stellar_radius BH m' / m' = stellar_radius BH m / m.
Proof.
  intros m m' H. pose proof u_Rs_pos as P2. pose proof u_C_pos as P3. cbn [stellar_radius].
  assert (U : forall x, u_Ms / x = / x) by (intros; unfold u_Ms, Rdiv; ring). assert (U' : forall x, x / u_Ms = x) by (intros; unfold u_Ms; field).
  assert (Hi : 0 < / m' < / m) by (split; [apply Rinv_0_lt_compat; lra|apply Rinv_lt_contravar; [apply Rmult_lt_0_compat; lra|lra]]).
  rewrite !U, !U', !s_pow_pos by lra. split; [|split].
  - apply Rmult_lt_compat_l; auto. apply Rlt_Rpower_l; lra.
  - apply Rmult_lt_compat_l; [lra|]. apply Rlt_Rpower_l; lra.
  - field. lra.
Qed.
Print Assumptions C81_monotone.
Example C81_case : 0 < 1 < 2. Proof. lra. Qed.
