(** C97: the eccentric anomaly of a mean anomaly, on IEEE 754 numbers, for every format that is wide enough (double and long double are) and every library sin, sinh of the stated accuracy. *)
From Verif Require Import Ianom_Model Ianom_Spec Ianom_Proofs Ianom_Proofs2 Ianom_Proofs3 Ibis_Proofs Ibis_Proofs2 Ibis_Proofs3 Ibis_Proofs4 Ibis_Props Ieee_Proofs Ieee_Proofs2 Ieee_Proofs3 Ieee_Props2 Islice_Proofs Islice_Proofs2.
From Coq Require Import Lra Lia Bool Arith.
Open Scope R_scope.
Section Any.
Context {prec emax : Z} { prec_gt_0_ : Prec_gt_0 prec } { prec_lt_emax_ : Prec_lt_emax prec emax }.
Hypothesis Hp : (2 < prec)%Z.
Hypothesis HL : (least prec emax <= - 4 * prec)%Z.
Notation fl := (binary_float prec emax).
Notation L := (least prec emax).
Notation fin a := (is_finite a = true).
Notation eps := (bpow radix2 (1 - prec)).
Notation u := (half_ulp prec).
Implicit Types sn sh : fl -> fl.
Let Hp1 : (1 < prec)%Z. Proof. lia. Qed.

(** A mean anomaly of at most epsilon gives 0, for every eccentricity, NaN and negative ones included; any other aborts on NaN and negative eccentricities. *)
Theorem C97_small_M sn sh (pi M e r : fl) : fin M -> Rabs (B2R M) <= eps -> (gives sn sh pi M e r <-> r = izero).
Proof. intros FM HM. unfold gives, to_E. rewrite (proj2 (small_M Hp1 M FM) HM). tauto. Qed.
Theorem C97_abort sn sh (M e : fl) : (fin M -> eps < Rabs (B2R M)) -> e = B754_nan \/ negative e -> to_E sn sh M e = Stop.
Proof. intros HM He. apply (branch_stop Hp1); auto. Qed.
(** Finite M and eccentricity (below a bound far beyond the range of orbits: 2^960 in doubles): a result is returned, between -pi and pi. *)
Theorem C97_returns sn sh d d' k (pi M e : fl) : like_pi pi -> accurate sn sin d -> accurate sh sinh d' -> (0 <= k <= - L - 2 * prec - 3)%Z -> fin M -> fin e -> 0 <= B2R e <= bpow radix2 k ->
  (exists r, gives sn sh pi M e r) /\ forall r, gives sn sh pi M e r -> fin r /\ - B2R pi <= B2R r <= B2R pi.
Proof.
  intros Hpi As Ah Hk FM Fe He. destruct (pi_ends Hp1 HL pi Hpi) as (G1 & G2 & N1 & N2 & V). unfold gives.
  assert (W : forall r f, (exists n, b_returns f (ineg pi) pi n r) -> fin r /\ - B2R pi <= B2R r <= B2R pi).
  { intros r f (n & R). destruct (C96_result Hp1 f (ineg pi) pi n r G1 G2 R) as (l & h & _ & (F & B) & _). destruct Hpi as (_ & Bp). rewrite V, Rmin_left, Rmax_right in B by lra. auto. }
  assert (Q : forall f, ends f (ineg pi) pi -> exists r n, b_returns f (ineg pi) pi n r) by (intros f (n & r & R); exists r, n; exact R).
  destruct (Rle_or_lt (Rabs (B2R M)) eps) as [HM|HM].
  - unfold to_E. rewrite (proj2 (small_M Hp1 M FM) HM). split; [exists izero; reflexivity|]. intros r ->. cbn [B2R izero]. destruct Hpi as (_ & Bp). split; [reflexivity|lra].
  - assert (HM' : fin M -> eps < Rabs (B2R M)) by auto. destruct (Rtotal_order (B2R e) 1) as [X|[X|X]].
    + rewrite (branch_ell Hp1 sn sh M e HM' Fe) by lra. split; [|intros r; apply W]. apply Q. apply (diff_ends Hp1 HL (ell sn e) M); auto. intros x Fx Nx. apply (ell_small Hp1 HL sn d); auto. lra.
    + rewrite (branch_par Hp1 sn sh M e HM' Fe X). split; [|intros r; apply W]. apply Q. apply (C96_parabolic Hp1); auto.
    + rewrite (branch_hyp Hp1 sn sh M e HM') by (left; auto). split; [|intros r; apply W]. apply Q. apply (diff_ends Hp1 HL (hyp sh e) M); auto. intros x Fx Nx. apply (hyp_small Hp1 HL sh d' k); auto. rewrite Rabs_right by lra. lra.
Qed.
(** Distance of the result from the solution of Kepler's equation, elliptic orbits. *)
Theorem C97_elliptic sn sh d (pi M e r : fl) E : like_pi pi -> accurate sn sin d -> 0 <= d <= 1 -> fin M -> eps < Rabs (B2R M) -> fin e -> 0 <= B2R e < 1 ->
  Rabs (B2R M) <= B2R pi - B2R e * Rabs (sin (B2R pi)) - (d + 16 * u) -> gives sn sh pi M e r -> E - B2R e * sin E = B2R M ->
  Rabs (B2R r - E) <= (d + 16 * u) / (1 - B2R e) + 17 * u.
Proof.
  intros Hpi As Hd FM HM Fe He Rg G HE. unfold gives in G. rewrite (branch_ell Hp1 sn sh M e (fun _ => HM) Fe He) in G. destruct G as (n & R). destruct (pi_ends Hp1 HL pi Hpi) as (G1 & G2 & N1 & N2 & V).
  assert (B4 : Rabs (B2R pi) <= 4) by (destruct Hpi as (_ & B); rewrite Rabs_right; lra). assert (B4' : Rabs (B2R (ineg pi)) <= 4) by (rewrite V, Rabs_Ropp; exact B4).
  destruct (ell_near Hp1 HL sn d e pi As Hd Fe ltac:(lra) (proj1 G2) B4) as (F1 & T1). destruct (ell_near Hp1 HL sn d e (ineg pi) As Hd Fe ltac:(lra) (proj1 G1) B4') as (F2 & T2). rewrite V, sin_neg in T2.
  assert (SB : Rabs (B2R e * sin (B2R pi)) <= B2R e * Rabs (sin (B2R pi))) by (rewrite Rabs_mult, (Rabs_right (B2R e)) by lra; lra).
  apply (solution Hp1 HL (ell sn e) (fun y => y - B2R e * sin y) (d + 16 * u) (1 - B2R e) M pi r n E); auto; try lra.
  - intros x Fx Bx. apply (ell_near Hp1 HL sn d e x); auto. lra.
  - intros y. apply ell_cont.
  - intros y z. apply ell_growth. lra.
  - apply Rabs_le_inv in T1, T2, SB, Rg. apply (no_common Hp1); auto. lra.
Qed.
(** Hyperbolic orbits. *)
Theorem C97_hyperbolic sn sh d k (pi M e r : fl) E : like_pi pi -> accurate sh sinh d -> 0 <= d <= 1 -> fin M -> eps < Rabs (B2R M) -> fin e -> (0 <= k)%Z -> (k + 8 < emax)%Z -> 1 < B2R e <= bpow radix2 k ->
  Rabs (B2R M) <= B2R e * sinh (B2R pi) - B2R pi - B2R e * (d + 128 * u) -> gives sn sh pi M e r -> B2R e * sinh E - E = B2R M ->
  Rabs (B2R r - E) <= B2R e * (d + 128 * u) / (B2R e - 1) + 17 * u.
Proof.
  intros Hpi Ah Hd FM HM Fe Hk Hk2 He Rg G HE. unfold gives in G. rewrite (branch_hyp Hp1 sn sh M e (fun _ => HM)) in G by (left; split; [exact Fe|lra]). destruct G as (n & R). destruct (pi_ends Hp1 HL pi Hpi) as (G1 & G2 & N1 & N2 & V).
  assert (B4 : Rabs (B2R pi) <= 4) by (destruct Hpi as (_ & B); rewrite Rabs_right; lra). assert (B4' : Rabs (B2R (ineg pi)) <= 4) by (rewrite V, Rabs_Ropp; exact B4). assert (He' : 1 <= B2R e <= bpow radix2 k) by lra.
  destruct (hyp_near Hp1 HL sh d k e pi Ah Hd Fe He' Hk Hk2 (proj1 G2) B4) as (F1 & T1). destruct (hyp_near Hp1 HL sh d k e (ineg pi) Ah Hd Fe He' Hk Hk2 (proj1 G1) B4') as (F2 & T2). rewrite V in T2.
  assert (So : sinh (- B2R pi) = - sinh (B2R pi)) by (unfold sinh; rewrite Ropp_involutive; lra). rewrite So in T2.
  apply (solution Hp1 HL (hyp sh e) (fun y => B2R e * sinh y - y) (B2R e * (d + 128 * u)) (B2R e - 1) M pi r n E); auto; try lra.
  - intros x Fx Bx. apply (hyp_near Hp1 HL sh d k e x); auto.
  - intros y. apply hyp_cont.
  - intros y z. apply hyp_growth. lra.
  - apply Rabs_le_inv in T1, T2, Rg. apply (no_common Hp1); auto. lra.
Qed.
(** Parabolic orbits. *)
Theorem C97_parabolic sn sh (pi M e r : fl) E : like_pi pi -> fin M -> eps < Rabs (B2R M) -> fin e -> B2R e = 1 ->
  Rabs (B2R M) <= B2R pi + B2R pi * B2R pi * B2R pi / 3 - 144 * u -> gives sn sh pi M e r -> E + E * E * E / 3 = B2R M ->
  Rabs (B2R r - E) <= 161 * u.
Proof.
  intros Hpi FM HM Fe He Rg G HE. unfold gives in G. rewrite (branch_par Hp1 sn sh M e (fun _ => HM) Fe He) in G. destruct G as (n & R). destruct (pi_ends Hp1 HL pi Hpi) as (G1 & G2 & N1 & N2 & V).
  assert (B4 : Rabs (B2R pi) <= 4) by (destruct Hpi as (_ & B); rewrite Rabs_right; lra). assert (B4' : Rabs (B2R (ineg pi)) <= 4) by (rewrite V, Rabs_Ropp; exact B4).
  destruct (par_near Hp1 HL pi (proj1 G2) B4) as (F1 & T1). destruct (par_near Hp1 HL (ineg pi) (proj1 G1) B4') as (F2 & T2). rewrite V in T2.
  assert (X : Rabs (B2R r - E) <= 144 * u / 1 + 17 * u).
  { apply (solution Hp1 HL cubic (fun y => y + y * y * y / 3) (144 * u) 1 M pi r n E); auto; try lra.
    - intros x Fx Bx. apply (par_near Hp1 HL x); auto.
    - intros y. apply par_cont.
    - intros y z. rewrite Rmult_1_l. apply par_growth.
    - apply Rabs_le_inv in T1, T2, Rg. apply (no_common Hp1); auto. replace (- B2R pi * - B2R pi * - B2R pi / 3) with (- (B2R pi * B2R pi * B2R pi / 3)) in T2 by field. lra. }
  unfold Rdiv in X. rewrite Rinv_1 in X. lra.
Qed.
(** Out of range: a mean anomaly further than that from zero is not reduced; the result is -pi, for large positive and large negative M alike, and for infinite M. *)
Theorem C97_out_of_range sn sh d (pi M e : fl) : like_pi pi -> accurate sn sin d -> 0 <= d <= 1 -> fin e -> 0 <= B2R e < 1 ->
  (fin M /\ B2R pi + 1 + (d + 16 * u) < Rabs (B2R M)) \/ is_inf M = true ->
  (exists r, gives sn sh pi M e r) /\ forall r, gives sn sh pi M e r -> Rabs (B2R r + B2R pi) <= 17 * u.
Proof.
  intros Hpi As Hd Fe He HM. pose proof (u0 Hp1) as U. assert (E1 : eps <= 1) by (change 1 with (bpow radix2 0); apply bpow_le; lia). assert (HM' : fin M -> eps < Rabs (B2R M)).
  { intros F. destruct HM as [(_ & H)|H]; [destruct Hpi as (_ & B); lra|destruct M; discriminate]. }
  unfold gives. rewrite (branch_ell Hp1 sn sh M e HM' Fe He). enough (K : forall x y, within_ends (ineg pi) pi x -> within_ends (ineg pi) pi y -> igt (imul (isub (ell sn e x) M) (isub (ell sn e y) M)) izero = true).
  { destruct (low_stays Hp1 HL (fun x => isub (ell sn e x) M) pi Hpi K) as (A & B). split; [exact A|]. intros r (n & R). eauto. }
  intros x y Wx Wy.
  destruct (within4 Hp1 HL pi x Hpi Wx) as (Fx & Bx), (within4 Hp1 HL pi y Hpi Wy) as (Fy & By).
  destruct (ell_near Hp1 HL sn d e x As Hd Fe ltac:(lra) Fx Bx) as (Ax & Tx). destruct (ell_near Hp1 HL sn d e y As Hd Fe ltac:(lra) Fy By) as (Ay & Ty).
  destruct HM as [(FM & HM)|HM].
  - apply (same_mul Hp1 _ _ (- 2 * prec)); [lia|apply (diff_size Hp1); auto|apply (diff_size Hp1); auto|].
    destruct (pi_ends Hp1 HL pi Hpi) as (_ & _ & _ & _ & V). destruct Hpi as (_ & Bp). destruct Wx as (_ & Wx), Wy as (_ & Wy). rewrite V, Rmin_left, Rmax_right in Wx, Wy by lra.
    pose proof (SIN_bound (B2R x)). pose proof (SIN_bound (B2R y)).
    assert (Sx : -1 <= B2R e * sin (B2R x) <= 1) by nra. assert (Sy : -1 <= B2R e * sin (B2R y) <= 1) by nra. apply Rabs_le_inv in Tx, Ty.
    destruct (Rle_or_lt 0 (B2R M)) as [X|X].
    + rewrite Rabs_right in HM by lra. right. split; apply (diff_sign Hp1); auto; lra.
    + rewrite Rabs_left in HM by lra. left. split; apply (diff_sign Hp1); auto; lra.
  - destruct M as [|[]| |]; try discriminate HM; destruct (ell sn e x); try discriminate Ax; destruct (ell sn e y); try discriminate Ay; reflexivity.
Qed.
(** A NaN mean anomaly gives pi, for every eccentricity that is not negative nor NaN. *)
Theorem C97_nan_M sn sh (pi e : fl) : like_pi pi -> (fin e /\ 0 <= B2R e) \/ e = B754_infinity false ->
  (exists r, gives sn sh pi B754_nan e r) /\ forall r, gives sn sh pi B754_nan e r -> Rabs (B2R r - B2R pi) <= 17 * u.
Proof.
  intros Hpi He. assert (HM : fin (B754_nan : fl) -> eps < Rabs (B2R (B754_nan : fl))) by discriminate. unfold gives.
  assert (Nn : forall T : fl -> fl, (exists r n, b_returns (fun x => isub (T x) B754_nan) (ineg pi) pi n r) /\ forall r, (exists n, b_returns (fun x => isub (T x) B754_nan) (ineg pi) pi n r) -> Rabs (B2R r - B2R pi) <= 17 * u).
  { intros T. destruct (high_stays Hp1 HL (fun x => isub (T x) B754_nan) pi Hpi) as (A & B). { intros x. rewrite !isub_nan_r. reflexivity. } split; auto. intros r (n & R). eauto. }
  destruct He as [(Fe & He)| ->].
  - destruct (Rtotal_order (B2R e) 1) as [X|[X|X]].
    + rewrite (branch_ell Hp1 sn sh _ e HM Fe) by lra. apply Nn.
    + rewrite (branch_par Hp1 sn sh _ e HM Fe X). apply (Nn cubic).
    + rewrite (branch_hyp Hp1 sn sh _ e HM) by (left; auto). apply Nn.
  - rewrite (branch_hyp Hp1 sn sh _ _ HM) by (right; auto). apply Nn.
Qed.
(** "Eccentricity cannot be negative, Nan or inf!" (orbits.hpp:335): an infinite eccentricity does not abort; the call never returns. *)
Theorem C97_infinite_e_aborts_refuted sn sh (pi M : fl) : like_pi pi -> (forall x, fin x -> 0 < B2R x -> Ibis_Spec.positive (sh x)) -> (forall x, fin x -> B2R x = 0 -> fin (sh x) /\ B2R (sh x) = 0) -> fin M -> eps < Rabs (B2R M) ->
  to_E sn sh M (B754_infinity false) <> Stop /\ forall r, ~ gives sn sh pi M (B754_infinity false) r.
Proof.
  intros Hpi Sp Sz FM HM. unfold gives. rewrite (branch_hyp Hp1 sn sh M _ (fun _ => HM)) by (right; auto). split; [discriminate|]. intros r (n & R).
  destruct (pi_ends Hp1 HL pi Hpi) as (G1 & G2 & N1 & N2 & V). set (f := fun x => isub (hyp sh (B754_infinity false) x) M) in *.
  assert (Fp : forall x, fin x -> 0 < B2R x -> f x = B754_infinity false).
  { intros x Fx Px. specialize (Sp x Fx Px). unfold f, hyp, Ibis_Spec.positive in *. destruct (sh x) as [s|[]| |[]]; try discriminate Sp; destruct x; try discriminate Fx; destruct M; try discriminate FM; reflexivity. }
  assert (Fz : forall x, fin x -> B2R x = 0 -> f x = B754_nan).
  { intros x Fx Zx. destruct (Sz x Fx Zx) as (A & B). unfold f, hyp. destruct (zero_of _ A B) as (s & ->). change (imul (B754_infinity false) (B754_zero s)) with (B754_nan : fl). rewrite !isub_nan_l. reflexivity. }
  assert (Zf : forall a b, fin a -> B2R a = 0 -> igt (imul (f a) (f b)) izero = false). { intros a b Fa Za. rewrite (Fz a Fa Za). destruct (f b); reflexivity. }
  assert (Mz : fin (b_mid (ineg pi) pi) /\ B2R (b_mid (ineg pi) pi) = 0).
  { destruct (mid_val Hp1 (ineg pi) pi G1 G2) as (A & B). split; auto. rewrite B. unfold rmid. rewrite V. replace (B2R pi + - B2R pi) with 0 by ring. rewrite rne_0. replace (/ 2 * 0) with 0 by ring. apply rne_0 || (replace (0 / 2) with 0 by lra; apply rne_0). }
  destruct Mz as (Fm & Zm). assert (Gm : good_end (b_mid (ineg pi) pi)) by (apply (mid_in Hp1); auto).
  assert (Ct : b_continue (ineg pi) pi = true).
  { destruct n as [|n]; [|apply (proj1 R O); lia]. destruct R as (_ & _ & _). apply (cont_iff Hp1); auto. destruct Hpi as (Fpi & Bp). rewrite V. replace (B2R pi - - B2R pi) with (2 * B2R pi) by ring.
    pose proof (u0 Hp1) as U. pose proof (eps_u (prec:=prec)) as E2. rewrite (Rabs_right (B2R pi)) by lra. pose proof (near Hp1 HL (B2R pi * eps)) as Q1. pose proof (near Hp1 HL (2 * B2R pi)) as Q2. rewrite (Rabs_right (2 * B2R pi)) in Q2 by lra. rewrite (Rabs_right (B2R pi * eps)) in Q1 by nra.
    apply Rabs_le_inv in Q1, Q2. apply Rlt_le_trans with 3; [nra|]. eapply Rle_trans; [|apply Rle_abs]. nra. }
  assert (En : ends f (fst (b_step f (ineg pi, pi))) (snd (b_step f (ineg pi, pi)))). { apply ends_inv; [exact Ct|]. exists n, r. exact R. }
  destruct (step_cases f (ineg pi) pi) as [(_ & E)|(E & _)]; [rewrite (Zf _ _ Fm Zm) in E; discriminate|]. rewrite E in En. cbn [fst snd] in En.
  refine (loops Hp1 f _ _ Hp _ Zf Gm Zm G2 _ En); [|destruct Hpi; lra]. intros a b Fa Fb Pa Pb. rewrite (Fp a Fa Pa), (Fp b Fb Pb). reflexivity.
Qed.
End Any.
Print Assumptions C97_small_M.
Print Assumptions C97_abort.
Print Assumptions C97_returns.
Print Assumptions C97_elliptic.
Print Assumptions C97_hyperbolic.
Print Assumptions C97_parabolic.
Print Assumptions C97_out_of_range.
Print Assumptions C97_nan_M.
Print Assumptions C97_infinite_e_aborts_refuted.
