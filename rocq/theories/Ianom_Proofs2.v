From Verif Require Import Ianom_Model Ianom_Spec Ianom_Proofs Ibis_Proofs Ibis_Proofs2 Ibis_Proofs3 Ibis_Proofs4 Ibis_Props Ieee_Proofs Ieee_Proofs2 Ieee_Proofs3 Ieee_Props2 Kahan_Proofs Islice_Spec Islice_Proofs Islice_Proofs2.
From Flocq Require Import Relative.
From Coq Require Import Lra Lia Bool Arith.
Open Scope R_scope.
Section P.
Context {prec emax : Z} { prec_gt_0_ : Prec_gt_0 prec } { prec_lt_emax_ : Prec_lt_emax prec emax }.
Hypothesis Hp : (1 < prec)%Z.
Hypothesis HL : (least prec emax <= - 4 * prec)%Z.
Notation fl := (binary_float prec emax).
Notation rne := (Ieee_Spec.rne prec emax).
Notation L := (least prec emax).
Notation fmt := (Kahan_Model.fmt L prec).
Notation fin a := (is_finite a = true).
Notation eps := (bpow radix2 (1 - prec)).
Notation u := (half_ulp prec).
Implicit Types f T : fl -> fl.

Lemma u0 : 0 < u <= / 4.
Proof. unfold half_ulp. split; [apply bpow_gt_0|]. change (/ 4) with (bpow radix2 (-2)). apply bpow_le. lia. Qed.
Lemma eps_u : eps = 2 * u.
Proof. unfold half_ulp. replace (1 - prec)%Z with (- prec + 1)%Z by lia. rewrite bpow_plus. change (bpow radix2 1) with 2. ring. Qed.
Lemma bL : 0 < bpow radix2 L <= u / 64.
Proof.
  split; [apply bpow_gt_0|]. unfold half_ulp, Rdiv. change (/ 64) with (bpow radix2 (-6)). rewrite <- bpow_plus. apply bpow_le. lia.
Qed.
Lemma near x : Rabs (rne x - x) <= u * Rabs x + u / 64.
Proof.
  destruct (error_N_FLT radix2 L prec prec_gt_0_ even_choice x) as (ep & et & E1 & E2 & E3 & E4).
  change (round radix2 (FLT_exp L prec) (Znearest even_choice) x) with (rne x) in E4. rewrite E4. rewrite bpow_plus in E1. change (bpow radix2 1) with 2 in E1. fold u in E1.
  replace (x * (1 + ep) + et - x) with (ep * x + et) by ring. pose proof bL. eapply Rle_trans; [apply Rabs_triang|]. rewrite Rabs_mult. pose proof (Rabs_pos x). assert (Rabs ep <= u) by (unfold half_ulp; unfold half_ulp in E1; lra). nra.
Qed.
Lemma top x k : (L <= k < emax)%Z -> Rabs x <= bpow radix2 k -> Rabs (rne x) < bpow radix2 emax.
Proof. intros H B. eapply Rle_lt_trans; [apply (rne_bpow x k); [lia|exact B]|]. apply bpow_lt. lia. Qed.

(** The difference of a function that is small near zero and M. *)
Lemma diff_ends T (M low high : fl) : good_end low -> good_end high -> ~ near_zero low -> fin M -> eps < Rabs (B2R M) ->
  (forall x, fin x -> near_zero x -> fin (T x) /\ Rabs (B2R (T x)) <= u) -> ends (fun x => isub (T x) M) low high.
Proof.
  intros Gl Gh Nl FM HM Sm. pose proof u0 as U. pose proof eps_u as E2. apply (C96_terminates Hp (fun x => isub (T x) M) (- 2 * prec)); auto; [lia| |].
  - intros x _. apply (diff_size Hp); auto.
  - intros x y (Fx & _) (Fy & _) Nx Ny. destruct (Sm x Fx Nx) as (A1 & B1), (Sm y Fy Ny) as (A2 & B2). apply Rabs_le_inv in B1, B2.
    destruct (diff_sign Hp (T x) M A1 FM) as (P1 & N1), (diff_sign Hp (T y) M A2 FM) as (P2 & N2).
    destruct (Rle_or_lt 0 (B2R M)) as [X|X].
    + rewrite Rabs_right in HM by lra. right. split; [apply N1|apply N2]; lra.
    + rewrite Rabs_left in HM by lra. left. split; [apply P1|apply P2]; lra.
Qed.
(** Near zero, the functions are small. *)
Lemma small_prod (e s x : fl) k : (k <= - L - 2 * prec - 3)%Z -> (0 <= k)%Z -> fin e -> fin s -> Rabs (B2R e) <= bpow radix2 k -> near_zero x -> Rabs (B2R s) <= 2 * Rabs (B2R x) ->
  fin (imul e s) /\ Rabs (B2R (imul e s)) <= bpow radix2 (- prec - 1) /\ Rabs (B2R x) <= bpow radix2 (- prec - 1).
Proof.
  intros Hk Hk0 Fe Fs Be Nx Bs. pose proof (dims (prec:=prec) (emax:=emax)) as D. unfold near_zero, least_normal in Nx.
  assert (Bs' : Rabs (B2R s) <= bpow radix2 (L + prec)). { replace (L + prec)%Z with (L + prec - 1 + 1)%Z by lia. rewrite bpow_plus. change (bpow radix2 1) with 2. lra. }
  destruct (bounded_mul e s k (L + prec)) as (A & B); auto; [lia|]. split; auto. split.
  - eapply Rle_trans; [exact B|]. apply bpow_le. lia.
  - eapply Rle_trans; [exact Nx|]. apply bpow_le. lia.
Qed.
Lemma small_sub (a b : fl) : fin a -> fin b -> Rabs (B2R a) <= bpow radix2 (- prec - 1) -> Rabs (B2R b) <= bpow radix2 (- prec - 1) -> fin (isub a b) /\ Rabs (B2R (isub a b)) <= u.
Proof.
  intros Fa Fb Ba Bb. pose proof (dims (prec:=prec) (emax:=emax)) as D. destruct (cr_sub a b Fa Fb) as (C & _).
  assert (X : Rabs (B2R a - B2R b) <= bpow radix2 (- prec)). { replace (- prec)%Z with (- prec - 1 + 1)%Z by lia. rewrite bpow_plus. change (bpow radix2 1) with 2. apply Rabs_le. apply Rabs_le_inv in Ba, Bb. lra. }
  destruct C as (C1 & C2); [apply (top _ (- prec)); [lia|exact X]|]. split; auto. rewrite C2. apply rne_bpow; [lia|exact X].
Qed.
(** Errors of the three functions on the numbers up to 4. *)
Lemma ell_near (sn : fl -> fl) d (e x : fl) : accurate sn sin d -> 0 <= d <= 1 -> fin e -> 0 <= B2R e <= 1 -> fin x -> Rabs (B2R x) <= 4 ->
  fin (ell sn e x) /\ Rabs (B2R (ell sn e x) - (B2R x - B2R e * sin (B2R x))) <= d + 16 * u.
Proof.
  intros (A & _) Hd Fe He Fx Bx. destruct (A x Fx Bx) as (Fs & Bs). pose proof u0 as U. pose proof (dims (prec:=prec) (emax:=emax)) as D. unfold ell.
  set (s := B2R (sn x)) in *. pose proof (SIN_bound (B2R x)) as SB. assert (S2 : Rabs s <= 2). { apply Rabs_le. apply Rabs_le_inv in Bs. lra. }
  assert (PB : Rabs (B2R e * s) <= 2). { rewrite Rabs_mult, (Rabs_right (B2R e)) by lra. pose proof (Rabs_pos s). nra. }
  destruct (cr_mul e (sn x) Fe Fs) as (C & _). destruct C as (F1 & V1). { apply (top _ 1); [lia|exact PB]. } fold s in V1. clear C || idtac.
  pose proof (near (B2R e * s)) as N1. rewrite <- V1 in N1. set (p := B2R (imul e (sn x))) in *.
  assert (Pp : Rabs p <= 3). { replace p with ((p - B2R e * s) + B2R e * s) by ring. eapply Rle_trans; [apply Rabs_triang|]. nra. }
  assert (XB : Rabs (B2R x - p) <= 8). { unfold Rminus. eapply Rle_trans; [apply Rabs_triang|]. rewrite Rabs_Ropp. lra. }
  destruct (cr_sub x (imul e (sn x)) Fx F1) as (C & _). fold p in C. destruct C as (F2 & V2). { apply (top _ 3); [lia|exact XB]. }
  split; auto. rewrite V2. pose proof (near (B2R x - p)) as N2.
  replace (rne (B2R x - p) - (B2R x - B2R e * sin (B2R x))) with ((rne (B2R x - p) - (B2R x - p)) - (p - B2R e * s) - B2R e * (s - sin (B2R x))) by ring.
  assert (E3 : Rabs (B2R e * (s - sin (B2R x))) <= d). { rewrite Rabs_mult, (Rabs_right (B2R e)) by lra. pose proof (Rabs_pos (s - sin (B2R x))). nra. }
  assert (E1 : Rabs (p - B2R e * s) <= 3 * u) by nra. assert (E2 : Rabs (rne (B2R x - p) - (B2R x - p)) <= 9 * u) by nra.
  apply Rabs_le. apply Rabs_le_inv in E1, E2, E3. lra.
Qed.
Lemma hyp_near (sh : fl -> fl) d k (e x : fl) : accurate sh sinh d -> 0 <= d <= 1 -> fin e -> 1 <= B2R e <= bpow radix2 k -> (0 <= k)%Z -> (k + 8 < emax)%Z -> fin x -> Rabs (B2R x) <= 4 ->
  fin (hyp sh e x) /\ Rabs (B2R (hyp sh e x) - (B2R e * sinh (B2R x) - B2R x)) <= B2R e * (d + 128 * u).
Proof.
  intros (A & _) Hd Fe He Hk Hk2 Fx Bx. destruct (A x Fx Bx) as (Fs & Bs). pose proof u0 as U. pose proof (dims (prec:=prec) (emax:=emax)) as D. unfold hyp.
  set (s := B2R (sh x)) in *. pose proof (sinh_bound (B2R x) Bx) as SB. assert (S2 : Rabs s <= 42). { apply Rabs_le. apply Rabs_le_inv in Bs, SB. lra. }
  set (q := B2R e) in *. assert (PB : Rabs (q * s) <= 42 * q). { rewrite Rabs_mult, (Rabs_right q) by lra. pose proof (Rabs_pos s). nra. }
  assert (K7 : 64 * q <= bpow radix2 (k + 6)) by (rewrite bpow_plus; change (bpow radix2 6) with 64; lra). assert (K8 : 128 * q <= bpow radix2 (k + 7)) by (rewrite bpow_plus; change (bpow radix2 7) with 128; lra).
  destruct (cr_mul e (sh x) Fe Fs) as (C & _). destruct C as (F1 & V1). { apply (top _ (k + 6)); [lia|]. change (B2R e * B2R (sh x)) with (q * s). lra. } change (B2R e * B2R (sh x)) with (q * s) in V1.
  pose proof (near (q * s)) as N1. rewrite <- V1 in N1. set (p := B2R (imul e (sh x))) in *.
  assert (E1 : Rabs (p - q * s) <= 43 * u * q) by nra.
  assert (Pp : Rabs p <= 53 * q). { replace p with ((p - q * s) + q * s) by ring. eapply Rle_trans; [apply Rabs_triang|]. nra. }
  assert (XB : Rabs (p - B2R x) <= 57 * q). { unfold Rminus. eapply Rle_trans; [apply Rabs_triang|]. rewrite Rabs_Ropp. lra. }
  destruct (cr_sub (imul e (sh x)) x F1 Fx) as (C & _). fold p in C. destruct C as (F2 & V2). { apply (top _ (k + 7)); [lia|lra]. }
  split; auto. rewrite V2. pose proof (near (p - B2R x)) as N2.
  replace (rne (p - B2R x) - (q * sinh (B2R x) - B2R x)) with ((rne (p - B2R x) - (p - B2R x)) + (p - q * s) + q * (s - sinh (B2R x))) by ring.
  assert (E3 : Rabs (q * (s - sinh (B2R x))) <= q * d). { rewrite Rabs_mult, (Rabs_right q) by lra. pose proof (Rabs_pos (s - sinh (B2R x))). nra. }
  assert (E2 : Rabs (rne (p - B2R x) - (p - B2R x)) <= 58 * u * q) by nra.
  apply Rabs_le. apply Rabs_le_inv in E1, E2, E3. assert (0 <= u * q) by nra. nra.
Qed.
Definition cubic (x : fl) : fl := iadd x (idiv (imul (imul x x) x) (binary_normalize prec emax prec_gt_0_ prec_lt_emax_ mode_NE 3 0 false)).
Lemma par_near (x : fl) : fin x -> Rabs (B2R x) <= 4 -> fin (cubic x) /\ Rabs (B2R (cubic x) - (B2R x + B2R x * B2R x * B2R x / 3)) <= 144 * u.
Proof.
  intros Fx Bx. pose proof u0 as U. pose proof (dims (prec:=prec) (emax:=emax)) as D. unfold cubic. destruct (three_val Hp) as (F3 & V3). set (three := binary_normalize prec emax prec_gt_0_ prec_lt_emax_ mode_NE 3 0 false) in *.
  set (v := B2R x) in *. pose proof (Rabs_pos v) as P0.
  assert (B1 : Rabs (v * v) <= 16) by (rewrite Rabs_mult; nra). destruct (cr_mul x x Fx Fx) as (C & _). destruct C as (F1 & V1). { apply (top _ 4); [lia|exact B1]. } fold v in V1.
  pose proof (near (v * v)) as N1. rewrite <- V1 in N1. set (a := B2R (imul x x)) in *. assert (E1 : Rabs (a - v * v) <= 17 * u) by nra.
  assert (Ba : Rabs a <= 21). { replace a with ((a - v * v) + v * v) by ring. eapply Rle_trans; [apply Rabs_triang|]. lra. }
  assert (B2 : Rabs (a * v) <= 84) by (rewrite Rabs_mult; pose proof (Rabs_pos a); nra). destruct (cr_mul (imul x x) x F1 Fx) as (C & _). fold a v in C. destruct C as (F2 & V2). { apply (top _ 7); [lia|]. change (bpow radix2 7) with 128. lra. }
  pose proof (near (a * v)) as N2. rewrite <- V2 in N2. set (b := B2R (imul (imul x x) x)) in *. assert (E2 : Rabs (b - a * v) <= 85 * u) by nra.
  assert (Bb : Rabs b <= 106). { replace b with ((b - a * v) + a * v) by ring. eapply Rle_trans; [apply Rabs_triang|]. lra. }
  assert (N3 : B2R three <> 0) by (rewrite V3; lra). destruct (cr_div (imul (imul x x) x) three F2 F3 N3) as (C & _). fold b in C. rewrite V3 in C.
  assert (B3 : Rabs (b / 3) <= 36) by (unfold Rdiv; rewrite Rabs_mult, (Rabs_right (/ 3)) by lra; lra). destruct C as (F4 & V4). { apply (top _ 7); [lia|]. change (bpow radix2 7) with 128. lra. }
  pose proof (near (b / 3)) as N4. rewrite <- V4 in N4. set (c := B2R (idiv (imul (imul x x) x) three)) in *. assert (E4 : Rabs (c - b / 3) <= 37 * u) by nra.
  assert (Bc : Rabs c <= 46). { replace c with ((c - b / 3) + b / 3) by ring. eapply Rle_trans; [apply Rabs_triang|]. lra. }
  assert (B5 : Rabs (v + c) <= 50). { eapply Rle_trans; [apply Rabs_triang|]. lra. }
  destruct (cr_add x (idiv (imul (imul x x) x) three) Fx F4) as (C & _). fold v c in C. destruct C as (F5 & V5). { apply (top _ 7); [lia|]. change (bpow radix2 7) with 128. lra. }
  split; auto. rewrite V5. pose proof (near (v + c)) as N5. assert (E5 : Rabs (rne (v + c) - (v + c)) <= 51 * u) by nra.
  assert (E1' : Rabs ((a - v * v) * v) <= 68 * u). { rewrite Rabs_mult. pose proof (Rabs_pos (a - v * v)). nra. }
  replace (rne (v + c) - (v + v * v * v / 3)) with ((rne (v + c) - (v + c)) + (c - b / 3) + ((b - a * v) / 3 + (a - v * v) * v / 3)) by field.
  assert (T : Rabs ((b - a * v) / 3 + (a - v * v) * v / 3) <= 51 * u). { apply Rabs_le. apply Rabs_le_inv in E2, E1'. lra. }
  apply Rabs_le. apply Rabs_le_inv in E4, E5, T. lra.
Qed.
Lemma ell_small (sn : fl -> fl) d (e x : fl) : accurate sn sin d -> fin e -> 0 <= B2R e <= 1 -> fin x -> near_zero x -> fin (ell sn e x) /\ Rabs (B2R (ell sn e x)) <= u.
Proof.
  intros (A & B) Fe He Fx Nx. pose proof (dims (prec:=prec) (emax:=emax)) as D. assert (B4 : Rabs (B2R x) <= 4). { eapply Rle_trans; [exact Nx|]. change 4 with (bpow radix2 2). apply bpow_le. lia. }
  destruct (A x Fx B4) as (Fs & _). destruct (small_prod e (sn x) x 0) as (F1 & B1 & B2); auto; try lia. { cbn. rewrite Rabs_right; lra. } unfold ell. apply small_sub; auto.
Qed.
Lemma hyp_small (sh : fl -> fl) d k (e x : fl) : accurate sh sinh d -> (0 <= k <= - L - 2 * prec - 3)%Z -> fin e -> Rabs (B2R e) <= bpow radix2 k -> fin x -> near_zero x -> fin (hyp sh e x) /\ Rabs (B2R (hyp sh e x)) <= u.
Proof.
  intros (A & B) Hk Fe He Fx Nx. pose proof (dims (prec:=prec) (emax:=emax)) as D. assert (B4 : Rabs (B2R x) <= 4). { eapply Rle_trans; [exact Nx|]. change 4 with (bpow radix2 2). apply bpow_le. lia. }
  destruct (A x Fx B4) as (Fs & _). destruct (small_prod e (sh x) x k) as (F1 & B1 & B2); auto; try lia. unfold hyp. apply small_sub; auto.
Qed.
(** pi and -pi as ends. *)
Lemma pi_ends (pi : fl) : like_pi pi -> good_end (ineg pi) /\ good_end pi /\ ~ near_zero (ineg pi) /\ ~ near_zero pi /\ B2R (ineg pi) = - B2R pi.
Proof.
  intros (F & B). pose proof (dims (prec:=prec) (emax:=emax)) as D. assert (V : B2R (ineg pi) = - B2R pi) by (unfold ineg; apply B2R_Bopp). assert (F' : fin (ineg pi)) by (unfold ineg; rewrite is_finite_Bopp; exact F).
  assert (X : 4 <= bpow radix2 (emax - 2)) by (change 4 with (bpow radix2 2); apply bpow_le; lia). assert (Y : least_normal prec emax < 1) by (unfold least_normal; change 1 with (bpow radix2 0); apply bpow_lt; lia).
  unfold good_end, near_zero. rewrite V, Rabs_Ropp, Rabs_right by lra. repeat split; auto; lra.
Qed.
Lemma within4 (pi x : fl) : like_pi pi -> within_ends (ineg pi) pi x -> fin x /\ Rabs (B2R x) <= 4.
Proof.
  intros H (F & W). destruct (pi_ends pi H) as (_ & _ & _ & _ & V). destruct H as (_ & B). rewrite V in W. split; auto. rewrite Rmin_left, Rmax_right in W by lra. apply Rabs_le. lra.
Qed.
(** The distance of the result from the real solution. *)
Lemma solution T (g : R -> R) D c (M pi r : fl) n E : like_pi pi -> fin M -> eps < Rabs (B2R M) ->
  (forall x, fin x -> Rabs (B2R x) <= 4 -> fin (T x) /\ Rabs (B2R (T x) - g (B2R x)) <= D) -> (forall y, continuity_pt g y) -> 0 < c -> (forall y z, c * Rabs (y - z) <= Rabs (g y - g z)) ->
  b_returns (fun x => isub (T x) M) (ineg pi) pi n r -> ~ same_sign (isub (T (ineg pi)) M) (isub (T pi) M) -> g E = B2R M ->
  Rabs (B2R r - E) <= D / c + 17 * u.
Proof.
  intros Hpi FM HM HT Cg Hc Gr R Ns HE. destruct (pi_ends pi Hpi) as (G1 & G2 & N1 & N2 & V). pose proof u0 as U. pose proof eps_u as E2. pose proof bL as BL.
  destruct (C96_result Hp (fun x => isub (T x) M) (ineg pi) pi n r G1 G2 R) as (l & h & _ & _ & Wl & Wh & Wr & Cl & Br). specialize (Br (- 2 * prec)%Z ltac:(lia)).
  assert (Ns' : ~ same_sign (isub (T l) M) (isub (T h) M)). { apply Br; auto. intros x _. apply (diff_size Hp); auto. } clear Br.
  destruct (within4 pi l Hpi Wl) as (Fl & Bl), (within4 pi h Hpi Wh) as (Fh & Bh). destruct (HT l Fl Bl) as (F1 & T1), (HT h Fh Bh) as (F2 & T2).
  destruct (diff_sign Hp (T l) M F1 FM) as (P1 & Q1), (diff_sign Hp (T h) M F2 FM) as (P2 & Q2).
  assert (D0 : 0 <= D) by (eapply Rle_trans; [apply Rabs_pos|exact T1]).
  assert (Sp : (B2R (T l) <= B2R M /\ B2R M <= B2R (T h)) \/ (B2R (T h) <= B2R M /\ B2R M <= B2R (T l))).
  { destruct (Rle_or_lt (B2R (T l)) (B2R M)) as [X|X], (Rle_or_lt (B2R (T h)) (B2R M)) as [Y|Y]; try lra.
    - destruct X as [X|X]; [|lra]. destruct Y as [Y|Y]; [|lra]. exfalso. apply Ns'. right. split; [apply Q1|apply Q2]; lra.
    - exfalso. apply Ns'. left. split; [apply P1|apply P2]; lra. }
  apply Rabs_le_inv in T1, T2. destruct (almost g (B2R l) (B2R h) (B2R M) D) as (y & Hy & Gy); [intros; apply Cg|exact D0|destruct Sp; [left|right]; lra|].
  rewrite <- HE in Gy. pose proof (Gr y E) as K. assert (YE : Rabs (y - E) <= D / c). { apply Rmult_le_reg_l with c; auto. replace (c * (D / c)) with D by (field; lra). lra. }
  assert (RY : Rabs (B2R r - y) <= Rabs (B2R h - B2R l)).
  { destruct Wr as (_ & Wr). unfold Rmin, Rmax in Wr, Hy. destruct (Rle_dec (B2R l) (B2R h)); unfold Rabs; repeat match goal with |- context [Rcase_abs ?z] => destruct (Rcase_abs z) end; lra. }
  assert (W : Rabs (B2R h - B2R l) <= 17 * u) by nra. replace (B2R r - E) with ((B2R r - y) + (y - E)) by ring. eapply Rle_trans; [apply Rabs_triang|]. lra.
Qed.
End P.
