(** Properties C53, C59 and C60: the Gauss-Radau integrator and the IAS15 iterator. *)
From Verif Require Import System_Spec Chain_Proofs System_Proofs System_Proofs2 BS_Proofs3.
From Coq Require Import FunctionalExtensionality.
From Verif Require Import Ctrl_Spec Ctrl_Proofs Radau_Spec Radau_Proofs Radau_Proofs2 Radau_Proofs3 Radau_Proofs4 Radau_Proofs5.
Open Scope R_scope.

(** * C53: tables, predictor, corrector *)
(** The two triangular tables invert each other up to the rounding of their literals. *)
Lemma comp_g2b n T x i : (x < n)%nat -> (i < 7)%nat -> comp (transform_g2b n T) x i = conv g2b (comp T x) i.
Proof. intros Hx Hi. apply (combine_at n T g2b i x Hx Hi). Qed.
Lemma comp_b2g n T x i : (x < n)%nat -> (i < 7)%nat -> comp (transform_b2g n T) x i = conv b2g (comp T x) i.
Proof. intros Hx Hi. apply (combine_at n T b2g i x Hx Hi). Qed.
Lemma conv_ext c v w m : (forall j, (j < 7)%nat -> v j = w j) -> conv c v m = conv c w m.
Proof. intros H. unfold conv. apply rsum_ext. intros j Hj. rewrite H by auto. reflexivity. Qed.
Theorem C53_tables_inverse n T x m : (x < n)%nat -> (m < 7)%nat ->
  Rabs (comp (transform_g2b n (transform_b2g n T)) x m - comp T x m) <= / 10 ^ 28 * size7 (comp T x) /\
  Rabs (comp (transform_b2g n (transform_g2b n T)) x m - comp T x m) <= / 10 ^ 28 * size7 (comp T x).
Proof.
  intros Hx Hm. rewrite comp_g2b, comp_b2g by auto. split.
  - rewrite (conv_ext _ _ (conv b2g (comp T x))) by (intros; apply comp_b2g; auto). apply conv_g2b_b2g; auto.
  - rewrite (conv_ext _ _ (conv g2b (comp T x))) by (intros; apply comp_g2b; auto). apply conv_b2g_g2b; auto.
Qed.
(** Both coefficient vectors describe the same polynomial on the step. *)
Theorem C53_newton_and_monomial_forms n T x dy0 s : (x < n)%nat -> Rabs s <= 1 ->
  Rabs (newton_poly dy0 (comp T x) s - force_poly dy0 (comp (transform_g2b n T) x) s) <= / 10 ^ 28 * size7 (comp T x).
Proof.
  intros Hx Hs. replace (force_poly dy0 (comp (transform_g2b n T) x) s) with (force_poly dy0 (conv g2b (comp T x)) s); [apply newton_vs_monomial; auto|].
  unfold force_poly. f_equal. apply rsum_ext. intros i Hi. rewrite comp_g2b by auto. reflexivity.
Qed.
(** The predictor: the memorised coefficients describe the force polynomial re-expanded about the end of
    the step for a step q times as long (exactly), and b is corrected by the last prediction error. *)
Theorem C53_predictor q G n x dy0 s : g_n G = n -> (x < n)%nat -> let G' := predict q G in
  force_poly dy0 (comp (g_b G) x) 1 + rsum (fun i => comp (g_old G') x i * s ^ (i + 1)) 7 = force_poly dy0 (comp (g_b G) x) (1 + q * s) /\
  (forall i, (i < 7)%nat -> comp (g_b G') x i = comp (g_old G') x i + (comp (g_b G) x i - comp (g_old G) x i) /\
                            comp (g_g G') x i = comp (transform_b2g n (g_b G')) x i) /\
  g_in G' = g_in G /\ g_dy0 G' = g_dy0 G /\ gr_sized n G'.
Proof.
  intros Hn Hx G'. destruct (predict_spec q n G Hn) as (S & I1 & I2 & _ & _ & V). fold G' in S, I1, I2, V. split; [|split; [|auto]].
  - rewrite (rsum_ext (fun i => comp (g_old G') x i * s ^ (i + 1)) (fun i => oldv q (comp (g_b G) x) i * s ^ (i + 1))).
    + rewrite (oldv_shift q _ dy0). lra.
    + intros i Hi. destruct (V i x Hi Hx) as (-> & _). reflexivity.
  - intros i Hi. destruct (V i x Hi Hx) as (E1 & E2 & E3). split; [rewrite E2, E1; reflexivity|]. rewrite E3, comp_b2g by auto. reflexivity.
Qed.
(** Stage and end states lie on the exact integral of the force polynomial. *)
Theorem C53_states_on_path n G step : gr_sized n G -> length (g_in G) = n ->
  (forall j x, (x < n)%nat -> at_ (stage_state G step j) x = path (at_ (g_in G) x) (at_ (g_dy0 G) x) (comp (g_b G) x) step (hs j)) /\
  (forall x, (x < n)%nat -> at_ (evaluate_state G step) x = path (at_ (g_in G) x) (at_ (g_dy0 G) x) (comp (g_b G) x) step 1) /\
  length (evaluate_state G step) = n /\ (forall j, length (stage_state G step j) = n).
Proof.
  intros S L. split; [intros; apply (stage_path n); auto|]. split; [intros; apply evaluate_path; lia|].
  split; [rewrite evaluate_len; auto|]. intros. apply stage_len; auto.
Qed.
Theorem C53_path_is_the_integral y dy0 b step s : path y dy0 b step 0 = y /\ derivable_pt_lim (path y dy0 b step) s (step * force_poly dy0 b s).
Proof.
  split; [|apply path_derive]. unfold path. rewrite (rsum_ext _ (fun _ => 0)); [rewrite rsum_zero; ring|]. intros i _. rewrite pow_ne_zero by lia. unfold Rdiv. ring.
Qed.
(** One corrector pass: the Newton polynomial interpolates the derivatives evaluated at the stage states;
    the state ends where it started. *)
Theorem C53_pass_interpolates {P} (wr : P -> list R) rd deriv n G p step G' p' :
  (forall p y q, rd p y = Ok q -> wr q = y) -> gr_sized (g_n G) G -> length (wr p) = n -> correct wr rd deriv G p step = Ok (G', p') ->
  exists d0 p0, deriv p = Ok (d0, p0) /\
  wr p' = wr p /\ g_in G' = wr p /\ g_dy0 G' = d0 /\ gr_sized n G' /\
  forall k, (k < 7)%nat -> exists b q d q', deriv q = Ok (d, q') /\
    (forall x, (x < n)%nat -> at_ (wr q) x = path (at_ (wr p) x) (at_ d0 x) (fun i => b i x) step (hs k)) /\
    forall x, (x < n)%nat -> Rabs (newton_poly (at_ d0 x) (comp (g_g G') x) (hs k) - at_ d x) <=
      / 10 ^ 28 * (Rabs (at_ d x - at_ d0 x) + rsum (fun j => Rabs (comp (g_g G') x j)) k).
Proof.
  intros RD HG L H. destruct (correct_spec wr rd deriv n G p step G' p' HG L H) as (d0 & p0 & Ed & S & I1 & I2 & _ & _ & _ & St & (q0 & R0)). exists d0, p0. split; [exact Ed|].
  split; [apply (RD _ _ _ R0)|]. split; auto. split; auto. split; auto. intros k Hk. destruct (St k Hk) as (Gj & pj & qj & dj & rj & A1 & A2 & A3 & A4 & A4' & _ & A6 & _).
  exists (fun i x => comp (g_b Gj) x i), qj, dj, rj. split; [exact A4'|]. rewrite (RD _ _ _ A4). split.
  - intros x Hx. rewrite (stage_path n Gj step k x A1 Hx), A2, A3. reflexivity.
  - intros x Hx. apply interpolate_one; auto.
Qed.
(** At a fixed point of the corrector iteration (coefficients unchanged by a pass) the force polynomial
    agrees at every node with the derivative at the state on the path through that node: collocation. *)
Theorem C53_fixed_point_collocates {P} (wr : P -> list R) rd deriv n G p step G' p' :
  (forall p y q, rd p y = Ok q -> wr q = y) -> gr_sized n G -> length (wr p) = n -> correct wr rd deriv G p step = Ok (G', p') ->
  (forall x i, (x < n)%nat -> (i < 7)%nat -> comp (g_g G') x i = comp (g_g G) x i) ->
  exists d0 p0, deriv p = Ok (d0, p0) /\ forall k, (k < 7)%nat -> exists q d q', deriv q = Ok (d, q') /\
    (forall x, (x < n)%nat -> at_ (wr q) x = path (at_ (wr p) x) (at_ d0 x) (comp (g_b G') x) step (hs k)) /\
    forall x, (x < n)%nat -> Rabs (newton_poly (at_ d0 x) (comp (g_g G') x) (hs k) - at_ d x) <=
      / 10 ^ 28 * (Rabs (at_ d x - at_ d0 x) + rsum (fun j => Rabs (comp (g_g G') x j)) k).
Proof.
  intros RD HG L H Fix. assert (HG' : gr_sized (g_n G) G) by (assert (X : g_n G = n) by apply HG; rewrite X; exact HG).
  destruct (correct_spec wr rd deriv n G p step G' p' HG' L H) as (d0 & p0 & Ed & S & I1 & I2 & _ & _ & Bk & St & _). exists d0, p0. split; [exact Ed|]. intros k Hk.
  assert (En : entry n G = G) by (unfold entry, check_size; rewrite (proj1 HG), Nat.eqb_refl; reflexivity). rewrite En in *.
  destruct (St k Hk) as (Gj & pj & qj & dj & rj & A1 & A2 & A3 & A4 & A4' & _ & A6 & A7). exists qj, dj, rj. split; [exact A4'|]. rewrite (RD _ _ _ A4). split.
  - intros x Hx. rewrite (stage_path n Gj step k x A1 Hx), A2, A3. unfold path. do 3 f_equal. apply rsum_ext. intros i Hi. rewrite A7, Bk by auto. reflexivity.
  - intros x Hx. apply interpolate_one; auto.
Qed.
(** The two tables kept by the integrator describe the same polynomial: the difference between b and the
    converted g is untouched by corrector passes, zero for a fresh integrator and of rounding size after
    every prediction. *)
Theorem C53_tables_stay_consistent {P} (wr : P -> list R) rd deriv n G (p : P) step G' p' q x i : (x < n)%nat -> (i < 7)%nat ->
  gr_sized n G -> length (wr p) = n -> correct wr rd deriv G p step = Ok (G', p') ->
  let gap G := comp (g_b G) x i - comp (transform_g2b n (g_g G)) x i in
  gap G' = gap G /\ Rabs (gap (predict q G)) <= / 10 ^ 28 * size7 (comp (g_b (predict q G)) x) /\ gap (check_size n gr_init) = 0.
Proof.
  intros Hx Hi HG L H gap. assert (HG' : gr_sized (g_n G) G) by (assert (X : g_n G = n) by apply HG; rewrite X; exact HG).
  assert (gd : forall G, gap G = disc G x i) by (intros; unfold gap, disc; rewrite comp_g2b by auto; reflexivity).
  destruct (correct_spec wr rd deriv n G p step G' p' HG' L H) as (d0 & p0 & _ & _ & _ & _ & _ & D & _).
  assert (En : entry n G = G) by (unfold entry, check_size; rewrite (proj1 HG), Nat.eqb_refl; reflexivity). rewrite En in *.
  split; [rewrite !gd; auto|]. split.
  - destruct (predict_spec q n G (proj1 HG)) as (_ & _ & _ & _ & _ & V). unfold gap. rewrite comp_g2b by auto.
    rewrite (conv_ext _ _ (conv b2g (comp (g_b (predict q G)) x))).
    + rewrite Rabs_minus_sym. apply conv_g2b_b2g; auto.
    + intros j Hj. destruct (V j x Hj Hx) as (_ & _ & ->). reflexivity.
  - destruct n; [lia|]. unfold check_size. cbn [g_n gr_init Nat.eqb]. cbv zeta. unfold gap. cbn [g_b g_g]. rewrite comp_g2b by auto. unfold conv, comp.
    rewrite (rsum_ext _ (fun _ => 0)); [rewrite rsum_zero|]; [change (nth x (arr (S n) (fun _ => 0)) 0) with (at_ (arr (S n) (fun _ => 0)) x)|intros j _; change (nth x (arr (S n) (fun _ => 0)) 0) with (at_ (arr (S n) (fun _ => 0)) x)];
      rewrite arr_at by auto; [ring|]. destruct (i <=? j)%nat; ring.
Qed.
(** Order 15: a polynomial of degree <= 14 and its interpolant of degree <= 7 on the eight nodes have the
    same integral over the step, up to the rounding of the node literals. *)
Theorem C53_quadrature_order p r u v : (length p <= 15)%nat -> (length r <= 8)%nat ->
  (forall i, (i < 8)%nat -> pvalue p (radau_node i) = pvalue r (radau_node i)) ->
  integral01 (pvalue p) u -> integral01 (pvalue r) v -> Rabs (u - v) <= / 10 ^ 19 * (psize p + psize r).
Proof. apply quadrature. Qed.
Theorem C53_nodes_increasing i j : (i < j)%nat -> (j < 8)%nat -> 0 <= radau_node i < radau_node j /\ radau_node j <= 1.
Proof.
  intros H Hj. destruct j as [|j]; [lia|]. cbn [radau_node]. destruct (hs_range j ltac:(lia)) as (A & B). destruct i as [|i]; cbn [radau_node]; [lra|].
  destruct (hs_range i ltac:(lia)). pose proof (hs_incr i j ltac:(lia) ltac:(lia)). lra.
Qed.
(** A fresh integrator on the one-component system dy/dt = y. *)
Example C53_pass_exists : exists G' p', correct (fun p => p) (fun _ y => Ok y) (fun p => Ok (p, p)) gr_init [1] (1/2) = Ok (G', p') /\ gr_sized (g_n gr_init) gr_init.
Proof. eexists. eexists. split; [reflexivity|]. apply sized_init. Qed.
Print Assumptions C53_tables_inverse. Print Assumptions C53_newton_and_monomial_forms. Print Assumptions C53_predictor. Print Assumptions C53_states_on_path.
Print Assumptions C53_path_is_the_integral. Print Assumptions C53_pass_interpolates. Print Assumptions C53_fixed_point_collocates. Print Assumptions C53_tables_stay_consistent.
Print Assumptions C53_quadrature_order. Print Assumptions C53_nodes_increasing.

(** * C59: step discipline of the IAS15 iterator *)
(** A call that returns: the last pass started from the array the call was given, with a step obtained
    from the macro step by the rejected ratios (each <= the limiter's minimum); its ratio is above the
    minimum; the system is left on the path of that pass, and the step returned is the accepted one times
    the limited ratio. *)
Section C59.
  Context {P : Type} (wr : P -> list R) (rd : P -> list R -> outcome P) (deriv : P -> outcome (list R * P)).
  Context (pcerr : list R -> list R -> ext) (serr : list R -> list R -> P -> R -> outcome R) (ratio_of lim : R -> R) (lmin : R).
  Notation loop := (ias_loop wr rd deriv pcerr serr ratio_of lim lmin).
  Lemma rgtb_true a b : rgtb a b = true -> b < a. Proof. unfold rgtb. destruct (Rlt_dec b a); [auto|discriminate]. Qed.
  Lemma rgtb_false a b : rgtb a b = false -> a <= b. Proof. unfold rgtb. destruct (Rlt_dec b a); [discriminate|lra]. Qed.
  Lemma ias_trace (RD : forall p y q, rd p y = Ok q -> wr q = y) : forall fuel k A p h A' p' h', gr_sized (g_n (i_gr A)) (i_gr A) ->
    loop fuel k A p h = Some (Ok (A', p', h')) ->
    exists pa G G1 p1 hacc d e r, wr pa = wr p /\ correct wr rd deriv G pa hacc = Ok (G1, p1) /\ (serr (g_dyh G1) (g_b G1 6%nat) p1 hacc = Ok e /\ r = ratio_of e) /\
      gr_sized (g_n G1) G1 /\ g_n G1 = length (wr p) /\ g_in G1 = wr p /\ (exists q, deriv pa = Ok (d, q)) /\ g_dy0 G1 = d /\
      lmin < r /\ shrunk ratio_of lmin h hacc /\ h' = hacc * lim r /\ wr p' = evaluate_state G1 hacc /\ i_gr A' = predict (lim r) G1.
  Proof.
    induction fuel as [|f IH]; intros k A p h A' p' h' HG H; [discriminate|]. cbn [ias_loop] in H.
    destruct (k <? 30)%nat; [|discriminate].
    destruct (correct wr rd deriv (i_gr A) p h) as [[G1 p1]| |] eqn:C; try discriminate. pose proof C as C0.
    destruct (correct_spec wr rd deriv (length (wr p)) (i_gr A) p h G1 p1 HG eq_refl C) as (d0 & pd & Ed & S1 & C1 & C2 & _ & _ & _ & _ & (q0 & Rq)). apply RD in Rq.
    assert (Gn : g_n G1 = length (wr p)) by apply S1. assert (S1' : gr_sized (g_n G1) G1) by (rewrite Gn; exact S1).
    unfold in_window in H. cbn [i_gr i_last i_warm] in H. set (e := pcerr (g_dyh G1) (g_dg G1)) in *.
    assert (Go : forall A2 k2 h2, gr_sized (g_n (i_gr A2)) (i_gr A2) -> loop f k2 A2 p1 h2 = Some (Ok (A', p', h')) ->
      exists pa G G1 p1 hacc d e r, wr pa = wr p /\ correct wr rd deriv G pa hacc = Ok (G1, p1) /\ (serr (g_dyh G1) (g_b G1 6%nat) p1 hacc = Ok e /\ r = ratio_of e) /\
      gr_sized (g_n G1) G1 /\ g_n G1 = length (wr p) /\ g_in G1 = wr p /\ (exists q, deriv pa = Ok (d, q)) /\ g_dy0 G1 = d /\
      lmin < r /\ shrunk ratio_of lmin h2 hacc /\ h' = hacc * lim r /\ wr p' = evaluate_state G1 hacc /\ i_gr A' = predict (lim r) G1).
    { intros A2 k2 h2 S2 H2. apply IH in H2; auto. rewrite Rq in H2. exact H2. }
    destruct (egt (Fin 1) e || ele (i_last A) e); cbn [i_gr i_last i_warm] in H.
    - destruct (serr (g_dyh G1) (g_b G1 6%nat) p1 h) as [es| |] eqn:Es; try discriminate. set (r := ratio_of _) in *. destruct (rgtb r lmin) eqn:Er.
      + destruct (evaluate rd G1 p1 h) as [p2| |] eqn:Ev; cbn [obind] in H; try discriminate. cbv zeta in H.
        assert (X : A' = mkIas (predict (lim r) G1) PInf true) by congruence. assert (p' = p2) by congruence. assert (h' = h * lim r) by congruence. subst A' p' h'.
        exists p, (i_gr A), G1, p1, h, d0, es, r. split; auto. split; auto. split; [split; [exact Es|reflexivity]|]. split; auto. split; auto. split; auto. split; [eauto|]. split; auto. split; [apply rgtb_true; auto|]. split; [constructor|]. split; auto.
        split; [|reflexivity]. apply (RD _ _ _ Ev).
      + apply Go in H; [|cbn [i_gr]; destruct (i_warm A); auto; pose proof (proj1 (predict_spec r (length (wr p)) G1 Gn)) as Z; assert (X : g_n (predict r G1) = length (wr p)) by apply Z; rewrite X; auto].
        destruct H as (pa & G & G2 & p2 & hacc & d2 & e2 & r2 & Q1 & Q2 & Q3 & Q4 & Q5 & Q6 & Q7' & Q7 & Q8 & Q9 & Q10 & Q11 & Q12). exists pa, G, G2, p2, hacc, d2, e2, r2.
        split; auto. split; auto. split; auto. split; auto. split; auto. split; auto. split; auto. split; auto. split; auto.
        split; [|auto]. apply shr_first with r; auto; [apply rgtb_false; auto|eexists; reflexivity].
    - apply Go in H; auto.
  Qed.
  Theorem C59_accepted_step fuel A p macro A' p' h' : (forall p y q, rd p y = Ok q -> wr q = y) -> gr_sized (g_n (i_gr A)) (i_gr A) ->
    ias_iterate wr rd deriv pcerr serr ratio_of lim lmin fuel A p macro = Some (Ok (A', p', h')) ->
    exists pa G G1 p1 hacc d q e r, wr pa = wr p /\ deriv pa = Ok (d, q) /\ correct wr rd deriv G pa hacc = Ok (G1, p1) /\
      serr (g_dyh G1) (g_b G1 6%nat) p1 hacc = Ok e /\ r = ratio_of e /\ lmin < r /\ shrunk ratio_of lmin macro hacc /\ h' = hacc * lim r /\
      length (wr p') = length (wr p) /\
      (forall x, (x < length (wr p))%nat -> at_ (wr p') x = path (at_ (wr p) x) (at_ d x) (comp (g_b G1) x) hacc 1) /\
      i_gr A' = predict (lim r) G1 /\ gr_sized (length (wr p)) (i_gr A').
  Proof.
    intros RD HG H. destruct (ias_trace RD fuel 0%nat A p macro A' p' h' HG H) as (pa & G & G1 & p1 & hacc & d & e & r & Q1 & Q2 & (Q3 & Q3') & Q4 & Q5 & Q6 & (q & Q7') & Q7 & Q8 & Q9 & Q10 & Q11 & Q12).
    exists pa, G, G1, p1, hacc, d, q, e, r. split; auto. split; auto. split; auto. split; auto. split; auto. split; auto. split; auto. split; auto. rewrite Q11, evaluate_len, Q6. split; auto. split.
    - intros x Hx. rewrite evaluate_path, Q6, Q7 by (rewrite Q6; auto). reflexivity.
    - split; auto. rewrite Q12. apply predict_spec. auto.
  Qed.
  (** With positive ratios and a minimum below one, rejections only shrink the step and keep its sign. *)
  Theorem C59_step_only_shrinks h hacc : (forall e, 0 < ratio_of e) -> lmin <= 1 -> shrunk ratio_of lmin h hacc -> 0 < h -> 0 < hacc <= h.
  Proof.
    intros Pos Lm S. induction S as [h|h h1 r Hr (e & ->) S IH]; intros Hh; [lra|]. specialize (Pos e). assert (0 < h * ratio_of e <= h * 1) by (split; [apply Rmult_lt_0_compat; auto|apply Rmult_le_compat_l; lra]).
    destruct IH; lra.
  Qed.
  (** A call without rejected steps ends after at most 30 corrector passes. *)
  Theorem C59_bounded_without_rejection A p macro : (forall e, lmin < ratio_of e) -> ias_iterate wr rd deriv pcerr serr ratio_of lim lmin 31 A p macro <> None.
  Proof.
    intros Hr. unfold ias_iterate.
    assert (G : forall f k A p h, (k + f = 30)%nat -> loop (S f) k A p h <> None).
    { induction f as [|f IH]; intros k A2 p2 h2 Hk; [rewrite Nat.add_0_r in Hk; subst k; discriminate|].
      cbn [ias_loop]. destruct (k <? 30)%nat; [|discriminate]. destruct (correct wr rd deriv (i_gr A2) p2 h2) as [[G1 p1]| |]; try discriminate.
      destruct (in_window pcerr _) as [cv A3]. destruct cv; [|apply IH; lia]. destruct (serr _ _ _ _); try discriminate.
      match goal with |- (if rgtb ?r _ then _ else _) <> None => assert (Er : rgtb r lmin = true) by (unfold rgtb; destruct (Rlt_dec lmin r) as [|N]; [auto|exfalso; apply N, Hr]); rewrite Er end. discriminate. }
    apply (G 30%nat 0%nat). reflexivity.
  Qed.
End C59.

(** The controller of the iterator, IAS15.hpp:83-84: a step is accepted iff its error is below 3.4^7
    (about 5252, not 1); the next step is 0.85 e^(-1/7) times the accepted one, within [1/4, 4]. *)
Theorem C59_acceptance_threshold e : 0 < e -> exists r lo, next ias_ctrl 7 (Err1 (Fin e)) = Ok (Fin r) /\ aget (c_min ias_ctrl) 0 = Ok lo /\
  lo = 1 / 4 /\ r = 0.85 * Rpower (1 / e) (1 / 7) /\ (lo < r <-> e < 3.4 ^ 7) /\
  limiter ias_ctrl 0 (Fin r) = Ok (Fin (Rmax (1 / 4) (Rmin r 4))).
Proof.
  intros He. assert (Ex : INR 7 = 7) by (cbn; lra).
  pose proof (next_pos [SetGuards 0.85 1; SetLimiter 0.02 4] 7 0.85 1 e ltac:(lia) eq_refl ltac:(lra) He) as N. fold ias_ctrl in N. rewrite Ex in N.
  eexists. exists (1 / 4). split; [exact N|]. split; [exact (min_get _ 0 ltac:(lia))|]. split; [reflexivity|]. split; [reflexivity|]. split.
  - assert (T : 3.4 ^ 7 = / Rpower (1 / 3.4) 7).
    { rewrite <- Ex, Rpower_pow by lra. cbn [pow]. field; lra. }
    rewrite T.
    assert (P7 : forall x, 0 < x -> Rpower (Rpower x (1 / 7)) 7 = x). { intros x Hx. rewrite Rpower_mult. replace (1 / 7 * 7) with 1 by field. apply Rpower_1; auto. }
    assert (Pe : 0 < 1 / e) by (unfold Rdiv; rewrite Rmult_1_l; apply Rinv_0_lt_compat; auto).
    assert (Pp : 0 < Rpower (1 / e) (1 / 7)) by (unfold Rpower; apply exp_pos).
    assert (Key : 1 / 3.4 < Rpower (1 / e) (1 / 7) <-> Rpower (1 / 3.4) 7 < 1 / e).
    { split; intros H.
      - rewrite <- (P7 (1 / e) Pe). apply Rlt_Rpower_l; lra.
      - destruct (Rlt_le_dec (1 / 3.4) (Rpower (1 / e) (1 / 7))) as [|Le]; auto. exfalso.
        apply (Rlt_irrefl (1 / e)). eapply Rle_lt_trans; [|exact H]. rewrite <- (P7 (1 / e) Pe) at 1. apply Rle_Rpower_l; lra. }
    assert (Pq : 0 < Rpower (1 / 3.4) 7) by (unfold Rpower; apply exp_pos).
    split; intros H.
    + assert (K : 1 / 3.4 < Rpower (1 / e) (1 / 7)) by lra. apply Key in K. unfold Rdiv at 2 in K. rewrite Rmult_1_l in K.
      rewrite <- (Rinv_inv e). apply Rinv_lt_contravar; auto. apply Rmult_lt_0_compat; auto. apply Rinv_0_lt_compat; auto.
    + assert (K : Rpower (1 / 3.4) 7 < 1 / e).
      { unfold Rdiv at 2. rewrite Rmult_1_l. rewrite <- (Rinv_inv (Rpower (1 / 3.4) 7)). apply Rinv_lt_contravar; auto. apply Rmult_lt_0_compat; auto. apply Rinv_0_lt_compat; auto. }
      apply Key in K. lra.
  - unfold limiter, ias_ctrl. rewrite (min_get _ 0) by lia. cbn [obind]. rewrite (max_get _ 0) by lia. cbn [obind low_factor high_factor]. rewrite in_range_fin by lra. reflexivity.
Qed.

(** The loop has no bound on the number of rejections (the counter restarts): if no step ever meets the
    threshold the call does not return, whatever the number of iterations. *)
Theorem C59_unbounded_rejections_refuted : exists (wr : list R -> list R) rd deriv pcerr serr ratio_of lim lmin A p macro,
  (forall p y q, rd p y = Ok q -> wr q = y) /\ gr_sized (g_n (i_gr A)) (i_gr A) /\ lmin = 1 / 4 /\ (forall e, 0 < ratio_of e < 1) /\
  (forall fuel, ias_iterate wr rd deriv pcerr serr ratio_of lim lmin fuel A p macro = None).
Proof.
  exists (fun p => p), (fun _ y => Ok y), (fun p => Ok (p, p)), (fun _ _ => Fin 0), (fun _ _ _ _ => Ok (10 ^ 6)), (fun _ => 1 / 8), (fun x => x), (1 / 4), (mkIas gr_init PInf false), [1], 1.
  split; [congruence|]. split; [apply sized_init|]. split; [reflexivity|]. split; [intros; lra|]. intros fuel. unfold ias_iterate.
  assert (T : forall k G p h, exists G' p', stages (fun (_ : list R) y => Ok y) (fun p => Ok (p, p)) k G p h = Ok (G', p')).
  { induction k as [|k IH]; intros G p h; [exists G, p; reflexivity|]. cbn [stages obind]. apply IH. }
  assert (Gen : forall f k A p h, (k < 2)%nat -> ias_loop (fun p : list R => p) (fun _ y => Ok y) (fun p => Ok (p, p)) (fun _ _ => Fin 0) (fun _ _ _ _ => Ok (10 ^ 6)) (fun _ => 1 / 8) (fun x => x) (1 / 4) f k A p h = None).
  { induction f as [|f IH]; intros k A p h Hk; [reflexivity|]. cbn [ias_loop]. assert (Ek : (k <? 30)%nat = true) by (apply Nat.ltb_lt; lia). rewrite Ek.
    unfold correct. cbv zeta. cbn [obind]. match goal with |- context [stages _ _ 7 ?G ?p0 ?h0] => destruct (T 7%nat G p0 h0) as (G' & p' & ->) end.
    unfold in_window. assert (E1 : egt (Fin 1) (Fin 0) = true) by (cbn; unfold rgtb; destruct (Rlt_dec 0 1); [auto|lra]). rewrite E1. cbn [orb].
    assert (E2 : rgtb (1 / 8) (1 / 4) = false) by (unfold rgtb; destruct (Rlt_dec (1 / 4) (1 / 8)); [lra|auto]). rewrite E2. apply IH. lia. }
  apply Gen. lia.
Qed.
(** A call that returns at the first pass. *)
Example C59_ex : exists A' p' h', ias_iterate (fun p : list R => p) (fun _ y => Ok y) (fun p => Ok ([1], p)) (fun _ _ => Fin 0) (fun _ _ _ _ => Ok 0) (fun _ => 2) (fun x => x) (1 / 4) 1 (mkIas gr_init PInf false) [0] 1
  = Some (Ok (A', p', h')) /\ h' = 2.
Proof.
  unfold ias_iterate. cbn [ias_loop]. change (0 <? 30)%nat with true. cbn iota. unfold correct. cbv zeta. cbn [obind].
  assert (T : forall k G p h, exists G' p', stages (fun (_ : list R) y => Ok y) (fun p : list R => Ok ([1], p)) k G p h = Ok (G', p')).
  { induction k as [|k IH]; intros G p h; [exists G, p; reflexivity|]. cbn [stages obind]. apply IH. }
  match goal with |- context [stages _ _ 7 ?G ?p0 ?h0] => destruct (T 7%nat G p0 h0) as (G' & p' & ->) end.
  unfold in_window. assert (E1 : egt (Fin 1) (Fin 0) = true) by (cbn; unfold rgtb; destruct (Rlt_dec 0 1); [auto|lra]). rewrite E1. cbn [orb i_gr i_last i_warm].
  assert (E2 : rgtb 2 (1 / 4) = true) by (unfold rgtb; destruct (Rlt_dec (1 / 4) 2); [auto|lra]). rewrite E2.
  eexists. eexists. eexists. split; [reflexivity|]. ring.
Qed.
Print Assumptions C59_accepted_step. Print Assumptions C59_step_only_shrinks. Print Assumptions C59_bounded_without_rejection. Print Assumptions C59_acceptance_threshold. Print Assumptions C59_unbounded_rejections_refuted.

(** * C60: conservation laws of IAS15 runs *)
(** Any history of calls, each with its own macro step. *)
Inductive calls (iter : ias -> st -> R -> option (outcome (ias * st * R))) : ias -> st -> ias -> st -> Prop :=
| calls_none A s : calls iter A s A s
| calls_more A s h A1 s1 h1 A' s' : iter A s h = Some (Ok (A1, s1, h1)) -> calls iter A1 s1 A' s' -> calls iter A s A' s'.
Definition fresh_ias : ias := mkIas gr_init PInf false.
Lemma calm_init I e m P0 : calm I e m P0 fresh_ias.
Proof. split; [apply sized_init|]. intros a Ha. split; apply flat_init. Qed.
Lemma conserve_form a b t t' P0 : vsub a (vscal t' P0) = vsub b (vscal t P0) -> a = vadd b (vscal (t' - t) P0).
Proof.
  intros H. assert (X := f_equal vx H). assert (Y := f_equal vy H). assert (Z := f_equal vz H). destruct a, b, P0. cbn in *. unfold vadd, vscal. cbn. f_equal; lra.
Qed.
(** A history of calls on a system [wr]/[rd]/[deriv], generic over the two systems. *)
Section Hist.
  Context (I : inter) (e : nat) (s0 : st) (He : e = 1%nat \/ e = 3%nat) (wr : st -> list R) (rd : st -> list R -> outcome st) (deriv : st -> outcome (list R * st)).
  Context (W : forall s, wr s = gwrite I e s) (RG : forall p y q, good I e s0 p -> rd p y = Ok q -> good I e s0 q /\ wr q = y).
  Context (DG : forall p d q, good I e s0 p -> deriv p = Ok (d, q) -> good I e s0 q).
  Context (DV : forall p d q, good I e s0 p -> deriv p = Ok (d, q) -> let m := s_m s0 in let n := variable_number I e (length m) in exists k, forall a, (a < 3)%nat -> lin n (cf m (vel_offset (length m) + a)) d = 0 /\
      lin n (cf m (pos_offset + a)) d = k * ax a (momentum p) /\ lin n (unitc 0) d = k).
  Context (pcerr : list R -> list R -> ext) (serr : list R -> list R -> st -> R -> outcome R) (ratio_of lim : R -> R) (lmin : R) (fuel : nat).
  Notation it := (fun A s h => ias_iterate wr rd deriv pcerr serr ratio_of lim lmin fuel A s h).
  Lemma RG' p y q : good I e s0 p -> rd p y = Ok q -> good I e s0 q /\ gwrite I e q = y. Proof. rewrite <- W. apply RG. Qed.
  Lemma to_gwrite A p h : it A p h = ias_iterate (gwrite I e) rd deriv pcerr serr ratio_of lim lmin fuel A p h.
  Proof. replace (gwrite I e) with wr; auto. apply functional_extensionality. exact W. Qed.
  Lemma hist_conserves s' A' : good I e s0 s0 -> calls it fresh_ias s0 A' s' ->
    momentum s' = momentum s0 /\ s_m s' = s_m s0 /\ moment s' = vadd (moment s0) (vscal (s_t s' - s_t s0) (momentum s0)).
  Proof.
    intros G0 H.
    assert (Gen : forall A p A' p', calm I e (s_m s0) (momentum s0) A -> good I e s0 p -> momentum p = momentum s0 -> calls it A p A' p' ->
       good I e s0 p' /\ momentum p' = momentum s0 /\ vsub (moment p') (vscal (s_t p') (momentum s0)) = vsub (moment p) (vscal (s_t p) (momentum s0))).
    { clear A' s' H. intros A p A' p' Ca Gp Pp Hc. revert Ca Gp Pp. induction Hc as [A p|A p h A1 p1 h1 A2 p2 Hi Hc IH]; intros Ca Gp Pp; [auto|]. rewrite to_gwrite in Hi.
      destruct (run_call I e s0 He rd deriv RG' DG DV pcerr serr ratio_of lim lmin fuel A p h A1 p1 h1 Ca Gp Pp Hi) as (C1 & G1 & P1 & M1).
      destruct (IH C1 G1 P1) as (G2 & P2 & M2). split; auto. split; auto. congruence. }
    destruct (Gen fresh_ias s0 A' s' (calm_init I e _ _) G0 eq_refl H) as ((_ & E) & Pm & Mm). split; auto. split; auto. apply conserve_form. auto.
  Qed.
End Hist.
(** Plain system: momentum, centre-of-mass motion and masses over every history of calls, for every error
    checker, controller and force obeying the third law. *)
Theorem C60_simple_conserves I pcerr serr ratio_of lim lmin fuel s A' s' : sized I -> balanced I -> well_sized I 1 s ->
  calls (fun A s h => ias_iterate (write I) (read I) (simple_deriv I) pcerr serr ratio_of lim lmin fuel A s h) fresh_ias s A' s' ->
  momentum s' = momentum s /\ s_m s' = s_m s /\ moment s' = vadd (moment s) (vscal (s_t s' - s_t s) (momentum s)).
Proof.
  intros HI HB W H. eapply (hist_conserves I 1 s (or_introl eq_refl)); [| | | | |exact H].
  - intros. symmetry. apply gwrite1.
  - intros p y q. apply good_simple.
  - intros p d q Gp E. unfold simple_deriv in E. congruence.
  - intros p d q Gp E m n. exists 1. unfold simple_deriv in E. assert (d = derivative I p) by congruence. subst d. apply simple_dv; auto.
  - split; auto.
Qed.
(** Regularised systems (logarithmic Hamiltonian, time-transformed leapfrog, none): the same laws in
    physical time. *)
Theorem C60_regularised_conserves I r pcerr serr ratio_of lim lmin fuel s A' s' : sized I -> balanced I -> well_sized I 3 s ->
  calls (fun A s h => ias_iterate (rwrite I) (rread I) (regu_deriv I r) pcerr serr ratio_of lim lmin fuel A s h) fresh_ias s A' s' ->
  momentum s' = momentum s /\ s_m s' = s_m s /\ moment s' = vadd (moment s) (vscal (s_t s' - s_t s) (momentum s)).
Proof.
  intros HI HB W H. eapply (hist_conserves I 3 s (or_intror eq_refl)); [| | | | |exact H].
  - intros. symmetry. apply gwrite3.
  - intros p y q. apply good_regu.
  - intros p d q Gp E. unfold regu_deriv in E. assert (Q : q = set_sc p (snd (vel_phy r p 1))) by congruence. rewrite Q. apply good_sc; auto.
  - intros p d q Gp E. unfold regu_deriv in E. assert (d = rderivative I r p) by congruence. subst d. apply regu_dv; auto.
  - split; auto.
Qed.
(** Plain system: one call advances the time by exactly the accepted step, at any point of a history. *)
Theorem C60_simple_time I pcerr serr ratio_of lim lmin fuel s A1 s1 h A2 s2 h2 : sized I -> balanced I -> well_sized I 1 s ->
  let it := fun A s h => ias_iterate (write I) (read I) (simple_deriv I) pcerr serr ratio_of lim lmin fuel A s h in
  calls it fresh_ias s A1 s1 -> it A1 s1 h = Some (Ok (A2, s2, h2)) ->
  exists hacc r, shrunk ratio_of lmin h hacc /\ lmin < r /\ h2 = hacc * lim r /\ s_t s2 = s_t s1 + hacc.
Proof.
  intros HI HB W it Hc Hi. assert (Wr : forall s, write I s = gwrite I 1 s) by (intros; symmetry; apply gwrite1).
  assert (RG : forall p y q, good I 1 s p -> read I p y = Ok q -> good I 1 s q /\ gwrite I 1 q = y) by (intros p y q A B; rewrite <- Wr; apply (good_simple I s p y q A B)).
  assert (Tg : forall A p h, it A p h = ias_iterate (gwrite I 1) (read I) (simple_deriv I) pcerr serr ratio_of lim lmin fuel A p h).
  { intros. unfold it. replace (gwrite I 1) with (write I); auto. apply functional_extensionality. exact Wr. }
  assert (D1 : forall p d q, good I 1 s p -> simple_deriv I p = Ok (d, q) -> lin (variable_number I 1 (length (s_m s))) (unitc 0) d = 1) by (intros p d q Gp E; assert (d = derivative I p) by (unfold simple_deriv in E; congruence); subst d; apply (simple_dv I s p HI HB Gp 0%nat ltac:(lia))).
  assert (DG : forall p d q, good I 1 s p -> simple_deriv I p = Ok (d, q) -> good I 1 s q) by (intros p d q Gp E; unfold simple_deriv in E; congruence).
  assert (Gen : forall A p A' p', gr_sized (g_n (i_gr A)) (i_gr A) -> flat (variable_number I 1 (length (s_m s))) (unitc 0) (i_gr A) -> good I 1 s p -> calls it A p A' p' ->
    gr_sized (g_n (i_gr A')) (i_gr A') /\ flat (variable_number I 1 (length (s_m s))) (unitc 0) (i_gr A') /\ good I 1 s p').
  { intros A p A' p' Sz Ft Gp Hcc. revert Sz Ft Gp. induction Hcc as [A p|A p h0 A3 p3 h3 A4 p4 Hi0 Hc0 IH]; intros Sz Ft Gp; [auto|]. rewrite Tg in Hi0.
    destruct (run_time I 1 s (or_introl eq_refl) (read I) (simple_deriv I) RG DG pcerr serr ratio_of lim lmin fuel A p h0 A3 p3 h3 D1 Sz Ft Gp Hi0) as (S3 & F3 & G3 & _). auto. }
  destruct (Gen fresh_ias s A1 s1 sized_init (flat_init _ _) (conj W eq_refl) Hc) as (S1 & F1 & G1). rewrite Tg in Hi.
  destruct (run_time I 1 s (or_introl eq_refl) (read I) (simple_deriv I) RG DG pcerr serr ratio_of lim lmin fuel A1 s1 h A2 s2 h2 D1 S1 F1 G1 Hi) as (_ & _ & _ & R0). exact R0.
Qed.
(** Corrector passes on the two systems always succeed, and do not disturb the state array. *)
Lemma stages_total {P} rd deriv n (ok : P -> Prop) : (forall p y, ok p -> length y = n -> exists q, rd p y = Ok q /\ ok q) -> (forall p, ok p -> exists d q, deriv p = Ok (d, q) /\ ok q) ->
  forall k G p step, (k <= 7)%nat -> gr_sized n G -> length (g_in G) = n -> ok p -> exists G' p', stages rd deriv k G p step = Ok (G', p') /\ ok p'.
Proof.
  intros RT DT. induction k as [|k IH]; intros G p step Hk Sz L Hp; [exists G, p; auto|]. cbn [stages].
  destruct (RT p (stage_state G step (7 - S k)) Hp (stage_len n G step _ Sz)) as (q & -> & Hq). cbn [obind]. cbv zeta. destruct (DT q Hq) as (d & qd & -> & Hqd). cbn [obind].
  destruct (RT qd (g_in G) Hqd L) as (q2 & -> & Hq2). cbn [obind].
  destruct (update_spec n G d (7 - S k) Sz ltac:(lia)) as (U1 & U2 & _). apply IH; auto; lia.
Qed.
Theorem C59_pass_succeeds_on_systems I r s G step : gr_sized (g_n G) G ->
  (well_sized I 1 s -> exists G' s', correct (write I) (read I) (simple_deriv I) G s step = Ok (G', s') /\ write I s' = write I s) /\
  (well_sized I 3 s -> exists G' s', correct (rwrite I) (rread I) (regu_deriv I r) G s step = Ok (G', s') /\ rwrite I s' = rwrite I s).
Proof.
  intros SG. split; intros W.
  - assert (G0 : good I 1 s s) by (split; auto). destruct (good_write I 1 s (or_introl eq_refl) s G0) as (L & _). rewrite gwrite1 in L.
    pose proof (entry_sized (length (write I s)) G SG) as S. unfold correct. cbv zeta. fold (entry (length (write I s)) G).
    unfold simple_deriv at 1. cbn [obind]. destruct (stages_total (read I) (simple_deriv I) (length (write I s)) (good I 1 s)) with (k := 7%nat) (p := s) (step := step)
      (G := let G1 := entry (length (write I s)) G in mkG (g_n G1) (g_b G1) (g_g G1) (g_old G1) (derivative I s) (g_dyh G1) (g_dg G1) (write I s)) as (G' & s' & E & _); auto.
    + intros p y (Wp & Ep) Ly. assert (X : exists q, read I p y = Ok q); [|destruct X as (q & X); exists q; split; [auto|apply (good_simple I s p y q (conj Wp Ep) X)]].
      rewrite L, <- Ep in Ly. fold (npart p) in Ly. unfold read. cbv zeta. rewrite Ly, Nat.eqb_refl. destruct y as [|t y]; [unfold variable_number in Ly; cbn [length] in Ly; destruct (I_dep I); lia|]. eexists. reflexivity.
    + intros p Gp. exists (derivative I p), p. auto.
    + exists G', s'. split; [exact E|]. destruct (correct_spec (write I) (read I) (simple_deriv I) _ G s step G' s' SG eq_refl E) as (? & ? & _ & _ & _ & _ & _ & _ & _ & _ & (q & Rq)). apply (write_read I _ _ _ Rq).
  - assert (G0 : good I 3 s s) by (split; auto). destruct (good_write I 3 s (or_intror eq_refl) s G0) as (L & _). rewrite gwrite3 in L.
    pose proof (entry_sized (length (rwrite I s)) G SG) as S. unfold correct. cbv zeta. fold (entry (length (rwrite I s)) G).
    unfold regu_deriv at 1. cbn [obind]. destruct (stages_total (rread I) (regu_deriv I r) (length (rwrite I s)) (good I 3 s)) with (k := 7%nat) (p := set_sc s (snd (vel_phy r s 1))) (step := step)
      (G := let G1 := entry (length (rwrite I s)) G in mkG (g_n G1) (g_b G1) (g_g G1) (g_old G1) (rderivative I r s) (g_dyh G1) (g_dg G1) (rwrite I s)) as (G' & s' & E & _); auto.
    + intros p y (Wp & Ep) Ly. assert (X : exists q, rread I p y = Ok q); [|destruct X as (q & X); exists q; split; [auto|apply (good_regu I s p y q (conj Wp Ep) X)]].
      rewrite L, <- Ep in Ly. fold (npart p) in Ly. destruct (unpack I 3 (npart p) y ltac:(lia) Ly) as (t & a & b & c & tl & E & La & Lb & Lc & Lt).
      destruct tl as [|om [|be [|]]]; try (simpl in Lt; lia). destruct (pack_tail t a b c om be I (npart p) La Lb (fun _ => Lc)) as [E1 E2].
      unfold rread. cbv zeta. rewrite Ly, Nat.eqb_refl, E, E1, E2. eexists. reflexivity.
    + intros p Gp. eexists. eexists. split; [reflexivity|]. apply good_sc; auto.
    + exists G', s'. split; [exact E|]. destruct (correct_spec (rwrite I) (rread I) (regu_deriv I r) _ G s step G' s' SG eq_refl E) as (? & ? & _ & _ & _ & _ & _ & _ & _ & _ & (q & Rq)). apply (rwrite_rread I _ _ _ Rq).
Qed.
Print Assumptions C60_simple_conserves. Print Assumptions C60_regularised_conserves. Print Assumptions C60_simple_time. Print Assumptions C59_pass_succeeds_on_systems.
(** A call on three Newtonian bodies that returns and advances the time by one. *)
Definition three_body : st :=
  mkSt [1; 2; 3] 0 [mkV 0 0 0; mkV 1 0 0; mkV 0 2 0] [mkV 0 1 0; mkV 0 0 1; mkV (- (1 / 3)) 0 0] [] 5 1 1 (repeat 0 19) true.
Example C60_ex : well_sized newton_only 1 three_body /\ sized newton_only /\ balanced newton_only /\ exists A' s',
  calls (fun A s h => ias_iterate (write newton_only) (read newton_only) (simple_deriv newton_only) (fun _ _ => Fin 0) (fun _ _ _ _ => Ok 0) (fun _ => 2) (fun x => x) (1 / 4) 1 A s h) fresh_ias three_body A' s' /\
  s_t s' = 1.
Proof.
  assert (W : well_sized newton_only 1 three_body) by (repeat split; discriminate). split; [exact W|]. split; [apply newton_sized|]. split; [apply newton_balanced|].
  assert (X : exists A' s' h', ias_iterate (write newton_only) (read newton_only) (simple_deriv newton_only) (fun _ _ => Fin 0) (fun _ _ _ _ => Ok 0) (fun _ => 2) (fun x => x) (1 / 4) 1 fresh_ias three_body 1 = Some (Ok (A', s', h'))).
  { unfold ias_iterate. cbn [ias_loop]. change (0 <? 30)%nat with true. cbn iota.
    destruct (proj1 (C59_pass_succeeds_on_systems newton_only NoReg three_body (i_gr fresh_ias) 1 sized_init) W) as (G' & s1 & E & Ew). rewrite E.
    unfold in_window. assert (E1 : egt (Fin 1) (Fin 0) = true) by (cbn; unfold rgtb; destruct (Rlt_dec 0 1); [auto|lra]). rewrite E1. cbn [orb i_gr i_last i_warm].
    assert (E2 : rgtb 2 (1 / 4) = true) by (unfold rgtb; destruct (Rlt_dec (1 / 4) 2); [auto|lra]). rewrite E2.
    destruct (correct_spec (write newton_only) (read newton_only) (simple_deriv newton_only) 19 _ three_body 1 G' s1 sized_init eq_refl E) as (d0 & p0 & _ & Sz & Gi & _ & _ & _ & _ & _ & (q & Rq)).
    assert (Rd : exists z, evaluate (read newton_only) G' s1 1 = Ok z).
    { unfold evaluate, read. cbv zeta. rewrite evaluate_len, Gi. assert (N : npart s1 = 3%nat).
      { assert (L : length (write newton_only s1) = 19%nat) by (rewrite Ew; reflexivity). revert Rq. unfold read. cbv zeta. destruct (_ =? _)%nat eqn:Q; [|discriminate]. apply Nat.eqb_eq in Q.
        change (length (write newton_only three_body)) with 19%nat in Q. unfold variable_number in Q. cbn [I_dep newton_only Nat.b2n Nat.add] in Q. change (aget (write newton_only three_body) time_offset) with (Ok 0). cbn [obind].
        intros Y. match type of Y with Ok ?u = Ok ?v => assert (v = u) by congruence end. subst s1. unfold npart in *. cbn [s_m]. lia. }
      rewrite N. change (length (write newton_only three_body) =? variable_number newton_only 1 3)%nat with true. cbn iota.
      destruct (evaluate_state G' 1) as [|t y] eqn:Ez; [exfalso; assert (Y := evaluate_len G' 1); rewrite Ez, Gi in Y; discriminate|]. eexists. reflexivity. }
    destruct Rd as (z & ->). eexists. eexists. eexists. reflexivity. }
  destruct X as (A' & s' & h' & E). exists A', s'. split; [apply (calls_more _ _ _ 1 A' s' h'); [exact E|constructor]|].
  destruct (C60_simple_time newton_only (fun _ _ => Fin 0) (fun _ _ _ _ => Ok 0) (fun _ => 2) (fun x => x) (1 / 4) 1 three_body fresh_ias three_body 1 A' s' h' newton_sized newton_balanced W (calls_none _ _ _) E) as (hacc & r & S & _ & _ & T).
  rewrite T. cbn. inversion S as [|? ? ? Hr (e & He)]; subst; lra.
Qed.
