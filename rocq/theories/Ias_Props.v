(** Property C74: the step error estimate of IAS15, its controller and one call of the iterator, on the four particle systems. *)
From Verif Require Import System_Spec Ctrl_Spec Ctrl_Proofs System_Proofs System_Proofs2 System_Proofs3 BS_Proofs3 Chain_Proofs Radau_Spec Radau_Proofs Radau_Proofs4 Radau_Proofs5 Radau_Props Ias_Spec Ias_Proofs Ias_Proofs2.
Open Scope R_scope.

(** * The estimate *)
Lemma entries_var n I e regu : (e = 1 /\ regu = false \/ e = 3 /\ regu = true)%nat -> variable_number I e n = entries n (I_dep I) regu.
Proof. intros [(-> & ->)|(-> & ->)]; unfold variable_number, entries; destruct (I_dep I); cbn [Nat.b2n]; lia. Qed.
(** For every state of each system and arrays of the size of its state array, calc_step_error is defined and returns the
    largest |b6| over the largest |dy/dh| in units of 5e-10, over the entries that count. *)
Theorem C74_estimate I s c dyh b6 h : length b6 = length dyh ->
  (well_sized I 1 s -> length dyh = length (write I s) -> exists e, step_error (view_simple I s) dyh b6 h = Ok e /\ estimates (view_simple I s) h dyh b6 e) /\
  (well_sized I 3 s -> length dyh = length (rwrite I s) -> exists e, step_error (view_regu I s) dyh b6 h = Ok e /\ estimates (view_regu I s) h dyh b6 e) /\
  (consistent I c -> length dyh = length (cwrite I c) -> exists e, step_error (view_chain I c) dyh b6 h = Ok e /\ estimates (view_chain I c) h dyh b6 e) /\
  (consistent I c -> length dyh = length (arwrite I c) -> exists e, step_error (view_archain I c) dyh b6 h = Ok e /\ estimates (view_archain I c) h dyh b6 e).
Proof.
  intros Lb. split; [|split; [|split]].
  - intros W L. destruct (good_write I 1 s (or_introl eq_refl) s (conj W eq_refl)) as (X & _). rewrite gwrite1 in X. apply step_error_spec. destruct W as (P & V & _).
    unfold fits, view_simple. cbn [w_n w_regu w_dep w_pos w_vel]. split; [auto|]. split; [auto|]. split; [|auto]. rewrite L, X, <- (entries_var _ I 1) by auto. reflexivity.
  - intros W L. destruct (good_write I 3 s (or_intror eq_refl) s (conj W eq_refl)) as (X & _). rewrite gwrite3 in X. apply step_error_spec. destruct W as (P & V & _).
    unfold fits, view_regu. cbn [w_n w_regu w_dep w_pos w_vel]. split; [auto|]. split; [auto|]. split; [|auto]. rewrite L, X, <- (entries_var _ I 3) by auto. reflexivity.
  - intros C L. rewrite <- gc1, System_Proofs4.gcwrite_length in L by auto. apply step_error_spec. destruct (consistent_chain_len I c C) as (A & B & D).
    unfold fits, view_chain. cbn [w_n w_regu w_dep w_pos w_vel]. split; [auto|]. split; [auto|]. split; [|auto]. rewrite L, <- (entries_var _ I 1) by auto. reflexivity.
  - intros C L. rewrite <- gc3, System_Proofs4.gcwrite_length in L by auto. apply step_error_spec. destruct (consistent_chain_len I c C) as (A & B & D).
    unfold fits, view_archain. cbn [w_n w_regu w_dep w_pos w_vel]. split; [auto|]. split; [auto|]. split; [|auto]. rewrite L, <- (entries_var _ I 3) by auto. reflexivity.
Qed.

(** * The controller *)
Lemma ias_lmin_val : ias_lmin = 1 / 4.
Proof. unfold ias_lmin. pose proof (min_get [SetGuards 0.85 1; SetLimiter 0.02 4] 0 ltac:(lia)) as M. fold ias_ctrl in M. cbn [low_factor] in M. unfold aget in M. destruct (c_min ias_ctrl) as [|x l]; cbn in *; congruence. Qed.
Lemma ias_lim_val r : ias_lim r = Rmax (1 / 4) (Rmin r 4).
Proof. unfold ias_lim, limiter, ias_ctrl. rewrite (min_get _ 0) by lia. cbn [obind]. rewrite (max_get _ 0) by lia. cbn [obind low_factor high_factor]. rewrite in_range_fin by lra. reflexivity. Qed.
Lemma ias_ratio_0 : ias_ratio 0 = Rpower 50 (1 / 7).
Proof.
  unfold ias_ratio, ias_ctrl. cbn [next Ctrl_Model.nonzero]. destruct (Req_EM_T 0 0); [|lra]. rewrite max_get by lia. cbn [obind]. unfold high_factor. replace (INR 7) with 7 by (cbn; lra). reflexivity.
Qed.
Lemma ias_ratio_pos e : 0 < e -> ias_ratio e = 0.85 * Rpower (1 / e) (1 / 7).
Proof. intros He. destruct (C59_acceptance_threshold e He) as (r & lo & N & _ & _ & R & _). unfold ias_ratio. rewrite N. exact R. Qed.
Lemma ias_ratio_gt0 e : 0 < ias_ratio e.
Proof.
  destruct (Rtotal_order e 0) as [He|[->|He]].
  - unfold ias_ratio, ias_ctrl. cbn [next Ctrl_Model.nonzero]. destruct (Req_EM_T e 0); [lra|]. rewrite exp_get by lia. cbn [obind]. unfold ediv. destruct (Req_EM_T e 0); [lra|]. 
    unfold epow. destruct (Req_EM_T (1 / INR 7) 0) as [Z|_]; [exfalso; destruct (expon_range 7 ltac:(lia)); lra|].
    change (c_s2 (configured [SetGuards 0.85 1; SetLimiter 0.02 4])) with 1. assert (1 / e < 0) by (unfold Rdiv; rewrite Rmult_1_l; apply Rinv_lt_0_compat; auto).
    destruct (Rlt_dec 0 (1 / e)); [lra|]. destruct (Req_EM_T (1 / e) 0); [lra|]. destruct (Req_EM_T (1 / INR 7) 1) as [Z|_]; [exfalso; replace (INR 7) with 7 in Z by (cbn; lra); lra|]. cbn. lra.
  - rewrite ias_ratio_0. unfold Rpower. apply exp_pos.
  - rewrite ias_ratio_pos by auto. assert (0 < Rpower (1 / e) (1 / 7)) by (unfold Rpower; apply exp_pos). lra.
Qed.
(** A step is accepted iff its estimate is below 3.4^7; the next step is 0.85 e^(-1/7) (50^(1/7) for a zero estimate)
    times the accepted one, kept within a factor of four. *)
Theorem C74_controller e r : 0 <= e -> ias_lmin = 1 / 4 /\ ias_lim r = Rmax (1 / 4) (Rmin r 4) /\
  (0 < e -> ias_ratio e = 0.85 * Rpower (1 / e) (1 / 7)) /\ ias_ratio 0 = Rpower 50 (1 / 7) /\ (ias_lmin < ias_ratio e <-> e < 3.4 ^ 7).
Proof.
  intros He. split; [apply ias_lmin_val|]. split; [apply ias_lim_val|]. split; [apply ias_ratio_pos|]. split; [apply ias_ratio_0|]. rewrite ias_lmin_val.
  destruct (Rle_lt_or_eq_dec 0 e He) as [P|<-].
  - destruct (C59_acceptance_threshold e P) as (x & lo & N & _ & -> & R & T & _). rewrite ias_ratio_pos by auto. rewrite <- R. exact T.
  - rewrite ias_ratio_0. split; intros _; [apply pow_lt; lra|]. pose proof (factors 7) as (_ & _ & X). unfold high_factor in X. replace (INR 7) with 7 in X by (cbn; lra). lra.
Qed.

(** * One call *)
(** The ratio of the next step to the accepted one. *)
Definition next_factor (e : R) : R := Rmax (1 / 4) (Rmin (if Req_EM_T e 0 then Rpower 50 (1 / 7) else 0.85 * Rpower (1 / e) (1 / 7)) 4).
Lemma next_factor_ok e : 0 <= e -> ias_lim (ias_ratio e) = next_factor e.
Proof. intros He. rewrite ias_lim_val. unfold next_factor. destruct (Req_EM_T e 0) as [->|]; [rewrite ias_ratio_0; reflexivity|]. rewrite ias_ratio_pos by lra. reflexivity. Qed.
Lemma shrunk_ias h hacc : shrunk ias_ratio ias_lmin h hacc -> 0 < h -> 0 < hacc <= h.
Proof. intros S. apply (C59_step_only_shrinks ias_ratio ias_lmin); auto; [apply ias_ratio_gt0|rewrite ias_lmin_val; lra]. Qed.
(** A history of calls, each with its own step. *)
Inductive hist {P} (iter : ias -> P -> R -> option (outcome (ias * P * R))) : ias -> P -> ias -> P -> Prop :=
| hist_none A p : hist iter A p A p
| hist_more A p h A1 p1 h1 A' p' : iter A p h = Some (Ok (A1, p1, h1)) -> hist iter A1 p1 A' p' -> hist iter A p A' p'.

Section One.
  Context {P : Type} (wr : P -> list R) (rd : P -> list R -> outcome P) (deriv : P -> outcome (list R * P)) (pre : P -> P) (vw : P -> view) (n : nat) (ok : P -> Prop) (J : gr -> Prop) (fuel : nat).
  Context (RD : forall p y q, ok p -> length y = n -> rd p y = Ok q -> ok q /\ wr q = y).
  Context (DV : forall p d q, ok p -> deriv p = Ok (d, q) -> ok q /\ length d = n).
  Context (OL : forall p, ok p -> length (wr p) = n).
  Context (FT : forall p dyh b6, ok p -> length dyh = n -> length b6 = n -> fits (vw p) dyh b6).
  Context (JS : forall G, J G -> gr_sized (g_n G) G).
  Context (JC : forall G p h G1 p1, J G -> ok p -> correct wr rd deriv G p h = Ok (G1, p1) -> J G1).
  Context (JP : forall G q, J G -> J (predict q G)).
  Notation it := (fun A p h => ias_iterate wr rd deriv ias_pcerr (fun dyh b6 p h => step_error (vw p) dyh b6 h) ias_ratio ias_lim ias_lmin fuel A (pre p) h).
  Lemma one_call A p h A' p' h' : J (i_gr A) -> ok (pre p) -> it A p h = Some (Ok (A', p', h')) ->
    J (i_gr A') /\ ok p' /\
    exists pa d pd (G : gr) q q' b pe hacc e, (ok pa /\ wr pa = wr (pre p) /\ deriv pa = Ok (d, pd)) /\ (J G /\ gr_sized n G /\ g_in G = wr pa /\ g_dy0 G = d /\ wr p' = evaluate_state G hacc) /\
      (0 < h -> 0 < hacc <= h) /\ (forall x, (x < n)%nat -> at_ (wr p') x = path (at_ (wr pa) x) (at_ d x) (Radau_Spec.comp (g_b G) x) hacc 1) /\
      (ok q /\ forall x, (x < n)%nat -> at_ (wr q) x = path (at_ (wr pa) x) (at_ d x) (b x) hacc (hs 6)) /\ deriv q = Ok (g_dyh G, q') /\
      (rd q' (wr pa) = Ok pe /\ ok pe /\ wr pe = wr pa) /\ estimates (vw pe) hacc (g_dyh G) (g_b G 6%nat) e /\ e < 3.4 ^ 7 /\ h' = hacc * next_factor e.
  Proof.
    intros HJ Hp H. unfold ias_iterate in H.
    destruct (trace wr rd deriv n ok J _ _ _ _ _ RD DV OL JS JC JP fuel 0 A (pre p) h A' p' h' HJ Hp H) as (pa & G & G1 & p1 & hacc & e & Q1 & Q2 & Q3 & Q4 & Q5 & Q6 & Q7 & Q8 & Q9 & Q10 & Q11 & Q12 & Q13 & Q14 & Q15).
    split; auto. split; auto. destruct (correct_last wr rd deriv n ok RD DV OL _ _ _ _ _ (JS _ Q3) Q1 Q4) as (d & pd & q & q' & b & B1 & B2 & B3 & B4 & B5 & B6 & B7).
    destruct (correct_spec wr rd deriv n _ _ _ _ _ (JS _ Q3) (OL pa Q1) Q4) as (d0 & p0 & E0 & Sz & Gi & Gd & _). assert (X0 : d0 = d) by congruence. rewrite X0 in Gd. clear X0 E0.
    exists pa, d, pd, G1, q, q', b, p1, hacc, e. split; auto. split; [rewrite Gi; auto|]. split; [apply shrunk_ias; auto|]. split.
    - intros x Hx. rewrite Q13, evaluate_path by (rewrite Gi, OL; auto). rewrite Gi, Gd. reflexivity.
    - split; auto. split; auto. split; [split; auto; split; auto; congruence|].
      destruct (step_error_spec (vw p1) (g_dyh G1) (g_b G1 6%nat) hacc) as (e' & E & Es); [apply FT; auto; apply Sz; lia|]. assert (e' = e) by congruence. subst e'.
      split; auto. assert (P0 : 0 <= e) by apply Es. split; [apply C74_controller; auto|]. rewrite Q11. f_equal. apply next_factor_ok; auto.
  Qed.
  Context (PR : forall p, ok p -> ok (pre p)).
  Lemma hist_keeps A p A' p' : hist it A p A' p' -> J (i_gr A) -> ok p -> J (i_gr A') /\ ok p'.
  Proof. induction 1 as [A p|A p h A1 p1 h1 A2 p2 Hi Hc IH]; intros HJ Hp; [auto|]. destruct (one_call _ _ _ _ _ _ HJ (PR _ Hp) Hi) as (J1 & O1 & _). auto. Qed.
End One.

(** * The four systems *)
Lemma pack_inj n t a b c tl t' a' b' c' tl' : length a = n -> length b = n -> length a' = n -> length b' = n -> pack t a b c tl = pack t' a' b' c' tl' -> t = t' /\ a = a' /\ b = b'.
Proof.
  intros La Lb La' Lb' E. split; [|split].
  - change t with (hd 0 (pack t a b c tl)). rewrite E. reflexivity.
  - rewrite <- (load_a t a b c tl n La), E. apply load_a; auto.
  - rewrite <- (load_b t a b c tl n La Lb), E. apply load_b; auto.
Qed.
Lemma list_nth (l : list R) n : length l = n -> map (fun x => nth x l 0) (seq 0 n) = l.
Proof. intros <-. apply nth_ext with (d := 0) (d' := 0); rewrite map_length, seq_length; auto. intros i Hi. rewrite nth_indep with (d' := nth 0 l 0) by (rewrite map_length, seq_length; auto). rewrite (map_nth (fun x => nth x l 0)), seq_nth by auto. reflexivity. Qed.
Lemma good_pre I e s0 s : good I e s0 s -> good I e s0 (pre_iter I s).
Proof. intros ((A & B & C & D) & E). unfold pre_iter. destruct (I_dep I) eqn:X; [|repeat split; auto; intros Y; congruence]. split; [|exact E]. unfold well_sized, npart in *. cbn [s_m s_p s_v s_w s_inc]. auto. Qed.
Lemma fits_simple I s0 s dyh b6 : good I 1 s0 s -> length dyh = variable_number I 1 (length (s_m s0)) -> length b6 = variable_number I 1 (length (s_m s0)) -> fits (view_simple I s) dyh b6.
Proof.
  intros ((A & B & C & D) & E) L1 L2. unfold fits, view_simple. cbn [w_n w_regu w_dep w_pos w_vel]. split; auto. split; auto. split; [|congruence]. rewrite L1, <- E. fold (npart s). symmetry. rewrite <- (entries_var _ I 1) by auto. reflexivity.
Qed.
Lemma fits_regu I s0 s dyh b6 : good I 3 s0 s -> length dyh = variable_number I 3 (length (s_m s0)) -> length b6 = variable_number I 3 (length (s_m s0)) -> fits (view_regu I s) dyh b6.
Proof.
  intros ((A & B & C & D) & E) L1 L2. unfold fits, view_regu. cbn [w_n w_regu w_dep w_pos w_vel]. split; auto. split; auto. split; [|congruence]. rewrite L1, <- E. fold (npart s). symmetry. rewrite <- (entries_var _ I 3) by auto. reflexivity.
Qed.
Lemma fits_chain I m idx c dyh b6 : cgood I m idx c -> length dyh = variable_number I 1 (length m) -> length b6 = variable_number I 1 (length m) -> fits (view_chain I c) dyh b6.
Proof.
  intros (C & Ei & Em) L1 L2. destruct (consistent_chain_len I c C) as (A & B & D). unfold fits, view_chain. cbn [w_n w_regu w_dep w_pos w_vel]. split; auto. split; auto. split; [|congruence]. rewrite L1, <- Em. fold (npart (c_st c)). symmetry. rewrite <- (entries_var _ I 1) by auto. reflexivity.
Qed.
Lemma fits_archain I m idx c dyh b6 : cgood I m idx c -> length dyh = variable_number I 3 (length m) -> length b6 = variable_number I 3 (length m) -> fits (view_archain I c) dyh b6.
Proof.
  intros (C & Ei & Em) L1 L2. destruct (consistent_chain_len I c C) as (A & B & D). unfold fits, view_archain. cbn [w_n w_regu w_dep w_pos w_vel]. split; auto. split; auto. split; [|congruence]. rewrite L1, <- Em. fold (npart (c_st c)). symmetry. rewrite <- (entries_var _ I 3) by auto. reflexivity.
Qed.
Lemma entry_correct {P} (wr : P -> list R) rd deriv N G p k : length (wr p) = N -> correct wr rd deriv (entry N G) p k = correct wr rd deriv G p k.
Proof.
  intros L. unfold correct. rewrite L. replace (check_size N (entry N G)) with (check_size N G); [reflexivity|]. unfold entry, check_size.
  destruct (Nat.eqb_spec (g_n G) N) as [E|E]; [rewrite E, Nat.eqb_refl; reflexivity|]. cbn [g_n]. rewrite Nat.eqb_refl. reflexivity.
Qed.
(** Coefficient tables of an integrator that has not seen arrays of [n] entries yet, or whose functional [c] vanishes. *)
Definition tidy (n : nat) (c : nat -> R) (G : gr) : Prop := gr_sized (g_n G) G /\ (g_n G = n -> flat n c G).
Lemma tidy_init n c : tidy n c gr_init. Proof. split; [apply sized_init|intros _; apply flat_init]. Qed.
Lemma tidy_sized n c G : tidy n c G -> gr_sized (g_n G) G. Proof. intros (S & _). auto. Qed.
Lemma tidy_predict n c q G : tidy n c G -> tidy n c (predict q G).
Proof.
  intros (S1 & F1). destruct (predict_spec q (g_n G) G eq_refl) as (X & _). assert (Y : g_n (predict q G) = g_n G) by apply X. split; [rewrite Y; auto|].
  rewrite Y. intros E. apply predict_flat; auto.
Qed.
Lemma tidy_entry n c G : tidy n c G -> gr_sized (g_n (entry n G)) (entry n G) /\ flat n c (entry n G).
Proof.
  intros (S1 & F1). split.
  - pose proof (entry_sized n G S1) as X. assert (Y : g_n (entry n G) = n) by apply X. rewrite Y. auto.
  - unfold entry, check_size. destruct (Nat.eqb_spec (g_n G) n); [auto|]. intros i Hi. cbn [g_b g_g g_old]. rewrite !lin_zero. auto.
Qed.
Lemma tidy_correct {P} (wr : P -> list R) rd deriv n c c2 K kap (ok : P -> Prop) :
  (forall p y q, ok p -> length y = n -> rd p y = Ok q -> ok q /\ wr q = y) -> (forall p d q, ok p -> deriv p = Ok (d, q) -> ok q /\ length d = n) -> (forall p, ok p -> length (wr p) = n) ->
  (forall p d q, ok p -> deriv p = Ok (d, q) -> lin n c d = 0) -> (forall p d q, ok p -> deriv p = Ok (d, q) -> lin n c (wr p) = K -> lin n c2 d = kap) ->
  forall G p h G1 p1, tidy n c G -> tidy n c2 G -> ok p -> lin n c (wr p) = K -> correct wr rd deriv G p h = Ok (G1, p1) -> (gr_sized n G1 /\ flat n c G1 /\ flat n c2 G1).
Proof.
  intros RD DV OL CO RT G p h G1 p1 T1 T2 Hp HK E. destruct (tidy_entry n c G T1) as (S1 & F1). destruct (tidy_entry n c2 G T2) as (_ & F2). rewrite <- (entry_correct wr rd deriv n G p h (OL p Hp)) in E.
  destruct (correct_spec wr rd deriv n _ _ _ _ _ S1 (OL p Hp) E) as (? & ? & _ & Sz & _). split; auto.
  apply (correct_flat wr rd deriv n c c2 K kap ok RD (fun p d q A B => proj1 (DV p d q A B)) CO RT (entry n G) p h G1 p1 S1 (OL p Hp) Hp (conj F1 F2) HK E).
Qed.
Lemma flat_tidy n c G : gr_sized n G -> flat n c G -> tidy n c G. Proof. intros S F. split; auto. assert (X : g_n G = n) by apply S. rewrite X. auto. Qed.
(** Plain system.  After any history of calls on a fresh integrator, a call that returns has accepted a step [hacc] not
    above the requested one; the time has moved by exactly [hacc] and the state lies at the end of the polynomial path with
    coefficients [b] that starts with the derivative of the entry state; the estimate [e] of [b 6] against the
    derivative [dyh] at the last node of that path is below 3.4^7, and fixes the next step. *)
Theorem C74_simple_call I fuel s A1 s1 h A2 s2 h2 : sized I -> well_sized I 1 s ->
  hist (ias_simple I fuel) fresh_ias s A1 s1 -> ias_simple I fuel A1 s1 h = Some (Ok (A2, s2, h2)) ->
  exists hacc e (b b' : nat -> nat -> R) (q : st), let y := write I (pre_iter I s1) in let d := derivative I (pre_iter I s1) in let n := length y in
    (0 < h -> 0 < hacc <= h) /\ s_t s2 = s_t s1 + hacc /\ s_m s2 = s_m s1 /\
    (length (write I s2) = n /\ forall x, (x < n)%nat -> nth x (write I s2) 0 = path (nth x y 0) (nth x d 0) (b x) hacc 1) /\
    (s_m q = s_m s1 /\ length (write I q) = n /\ forall x, (x < n)%nat -> nth x (write I q) 0 = path (nth x y 0) (nth x d 0) (b' x) hacc (hs 6)) /\
    estimates (view_simple I s1) hacc (derivative I q) (map (fun x => b x 6%nat) (seq 0 n)) e /\ e < 3.4 ^ 7 /\ h2 = hacc * next_factor e.
Proof.
  intros HI W Hh Hc. set (N := variable_number I 1 (length (s_m s))).
  assert (RD : forall p y q, good I 1 s p -> length y = N -> read I p y = Ok q -> good I 1 s q /\ write I q = y) by (intros p y q Gp _ E; apply (good_simple I s p y q Gp E)).
  assert (DV : forall p d q, good I 1 s p -> simple_deriv I p = Ok (d, q) -> good I 1 s q /\ length d = N).
  { intros p d q Gp E. unfold simple_deriv in E. assert (d = derivative I p) by congruence. assert (q = p) by congruence. subst d q. split; auto. apply (simple_dt I s p HI Gp). }
  assert (OL : forall p, good I 1 s p -> length (write I p) = N) by (intros p Gp; destruct (good_write I 1 s (or_introl eq_refl) p Gp) as (L & _); rewrite gwrite1 in L; auto).
  assert (JC : forall G p h G1 p1, tidy N (unitc 0) G -> good I 1 s p -> correct (write I) (read I) (simple_deriv I) G p h = Ok (G1, p1) -> tidy N (unitc 0) G1).
  { intros G p k G1 p1 T Gp E.
    destruct (tidy_correct (write I) (read I) (simple_deriv I) N (fun _ => 0) (unitc 0) 0 1 (good I 1 s) RD DV OL (fun p d q _ _ => lin_c0 N d)) with (G := G) (p := p) (h := k) (G1 := G1) (p1 := p1) as (Sz & _ & F); auto.
    - intros p2 d q Gp2 E2 _. unfold simple_deriv in E2. assert (d = derivative I p2) by congruence. subst d. rewrite lin_unit by (unfold N, variable_number; lia). apply (simple_dt I s p2 HI Gp2).
    - split; [apply T|]. intros _. apply flat_c0.
    - apply lin_c0.
    - apply flat_tidy; auto. }
  assert (G0 : good I 1 s s) by (split; auto).
  destruct (hist_keeps (write I) (read I) (simple_deriv I) (pre_iter I) (view_simple I) N (good I 1 s) (tidy N (unitc 0)) fuel RD DV OL (fits_simple I s) (tidy_sized N _) JC (fun G q => tidy_predict N _ q G) (good_pre I 1 s)
    fresh_ias s A1 s1 Hh (tidy_init N _) G0) as (J1 & G1).
  destruct (one_call (write I) (read I) (simple_deriv I) (pre_iter I) (view_simple I) N (good I 1 s) (tidy N (unitc 0)) fuel RD DV OL (fits_simple I s) (tidy_sized N _) JC (fun G q => tidy_predict N _ q G)
    A1 s1 h A2 s2 h2 J1 (good_pre I 1 s s1 G1) Hc) as (J2 & G2 & pa & d & pd & G & q & q' & b' & pe & hacc & e & (P1 & P2 & P3) & (J3 & Sz & Gi & Gd & Ev) & Sh & Pth & (Q1 & Q2) & Dq & (E1 & E2 & E3) & Es & El & Eh).
  unfold simple_deriv in P3, Dq. assert (Xd : d = derivative I pa) by congruence. assert (Xq : g_dyh G = derivative I q) by congruence. assert (Xq' : q' = q) by congruence. clear P3 Dq pd. rewrite Xd in *. rewrite Xq in *. rewrite Xq' in *. clear Xd d.
  pose proof (good_pre I 1 s s1 G1) as Gp.
  assert (WI : forall x y, good I 1 s x -> good I 1 s y -> write I x = write I y -> s_t x = s_t y /\ s_p x = s_p y /\ s_v x = s_v y).
  { intros x y ((X1 & X2 & _) & X3) ((Y1 & Y2 & _) & Y3) E. rewrite !write_pack in E. unfold npart in *. rewrite X3 in *. rewrite Y3 in *. apply (pack_inj (length (s_m s))) in E; auto. }
  destruct (WI pa (pre_iter I s1) P1 Gp P2) as (Wt & Wp & Wv). rewrite P2 in E3. destruct (WI pe (pre_iter I s1) E2 Gp E3) as (Vt & Vp & Vv).
  assert (PP : s_t (pre_iter I s1) = s_t s1 /\ s_p (pre_iter I s1) = s_p s1 /\ s_v (pre_iter I s1) = s_v s1 /\ s_m (pre_iter I s1) = s_m s1) by (unfold pre_iter; destruct (I_dep I); auto). destruct PP as (Z1 & Z2 & Z3 & Z4).
  assert (Md : derivative I pa = derivative I (pre_iter I s1)) by (unfold derivative; rewrite Wp, Wv; replace (s_m pa) with (s_m (pre_iter I s1)); auto; destruct P1 as (_ & ->), Gp as (_ & ->); auto).
  rewrite Md, P2 in *. assert (Lw : length (write I (pre_iter I s1)) = N) by (apply OL; auto).
  exists hacc, e, (Radau_Spec.comp (g_b G)), b', q. cbv zeta. rewrite Lw. split; auto. split; [|split; [|split; [|split; [|split; [|split]]]]]; auto.
  - assert (T : lin N (unitc 0) (write I s2) = s_t s1 + hacc).
    { rewrite Ev. rewrite (lin_path N (unitc 0) G hacc 1); [|intros x Hx; rewrite evaluate_path by (rewrite Gi; lia); reflexivity|apply J3; apply Sz].
      rewrite Gi, Gd, <- gwrite1. destruct (good_write I 1 s (or_introl eq_refl) _ Gp) as (_ & X). destruct (X 0%nat ltac:(lia)) as (_ & _ & Y). fold N in Y. rewrite Y, lin_unit by (unfold N, variable_number; lia). rewrite (proj2 (simple_dt I s _ HI Gp)), Z1. ring. }
    destruct (good_write I 1 s (or_introl eq_refl) s2 G2) as (_ & X). destruct (X 0%nat ltac:(lia)) as (_ & _ & Y). fold N in Y. rewrite gwrite1 in Y. congruence.
  - destruct G2 as (_ & ->), G1 as (_ & ->). auto.
  - split; [destruct Q1 as (_ & ->), G1 as (_ & ->); auto|]. split; [apply OL; auto|exact Q2].
  - replace (view_simple I s1) with (view_simple I pe).
    + replace (map (fun x => Radau_Spec.comp (g_b G) x 6%nat) (seq 0 N)) with (g_b G 6%nat); [exact Es|]. symmetry. apply list_nth. apply Sz. lia.
    + unfold view_simple, npart. rewrite Vp, Vv, Z2, Z3. destruct E2 as (_ & ->), G1 as (_ & ->). reflexivity.
Qed.
(** Regularised systems: the same with the fictitious step; the physical step of the slow-particle test is taken with
    the time-transformation at the last node. *)
Theorem C74_regularised_call I r fuel s A1 s1 h A2 s2 h2 : sized I -> well_sized I 3 s ->
  hist (ias_regu I r fuel) fresh_ias s A1 s1 -> ias_regu I r fuel A1 s1 h = Some (Ok (A2, s2, h2)) ->
  exists hacc e (b b' : nat -> nat -> R) (q : st), let y := rwrite I (pre_iter I s1) in let d := rderivative I r (pre_iter I s1) in let n := length y in
    (0 < h -> 0 < hacc <= h) /\ s_m s2 = s_m s1 /\
    (length (rwrite I s2) = n /\ forall x, (x < n)%nat -> nth x (rwrite I s2) 0 = path (nth x y 0) (nth x d 0) (b x) hacc 1) /\
    (s_m q = s_m s1 /\ length (rwrite I q) = n /\ forall x, (x < n)%nat -> nth x (rwrite I q) 0 = path (nth x y 0) (nth x d 0) (b' x) hacc (hs 6)) /\
    estimates (view_regu I (set_sc s1 (snd (vel_phy r q 1)))) hacc (rderivative I r q) (map (fun x => b x 6%nat) (seq 0 n)) e /\ e < 3.4 ^ 7 /\ h2 = hacc * next_factor e.
Proof.
  intros HI W Hh Hc. set (N := variable_number I 3 (length (s_m s))). set (J := fun G => gr_sized (g_n G) G).
  assert (RD : forall p y q, good I 3 s p -> length y = N -> rread I p y = Ok q -> good I 3 s q /\ rwrite I q = y) by (intros p y q Gp _ E; apply (good_regu I s p y q Gp E)).
  assert (DV : forall p d q, good I 3 s p -> regu_deriv I r p = Ok (d, q) -> good I 3 s q /\ length d = N).
  { intros p d q Gp E. unfold regu_deriv in E. assert (d = rderivative I r p) by congruence. assert (q = set_sc p (snd (vel_phy r p 1))) by congruence. subst d q. split; [apply good_sc; auto|]. apply (regu_dt I r s p HI Gp). }
  assert (OL : forall p, good I 3 s p -> length (rwrite I p) = N) by (intros p Gp; destruct (good_write I 3 s (or_intror eq_refl) p Gp) as (L & _); rewrite gwrite3 in L; auto).
  assert (JC : forall G p h G1 p1, J G -> good I 3 s p -> correct (rwrite I) (rread I) (regu_deriv I r) G p h = Ok (G1, p1) -> J G1).
  { intros G p k G1 p1 T Gp E. destruct (correct_spec (rwrite I) (rread I) (regu_deriv I r) N _ _ _ _ _ T (OL p Gp) E) as (? & ? & _ & Sz & _). unfold J. assert (X : g_n G1 = N) by apply Sz. rewrite X. auto. }
  assert (JP : forall G q, J G -> J (predict q G)).
  { intros G q S1. destruct (predict_spec q (g_n G) G eq_refl) as (X & _). unfold J. assert (Y : g_n (predict q G) = g_n G) by apply X. rewrite Y. auto. }
  assert (G0 : good I 3 s s) by (split; auto).
  destruct (hist_keeps (rwrite I) (rread I) (regu_deriv I r) (pre_iter I) (view_regu I) N (good I 3 s) J fuel RD DV OL (fits_regu I s) (fun G H => H) JC JP (good_pre I 3 s) fresh_ias s A1 s1 Hh sized_init G0) as (J1 & G1).
  destruct (one_call (rwrite I) (rread I) (regu_deriv I r) (pre_iter I) (view_regu I) N (good I 3 s) J fuel RD DV OL (fits_regu I s) (fun G H => H) JC JP
    A1 s1 h A2 s2 h2 J1 (good_pre I 3 s s1 G1) Hc) as (J2 & G2 & pa & d & pd & G & q & q' & b' & pe & hacc & e & (P1 & P2 & P3) & (J3 & Sz & Gi & Gd & Ev) & Sh & Pth & (Q1 & Q2) & Dq & (E1 & E2 & E3) & Es & El & Eh).
  unfold regu_deriv in P3, Dq. assert (Xd : d = rderivative I r pa) by congruence. assert (Xq : g_dyh G = rderivative I r q) by congruence. assert (Xq' : q' = set_sc q (snd (vel_phy r q 1))) by congruence. clear P3 Dq pd. rewrite Xd in *. rewrite Xq in *. rewrite Xq' in *. clear Xd d.
  pose proof (good_pre I 3 s s1 G1) as Gp.
  assert (WI : forall x y, good I 3 s x -> good I 3 s y -> rwrite I x = rwrite I y -> s_p x = s_p y /\ s_v x = s_v y /\ s_om x = s_om y /\ s_be x = s_be y).
  { intros x y (X & X3) (Y & Y3) E. assert (A : rread I y (rwrite I x) = rread I y (rwrite I y)) by (rewrite E; auto). rewrite !rread_rwrite in A by (auto; congruence).
    match type of A with Ok ?B = Ok ?C => assert (D : B = C) by congruence end. split; [exact (f_equal s_p D)|]. split; [exact (f_equal s_v D)|]. split; [exact (f_equal s_om D)|exact (f_equal s_be D)]. }
  destruct (WI pa (pre_iter I s1) P1 Gp P2) as (Wp & Wv & Wo & Wb). rewrite P2 in E3. destruct (WI pe (pre_iter I s1) E2 Gp E3) as (Vp & Vv & _).
  assert (PP : s_p (pre_iter I s1) = s_p s1 /\ s_v (pre_iter I s1) = s_v s1 /\ s_m (pre_iter I s1) = s_m s1) by (unfold pre_iter; destruct (I_dep I); auto). destruct PP as (Z2 & Z3 & Z4).
  assert (Mm : s_m pa = s_m (pre_iter I s1)) by (destruct P1 as (_ & ->), Gp as (_ & ->); auto).
  assert (Md : rderivative I r pa = rderivative I r (pre_iter I s1)).
  { assert (X1 : fst (pos_phy r pa 1) = fst (pos_phy r (pre_iter I s1) 1)) by (unfold pos_phy, kin; destruct r; cbn [fst]; rewrite ?Wo, ?Wb, ?Mm, ?Wv; reflexivity).
    assert (X2 : fst (vel_phy r pa 1) = fst (vel_phy r (pre_iter I s1) 1)) by (unfold vel_phy, pot; destruct r; cbn [fst]; rewrite ?Mm, ?Wp; reflexivity).
    unfold rderivative. cbv zeta. rewrite X1, X2, Wp, Wv, Mm. reflexivity. }
  assert (Sc : s_sc pe = snd (vel_phy r q 1)).
  { unfold rread in E1. cbv zeta in E1. destruct (length (rwrite I pa) =? _)%nat; [|discriminate].
    repeat match type of E1 with obind ?X _ = _ => destruct X; cbn [obind] in E1; try discriminate end. match type of E1 with Ok ?B = Ok ?C => assert (D : B = C) by congruence end. rewrite <- D. reflexivity. }
  rewrite Md, P2 in *. assert (Lw : length (rwrite I (pre_iter I s1)) = N) by (apply OL; auto).
  exists hacc, e, (Radau_Spec.comp (g_b G)), b', q. cbv zeta. rewrite Lw. split; auto. split; [|split; [|split; [|split; [|split]]]]; auto.
  - destruct G2 as (_ & ->), G1 as (_ & ->). auto.
  - split; [destruct Q1 as (_ & ->), G1 as (_ & ->); auto|]. split; [apply OL; auto|exact Q2].
  - replace (view_regu I (set_sc s1 (snd (vel_phy r q 1)))) with (view_regu I pe).
    + replace (map (fun x => Radau_Spec.comp (g_b G) x 6%nat) (seq 0 N)) with (g_b G 6%nat); [exact Es|]. symmetry. apply list_nth. apply Sz. lia.
    + unfold view_regu, npart. rewrite Vp, Vv, Z2, Z3, Sc. destruct E2 as (_ & ->), G1 as (_ & <-). reflexivity.
Qed.

(** * What the estimate does not see *)
(** All particles slow on a system without regularisation: no entry counts. *)
Lemma all_slow w h dyh b6 e : w_regu w = false -> (forall i, (i < w_n w)%nat -> slow w h i) -> estimates w h dyh b6 e -> e = 0.
Proof.
  intros Rg Sl (_ & [(_ & E)|(k1 & k2 & C1 & _)]); [exact E|]. exfalso. destruct C1 as (B & Z & S). specialize (Z Rg). unfold entries in B. rewrite Rg in B. set (n := w_n w) in *.
  assert (D : forall x, exists a i, (x = 3 * i + a /\ a < 3)%nat) by (intros x; exists (x mod 3)%nat, (x / 3)%nat; split; [pose proof (Nat.div_mod x 3); lia|apply Nat.mod_upper_bound; lia]).
  destruct (Nat.lt_ge_cases k1 (1 + 3 * n)) as [L|L].
  - destruct (D (k1 - 1)%nat) as (a & i & X & Ha). assert (Hi : (i < n)%nat) by lia. apply (S i (Sl i Hi)). exists a. split; [auto|]. left. lia.
  - destruct (Nat.lt_ge_cases k1 (1 + 6 * n)) as [L2|L2].
    + destruct (D (k1 - 1 - 3 * n)%nat) as (a & i & X & Ha). assert (Hi : (i < n)%nat) by lia. apply (S i (Sl i Hi)). exists a. split; [auto|]. right. left. fold n. lia.
    + destruct (w_dep w) eqn:Wd; [|lia]. destruct (D (k1 - 1 - 6 * n)%nat) as (a & i & X & Ha). assert (Hi : (i < n)%nat) by lia. apply (S i (Sl i Hi)). exists a. split; [auto|]. right. right. fold n. split; [auto|lia].
Qed.
(** A plain system released from rest, no particle at the origin (such as the Pythagorean three-body problem): the estimate is
    zero for every step size, every derivative and every b6, and so is the one of every returning call that starts there:
    nothing limits its step. *)
Theorem C74_error_of_every_step_seen_refuted I s : well_sized I 1 s -> (forall i, (i < npart s)%nat -> nth i (s_v s) vzero = vzero /\ nth i (s_p s) vzero <> vzero) ->
  (forall h dyh b6, length dyh = length (write I s) -> length b6 = length dyh -> step_error (view_simple I s) dyh b6 h = Ok 0) /\
  (sized I -> forall fuel h A2 s2 h2, ias_simple I fuel fresh_ias s h = Some (Ok (A2, s2, h2)) -> exists hacc, s_t s2 = s_t s + hacc /\ h2 = hacc * Rpower 50 (1 / 7)).
Proof.
  intros W R. assert (SL : forall h i, (i < npart s)%nat -> slow (view_simple I s) h i).
  { intros h i Hi. destruct (R i Hi) as (V & P). unfold slow, view_simple. cbn [w_n w_scale w_pos w_vel]. split; [auto|]. split; [lra|]. rewrite V. assert (Z : norm vzero = 0) by (unfold norm; replace (norm2 vzero) with 0 by (unfold norm2, dot, vzero; cbn [vx vy vz]; ring); apply sqrt_0). rewrite Z. pose proof (norm_pos _ P). lra. }
  split.
  - intros h dyh b6 L1 L2. destruct (proj1 (C74_estimate I s (mkCst s [] [] [] []) dyh b6 h L2) W L1) as (e & E & Es). rewrite E. f_equal. apply (all_slow (view_simple I s) h dyh b6 e eq_refl (SL h) Es).
  - intros HI fuel h A2 s2 h2 E. destruct (C74_simple_call I fuel s fresh_ias s h A2 s2 h2 HI W (hist_none _ _ _) E) as (hacc & e & b & b' & q & X1 & X2 & X3 & X4 & X5 & X6 & X7 & X8).
    exists hacc. split; [exact X2|]. apply all_slow in X6; [|reflexivity|exact (SL hacc)]. subst e. rewrite X8. f_equal. unfold next_factor. destruct (Req_EM_T 0 0) as [_|]; [|lra].
    assert (G : 1 < Rpower 50 (1 / 7)) by (pose proof (factors 7) as (_ & _ & X); unfold high_factor in X; replace (INR 7) with 7 in X by (cbn; lra); exact X). assert (U : Rpower 50 (1 / 7) <= 4).
    { apply Rnot_lt_le. intros Lt. assert (Y : Rpower 4 7 < Rpower (Rpower 50 (1 / 7)) 7) by (apply Rlt_Rpower_l; [lra|split; [lra|exact Lt]]). rewrite Rpower_mult in Y. replace (1 / 7 * 7) with 1 in Y by field. rewrite Rpower_1 in Y by lra.
      replace 7 with (INR 7) in Y by (cbn; lra). rewrite Rpower_pow in Y by lra. cbn in Y. lra. }
    rewrite Rmin_left by exact U. rewrite Rmax_right; [reflexivity|]. lra.
Qed.
(** Nor is the control independent of the choice of origin: for every state, step and pair of arrays there is a translation of all positions
    (which changes no force) after which the estimate is zero. *)
Theorem C74_translation_invariance_refuted I s h dyh b6 : well_sized I 1 s -> length dyh = length (write I s) -> length b6 = length dyh ->
  exists d, forall s', well_sized I 1 s' -> s_m s' = s_m s -> s_v s' = s_v s -> s_p s' = map (vadd d) (s_p s) -> step_error (view_simple I s') dyh b6 h = Ok 0.
Proof.
  intros W L1 L2. destruct W as (Wp & Wv & Wr).
  assert (B : forall n, exists K, 0 <= K /\ forall i, (i < n)%nat -> norm (nth i (s_v s) vzero) * Rabs h * 1e6 + Rabs (vx (nth i (s_p s) vzero)) < K).
  { induction n as [|n (K & K0 & HK)]; [exists 0; split; [lra|intros; lia]|]. set (z := norm (nth n (s_v s) vzero) * Rabs h * 1e6 + Rabs (vx (nth n (s_p s) vzero))).
    exists (Rmax K (z + 1)). split; [eapply Rle_trans; [exact K0|apply Rmax_l]|]. intros i Hi. destruct (Nat.eq_dec i n) as [->|N].
    - apply Rlt_le_trans with (z + 1); [unfold z; lra|apply Rmax_r].
    - eapply Rlt_le_trans; [apply HK; lia|apply Rmax_l]. }
  destruct (B (npart s)) as (K & K0 & HK). exists (mkV K 0 0). intros s' W' M V P. assert (Np : npart s' = npart s) by (unfold npart; rewrite M; auto).
  assert (Lw : length dyh = length (write I s')).
  { destruct (good_write I 1 s (or_introl eq_refl) s (conj (conj Wp (conj Wv Wr)) eq_refl)) as (X & _). destruct (good_write I 1 s' (or_introl eq_refl) s' (conj W' eq_refl)) as (Y & _). rewrite gwrite1 in X, Y. rewrite L1, X, Y, M. reflexivity. }
  destruct (proj1 (C74_estimate I s' (mkCst s' [] [] [] []) dyh b6 h L2) W' Lw) as (e & E & Es). rewrite E. f_equal. apply (all_slow (view_simple I s') h dyh b6 e eq_refl); [|exact Es].
  intros i Hi. unfold view_simple in *. cbn [w_n] in Hi. rewrite Np in Hi. unfold slow. cbn [w_n w_scale w_pos w_vel]. split; [rewrite Np; auto|]. split; [lra|]. rewrite V, P.
  rewrite (nth_indep (map _ _) vzero (vadd (mkV K 0 0) vzero)) by (rewrite map_length, Wp; auto). rewrite map_nth. specialize (HK i Hi). set (p := nth i (s_p s) vzero) in *. set (u := norm (nth i (s_v s) vzero)) in *.
  assert (Nx : K - Rabs (vx p) <= norm (vadd (mkV K 0 0) p)).
  { apply Rle_trans with (Rabs (K + vx p)); [pose proof (Rabs_triang_inv K (- vx p)) as T; rewrite Rabs_Ropp in T; replace (K - - vx p) with (K + vx p) in T by ring; rewrite (Rabs_right K) in T by lra; exact T|].
    unfold norm, norm2, dot, vadd. cbn [vx vy vz]. rewrite <- sqrt_Rsqr_abs. apply sqrt_le_1_alt. unfold Rsqr. nra. }
  replace (h / 1) with h by field. assert (0 <= u * Rabs h) by (apply Rmult_le_pos; [apply norm_nonneg|apply Rabs_pos]). lra.
Qed.
Print Assumptions C74_estimate. Print Assumptions C74_controller. Print Assumptions C74_simple_call. Print Assumptions C74_regularised_call. Print Assumptions C74_error_of_every_step_seen_refuted. Print Assumptions C74_translation_invariance_refuted.
(** * Non-vacuity *)
(** The Pythagorean problem (shifted off the origin) is such a rest state; a moving three-body state whose estimate is not zero. *)
Example C74_rest_case : let s := mkSt [3; 4; 5] 0 [mkV 1 3 0; mkV (-2) (-1) 0; mkV 1 (-1) 0] [vzero; vzero; vzero] [] 0 0 1 (repeat 0 19) true in
  well_sized newton_only 1 s /\ (forall i, (i < npart s)%nat -> nth i (s_v s) vzero = vzero /\ nth i (s_p s) vzero <> vzero).
Proof.
  cbv zeta. split; [repeat split; discriminate|]. unfold npart. cbn [s_m s_v s_p length]. intros i Hi. destruct i as [|[|[|]]]; cbn [nth]; try lia; (split; [reflexivity|]); intros E; apply (f_equal vy) in E; cbn in E; lra.
Qed.
Example C74_moving_case : exists e, 0 < e /\ step_error (view_simple newton_only three_body) (derivative newton_only three_body) (repeat 1 19) 1 = Ok e.
Proof.
  assert (W : well_sized newton_only 1 three_body) by (repeat split; discriminate).
  assert (Ld : length (derivative newton_only three_body) = length (write newton_only three_body)) by (rewrite (proj1 (simple_dt newton_only three_body three_body newton_sized (conj W eq_refl))); reflexivity).
  destruct (proj1 (C74_estimate newton_only three_body (mkCst three_body [] [] [] []) (derivative newton_only three_body) (repeat 1 19) 1 ltac:(rewrite Ld; reflexivity)) W Ld) as (e & E & P & D).
  exists e. split; [|exact E].
  assert (C0 : counted (view_simple newton_only three_body) 1 2).
  { split; [unfold entries, view_simple, npart; cbn; lia|]. split; [intros _; discriminate|]. intros i (Hi & _ & Sl) (a & Ha & Q). unfold view_simple, npart in Hi, Sl, Q. cbn [w_n w_vel w_pos w_scale w_dep three_body s_m length s_v s_p I_dep newton_only] in Hi, Sl, Q.
    assert (i = 0)%nat by (destruct Q as [Q|[Q|(Q & _)]]; [lia|lia|discriminate]). subst i. cbn [nth] in Sl. unfold norm, norm2, dot in Sl. cbn [vx vy vz] in Sl.
    replace (0 * 0 + 1 * 1 + 0 * 0) with 1 in Sl by ring. replace (0 * 0 + 0 * 0 + 0 * 0) with 0 in Sl by ring. rewrite sqrt_1, sqrt_0 in Sl. replace (1 / 1) with 1 in Sl by field. rewrite Rabs_R1 in Sl. lra. }
  destruct D as [(Z & _)|(k1 & k2 & _ & _ & N1 & _ & B2 & _)].
  - exfalso. specialize (Z 2%nat C0). cbn in Z. lra.
  - destruct (Rle_lt_or_eq_dec 0 e P) as [|<-]; [auto|]. exfalso. specialize (B2 2%nat C0). cbn in B2. rewrite Rabs_R1 in B2. lra.
Qed.
