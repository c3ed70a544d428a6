(** Gauss-Radau methods on any system: linear functionals and definedness of one call, adaptive or constant-step. *)
From Verif Require Export Ias_Proofs2.
From Verif Require Import Force_Proofs System_Spec Ctrl_Spec Ctrl_Proofs Chain_Spec Chain_Proofs System_Proofs System_Proofs2 System_Proofs3 System_Proofs4 BS_Proofs3 Radau_Spec Radau_Proofs Radau_Proofs4 Radau_Proofs5 Radau_Props Ias_Spec Ias_Props Build_Proofs.
From Verif Require Import Rad_Spec Radau_Proofs2.
Import Radau_Spec Radau_Proofs4.
Open Scope R_scope.

Section Fl.
  Context {P : Type} (wr : P -> list R) (rd : P -> list R -> outcome P) (deriv : P -> outcome (list R * P)) (n : nat) (c c2 : nat -> R) (K kap : R) (ok : P -> Prop) (vw : P -> view).
  Context (rd_ok : forall p y q, ok p -> length y = n -> rd p y = Ok q -> ok q /\ wr q = y).
  Context (dv_ok : forall p d q, ok p -> deriv p = Ok (d, q) -> ok q).
  Context (cons : forall p d q, ok p -> deriv p = Ok (d, q) -> lin n c d = 0) (rate : forall p d q, ok p -> deriv p = Ok (d, q) -> lin n c (wr p) = K -> lin n c2 d = kap).
  Notation fl2 := (flat2 n c c2).
  Lemma radau_flat md A p h A' p' h' : gr_sized (g_n (i_gr A)) (i_gr A) -> length (wr p) = n -> ok p -> fl2 (i_gr A) -> lin n c (wr p) = K ->
    radau_iter wr rd deriv vw md A p h = Some (Ok (A', p', h')) ->
    gr_sized n (i_gr A') /\ fl2 (i_gr A') /\ ok p' /\ length (wr p') = n /\
    exists hacc, (0 < h -> 0 < hacc <= h) /\ (md = Constant -> hacc = h /\ h' = h) /\ lin n c (wr p') = K /\ lin n c2 (wr p') = lin n c2 (wr p) + hacc * kap.
  Proof.
    intros HG L Hp F HK H. destruct md as [fuel|]; cbn [radau_iter] in H.
    - destruct (ias_flat wr rd deriv n c c2 K kap ok rd_ok dv_ok cons rate _ _ _ _ _ fuel 0%nat A p h A' p' h' HG L Hp F HK H) as (S1 & F1 & O1 & L1 & hacc & r & X1 & X2 & X3 & X4 & X5).
      split; auto. split; auto. split; auto. split; auto. exists hacc. split; [apply shrunk_ias; auto|]. split; [discriminate|]. auto.
    - unfold gr_integrate in H. destruct (correct wr rd deriv (i_gr A) p h) as [[G1 p1]| |] eqn:C; cbn [obind] in H; try discriminate.
      destruct (correct_flat wr rd deriv n c c2 K kap ok rd_ok dv_ok cons rate _ _ _ _ _ HG L Hp F HK C) as (F1 & O1 & W1). apply correct_spec with (n := n) in C; auto. destruct C as (d0 & p0 & Ed & S1 & C1 & C2 & _).
      destruct (evaluate rd G1 p1 h) as [p2| |] eqn:Ev; cbn [obind] in H; try discriminate.
      assert (X : A' = mkIas (predict 1 G1) (i_last A) (i_warm A)) by congruence. assert (p' = p2) by congruence. assert (h' = h) by congruence. subst A' p' h'. cbn [i_gr].
      apply (evaluate_flat wr rd n c c2 kap ok rd_ok) in Ev; auto; [|rewrite C1; auto|rewrite C2; apply (cons _ _ _ Hp Ed)|rewrite C2; apply (rate _ _ _ Hp Ed HK)]. destruct Ev as (V1 & V2 & V3 & V4). rewrite C1 in *. assert (Gn : g_n G1 = n) by apply S1.
      split; [apply predict_spec; auto|]. split; [destruct F1; split; apply predict_flat; auto|]. split; auto. split; auto. exists h. split; [lra|]. split; [auto|]. split; [congruence|auto].
  Qed.
End Fl.

Section Ub.
  Context {P : Type} (wr : P -> list R) (rd : P -> list R -> outcome P) (deriv : P -> outcome (list R * P)) (n : nat) (ok : P -> Prop) (vw : P -> view).
  Context (RD : forall p y q, ok p -> length y = n -> rd p y = Ok q -> ok q /\ wr q = y).
  Context (DV : forall p d q, ok p -> deriv p = Ok (d, q) -> ok q /\ length d = n).
  Context (OL : forall p, ok p -> length (wr p) = n).
  Context (FT : forall p dyh b6, ok p -> length dyh = n -> length b6 = n -> fits (vw p) dyh b6).
  Context (RT : forall p y, ok p -> length y = n -> exists q, rd p y = Ok q) (DT : forall p, ok p -> exists d q, deriv p = Ok (d, q)).
  (** One call: no undefined behaviour, and the constant-step method always returns. *)
  Lemma radau_defined md A p h : gr_sized (g_n (i_gr A)) (i_gr A) -> ok p ->
    radau_iter wr rd deriv vw md A p h <> Some UB /\ (md = Constant -> exists A' p', radau_iter wr rd deriv vw md A p h = Some (Ok (A', p', h))).
  Proof.
    intros HG Hp.
    assert (JC : forall G p h G1 p1, gr_sized (g_n G) G -> ok p -> correct wr rd deriv G p h = Ok (G1, p1) -> gr_sized (g_n G1) G1).
    { intros G q k G1 p1 T Gp E. destruct (correct_spec wr rd deriv n _ _ _ _ _ T (OL q Gp) E) as (? & ? & _ & Sz & _). assert (X : g_n G1 = n) by apply Sz. rewrite X. auto. }
    assert (JP : forall G q, gr_sized (g_n G) G -> gr_sized (g_n (predict q G)) (predict q G)).
    { intros G q S1. destruct (predict_spec q (g_n G) G eq_refl) as (X & _). assert (Y : g_n (predict q G) = g_n G) by apply X. rewrite Y. auto. }
    destruct md as [fuel|]; cbn [radau_iter].
    - split; [|discriminate]. apply (never_ub wr rd deriv n ok (fun G => gr_sized (g_n G) G)); auto.
      intros q dyh b6 k Hq L1 L2. destruct (step_error_spec (vw q) dyh b6 k (FT q dyh b6 Hq L1 L2)) as (e & -> & _). eauto.
    - unfold gr_integrate. destruct (correct_defined wr rd deriv n ok RD DV OL RT DT (i_gr A) p h HG Hp) as (G1 & p1 & C). rewrite C. cbn [obind].
      destruct (correct_ok wr rd deriv n ok RD DV OL _ _ _ _ _ HG Hp C) as (O1 & W1). destruct (correct_spec wr rd deriv n _ _ _ _ _ HG (OL p Hp) C) as (d0 & p0 & _ & Sz & Gi & _).
      destruct (RT p1 (evaluate_state G1 h) O1) as (q & E); [rewrite evaluate_len, Gi; auto|]. unfold evaluate. rewrite E. cbn [obind]. split; [discriminate|]. intros _. eauto.
  Qed.
  Lemma radau_keeps md A p h A' p' h' : gr_sized (g_n (i_gr A)) (i_gr A) -> ok p -> radau_iter wr rd deriv vw md A p h = Some (Ok (A', p', h')) -> gr_sized (g_n (i_gr A')) (i_gr A') /\ ok p'.
  Proof.
    intros HG Hp H.
    assert (X : gr_sized n (i_gr A') /\ ok p').
    { assert (E : exists A0, i_gr A0 = entry n (i_gr A) /\ radau_iter wr rd deriv vw md A p h = radau_iter wr rd deriv vw md A0 p h).
      { exists (mkIas (entry n (i_gr A)) (i_last A) (i_warm A)). split; [reflexivity|]. unfold radau_iter, ias_iterate, gr_integrate. cbn [i_gr i_last i_warm].
        destruct md as [[|f]|]; [reflexivity| |]; cbn [ias_loop i_gr i_last i_warm]; rewrite (entry_correct wr rd deriv n (i_gr A) p h (OL p Hp)); reflexivity. }
      destruct E as (A0 & E0 & E1). rewrite E1 in H. pose proof (entry_sized n _ HG) as S0.
      destruct (radau_flat wr rd deriv n (fun _ => 0) (fun _ => 0) 0 0 ok vw RD (fun p d q A B => proj1 (DV p d q A B)) (fun p d q _ _ => lin_c0 n d) (fun p d q _ _ _ => lin_c0 n d) md A0 p h A' p' h') as (S1 & _ & O1 & _); auto.
      - rewrite E0. assert (Y : g_n (entry n (i_gr A)) = n) by apply S0. rewrite Y. auto.
      - split; apply flat_c0.
      - apply lin_c0. }
    destruct X as (S1 & O1). split; auto. assert (Y : g_n (i_gr A') = n) by apply S1. rewrite Y. auto.
  Qed.
End Ub.

Lemma rsum_pos0 f n : (forall i, (i < n)%nat -> 0 <= f i) -> 0 <= rsum f n.
Proof. intros H. rewrite <- (rsum_zero n). apply rsum_le. auto. Qed.
(** * Tables left over from another chain order *)
Definition coherent (n : nat) (G : gr) : Prop := forall x i, (x < n)%nat -> (i < 7)%nat -> Rabs (disc G x i) <= / 10 ^ 28 * size7 (Radau_Spec.comp (g_b G) x).
Section Stale.
  Context {P : Type} (wr : P -> list R) (rd : P -> list R -> outcome P) (deriv : P -> outcome (list R * P)) (n : nat) (c : nat -> R) (ok : P -> Prop).
  Context (RD : forall p y q, ok p -> length y = n -> rd p y = Ok q -> ok q /\ wr q = y).
  Context (DV : forall p d q, ok p -> deriv p = Ok (d, q) -> ok q /\ length d = n).
  Context (OL : forall p, ok p -> length (wr p) = n).
  Context (cons : forall p d q, ok p -> deriv p = Ok (d, q) -> lin n c d = 0).
  Lemma stages_zero step : forall k G p G' p', (k <= 7)%nat -> gr_sized n G -> length (g_in G) = n -> ok p -> lin n c (g_dy0 G) = 0 -> (forall j, (j < 7 - k)%nat -> lin n c (g_g G j) = 0) ->
    stages rd deriv k G p step = Ok (G', p') -> forall j, (j < 7)%nat -> lin n c (g_g G' j) = 0.
  Proof.
    induction k as [|k IH]; intros G p G' p' Hk Sz L Hp D0 Z H j Hj; cbn [stages] in H.
    - assert (G' = G) by congruence. subst G'. apply Z. lia.
    - destruct (rd p (stage_state G step (7 - S k))) as [q| |] eqn:E; cbn [obind] in H; try discriminate. destruct (RD _ _ _ Hp (stage_len n G step _ Sz) E) as (Oq & Wq).
      destruct (deriv q) as [[d q']| |] eqn:Ed; cbn [obind] in H; try discriminate. cbv zeta in H. destruct (DV _ _ _ Oq Ed) as (Od & _).
      destruct (rd q' (g_in G)) as [p2| |] eqn:E2; cbn [obind] in H; try discriminate. destruct (RD _ _ _ Od L E2) as (O2 & _).
      destruct (update_spec n G d (7 - S k) Sz ltac:(lia)) as (U1 & U2 & U3 & _ & _ & U6 & U7).
      eapply (IH (update_b G d (7 - S k)) p2); [lia|auto|rewrite U2; auto|auto|rewrite U3; auto| |exact H|auto].
      intros i Hi. destruct (Nat.eq_dec i (7 - S k)) as [->|N]; [|rewrite U6 by auto; apply Z; lia].
      set (kk := (7 - S k)%nat) in *. rewrite (lin_val n c _ (fun x => (at_ d x - at_ (g_dy0 G) x) * rs kk 0 - rsum (fun j => Radau_Spec.comp (g_g G) x j * rs kk (j + 1)) kk)).
      + rewrite (rsum_ext _ (fun x => rs kk 0 * (c x * at_ d x) - rs kk 0 * (c x * at_ (g_dy0 G) x) - c x * rsum (fun j => Radau_Spec.comp (g_g G) x j * rs kk (j + 1)) kk)) by (intros; ring).
        rewrite !rsum_sub, !rsum_scal, (rsum_rsum_scal (fun j => rs kk (j + 1)) (fun j x => Radau_Spec.comp (g_g G) x j) c n kk).
        pose proof (cons _ _ _ Oq Ed) as Cd. unfold lin in Cd, D0. unfold at_. rewrite Cd, D0. rewrite (rsum_ext (fun j => rsum (fun x => c x * Radau_Spec.comp (g_g G) x j) n * rs kk (j + 1)) (fun _ => 0)); [rewrite rsum_zero; ring|].
        intros l Hl. specialize (Z l Hl). unfold lin in Z. unfold Radau_Spec.comp. rewrite Z. ring.
      + intros x Hx. destruct (U7 x Hx) as (W & _). unfold Radau_Spec.comp in W at 1. unfold at_ at 1. rewrite W, new_g_val. auto.
  Qed.
  Lemma stale_bound G p h G1 p1 : gr_sized n G -> coherent n G -> ok p -> correct wr rd deriv G p h = Ok (G1, p1) ->
    Rabs (lin n c (evaluate_state G1 h) - lin n c (wr p)) <= Rabs h * (2 / 10 ^ 28) * rsum (fun x => Rabs (c x) * size7 (Radau_Spec.comp (g_b G) x)) n.
  Proof.
    intros Sz Co Hp C. assert (Sz' : gr_sized (g_n G) G) by (assert (X : g_n G = n) by apply Sz; rewrite X; auto).
    assert (En : entry n G = G) by (unfold entry, check_size; rewrite (proj1 Sz), Nat.eqb_refl; reflexivity).
    destruct (correct_spec wr rd deriv n _ _ _ _ _ Sz' (OL p Hp) C) as (d0 & p0 & Ed & S1 & Gi & Gd & _ & D & _). rewrite En in D.
    assert (Z : forall j, (j < 7)%nat -> lin n c (g_g G1 j) = 0).
    { unfold correct in C. cbv zeta in C. rewrite (OL p Hp) in C. fold (entry n G) in C. rewrite En, Ed in C. cbn [obind] in C.
      eapply stages_zero; [| | | | | |exact C]; [lia|split; [apply Sz|apply Sz]|apply OL; auto|apply (DV _ _ _ Hp Ed)|apply (cons _ _ _ Hp Ed)|intros; lia]. }
    assert (Bi : forall i, (i < 7)%nat -> lin n c (g_b G1 i) = rsum (fun x => c x * disc G x i) n).
    { intros i Hi. unfold lin. rewrite (rsum_ext _ (fun x => c x * disc G x i + c x * conv g2b (Radau_Spec.comp (g_g G1) x) i)).
      - rewrite rsum_add, (conv_flat n c g2b (fun j x => Radau_Spec.comp (g_g G1) x j)); [ring|]. intros j Hj. apply (Z j Hj).
      - intros x Hx. rewrite <- (D x i Hx Hi). unfold disc, Radau_Spec.comp. ring. }
    assert (E : lin n c (evaluate_state G1 h) = lin n c (wr p) + h * rsum (fun i => lin n c (g_b G1 i) * (/ INR (i + 2))) 7).
    { rewrite (lin_val n c _ (fun x => path (at_ (g_in G1) x) (at_ (g_dy0 G1) x) (Radau_Spec.comp (g_b G1) x) h 1)) by (intros x Hx; apply evaluate_path; rewrite Gi, OL; auto).
      rewrite Gi, Gd. rewrite (rsum_ext _ (fun x => c x * at_ (wr p) x + h * (c x * at_ d0 x) + h * (c x * rsum (fun i => Radau_Spec.comp (g_b G1) x i * / INR (i + 2)) 7))).
      - rewrite !rsum_add, !rsum_scal, (rsum_rsum_scal (fun i => / INR (i + 2)) (fun i x => Radau_Spec.comp (g_b G1) x i) c n 7). pose proof (cons _ _ _ Hp Ed) as Cd. unfold lin in *. unfold at_. rewrite Cd. unfold Radau_Spec.comp. ring.
      - intros x Hx. unfold path. rewrite (rsum_ext (fun i => Radau_Spec.comp (g_b G1) x i * 1 ^ (i + 2) / INR (i + 2)) (fun i => Radau_Spec.comp (g_b G1) x i * / INR (i + 2))) by (intros; rewrite pow1; unfold Rdiv; ring). ring. }
    rewrite E. replace (lin n c (wr p) + h * rsum (fun i => lin n c (g_b G1 i) * / INR (i + 2)) 7 - lin n c (wr p)) with (h * rsum (fun i => lin n c (g_b G1 i) * / INR (i + 2)) 7) by ring.
    rewrite Rabs_mult, Rmult_assoc. apply Rmult_le_compat_l; [apply Rabs_pos|]. set (S := rsum (fun x => Rabs (c x) * size7 (Radau_Spec.comp (g_b G) x)) n).
    assert (S0 : 0 <= S) by (apply rsum_pos0; intros x _; apply Rmult_le_pos; [apply Rabs_pos|unfold size7; apply rsum_pos0; intros; apply Rabs_pos]).
    assert (Bd : forall i, (i < 7)%nat -> Rabs (lin n c (g_b G1 i)) <= / 10 ^ 28 * S).
    { intros i Hi. rewrite (Bi i Hi). apply Rle_trans with (rsum (fun x => Rabs (c x * disc G x i)) n); [apply rsum_abs|]. unfold S. rewrite <- rsum_scal. apply rsum_le. intros x Hx. rewrite Rabs_mult.
      replace (/ 10 ^ 28 * (Rabs (c x) * size7 (Radau_Spec.comp (g_b G) x))) with (Rabs (c x) * (/ 10 ^ 28 * size7 (Radau_Spec.comp (g_b G) x))) by ring. apply Rmult_le_compat_l; [apply Rabs_pos|]. apply Co; auto. }
    apply Rle_trans with (rsum (fun i => / INR (i + 2) * (/ 10 ^ 28 * S)) 7).
    - apply Rle_trans with (rsum (fun i => Rabs (lin n c (g_b G1 i) * / INR (i + 2))) 7); [apply rsum_abs|]. apply rsum_le. intros i Hi. rewrite Rabs_mult, Rmult_comm. rewrite (Rabs_right (/ INR (i + 2))).
      + apply Rmult_le_compat_l; [left; apply Rinv_0_lt_compat, lt_0_INR; lia|apply Bd; auto].
      + apply Rle_ge. left. apply Rinv_0_lt_compat, lt_0_INR. lia.
    - cbn [rsum Nat.add INR]. assert (0 <= / 10 ^ 28 * S) by (apply Rmult_le_pos; [left; apply Rinv_0_lt_compat, pow_lt; lra|auto]). unfold Rdiv. nra.
  Qed.
  Lemma predict_coherent q G : gr_sized n G -> coherent n (predict q G).
  Proof.
    intros Sz x i Hx Hi. destruct (predict_spec q n G (proj1 Sz)) as (_ & _ & _ & _ & _ & V). unfold disc. rewrite (conv_ext _ _ (conv b2g (Radau_Spec.comp (g_b (predict q G)) x))).
    - rewrite Rabs_minus_sym. apply conv_g2b_b2g; auto.
    - intros j Hj. destruct (V j x Hj Hx) as (_ & _ & ->). reflexivity.
  Qed.
End Stale.

(** * Momentum, centre of mass, time *)
(** The coefficient tables carry no momentum and move the centre of mass with the momentum [P0]. *)
Definition still (n : nat) (cm : list R) (P0 : vec) (G : gr) : Prop :=
  forall a, (a < 3)%nat -> tidy n (cf cm (vel_offset (length cm) + a)) G /\ tidy n (com_c cm P0 a) G.
Section Obs.
  Context {P : Type} (wr : P -> list R) (rd : P -> list R -> outcome P) (deriv : P -> outcome (list R * P)) (n : nat) (ok : P -> Prop) (vw : P -> view).
  Context (RD : forall p y q, ok p -> length y = n -> rd p y = Ok q -> ok q /\ wr q = y).
  Context (DV : forall p d q, ok p -> deriv p = Ok (d, q) -> ok q /\ length d = n).
  Context (OL : forall p, ok p -> length (wr p) = n).
  Lemma radau_tidy c c2 K kap : (forall p d q, ok p -> deriv p = Ok (d, q) -> lin n c d = 0) -> (forall p d q, ok p -> deriv p = Ok (d, q) -> lin n c (wr p) = K -> lin n c2 d = kap) ->
    forall md A p h A' p' h', tidy n c (i_gr A) -> tidy n c2 (i_gr A) -> ok p -> lin n c (wr p) = K -> radau_iter wr rd deriv vw md A p h = Some (Ok (A', p', h')) ->
    tidy n c (i_gr A') /\ tidy n c2 (i_gr A') /\ ok p' /\
    exists hacc, (0 < h -> 0 < hacc <= h) /\ (md = Constant -> hacc = h /\ h' = h) /\ lin n c (wr p') = K /\ lin n c2 (wr p') = lin n c2 (wr p) + hacc * kap.
  Proof.
    intros CO RT md A p h A' p' h' T1 T2 Hp HK H.
    assert (E : exists A0, i_gr A0 = entry n (i_gr A) /\ radau_iter wr rd deriv vw md A p h = radau_iter wr rd deriv vw md A0 p h).
    { exists (mkIas (entry n (i_gr A)) (i_last A) (i_warm A)). split; [reflexivity|]. unfold radau_iter, ias_iterate, gr_integrate. cbn [i_gr i_last i_warm].
      destruct md as [[|f]|]; [reflexivity| |]; cbn [ias_loop i_gr i_last i_warm]; rewrite (entry_correct wr rd deriv n (i_gr A) p h (OL p Hp)); reflexivity. }
    destruct E as (A0 & E0 & E1). rewrite E1 in H. destruct (tidy_entry n c _ T1) as (S1 & F1). destruct (tidy_entry n c2 _ T2) as (_ & F2). rewrite <- E0 in *.
    destruct (radau_flat wr rd deriv n c c2 K kap ok vw RD (fun p d q A B => proj1 (DV p d q A B)) CO RT md A0 p h A' p' h' S1 (OL p Hp) Hp (conj F1 F2) HK H) as (X1 & X2 & X3 & X4 & X5).
    split; [apply flat_tidy; auto; apply X2|]. split; [apply flat_tidy; auto; apply X2|]. auto.
  Qed.
  Context (tm : P -> R) (WT : forall p, ok p -> lin n (unitc 0) (wr p) = tm p).
  Lemma radau_time : (forall p d q, ok p -> deriv p = Ok (d, q) -> lin n (unitc 0) d = 1) ->
    forall md A p h A' p' h', tidy n (unitc 0) (i_gr A) -> ok p -> radau_iter wr rd deriv vw md A p h = Some (Ok (A', p', h')) ->
    tidy n (unitc 0) (i_gr A') /\ ok p' /\ exists hacc, (0 < h -> 0 < hacc <= h) /\ (md = Constant -> hacc = h /\ h' = h) /\ tm p' = tm p + hacc.
  Proof.
    intros D1 md A p h A' p' h' T Hp H.
    destruct (radau_tidy (fun _ => 0) (unitc 0) 0 1 (fun p d q _ _ => lin_c0 n d) (fun p d q A B _ => D1 p d q A B) md A p h A' p' h') as (_ & X2 & X3 & hacc & X4 & X5 & _ & X6); auto.
    - split; [apply T|intros _; apply flat_c0].
    - apply lin_c0.
    - split; auto. split; auto. exists hacc. split; auto. split; auto. rewrite !WT in X6 by auto. lra.
  Qed.
  Context (cm : list R) (Mom Mnt : P -> vec).
  Context (WO : forall p, ok p -> forall a, (a < 3)%nat -> lin n (cf cm (vel_offset (length cm) + a)) (wr p) = ax a (Mom p) /\ lin n (cf cm (pos_offset + a)) (wr p) = ax a (Mnt p)).
  Context (DO : forall p d q, ok p -> deriv p = Ok (d, q) -> exists k, forall a, (a < 3)%nat -> lin n (cf cm (vel_offset (length cm) + a)) d = 0 /\
      lin n (cf cm (pos_offset + a)) d = k * ax a (Mom p) /\ lin n (unitc 0) d = k).
  Lemma radau_momentum md A p h A' p' h' : still n cm (Mom p) (i_gr A) -> ok p -> radau_iter wr rd deriv vw md A p h = Some (Ok (A', p', h')) ->
    still n cm (Mom p) (i_gr A') /\ ok p' /\ Mom p' = Mom p /\ Mnt p' = vadd (Mnt p) (vscal (tm p' - tm p) (Mom p)).
  Proof.
    intros T Hp H. set (P0 := Mom p).
    assert (One : forall a, (a < 3)%nat -> (tidy n (cf cm (vel_offset (length cm) + a)) (i_gr A') /\ tidy n (com_c cm P0 a) (i_gr A')) /\ ok p' /\
      lin n (cf cm (vel_offset (length cm) + a)) (wr p') = ax a P0 /\ lin n (com_c cm P0 a) (wr p') = lin n (com_c cm P0 a) (wr p)).
    { intros a Ha. destruct (T a Ha) as (T1 & T2).
      destruct (radau_tidy (cf cm (vel_offset (length cm) + a)) (com_c cm P0 a) (ax a P0) 0) with (md := md) (A := A) (p := p) (h := h) (A' := A') (p' := p') (h' := h') as (X1 & X2 & X3 & hacc & _ & _ & X5 & X6); auto.
      - intros x d q Hx E. destruct (DO x d q Hx E) as (k & X). apply (X a Ha).
      - intros x d q Hx E L. destruct (DO x d q Hx E) as (k & X). destruct (X a Ha) as (_ & K2 & K3). unfold com_c. rewrite lin_comb, K2, K3. rewrite (proj1 (WO x Hx a Ha)) in L. rewrite L. ring.
      - apply (WO p Hp a Ha).
      - split; auto. split; auto. split; auto. rewrite X6. ring. }
    destruct (One 0%nat ltac:(lia)) as (_ & O1 & _). split; [intros a Ha; apply (One a Ha)|]. split; auto. split.
    - apply ax_ext. intros a Ha. destruct (One a Ha) as (_ & _ & X & _). rewrite (proj1 (WO p' O1 a Ha)) in X. exact X.
    - apply ax_ext. intros a Ha. destruct (One a Ha) as (_ & _ & _ & X). unfold com_c in X. rewrite !lin_comb, !WT in X by auto. rewrite (proj2 (WO p' O1 a Ha)), (proj2 (WO p Hp a Ha)) in X.
      assert (Y : ax a (vadd (Mnt p) (vscal (tm p' - tm p) P0)) = ax a (Mnt p) + (tm p' - tm p) * ax a P0) by (destruct a as [|[|]]; reflexivity). rewrite Y. lra.
  Qed.
End Obs.

(** * Chain systems *)
Lemma cgood_pre I m idx c : consistent newton_only c -> c_idx c = idx -> s_m (c_st c) = m -> cgood I m idx (cpre_iter I c).
Proof. intros C Ei Em. split; [apply cart_ok_pre; exact C|]. unfold cpre_iter, pre_iter. destruct (I_dep I); auto. Qed.
Lemma chain_obs I m idx e c : (e = 1 \/ e = 3)%nat -> cgood I m idx c -> let cm := chain_masses idx m in let n := variable_number I e (length m) in
  lin n (unitc 0) (gcwrite I e c) = s_t (c_st c) /\
  forall a, (a < 3)%nat -> lin n (cf cm (vel_offset (length cm) + a)) (gcwrite I e c) = ax a (momentum (c_st c)) /\ lin n (cf cm (pos_offset + a)) (gcwrite I e c) = ax a (moment (c_st c)).
Proof.
  intros He G cm n. destruct (vst_view I m idx c G) as (Vm & Vp & Vt & Vs & L1 & L2 & _). assert (Lc : length cm = length m) by apply chain_masses_len.
  assert (Np : npart (vst c) = length m) by (unfold npart; rewrite Vs; exact Lc).
  destruct (gwrite_tot I e (vst c)) as (T1 & T2 & T3); [rewrite Np; auto|rewrite Np; auto|]. rewrite vst_write in *. rewrite Vs, Np in *.
  assert (S : (pos_offset + 3 * length cm <= n)%nat /\ (vel_offset (length cm) + 3 * length cm <= n)%nat /\ (0 < n)%nat) by (rewrite Lc; unfold n, variable_number, pos_offset, vel_offset; destruct He as [-> | ->], (I_dep I); lia).
  destruct S as (S1 & S2 & S3). split; [rewrite lin_unit by auto; exact T3|]. intros a Ha. rewrite !lin_vtot by auto. rewrite Lc. fold cm in T1, T2. rewrite T1, T2, Vm, Vp. auto.
Qed.
Lemma chain_pack_obs I m idx e c k t d aux tl a : (e = 1 \/ e = 3)%nat -> cgood I m idx c -> length d = length m -> net_force (chain_masses idx m) d = vzero -> (a < 3)%nat ->
  let cm := chain_masses idx m in let n := variable_number I e (length m) in let y := pack k (map (vscal t) (c_cv c)) d aux tl in
  lin n (cf cm (vel_offset (length cm) + a)) y = 0 /\ lin n (cf cm (pos_offset + a)) y = t * ax a (momentum (c_st c)) /\ lin n (unitc 0) y = k.
Proof.
  intros He G Ld Nd Ha cm n y. destruct (vst_view I m idx c G) as (Vm & Vp & Vt & Vs & L1 & L2 & _). assert (Lc : length cm = length m) by apply chain_masses_len.
  assert (S : (pos_offset + 3 * length cm <= n)%nat /\ (vel_offset (length cm) + 3 * length cm <= n)%nat /\ (0 < n)%nat) by (rewrite Lc; unfold n, variable_number, pos_offset, vel_offset; destruct He as [-> | ->], (I_dep I); lia).
  destruct S as (S1 & S2 & S3). rewrite !lin_vtot, lin_unit by auto. unfold y. rewrite vtot_pack_vel, vtot_pack_pos by (rewrite ?map_length, Lc; auto). fold cm in Nd. rewrite Nd, net_scaled by (rewrite Lc; auto).
  split; [destruct a as [|[|]]; reflexivity|]. split; [|reflexivity].
  assert (X : net_force cm (c_cv c) = momentum (c_st c)) by (rewrite <- Vm; unfold net_force, momentum, npart; rewrite Vs; reflexivity). rewrite X. destruct a as [|[|]]; reflexivity.
Qed.
Lemma chain_acc_net I m idx e c a ca : sized I -> balanced I -> (2 <= length m)%nat -> cgood I m idx c -> (e = 1 \/ e = 3)%nat ->
  a = eval_total I (s_m (c_st c)) (s_p (c_st c)) (s_v (c_st c)) \/ a = racc I (c_st c) -> length a = length m -> chain_of (length m) idx a = Ok ca -> net_force (chain_masses idx m) ca = vzero.
Proof.
  intros HI HB Hn G He Ea La Ec. pose proof G as ((H1 & H2 & Hp & Hv & _) & Ei & Em). unfold npart in *. rewrite (chain_net idx m a); auto; [|lia|rewrite <- Ei, <- Em; exact H2].
  set (inc := repeat 0 (variable_number I 1 (npart (c_st c)))). set (s := c_st c) in *.
  set (s' := mkSt (s_m s) (s_t s) (s_p s) (s_v s) (s_v s) (s_om s) (s_be s) (s_sc s) inc (s_sync s)).
  assert (W : well_sized I 1 s') by (unfold well_sized, s', npart, inc; cbn [s_m s_p s_v s_w s_inc]; rewrite repeat_length; auto).
  destruct (acc_net I s' 1 HI HB W) as (A & B). unfold s' in A, B; cbn [s_m s_p s_v] in A, B. rewrite Em in A. destruct Ea as [-> | ->].
  - rewrite Em. exact A.
  - rewrite <- Em. exact B.
Qed.

(** * Constant steps with tables of another chain order *)
Lemma behind_nth idx m l : (l < length m)%nat -> nth l (chain_masses idx m) 0 = behind idx m l.
Proof.
  intros H. unfold chain_masses, behind. cbv zeta. set (w := fun j => nth (nth j idx 0%nat) m 0). set (f := fun l => rsum w (length m) - (if (l =? length m - 1)%nat then 0 else rsum w (l + 1))).
  rewrite nth_indep with (d' := f 0%nat) by (rewrite map_length, seq_length; auto). rewrite map_nth, seq_nth by auto. unfold f. cbn [Nat.add]. destruct (l =? length m - 1)%nat; ring.
Qed.
Lemma cf_bound n cm off (s : nat -> R) : (forall x, 0 <= s x) -> (forall l, (l < length cm)%nat -> (off + 3 * l < n)%nat) ->
  rsum (fun x => Rabs (cf cm off x) * s x) n <= rsum (fun l => Rabs (nth l cm 0) * s (off + 3 * l)%nat) (length cm).
Proof.
  intros Hs Ho. apply Rle_trans with (rsum (fun x => rsum (fun l => Rabs (nth l cm 0) * (s x * (if (x =? off + 3 * l)%nat then 1 else 0))) (length cm)) n).
  - apply rsum_le. intros x Hx. rewrite (rsum_ext _ (fun l => s x * (Rabs (nth l cm 0) * unitc (off + 3 * l) x))) by (intros; unfold unitc; ring). rewrite rsum_scal, Rmult_comm. apply Rmult_le_compat_l; [auto|].
    unfold cf. eapply Rle_trans; [apply rsum_abs|]. apply rsum_le. intros l _. rewrite Rabs_mult. apply Rmult_le_compat_l; [apply Rabs_pos|]. unfold unitc. destruct (x =? off + 3 * l)%nat; [rewrite Rabs_R1|rewrite Rabs_R0]; lra.
  - rewrite rsum_swap. apply rsum_le. intros l Hl. rewrite rsum_scal. apply Rmult_le_compat_l; [apply Rabs_pos|]. rewrite (rsum_pick s (off + 3 * l) n) by auto. lra.
Qed.
Section StaleIter.
  Context {P : Type} (wr : P -> list R) (rd : P -> list R -> outcome P) (deriv : P -> outcome (list R * P)) (n : nat) (ok : P -> Prop) (vw : P -> view).
  Context (RD : forall p y q, ok p -> length y = n -> rd p y = Ok q -> ok q /\ wr q = y).
  Context (DV : forall p d q, ok p -> deriv p = Ok (d, q) -> ok q /\ length d = n).
  Context (OL : forall p, ok p -> length (wr p) = n).
  Definition settled (G : gr) : Prop := G = gr_init \/ (gr_sized n G /\ coherent n G).
  Lemma settled_sized G : settled G -> gr_sized (g_n G) G. Proof. intros [->|(S & _)]; [apply sized_init|]. assert (X : g_n G = n) by apply S. rewrite X. auto. Qed.
  Lemma settled_entry G : settled G -> gr_sized n (entry n G) /\ coherent n (entry n G) /\ forall x, size7 (Radau_Spec.comp (g_b (entry n G)) x) = size7 (Radau_Spec.comp (g_b G) x).
  Proof.
    intros H. split; [apply entry_sized, settled_sized; auto|]. destruct H as [->|(S & Co)].
    - assert (Z : forall x i, Radau_Spec.comp (g_b (entry n gr_init)) x i = 0 /\ Radau_Spec.comp (g_g (entry n gr_init)) x i = 0 /\ Radau_Spec.comp (g_b gr_init) x i = 0).
      { assert (Z0 : forall x, nth x (arr n (fun _ => 0)) 0 = 0).
        { intros x. destruct (Nat.lt_ge_cases x n) as [L|L]; [apply (arr_at n (fun _ => 0)); auto|apply nth_overflow]. rewrite arr_len. auto. }
        intros x i. unfold entry, check_size, gr_init. cbn [g_n]. destruct (0 =? n)%nat; cbn [g_b g_g]; unfold Radau_Spec.comp; cbn [g_b g_g]; rewrite ?Z0; destruct x; auto. }
      assert (Z7 : forall f, (forall i, f i = 0) -> size7 f = 0) by (intros f Hf; unfold size7; rewrite (rsum_ext _ (fun _ => 0)) by (intros; rewrite Hf; apply Rabs_R0); apply rsum_zero).
      split; [|intros x; rewrite !Z7; auto; intros i; apply (Z x i)]. intros x i Hx Hi. unfold disc. rewrite (conv_ext _ _ (fun _ => 0)) by (intros j _; apply (Z x j)).
      replace (conv g2b (fun _ : nat => 0) i) with 0; [|unfold conv; symmetry; rewrite (rsum_ext _ (fun _ => 0)) by (intros j _; destruct (i <=? j)%nat; ring); apply rsum_zero].
      destruct (Z x i) as (-> & _). rewrite Z7 by (intros j; apply (Z x j)). rewrite Rminus_0_r, Rabs_R0. lra.
    - assert (En : entry n G = G) by (unfold entry, check_size; rewrite (proj1 S), Nat.eqb_refl; reflexivity). rewrite En. auto.
  Qed.
  Lemma constant_stale c A p h A' p' h' : (forall p d q, ok p -> deriv p = Ok (d, q) -> lin n c d = 0) -> settled (i_gr A) -> ok p -> radau_iter wr rd deriv vw Constant A p h = Some (Ok (A', p', h')) ->
    settled (i_gr A') /\ ok p' /\ Rabs (lin n c (wr p') - lin n c (wr p)) <= Rabs h * (2 / 10 ^ 28) * rsum (fun x => Rabs (c x) * size7 (Radau_Spec.comp (g_b (i_gr A)) x)) n.
  Proof.
    intros cons HS Hp H. cbn [radau_iter] in H. unfold gr_integrate in H. destruct (settled_entry _ HS) as (S0 & C0 & E0). pose proof (settled_sized _ HS) as S9.
    destruct (correct wr rd deriv (i_gr A) p h) as [[G1 p1]| |] eqn:C; cbn [obind] in H; try discriminate.
    destruct (correct_ok wr rd deriv n ok RD DV OL _ _ _ _ _ S9 Hp C) as (O1 & W1). destruct (correct_spec wr rd deriv n _ _ _ _ _ S9 (OL p Hp) C) as (d0 & p0 & _ & Sz & Gi & _).
    destruct (evaluate rd G1 p1 h) as [p2| |] eqn:Ev; cbn [obind] in H; try discriminate. unfold evaluate in Ev. destruct (RD _ _ _ O1 ltac:(rewrite evaluate_len, Gi; auto) Ev) as (O2 & W2).
    assert (X : A' = mkIas (predict 1 G1) (i_last A) (i_warm A)) by congruence. assert (p' = p2) by congruence. subst A' p'. cbn [i_gr].
    split; [right; split; [apply predict_spec; apply Sz|apply predict_coherent; auto]|]. split; auto. rewrite W2. rewrite (rsum_ext _ (fun x => Rabs (c x) * size7 (Radau_Spec.comp (g_b (entry n (i_gr A))) x))) by (intros; rewrite E0; reflexivity).
    assert (C9 : correct wr rd deriv (entry n (i_gr A)) p h = Ok (G1, p1)) by (rewrite entry_correct; [exact C|apply OL; auto]).
    exact (stale_bound wr rd deriv n c ok RD DV OL cons (entry n (i_gr A)) p h G1 p1 S0 C0 Hp C9).
  Qed.
End StaleIter.
