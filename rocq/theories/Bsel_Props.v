(** Property C76: how the Bulirsch-Stoer iterator chooses order and step. *)
From Verif Require Import System_Spec System_Proofs System_Proofs2 BS_Model BS_Spec BS_Proofs BS_Proofs2 BS_Proofs3 BS_Proofs4 Bsel_Spec Bsel_Proofs.
Open Scope R_scope.

(** [E h k] is the error estimate of row [k] of an attempt with step [h]: the estimator's verdict on the extrapolations of rows
    0..k and 1..k. *)
Definition errors_of (M n : nat) (err : list R -> list R -> R) (row : R -> nat -> list R) (E : R -> nat -> R) : Prop :=
  forall h k y e1, (1 <= k <= M)%nat -> extrapolant (M + 1) n (row h) 0 k y -> extrapolant (M + 1) n (row h) 1 k e1 -> E h k = err e1 y.
(** State of the iterator between calls: tables allocated, no work recorded for row 0, target rank in range. *)
Definition steady (M : nat) (b : bs) : Prop :=
  sizes M b /\ nth 0 (b_cpl b) 0 = 0 /\ (b_rank b <= M - 1)%nat /\ (b_first b = true -> b_reject b = false) /\ (b_first b = false -> (1 <= b_rank b)%nat).
Lemma rerr_errors M n err input row : n = length input -> errors_of M n (err input) (fun h j => row h (h_at (M + 1) j)) (rerr M err input row).
Proof.
  intros -> h k y e1 Hk Y E1. unfold rerr. assert (Y' : extrapolant (M + 1) (length input) (fun j => row h (h_at (M + 1) j)) 0 k (tabv (M + 1) (length input) (Tr M row h) 0 k)) by (apply tabv_extrapolant; lia).
  assert (E1' : extrapolant (M + 1) (length input) (fun j => row h (h_at (M + 1) j)) 1 k (tabv (M + 1) (length input) (Tr M row h) 1 k)) by (apply tabv_extrapolant; lia).
  rewrite (extrapolant_unique _ _ _ _ _ _ _ Y Y'), (extrapolant_unique _ _ _ _ _ _ _ E1 E1'). reflexivity.
Qed.
Lemma steady_usable M b : steady M b -> usable M b.
Proof. intros (_ & _ & R & F & F'). unfold usable. destruct (b_first b); [left|right]; auto. Qed.

(** The selection rule is deterministic. *)
Lemma ends_unique M E first rank h k k' : ends_at M E first rank h k -> ends_at M E first rank h k' -> (E h k <= 1 \/ hopeless M E first rank h k) -> (E h k' <= 1 \/ hopeless M E first rank h k') -> k = k'.
Proof.
  intros (A1 & A2 & A3) (B1 & B2 & B3) HA HB. destruct (Nat.lt_trichotomy k k') as [L|[L|L]]; auto; exfalso.
  - destruct (B3 k ltac:(lia) A2) as (X & Y). destruct HA; [lra|contradiction].
  - destruct (A3 k' ltac:(lia) B2) as (X & Y). destruct HB; [lra|contradiction].
Qed.
Theorem C76_deterministic M kdk next lim E t rank first h r1 r2 : selects M kdk next lim E t rank first h r1 -> selects M kdk next lim E t rank first h r2 -> r1 = r2.
Proof.
  intros H. revert r2. induction H as [rank first h|t rank first h k A B r|t rank first h k res A B C r H IH|t rank first h res U H IH]; intros r2 H2.
  - inversion H2. reflexivity.
  - inversion H2 as [|t' rank' first' h' k' A' B' r'|t' rank' first' h' k' res' A' B' C' r' H'|t' rank' first' h' res' U' H']; subst.
    + assert (k' = k) as -> by (apply (ends_unique M E first rank h); auto). reflexivity.
    + assert (k' = k) as -> by (apply (ends_unique M E first rank h); auto). lra.
    + exfalso. destruct A as (A1 & A2 & A3). destruct (U' k ltac:(lia) A2). lra.
  - inversion H2 as [|t' rank' first' h' k' A' B' r'|t' rank' first' h' k' res' A' B' C' r' H'|t' rank' first' h' res' U' H']; subst.
    + assert (k' = k) as -> by (apply (ends_unique M E first rank h); auto). lra.
    + assert (k' = k) as -> by (apply (ends_unique M E first rank h); auto). apply IH. exact H'.
    + exfalso. destruct A as (A1 & A2 & A3). destruct (U' k ltac:(lia) A2). contradiction.
  - inversion H2 as [|t' rank' first' h' k' A' B' r'|t' rank' first' h' k' res' A' B' C' r' H'|t' rank' first' h' res' U' H']; subst.
    + exfalso. destruct A' as (A1 & A2 & A3). destruct (U k' ltac:(lia) A2). lra.
    + exfalso. destruct A' as (A1 & A2 & A3). destruct (U k' ltac:(lia) A2). contradiction.
    + apply IH. exact H'.
Qed.

(** Every call, for every system that replays a step, every error estimator and every step controller: the rank, accepted row,
    accepted step and next step are the ones the rule selects, and the new state is the accepted extrapolant. *)
Theorem C76_selection tries M kdk (P : Type) wr rd collect run err next lim Inv row b (p : P) h :
  (3 <= M)%nat -> steady M b -> replays rd run Inv (wr p) row -> Inv (collect p true) -> rd (collect p true) (wr p) = Ok (collect p true) ->
  exists E, errors_of M (length (wr p)) (err (wr p)) (fun h j => row h (substeps (M + 1) j)) E /\
  match iterate tries M kdk P wr rd collect run err next lim b p h with
  | Ok (b', p', h1) => exists k hk y p2 q, selects M kdk next lim E tries (b_rank b) (b_first b) h (Some (b_rank b', k, hk, h1)) /\ (1 <= k <= M)%nat /\
      extrapolant (M + 1) (length (wr p)) (fun j => row hk (substeps (M + 1) j)) 0 k y /\ rd p2 (zip_add (wr p) y) = Ok q /\ p' = collect q false /\
      (steady M b' \/ b_first b = true /\ k = M) /\ b_first b' = false
  | Abort => selects M kdk next lim E tries (b_rank b) (b_first b) h None
  | UB => False
  end.
Proof.
  intros HM HS RP Hi Hr. assert (Fr : fresh rd Inv (wr p) (collect p true)) by (exists (collect p true); auto).
  exists (rerr M err (wr p) row). split; [apply (rerr_errors M (length (wr p)) err (wr p) row eq_refl)|].
  pose proof (attempts_sel M kdk rd collect run err next lim Inv (wr p) row RP HM tries b (collect p true) h (steady_usable M b HS) (proj1 HS) (proj1 (proj2 HS)) Fr) as A.
  unfold iterate. cbv zeta. destruct (attempts _ _ _ _ _ _ _ _ _ _ _ _ _ _) as [[[b' p'] h1]| |]; auto.
  destruct A as (k & hk & p2 & q & A1 & A2 & A3 & A4 & A5 & A6 & A7 & A8 & A9 & A10). exists k, hk, (tabv (M + 1) (length (wr p)) (Tr M row hk) 0 k), p2, q.
  split; auto. split; auto. split; [apply tabv_extrapolant; lia|]. rewrite <- zipw_plus. split; auto. split; auto. split; auto.
  assert (RR : (1 <= b_rank b' <= M - 1)%nat \/ b_first b = true /\ k = M).
  { destruct (b_first b) eqn:Ef; [|left; apply A7; auto].
    assert (X : b_rank b' = k).
    { clear - A1. remember true as fi. remember (Some (b_rank b', k, hk, h1)) as res. revert Heqfi Heqres. induction A1 as [rank first h|t rank first h k0 A B r|t rank first h k0 res A B C r H IH|t rank first h res U H IH]; intros F Q; subst; try discriminate.
      - injection Q. intros. subst. auto.
      - destruct C; discriminate.
      - apply IH; auto. }
    destruct (Nat.eq_dec k M); [auto|left; lia]. }
  destruct RR as [RR|RR]; [left|right; exact RR]. split; auto. split; auto. split; [lia|]. split; [congruence|]. intros _. lia.
Qed.
Theorem C76_initial M : (3 <= M)%nat -> steady M (bs_init M) /\ b_rank (bs_init M) = (M - 1)%nat /\ b_first (bs_init M) = true.
Proof.
  intros H. destruct (init_ready M H) as (HSZ & _). unfold steady, bs_init in *. cbn [b_ext b_ideal b_cpl b_rank b_first b_reject]. split; [|auto]. split; auto. split; [|repeat split; auto; discriminate]. replace (M + 1)%nat with (S M) by lia. reflexivity.
Qed.
(** The two Cartesian systems, with the rows they produce spelled out. *)
Definition system_rows (M : nat) (kdk : bool) (dr ki : st -> R -> st) (s : st) (h : R) (j : nat) : list R :=
  s_inc (integrate dr ki (nsteps_ops kdk (substeps (M + 1) j)) (clear_increment (set_sync s true)) (h / INR (substeps (M + 1) j))).
Lemma errors_row M n err r1 r2 E : (forall h j, (j <= M)%nat -> r1 h j = r2 h j) -> errors_of M n err r1 E -> errors_of M n err r2 E.
Proof.
  intros H HE h k y e1 Hk Y E1. apply (HE h k); auto.
  - destruct Y as (L & Y). split; auto. intros x Hx. destruct (Y x Hx) as ((p & P1 & P2) & Q). split; [exists p; split; auto; intros i Hi; rewrite H by lia; auto|].
    intros p' (P1' & P2'). apply Q. split; auto. intros i Hi. rewrite <- H by lia. auto.
  - destruct E1 as (L & E1). split; auto. intros x Hx. destruct (E1 x Hx) as ((p & P1 & P2) & Q). split; [exists p; split; auto; intros i Hi; rewrite H by lia; auto|].
    intros p' (P1' & P2'). apply Q. split; auto. intros i Hi. rewrite <- H by lia. auto.
Qed.
Theorem C76_simple_system I tries M kdk err next lim b s h : (3 <= M)%nat -> sized I -> well_sized I 1 s -> steady M b ->
  exists E, errors_of M (length (write I s)) (err (write I s)) (system_rows M kdk drift (kick I) s) E /\
  match iterate tries M kdk st (write I) (read I) set_sync (simple_run I kdk) err next lim b s h with
  | Ok (b', s', h1) => exists k hk, selects M kdk next lim E tries (b_rank b) (b_first b) h (Some (b_rank b', k, hk, h1)) /\ (steady M b' \/ b_first b = true /\ k = M) /\ b_first b' = false
  | Abort => selects M kdk next lim E tries (b_rank b) (b_first b) h None
  | UB => False
  end.
Proof.
  intros HM HI W HS. destruct (simple_replays I kdk s HI W) as (Inv & row & RP & Hi & Hr).
  destruct (C76_selection tries M kdk st (write I) (read I) set_sync (simple_run I kdk) err next lim Inv row b s h HM HS RP Hi Hr) as (E & HE & A). exists E. split.
  - apply (errors_row M _ _ (fun h j => row h (substeps (M + 1) j))); auto. intros h0 j Hj.
    destruct (rp_run _ _ _ _ _ RP (set_sync s true) (set_sync s true) h0 (substeps (M + 1) j)) as (p' & Q & _); auto; [apply (h_at_pos M); auto|]. unfold simple_run in Q. unfold system_rows. congruence.
  - destruct (iterate _ _ _ _ _ _ _ _ _ _ _ _ _ _) as [[[b' s'] h1]| |]; auto. destruct A as (k & hk & y & p2 & q & A1 & _ & _ & _ & _ & A2 & A3). eauto.
Qed.
Theorem C76_regularised_system I r tries M kdk err next lim b s h : (3 <= M)%nat -> sized I -> well_sized I 3 s -> steady M b ->
  exists E, errors_of M (length (rwrite I s)) (err (rwrite I s)) (system_rows M kdk (rdrift r) (rkick I r) s) E /\
  match iterate tries M kdk st (rwrite I) (rread I) set_sync (regu_run I r kdk) err next lim b s h with
  | Ok (b', s', h1) => exists k hk, selects M kdk next lim E tries (b_rank b) (b_first b) h (Some (b_rank b', k, hk, h1)) /\ (steady M b' \/ b_first b = true /\ k = M) /\ b_first b' = false
  | Abort => selects M kdk next lim E tries (b_rank b) (b_first b) h None
  | UB => False
  end.
Proof.
  intros HM HI W HS. destruct (regu_replays I r kdk s HI W) as (Inv & row & RP & Hi & Hr).
  destruct (C76_selection tries M kdk st (rwrite I) (rread I) set_sync (regu_run I r kdk) err next lim Inv row b s h HM HS RP Hi Hr) as (E & HE & A). exists E. split.
  - apply (errors_row M _ _ (fun h j => row h (substeps (M + 1) j))); auto. intros h0 j Hj.
    destruct (rp_run _ _ _ _ _ RP (set_sync s true) (set_sync s true) h0 (substeps (M + 1) j)) as (p' & Q & _); auto; [apply (h_at_pos M); auto|]. unfold regu_run in Q. unfold system_rows. congruence.
  - destruct (iterate _ _ _ _ _ _ _ _ _ _ _ _ _ _) as [[[b' s'] h1]| |]; auto. destruct A as (k & hk & y & p2 & q & A1 & _ & _ & _ & _ & A2 & A3). eauto.
Qed.

(** Work of the published sequence: 1, 3, 6, 11, 19, 31, 48, ... sub-steps; two more kicks a row for KDK. *)
Example C76_work : map (work 8 false) [0; 1; 2; 3; 4; 5; 6]%nat = [1; 3; 6; 11; 19; 31; 48] /\ map (work 8 true) [0; 1; 2]%nat = [3; 7; 12].
Proof. unfold work, substeps. cbn. split; repeat (f_equal; try ring). Qed.
(** With a target rank of 3, errors 1/2 everywhere, the ideal factor 2 and no limiting, row 2 is accepted; row 1 having been cheaper
    per unit length, the rank is clipped to 2 and the next step is the ideal step of row 2. *)
Example C76_case h : 0 < h -> selects 7 false (fun _ _ => 2) (fun _ r => r) (fun _ _ => 1 / 2) 100 3 false h (Some (2%nat, 2%nat, h, 2 * h)).
Proof.
  intros Hh. set (E := fun (_ : R) (_ : nat) => 1 / 2).
  assert (EA : ends_at 7 E false 3 h 2). { split; [lia|]. split; [right; left; reflexivity|]. intros j Hj T. assert (j = 1)%nat as -> by lia. unfold tested in T. lia || (destruct T as [T|[T|[T|T]]]; try discriminate; lia). }
  assert (W1 : unit_work 7 false (fun _ _ => 2) E h 1 = 3 / (h * 2)) by (unfold unit_work, ideal_len, work, substeps; cbn; f_equal; ring).
  assert (W2 : unit_work 7 false (fun _ _ => 2) E h 2 = 6 / (h * 2)) by (unfold unit_work, ideal_len, work, substeps; cbn; f_equal; ring).
  pose proof (sel_accept 7 false (fun _ _ => 2) (fun _ r => r) E 99 3 false h 2 EA ltac:(unfold E; lra)) as X. cbv zeta in X.
  assert (NR : new_rank 7 (unit_work 7 false (fun _ _ => 2) E h) 3 2 false = 2%nat).
  { unfold new_rank. cbn [Nat.leb Nat.sub]. rewrite W1, W2. destruct (Rlt_dec _ _) as [_|B]; [reflexivity|]. exfalso. apply B. assert (0 < / (h * 2)) by (apply Rinv_0_lt_compat; lra). unfold Rdiv. lra. }
  rewrite NR in X. replace (limited 7 false (fun _ _ => 2) (fun _ r => r) E h 2 2) with (2 * h) in X; [exact X|]. unfold limited, step_for, ideal_len. cbn [Nat.leb]. field. lra.
Qed.
(** The hypotheses hold for two masses at the first call. *)
Example C76_hypotheses : let s := mkSt [1; 2] 0 [mkV 1 0 0; mkV 0 0 0] [mkV 0 1 0; mkV 0 0 0] [] 0 0 0 (repeat 0 13) false in
  sized newton_only /\ well_sized newton_only 1 s /\ steady 7 (bs_init 7).
Proof. split; [apply newton_sized|]. split; [repeat split; discriminate|]. apply C76_initial. lia. Qed.
Print Assumptions C76_deterministic. Print Assumptions C76_selection. Print Assumptions C76_initial. Print Assumptions C76_simple_system. Print Assumptions C76_regularised_system.
