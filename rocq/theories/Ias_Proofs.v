(** Lemmas about calc_step_error. *)
From Verif Require Export Ias_Spec.
From Verif Require Import Chain_Proofs System_Proofs Ctrl_Proofs.
From Coq Require Import Psatz.
Open Scope R_scope.

Lemma aset_ok {A} (l : list A) k x : (k < length l)%nat -> exists l', aset l k x = Ok l' /\ length l' = length l /\ forall j d, nth j l' d = if (j =? k)%nat then x else nth j l d.
Proof.
  intros H. unfold aset. apply Nat.ltb_lt in H as H'. rewrite H'. eexists. split; [reflexivity|]. split; [apply list_set_length|].
  intros j d. destruct (Nat.eqb_spec j k) as [->|N]; [apply nth_list_set_eq; auto|apply nth_list_set_neq; auto].
Qed.
Lemma mask3_ok off i m : (off + 3 * i + 2 < length m)%nat -> exists m', mask3 off i m = Ok m' /\ length m' = length m /\
  forall j, nth j m' false = true <-> (off + 3 * i <= j < off + 3 * i + 3)%nat \/ nth j m false = true.
Proof.
  intros H. unfold mask3. destruct (aset_ok m (off + 3 * i + 2) true H) as (m1 & -> & L1 & N1). cbn [obind].
  destruct (aset_ok m1 (off + 3 * i + 1) true ltac:(lia)) as (m2 & -> & L2 & N2). cbn [obind].
  destruct (aset_ok m2 (off + 3 * i) true ltac:(lia)) as (m3 & -> & L3 & N3). exists m3. split; [reflexivity|]. split; [lia|].
  intros j. rewrite N3, N2, N1. destruct (Nat.eqb_spec j (off + 3 * i)), (Nat.eqb_spec j (off + 3 * i + 1)), (Nat.eqb_spec j (off + 3 * i + 2)); split; intros X; try (left; lia); try reflexivity; auto; destruct X; auto; lia.
Qed.
Lemma for_up_inv {S} (P : nat -> S -> Prop) (body : nat -> S -> outcome S) : forall cnt lo s, P lo s ->
  (forall i s, (lo <= i < lo + cnt)%nat -> P i s -> exists s', body i s = Ok s' /\ P (Datatypes.S i) s') ->
  exists s', for_up lo cnt body s = Ok s' /\ P (lo + cnt)%nat s'.
Proof.
  induction cnt as [|c IH]; intros lo s H B; [exists s; split; [reflexivity|rewrite Nat.add_0_r; auto]|]. cbn [for_up].
  destruct (B lo s ltac:(lia) H) as (s1 & -> & H1). cbn [obind]. destruct (IH (Datatypes.S lo) s1 H1) as (s2 & E & H2); [intros i s0 Hi; apply B; lia|].
  exists s2. split; [exact E|]. replace (lo + Datatypes.S c)%nat with (Datatypes.S lo + c)%nat by lia. exact H2.
Qed.
Lemma aget_nth {A} (l : list A) i d : (i < length l)%nat -> aget l i = Ok (nth i l d).
Proof. intros H. unfold aget. rewrite (nth_error_nth' l d H). reflexivity. Qed.

Lemma sq_lt a b : 0 <= a -> 0 <= b -> (a * a < b * b <-> a < b).
Proof. intros. split; intros; nra. Qed.
Lemma slow_varying_spec h sc p v : slow_varying (ediv (Fin h) (Fin sc)) p v = true <-> sc <> 0 /\ norm v * Rabs (h / sc) < norm p * 1e-6.
Proof.
  unfold slow_varying. pose proof (norm2_nonneg v) as V.
  cbn [ediv]. destruct (Req_EM_T sc 0) as [E|E].
  - assert (X : egt (Fin (norm2 p * 1e-12)) (emul (Fin (norm2 v)) (emul (esgn h PInf MInf NaN) (esgn h PInf MInf NaN))) = false).
    { unfold esgn. destruct (Rlt_dec 0 h), (Rlt_dec h 0); cbn [emul esgn]; unfold esgn; try reflexivity; destruct (Rlt_dec 0 (norm2 v)), (Rlt_dec (norm2 v) 0); try reflexivity; lra. }
    rewrite X. split; [discriminate|]. tauto.
  - cbn [emul egt]. unfold rgtb. pose proof (norm_sq v) as Nv. pose proof (norm_sq p) as Np. assert (0 <= norm v) by apply sqrt_pos. assert (0 <= norm p) by apply sqrt_pos.
    pose proof (sq_lt (norm v * Rabs (h / sc)) (norm p * 1e-6)) as Q. assert (A : 0 <= Rabs (h / sc)) by apply Rabs_pos.
    assert (Ra : Rabs (h / sc) * Rabs (h / sc) = h / sc * (h / sc)) by (rewrite <- Rabs_mult; apply Rabs_right, Rle_ge, Rle_0_sqr).
    replace (norm v * Rabs (h / sc) * (norm v * Rabs (h / sc))) with (norm2 v * (h / sc * (h / sc))) in Q by (rewrite <- Ra, <- Nv; ring).
    replace (norm p * 1e-6 * (norm p * 1e-6)) with (norm2 p * 1e-12) in Q by (rewrite <- Np; lra).
    specialize (Q ltac:(apply Rmult_le_pos; auto) ltac:(apply Rmult_le_pos; [auto|lra])).
    destruct (Rlt_dec (norm2 v * (h / sc * (h / sc))) (norm2 p * 1e-12)) as [Y|Y]; split; intros Z; try tauto; discriminate.
Qed.
Lemma entries_var n dep regu : entries n dep regu = (n * 3 * (2 + Nat.b2n dep) + if regu then 3 else 1)%nat.
Proof. unfold entries. destruct dep, regu; cbn [Nat.b2n]; lia. Qed.
Lemma entry_blocks n dep i j : entry_of n dep i j <-> (pos_offset + 3 * i <= j < pos_offset + 3 * i + 3)%nat \/ (vel_offset n + 3 * i <= j < vel_offset n + 3 * i + 3)%nat \/
   (dep = true /\ (aux_offset n + 3 * i <= j < aux_offset n + 3 * i + 3)%nat).
Proof.
  unfold entry_of, pos_offset, vel_offset, aux_offset. split.
  - intros (a & Ha & [->|[->|(D & ->)]]); [left|right; left|right; right; split; auto]; lia.
  - intros [H|[H|(D & H)]]; [exists (j - (1 + 3 * i))%nat|exists (j - (n * 3 + 1 + 3 * i))%nat|exists (j - (n * 6 + 1 + 3 * i))%nat]; (split; [lia|]); [left|right; left|right; right; split; auto]; lia.
Qed.
(** The mask: entries of slow particles, and the time without regularisation. *)
Lemma make_mask_spec w h size : length (w_pos w) = w_n w -> length (w_vel w) = w_n w -> size = entries (w_n w) (w_dep w) (w_regu w) ->
  exists mask, make_mask w (ediv (Fin h) (Fin (w_scale w))) size = Ok mask /\ length mask = size /\
    forall k, (k < size)%nat -> (nth k mask false = false <-> counted w h k).
Proof.
  intros Lp Lv Hs. unfold make_mask. set (dt := ediv _ _).
  assert (I0 : exists m0, (if w_regu w then Ok (repeat false size) else aset (repeat false size) 0 true) = Ok m0 /\ length m0 = size /\
     forall j, nth j m0 false = true <-> (w_regu w = false /\ j = 0%nat)).
  { assert (N : forall j, nth j (repeat false size) false = false) by (intros j; destruct (Nat.ltb_spec j size); [apply nth_repeat|apply nth_overflow; rewrite repeat_length; lia]).
    destruct (w_regu w) eqn:Er.
    - exists (repeat false size). split; [reflexivity|]. split; [apply repeat_length|]. intros j. rewrite N. split; [discriminate|]. intros (X & _); discriminate.
    - destruct (aset_ok (repeat false size) 0 true) as (m & E & L & Nm); [rewrite repeat_length, Hs; unfold entries; lia|]. exists m. split; [exact E|]. split; [rewrite L; apply repeat_length|].
      intros j. rewrite Nm, N. destruct (Nat.eqb_spec j 0); split; intros; auto; try discriminate. tauto. }
  destruct I0 as (m0 & -> & L0 & N0). cbn [obind].
  destruct (for_up_inv (fun i (m : list bool) => length m = size /\ forall j, nth j m false = true <-> (w_regu w = false /\ j = 0%nat) \/ exists l, (l < i)%nat /\ slow w h l /\ entry_of (w_n w) (w_dep w) l j) (mask_one w dt) (w_n w) 0%nat m0) as (mask & -> & Lm & Nm).
  - split; auto. intros j. rewrite N0. split; [auto|]. intros [X|(l & X & _)]; [auto|lia].
  - intros i m Hi (Lm & Nm). unfold mask_one. rewrite (aget_nth (w_pos w) i vzero), (aget_nth (w_vel w) i vzero) by lia. cbn [obind].
    destruct (slow_varying dt (nth i (w_pos w) vzero) (nth i (w_vel w) vzero)) eqn:Es.
    + unfold dt in Es. apply slow_varying_spec in Es. assert (SL : slow w h i) by (split; [lia|exact Es]).
      assert (Sz : (aux_offset (w_n w) + (if w_dep w then 3 * w_n w else 0) <= size)%nat) by (rewrite Hs; unfold entries, aux_offset; destruct (w_dep w), (w_regu w); lia).
      destruct (mask3_ok pos_offset i m) as (m1 & -> & L1 & N1); [unfold pos_offset, aux_offset in *; lia|]. cbn [obind].
      destruct (mask3_ok (vel_offset (w_n w)) i m1) as (m2 & -> & L2 & N2); [unfold vel_offset, aux_offset in *; lia|]. cbn [obind].
      assert (Fin3 : exists m3, (if w_dep w then mask3 (aux_offset (w_n w)) i m2 else Ok m2) = Ok m3 /\ length m3 = length m2 /\
         forall j, nth j m3 false = true <-> (w_dep w = true /\ (aux_offset (w_n w) + 3 * i <= j < aux_offset (w_n w) + 3 * i + 3)%nat) \/ nth j m2 false = true).
      { destruct (w_dep w) eqn:Ed.
        - destruct (mask3_ok (aux_offset (w_n w)) i m2) as (m3 & -> & L3 & N3); [unfold aux_offset in *; lia|]. exists m3. split; auto. split; auto. intros j. rewrite N3. tauto.
        - exists m2. split; auto. split; auto. intros j. split; [auto|]. intros [(X & _)|X]; [discriminate|auto]. }
      destruct Fin3 as (m3 & -> & L3 & N3). exists m3. split; [reflexivity|]. split; [lia|]. intros j. rewrite N3, N2, N1, Nm.
      pose proof (entry_blocks (w_n w) (w_dep w) i j) as EB. split.
      * intros X. assert (Z : entry_of (w_n w) (w_dep w) i j \/ (w_regu w = false /\ j = 0%nat) \/ exists l, (l < i)%nat /\ slow w h l /\ entry_of (w_n w) (w_dep w) l j) by tauto.
        destruct Z as [Z|[Z|(l & A & B)]]; [right; exists i; split; [lia|auto]|left; auto|right; exists l; split; [lia|auto]].
      * intros [Z|(l & A & B & C)]; [tauto|]. destruct (Nat.eq_dec l i) as [->|]; [tauto|]. right. right. right. right. exists l. split; [lia|auto].
    + exists m. split; [reflexivity|]. split; [auto|]. intros j. rewrite Nm. split; (intros [Z|(l & A & B & C)]; [left; auto|]).
      * right. exists l. split; [lia|auto].
      * right. exists l. split; [|auto]. destruct (Nat.eq_dec l i) as [->|]; [|lia]. exfalso. destruct B as (_ & B). apply slow_varying_spec in B. fold dt in B. congruence.
  - exists mask. split; [reflexivity|]. split; [exact Lm|]. intros k Hk. rewrite Nat.add_0_l in Nm. specialize (Nm k). unfold counted.
    destruct (nth k mask false) eqn:E.
    + split; [discriminate|]. intros (_ & A & B). exfalso. destruct (proj1 Nm eq_refl) as [(X & Y)|(l & X & Y & Z)]; [apply (A X Y)|apply (B l Y Z)].
    + split; [|auto]. intros _. split; [lia|]. split.
      * intros Er ->. assert (X : false = true) by (apply Nm; auto). discriminate.
      * intros l Sl En. assert (X : false = true) by (apply Nm; right; exists l; split; [apply Sl|auto]). discriminate.
Qed.
Lemma max_loop_spec mask dyh b6 : length mask = length dyh -> length b6 = length dyh -> let live j := nth j mask false = false in
  exists md ms, max_loop mask dyh b6 = Ok (md, ms) /\ 0 <= md /\ 0 <= ms /\
    (forall j, (j < length dyh)%nat -> live j -> Rabs (nth j b6 0) <= md /\ Rabs (nth j dyh 0) <= ms) /\
    (md = 0 \/ exists j, (j < length dyh)%nat /\ live j /\ md = Rabs (nth j b6 0)) /\
    (ms = 0 \/ exists j, (j < length dyh)%nat /\ live j /\ ms = Rabs (nth j dyh 0)).
Proof.
  intros Lm Lb live. unfold max_loop.
  destruct (for_up_inv (fun i (x : R * R) => let '(md, ms) := x in 0 <= md /\ 0 <= ms /\
    (forall j, (j < i)%nat -> live j -> Rabs (nth j b6 0) <= md /\ Rabs (nth j dyh 0) <= ms) /\
    (md = 0 \/ exists j, (j < i)%nat /\ live j /\ md = Rabs (nth j b6 0)) /\
    (ms = 0 \/ exists j, (j < i)%nat /\ live j /\ ms = Rabs (nth j dyh 0)))
    (fun i '(md, ms) =>
    obind (aget mask i) (fun b => if b : bool then Ok (md, ms) else
    obind (aget b6 i) (fun d => obind (aget dyh i) (fun y => Ok (Rmax md (Rabs d), Rmax ms (Rabs y)))))) (length dyh) 0%nat (0, 0)) as ((md & ms) & E & H).
  - split; [lra|]. split; [lra|]. split; [intros; lia|]. auto.
  - intros i (md & ms) Hi (M1 & M2 & B & A1 & A2). rewrite (aget_nth mask i false) by lia. cbn [obind]. destruct (nth i mask false) eqn:Em.
    + exists (md, ms). split; [reflexivity|]. split; auto. split; auto. split; [|split].
      * intros j Hj Lj. apply B; auto. destruct (Nat.eq_dec j i) as [->|]; [unfold live in Lj; congruence|lia].
      * destruct A1 as [|(j & X)]; [auto|]. right. exists j. split; [lia|tauto].
      * destruct A2 as [|(j & X)]; [auto|]. right. exists j. split; [lia|tauto].
    + rewrite (aget_nth b6 i 0), (aget_nth dyh i 0) by lia. cbn [obind]. eexists. split; [reflexivity|]. cbn beta iota.
      pose proof (Rmax_l md (Rabs (nth i b6 0))). pose proof (Rmax_r md (Rabs (nth i b6 0))). pose proof (Rmax_l ms (Rabs (nth i dyh 0))). pose proof (Rmax_r ms (Rabs (nth i dyh 0))).
      split; [lra|]. split; [lra|]. split; [|split].
      * intros j Hj Lj. destruct (Nat.eq_dec j i) as [->|]; [auto|]. destruct (B j ltac:(lia) Lj). lra.
      * unfold Rmax at 1 2. destruct (Rle_dec md (Rabs (nth i b6 0))); [right; exists i; auto with arith|]. destruct A1 as [|(j & X)]; [auto|]. right. exists j. split; [lia|tauto].
      * unfold Rmax at 1 2. destruct (Rle_dec ms (Rabs (nth i dyh 0))); [right; exists i; auto with arith|]. destruct A2 as [|(j & X)]; [auto|]. right. exists j. split; [lia|tauto].
  - exists md, ms. split; [exact E|exact H].
Qed.
Lemma step_error_spec w dyh b6 h : fits w dyh b6 -> exists e, step_error w dyh b6 h = Ok e /\ estimates w h dyh b6 e.
Proof.
  intros (Lp & Lv & Ld & Lb). unfold step_error. cbv zeta. destruct (make_mask_spec w h (length dyh) Lp Lv Ld) as (mask & -> & Lm & Nm). cbn [obind].
  destruct (max_loop_spec mask dyh b6 Lm Lb) as (md & ms & -> & P1 & P2 & B & A1 & A2). cbn [obind]. eexists. split; [reflexivity|].
  assert (CT : forall k, counted w h k -> Rabs (nth k b6 0) <= md /\ Rabs (nth k dyh 0) <= ms) by (intros k Hk; assert (k < length dyh)%nat by (rewrite Ld; apply Hk); apply B; auto; apply Nm; auto).
  destruct (Req_EM_T ms 0) as [E|E].
  - split; [lra|]. left. split; [|reflexivity]. intros k Hk. destruct (CT k Hk) as (_ & X). rewrite E in X. pose proof (Rabs_pos (nth k dyh 0)). destruct (Req_EM_T (nth k dyh 0) 0) as [|N]; auto. apply Rabs_pos_lt in N. lra.
  - assert (Pm : 0 < ms * 5e-10) by (apply Rmult_lt_0_compat; lra). destruct A2 as [|(k1 & H1 & L1 & E1)]; [contradiction|].
    assert (V : md / (ms * 5e-10) * 5e-10 * Rabs (nth k1 dyh 0) = md) by (rewrite <- E1; field; lra).
    split; [apply Rmult_le_pos; [auto|left; apply Rinv_0_lt_compat; auto]|]. right.
    assert (C1 : counted w h k1) by (apply Nm; auto).
    assert (K2 : exists k2, counted w h k2 /\ Rabs (nth k2 b6 0) = md).
    { destruct A1 as [Z|(k2 & H2 & L2 & E2)]; [exists k1|exists k2; split; [apply Nm; auto|auto]]. split; auto. destruct (CT k1 C1) as (X & _). pose proof (Rabs_pos (nth k1 b6 0)). lra. }
    destruct K2 as (k2 & C2 & E2). exists k1, k2. rewrite V, <- E1. split; auto. split; auto. split; [intros Z; rewrite Z, Rabs_R0 in E1; contradiction|].
    split; [intros k Hk; apply CT; auto|]. split; [intros k Hk; apply CT; auto|auto].
Qed.

(** * One call of IAS15::iterate, keeping an invariant of the integrator and of the system *)
From Verif Require Import Radau_Spec Radau_Proofs Radau_Proofs4 Radau_Proofs5.
Lemma rgtb_t a b : rgtb a b = true -> b < a. Proof. unfold rgtb. destruct (Rlt_dec b a); [auto|discriminate]. Qed.
Lemma rgtb_f a b : rgtb a b = false -> a <= b. Proof. unfold rgtb. destruct (Rlt_dec b a); [discriminate|lra]. Qed.
Section Tr.
  Context {P : Type} (wr : P -> list R) (rd : P -> list R -> outcome P) (deriv : P -> outcome (list R * P)) (n : nat) (ok : P -> Prop) (J : gr -> Prop).
  Context (pcerr : list R -> list R -> ext) (serr : list R -> list R -> P -> R -> outcome R) (ratio_of lim : R -> R) (lmin : R).
  Notation loop := (ias_loop wr rd deriv pcerr serr ratio_of lim lmin).
  Notation correct := (correct wr rd deriv).
  Context (RD : forall p y q, ok p -> length y = n -> rd p y = Ok q -> ok q /\ wr q = y).
  Context (DV : forall p d q, ok p -> deriv p = Ok (d, q) -> ok q /\ length d = n).
  Context (OL : forall p, ok p -> length (wr p) = n).
  Context (JS : forall G, J G -> gr_sized (g_n G) G).
  Context (JC : forall G p h G1 p1, J G -> ok p -> correct G p h = Ok (G1, p1) -> J G1).
  Context (JP : forall G q, J G -> J (predict q G)).
  Lemma correct_ok G p step G' p' : gr_sized (g_n G) G -> ok p -> correct G p step = Ok (G', p') -> ok p' /\ wr p' = wr p.
  Proof.
    intros HG Hp H. destruct (correct_flat wr rd deriv n (fun _ => 0) (fun _ => 0) 0 0 ok RD (fun p d q A B => proj1 (DV p d q A B)) (fun p d q _ _ => lin_c0 n d) (fun p d q _ _ _ => lin_c0 n d) G p step G' p' HG (OL p Hp) Hp
      (conj (flat_c0 n _) (flat_c0 n _)) (lin_c0 n _) H) as (_ & A & B). auto.
  Qed.
  Lemma trace : forall fuel k A p h A' p' h', J (i_gr A) -> ok p -> loop fuel k A p h = Some (Ok (A', p', h')) ->
    exists pa G G1 p1 hacc e, ok pa /\ wr pa = wr p /\ J G /\ correct G pa hacc = Ok (G1, p1) /\ J G1 /\ ok p1 /\ wr p1 = wr p /\
      serr (g_dyh G1) (g_b G1 6%nat) p1 hacc = Ok e /\ lmin < ratio_of e /\ shrunk ratio_of lmin h hacc /\ h' = hacc * lim (ratio_of e) /\
      ok p' /\ wr p' = evaluate_state G1 hacc /\ i_gr A' = predict (lim (ratio_of e)) G1 /\ J (i_gr A').
  Proof.
    induction fuel as [|f IH]; intros k A p h A' p' h' HJ Hp H; [discriminate|]. cbn [ias_loop] in H.
    destruct (k <? 30)%nat; [|discriminate].
    destruct (correct (i_gr A) p h) as [[G1 p1]| |] eqn:C; try discriminate.
    destruct (correct_ok _ _ _ _ _ (JS _ HJ) Hp C) as (O1 & W1). pose proof (JC _ _ _ _ _ HJ Hp C) as J1.
    unfold in_window in H. cbn [i_gr i_last i_warm] in H. set (e := pcerr (g_dyh G1) (g_dg G1)) in *.
    destruct (egt (Fin 1) e || ele (i_last A) e); cbn [i_gr i_last i_warm] in H.
    - destruct (serr (g_dyh G1) (g_b G1 6%nat) p1 h) as [es| |] eqn:Es; try discriminate. destruct (rgtb (ratio_of es) lmin) eqn:Er.
      + destruct (evaluate rd G1 p1 h) as [p2| |] eqn:Ev; cbn [obind] in H; try discriminate. cbv zeta in H.
        assert (X : A' = mkIas (predict (lim (ratio_of es)) G1) PInf true) by congruence. assert (p' = p2) by congruence. assert (h' = h * lim (ratio_of es)) by congruence. subst A' p' h'.
        unfold evaluate in Ev. apply RD in Ev; auto.
        * exists p, (i_gr A), G1, p1, h, es. cbn [i_gr]. destruct Ev. repeat (split; [solve [auto]|]). split; [apply rgtb_t; auto|]. split; [constructor|]. auto 8.
        * rewrite evaluate_len. destruct (correct_spec wr rd deriv n _ _ _ _ _ (JS _ HJ) (OL p Hp) C) as (d0 & p0 & _ & _ & -> & _). auto.
      + apply IH in H; [|cbn [i_gr]; destruct (i_warm A); auto|auto].
        destruct H as (pa & G & G2 & p2 & hacc & e2 & Q1 & Q2 & Q3 & Q4 & Q5 & Q6 & Q7 & Q8 & Q9 & Q10 & Q11). exists pa, G, G2, p2, hacc, e2.
        rewrite W1 in *. repeat (split; [solve [auto]|]). split; [|exact Q11]. apply shr_first with (ratio_of es); auto; [apply rgtb_f; auto|eexists; reflexivity].
    - apply IH in H; auto. rewrite W1 in H. exact H.
  Qed.
  (** The last stage of a pass: its derivative is dy_h, and the system is read back from it. *)
  Lemma stages_last step : forall k G p G' p', (k < 7)%nat -> gr_sized n G -> length (g_in G) = n -> ok p -> stages rd deriv (S k) G p step = Ok (G', p') ->
    exists q q' b, ok q /\ deriv q = Ok (g_dyh G', q') /\ rd q' (g_in G) = Ok p' /\ length (wr q) = n /\
      forall x, (x < n)%nat -> at_ (wr q) x = path (at_ (g_in G) x) (at_ (g_dy0 G) x) (b x) step (hs 6).
  Proof.
    induction k as [|k IH]; intros G p G' p' Hk Sz L Hp H; cbn [stages] in H.
    - change (7 - 1)%nat with 6%nat in H. destruct (rd p (stage_state G step 6)) as [q| |] eqn:E; cbn [obind] in H; try discriminate. destruct (RD _ _ _ Hp (stage_len n G step _ Sz) E) as (Oq & Wq).
      destruct (deriv q) as [[d q']| |] eqn:Ed; cbn [obind] in H; try discriminate. cbv zeta in H.
      destruct (rd q' (g_in G)) as [p2| |] eqn:E2; cbn [obind] in H; try discriminate. assert (G' = update_b G d 6) by congruence. assert (p' = p2) by congruence. subst G' p'.
      exists q, q', (comp (g_b G)). destruct (update_spec n G d 6 Sz ltac:(lia)) as (_ & _ & _ & _ & U & _). rewrite U. split; auto. split; auto. split; auto. split; [apply OL; auto|].
      intros x Hx. rewrite Wq. apply (stage_path n); auto.
    - destruct (rd p (stage_state G step (7 - S (S k)))) as [q| |] eqn:E; cbn [obind] in H; try discriminate. destruct (RD _ _ _ Hp (stage_len n G step _ Sz) E) as (Oq & Wq).
      destruct (deriv q) as [[d q']| |] eqn:Ed; cbn [obind] in H; try discriminate. cbv zeta in H. destruct (DV _ _ _ Oq Ed) as (Od & _).
      destruct (rd q' (g_in G)) as [p2| |] eqn:E2; cbn [obind] in H; try discriminate. destruct (RD _ _ _ Od L E2) as (O2 & _).
      destruct (update_spec n G d (7 - S (S k)) Sz ltac:(lia)) as (U1 & U2 & U3 & _).
      destruct (IH (update_b G d (7 - S (S k))) p2 G' p' ltac:(lia) U1) as (z & z' & b & Z); [rewrite U2; auto|auto|exact H|]. rewrite U2, U3 in Z. exists z, z', b. exact Z.
  Qed.
  Lemma correct_last G p step G' p' : gr_sized (g_n G) G -> ok p -> correct G p step = Ok (G', p') ->
    exists d p0 q q' b, deriv p = Ok (d, p0) /\ ok q /\ deriv q = Ok (g_dyh G', q') /\ rd q' (wr p) = Ok p' /\ length (wr q) = n /\ length (g_dyh G') = n /\
      forall x, (x < n)%nat -> at_ (wr q) x = path (at_ (wr p) x) (at_ d x) (b x) step (hs 6).
  Proof.
    intros HG Hp H. unfold Radau_Model.correct in H. cbv zeta in H. rewrite (OL p Hp) in H. fold (entry n G) in H. destruct (deriv p) as [[d p0]| |] eqn:E; cbn [obind] in H; try discriminate.
    destruct (entry_sized n G HG) as (S1 & S2). apply stages_last in H; [|lia|split; [exact S1|exact S2]|apply OL; auto|apply (DV _ _ _ Hp E)]. cbn [g_in g_dy0] in H.
    destruct H as (q & q' & b & Q1 & Q2 & Q3 & Q4 & Q5). exists d, p0, q, q', b. split; auto. split; auto. split; auto. split; auto. split; auto. split; [apply (DV _ _ _ Q1 Q2)|auto].
  Qed.
  (** No undefined behaviour when reading an array of the right size and evaluating the derivative always succeed. *)
  Context (RT : forall p y, ok p -> length y = n -> exists q, rd p y = Ok q) (DT : forall p, ok p -> exists d q, deriv p = Ok (d, q)).
  Context (SE : forall p dyh b6 h, ok p -> length dyh = n -> length b6 = n -> exists e, serr dyh b6 p h = Ok e).
  Lemma stages_defined step : forall k G p, (k <= 7)%nat -> gr_sized n G -> length (g_in G) = n -> ok p -> exists G' p', stages rd deriv k G p step = Ok (G', p').
  Proof.
    induction k as [|k IH]; intros G p Hk Sz L Hp; [exists G, p; auto|]. cbn [stages].
    destruct (RT p (stage_state G step (7 - S k)) Hp (stage_len n G step _ Sz)) as (q & E). rewrite E. cbn [obind].
    destruct (RD _ _ _ Hp (stage_len n G step _ Sz) E) as (Oq & _). destruct (DT q Oq) as (d & qd & Ed). rewrite Ed. cbn [obind]. cbv zeta. destruct (DV _ _ _ Oq Ed) as (Od & _).
    destruct (RT qd (g_in G) Od L) as (q2 & E2). rewrite E2. cbn [obind]. destruct (RD _ _ _ Od L E2) as (O2 & _).
    destruct (update_spec n G d (7 - S k) Sz ltac:(lia)) as (U1 & U2 & _). apply IH; [lia|auto|rewrite U2; auto|auto].
  Qed.
  Lemma correct_defined G p step : gr_sized (g_n G) G -> ok p -> exists G' p', correct G p step = Ok (G', p').
  Proof.
    intros HG Hp. unfold Radau_Model.correct. cbv zeta. destruct (DT p Hp) as (d & q & E). rewrite E. cbn [obind]. rewrite (OL p Hp). fold (entry n G).
    destruct (entry_sized n G HG) as (S1 & S2). apply stages_defined; [lia|split; [exact S1|exact S2]|apply OL; auto|]. apply (DV _ _ _ Hp E).
  Qed.
  Lemma never_ub : forall fuel k A p h, J (i_gr A) -> ok p -> loop fuel k A p h <> Some UB.
  Proof.
    induction fuel as [|f IH]; intros k A p h HJ Hp; [discriminate|]. cbn [ias_loop]. destruct (k <? 30)%nat; [|discriminate].
    destruct (correct_defined (i_gr A) p h (JS _ HJ) Hp) as (G1 & p1 & C). rewrite C. destruct (correct_ok _ _ _ _ _ (JS _ HJ) Hp C) as (O1 & W1). pose proof (JC _ _ _ _ _ HJ Hp C) as J1.
    destruct (correct_spec wr rd deriv n _ _ _ _ _ (JS _ HJ) (OL p Hp) C) as (d0 & p0 & _ & Sz & Gi & _ & _).
    destruct (correct_last _ _ _ _ _ (JS _ HJ) Hp C) as (? & ? & ? & ? & ? & _ & _ & _ & _ & _ & Ld & _).
    unfold in_window. cbn [i_gr i_last i_warm]. destruct (egt (Fin 1) (pcerr (g_dyh G1) (g_dg G1)) || ele (i_last A) (pcerr (g_dyh G1) (g_dg G1))); cbn [i_gr i_last i_warm]; [|apply IH; auto].
    destruct (SE p1 (g_dyh G1) (g_b G1 6%nat) h O1) as (es & ->); [auto|apply Sz; lia|].
    destruct (rgtb _ _); [|apply IH; auto; cbn [i_gr]; destruct (i_warm A); auto].
    destruct (RT p1 (evaluate_state G1 h) O1) as (q & E); [rewrite evaluate_len, Gi; auto|]. unfold evaluate. rewrite E. cbn [obind]. cbv zeta. discriminate.
  Qed.
End Tr.
