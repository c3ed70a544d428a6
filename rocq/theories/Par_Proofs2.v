(** The two Cartesian systems satisfy what the two-thread iterator needs. *)
From Coq Require Import ZArith Lia.
From Verif Require Export Par_Proofs BS_Proofs4.
From Verif Require Import System_Spec BS_Spec Chain_Proofs System_Proofs System_Proofs2 System_Proofs3.
Open Scope R_scope.

Section Inst.
  Context (I : inter) (e : nat) (He : (e = 1 \/ e = 3)%nat) (dr ki : st -> R -> st) (rdf : st -> list R -> outcome st) (E : st -> st -> Prop).
  Context (Wdr : forall s h, well_sized I e s -> well_sized I e (dr s h)) (Wki : forall s h, well_sized I e s -> well_sized I e (ki s h)).
  Context (Edr : forall s s' h, E s s' -> E (dr s h) (dr s' h)) (Eki : forall s s' h, E s s' -> E (ki s h) (ki s' h)).
  Context (Mdr : forall s h, s_m (dr s h) = s_m s) (Mki : forall s h, s_m (ki s h) = s_m s).
  Context (Ydr : forall s h, s_sync (dr s h) = s_sync s) (Yki : forall s h, s_sync (ki s h) = s_sync s).
  Context (Odr : forall s h, I_dep I = false -> s_w (dr s h) = s_w s) (Oki : forall s h, I_dep I = false -> s_w (ki s h) = s_w s).
  Context (Einc : forall s s', E s s' -> s_inc s = s_inc s') (Eclr : forall s s', E s s' -> E (clear_increment s) (clear_increment s')).
  Context (Esyn : forall s s' f, E s s' -> E (set_sync s f) (set_sync s' f)).
  Context (Ewrt : forall s s', E s s' -> gwrite I e s = gwrite I e s').
  Context (Erd : forall p s, well_sized I e s -> s_m p = s_m s ->
    exists q, rdf p (gwrite I e s) = Ok q /\ E q (mkSt (s_m s) (s_t s) (s_p s) (s_v s) (if I_dep I then s_w s else s_w p) (s_om s) (s_be s) 0 (s_inc p) (s_sync p)) /\
              s_m q = s_m s /\ s_t q = s_t s /\ s_p q = s_p s /\ s_v q = s_v s /\ s_w q = (if I_dep I then s_w s else s_w p) /\ s_inc q = s_inc p /\ s_sync q = s_sync p).
  Context (Erefl : forall s, E s s) (Esym : forall s s', E s s' -> E s' s) (Etr : forall a b c, E a b -> E b c -> E a c).
  Context (Erd0 : forall s, well_sized I e s -> rdf s (gwrite I e s) = Ok s).
  Variable s0 : st.
  Hypothesis W0 : well_sized I e s0.
  Lemma p_gw s : well_sized I e s -> length (gwrite I e s) = variable_number I e (npart s).
  Proof. intros (P & V & W & L). unfold gwrite. rewrite pack_varnum with (n := npart s); auto. destruct He; subst; reflexivity. Qed.
  Lemma p_arr y : length y = variable_number I e (npart s0) -> exists s, gwrite I e s = y /\ well_sized I e s /\ s_m s = s_m s0.
  Proof.
    intros L. destruct (unpack I e (npart s0) y) as (t & a & b & c & tl & -> & La & Lb & Lc & Lt); [destruct He; lia|auto|].
    destruct He; subst e.
    - destruct tl; [|simpl in Lt; lia]. exists (mkSt (s_m s0) t a b c 0 0 0 (s_inc s0) true). split; [reflexivity|]. split; auto. split; auto. split; auto. split; auto. apply W0.
    - destruct tl as [|x [|z [|]]]; try (simpl in Lt; lia). exists (mkSt (s_m s0) t a b c x z 0 (s_inc s0) true). split; [reflexivity|]. split; auto. split; auto. split; auto. split; auto. apply W0.
  Qed.
  Definition pG (s : st) : Prop := well_sized I e s /\ s_m s = s_m s0 /\ (I_dep I = false -> s_w s = s_w s0).
  Definition pW (p q : st) : Prop := pG p /\ pG q /\ s_sync p = s_sync q.
  Definition pS (p q : st) : Prop := pW p q /\ E (clear_increment p) (clear_increment q).
  Notation nn := (variable_number I e (npart s0)).
  Lemma pW_sym p q : pW p q -> pW q p. Proof. unfold pW. intuition. Qed.
  Lemma pW_trans p q r : pW p q -> pW q r -> pW p r. Proof. unfold pW. intros (A & B & C) (D & F & G). split; auto. split; auto. congruence. Qed.
  Lemma pSW p q : pS p q -> pW p q. Proof. unfold pS. tauto. Qed.
  Lemma pS_sym p q : pS p q -> pS q p. Proof. intros (A & B). split; auto using pW_sym. Qed.
  Lemma pS_trans p q r : pS p q -> pS q r -> pS p r. Proof. intros (A & B) (C & D). split; eauto using pW_trans. Qed.
  Lemma pS_col p q : pS p q -> pS (set_sync p false) (set_sync q false).
  Proof. intros (((A & B & C) & (D & F & G) & H) & K). split; [split; [split|split; [split|]]; auto|]. apply (Esyn _ _ false) in K. exact K. Qed.
  Lemma clear_ws s : well_sized I e s -> well_sized I e (clear_increment s).
  Proof. intros (A & B & C & D). repeat split; auto. cbn [s_inc clear_increment]. rewrite map_length. exact D. Qed.
  Notation grun := (grun dr ki).
  Notation stp := (stp dr ki).
  Lemma stp_pW kdk s h k : pG s -> pW s (stp kdk s h k).
  Proof.
    intros (A & B & C).
    assert (Q : well_sized I e (stp kdk s h k) /\ s_m (stp kdk s h k) = s_m s /\ s_sync (stp kdk s h k) = s_sync s /\ (I_dep I = false -> s_w (stp kdk s h k) = s_w s)).
    { apply (integrate_P dr ki (fun z => well_sized I e z /\ s_m z = s_m s /\ s_sync z = s_sync s /\ (I_dep I = false -> s_w z = s_w s))).
      - intros z q (Wz & Mz & Yz & Oz). split; [auto|]. split; [rewrite Mdr; auto|]. split; [rewrite Ydr; auto|]. intros Hd. rewrite Odr; auto.
      - intros z q (Wz & Mz & Yz & Oz). split; [auto|]. split; [rewrite Mki; auto|]. split; [rewrite Yki; auto|]. intros Hd. rewrite Oki; auto.
      - split; [apply clear_ws; auto|]. repeat split; auto. }
    destruct Q as (Q1 & Q2 & Q3 & Q4). split; [repeat split; auto; try apply A|]. split; [|auto]. split; auto. split; [congruence|]. intros Hd. rewrite Q4, C; auto.
  Qed.
  Lemma p_run kdk p q h k : pS p q -> (0 < k)%nat -> exists p' q' dy, grun kdk p h k = Ok (p', dy) /\ grun kdk q h k = Ok (q', dy) /\ length dy = nn /\ pW p p' /\ pW q q'.
  Proof.
    intros ((A & B & C) & D) Hk. exists (stp kdk p h k), (stp kdk q h k), (s_inc (stp kdk p h k)). split; [reflexivity|]. split.
    - unfold BS_Proofs3.grun. f_equal. f_equal. symmetry. apply Einc. apply (integrate_E dr ki E); auto.
    - destruct (stp_pW kdk p h k A) as (X1 & X2 & X3). split; [|split; [split; auto|apply stp_pW; auto]].
      destruct X2 as ((_ & _ & _ & L) & M2 & _). rewrite L. unfold npart. rewrite M2. reflexivity.
  Qed.
  Lemma p_read p q y : pW p q -> length y = nn -> exists p' q', rdf p y = Ok p' /\ rdf q y = Ok q' /\ pS p' q' /\ pW p p'.
  Proof.
    intros ((A & B & C) & (D & F & G) & H) L. destruct (p_arr y L) as (s & <- & Ws & Ms).
    destruct (Erd p s Ws) as (p' & R1 & RE & R2 & R3 & R4 & R5 & R6 & R7 & R8); [congruence|].
    destruct (Erd q s Ws) as (q' & T1 & TE & T2 & T3 & T4 & T5 & T6 & T7 & T8); [congruence|].
    exists p', q'. split; auto. split; auto.
    assert (Gp : pG p').
    { destruct A as (A1 & A2 & A3 & A4). destruct Ws as (S1 & S2 & S3 & S4). unfold npart in *. split; [|split; [congruence|intros Hd; rewrite R6, Hd; auto]].
      unfold well_sized, npart. rewrite R2, R4, R5, R7. split; auto. split; auto. split; [rewrite R6; intros Hd; rewrite Hd; auto|]. rewrite A4. congruence. }
    assert (Gq : pG q').
    { destruct D as (A1 & A2 & A3 & A4). destruct Ws as (S1 & S2 & S3 & S4). unfold npart in *. split; [|split; [congruence|intros Hd; rewrite T6, Hd; auto]].
      unfold well_sized, npart. rewrite T2, T4, T5, T7. split; auto. split; auto. split; [rewrite T6; intros Hd; rewrite Hd; auto|]. rewrite A4. congruence. }
    split; [|split; [split; auto|split; [auto|congruence]]].
    split; [split; [auto|split; [auto|congruence]]|].
    eapply Etr; [apply Eclr; exact RE|]. eapply Etr; [|apply Esym, Eclr; exact TE].
    match goal with |- E ?a ?b => assert (X : a = b); [|rewrite X; apply Erefl] end.
    unfold clear_increment. cbn [s_m s_t s_p s_v s_w s_om s_be s_sc s_inc s_sync]. rewrite H. f_equal.
    - destruct (I_dep I); auto. rewrite C, G; auto.
    - rewrite !map_zero. f_equal. destruct A as (_ & _ & _ & ->), D as (_ & _ & _ & ->). unfold npart. congruence.
  Qed.
  Lemma p_base : pG (set_sync s0 true). Proof. split; [exact W0|auto]. Qed.
  Lemma p_len : length (gwrite I e s0) = nn. Proof. apply p_gw; auto. Qed.

  (** * Interleavings *)
  Section Sub.
    Context (M : nat) (kdk : bool) (h : R) (rank : nat) (ext0 : list (list R)) (Hr : (rank + 1 <= M)%nat) (Hl : (M + 1 <= length ext0)%nat) (q : st) (Gq : pG q).
    Notation input := (gwrite I e s0).
    Let W' : pW q q. Proof. split; [|split]; auto. Qed.
    Notation ps := (psched M st rdf (grun kdk) input h).
    Lemma i_ok sched r : ps (pstart st ext0 q rank) sched = Some r -> exists c, r = Ok c /\ (length sched <= 6 * (rank + 4))%nat /\
      (forall a b, In a (k_log st c) -> In b (k_log st c) -> fst a <> fst b -> snd (snd a) = snd (snd b) -> fst (snd a) = false /\ fst (snd b) = false) /\
      (finished st c -> length (k_ext st c) = length ext0 /\
        (forall j, (j <= rank + 1)%nat -> row_is M st rdf (grun kdk) q input h j (entry (k_ext st c) j)) /\
        (forall j, (rank + 1 < j)%nat -> entry (k_ext st c) j = entry ext0 j)).
    Proof.
      intros H.
      pose proof (start_inv M st rdf (grun kdk) nn pS pW q input h rank ext0 p_len Hr Hl W') as S0.
      destruct (psched_ok M st (gwrite I e) rdf (grun kdk) (fun _ _ _ => 0) (fun _ _ => 0) (fun _ _ => 0) nn pS pW p_read (p_run kdk) pSW pW_trans q input h rank ext0 p_len Hr Hl _ _ _ S0 H)
        as (c & -> & Ic & Lc).
      exists c. split; auto. split; [unfold c_left, t_left, pstart in Lc; cbn [k_async k_main t_p t_ph ph_left] in Lc; lia|]. split; [intros a b; eapply no_race; eauto|].
      intros Fc. destruct (finished_rows M st rdf (grun kdk) nn pS pW q input h rank ext0 p_len Hr Hl c Ic Fc) as (A & _ & B & C). auto.
    Qed.
    Lemma i_any sched c : ps (pstart st ext0 q rank) sched = Some (Ok c) -> exists rest c', ps (pstart st ext0 q rank) (sched ++ rest) = Some (Ok c') /\ finished st c'.
    Proof.
      intros H.
      pose proof (start_inv M st rdf (grun kdk) nn pS pW q input h rank ext0 p_len Hr Hl W') as S0.
      destruct (psched_ok M st (gwrite I e) rdf (grun kdk) (fun _ _ _ => 0) (fun _ _ => 0) (fun _ _ => 0) nn pS pW p_read (p_run kdk) pSW pW_trans q input h rank ext0 p_len Hr Hl _ _ _ S0 H)
        as (c' & Ec & Ic & Lc). injection Ec as <-.
      destruct (psched_exists M st (gwrite I e) rdf (grun kdk) (fun _ _ _ => 0) (fun _ _ => 0) (fun _ _ => 0) nn pS pW p_read (p_run kdk) pSW pW_trans q input h rank ext0 p_len Hr Hl
        (S (c_left st c)) c (Nat.lt_succ_diag_r _) Ic) as (rest & c' & R1 & F1).
      exists rest, c'. split; auto. clear - H R1. revert H R1. generalize (pstart st ext0 q rank). induction sched as [|w sched IH]; intros c0 H R1; cbn [app psched] in *; [congruence|].
      destruct (pstep M st rdf (grun kdk) input h c0 w) as [[c1| |]|]; try discriminate. auto.
    Qed.
  End Sub.
  (** * The whole call *)
  Lemma i_iterate tries M kdk err next lim sch b h r : (2 <= M)%nat -> (b_rank b + 1 <= M)%nat -> sizes M b ->

    piterate tries M kdk st (gwrite I e) rdf set_sync (grun kdk) err next lim sch b s0 h = Some r ->
    match iterate tries M kdk st (gwrite I e) rdf set_sync (grun kdk) err next lim b s0 h, r with
    | Ok (b1, s1, h1), Ok (b2, s2, h2) => h1 = h2 /\ gwrite I e s1 = gwrite I e s2 /\ s_m s1 = s_m s2 /\ s_sync s1 = s_sync s2 /\
        b1 = set_row b2 (b_ext b1) (b_ideal b2) (b_cpl b2)
    | Abort, Abort => True
    | UB, UB => True
    | _, _ => False
    end.
  Proof.
    intros HM Hr (Hs & _) H. unfold piterate, iterate in *.
    assert (Wb : pW (set_sync s0 true) (set_sync s0 true)) by (split; [|split]; auto using p_base).
    assert (Sb : pS (set_sync s0 true) (set_sync s0 true)) by (split; auto).
    assert (Hb : Beq nn 0 b b).
    { exists (b_ext b). split; [destruct b; reflexivity|]. split; [reflexivity|]. intros; lia. }
    pose proof (pattempts_sim M kdk st (gwrite I e) rdf set_sync (grun kdk) err next lim nn pS pW p_read (p_run kdk) pSW pW_sym pW_trans pS_trans pS_col HM (gwrite I e s0) sch p_len
      tries b b (set_sync s0 true) (set_sync s0 true) h r Hb Hr ltac:(lia) Wb
      (ex_intro _ (set_sync s0 true) (conj (Erd0 (set_sync s0 true) W0) Sb)) H) as X.
    destruct (attempts M kdk st rdf set_sync (grun kdk) err next lim tries b (set_sync s0 true) (gwrite I e s0) h) as [[[b1 s1] h1]| |]; destruct r as [[[b2 s2] h2]| |]; cbn in X; auto.
    destruct X as (X1 & (eS & Eb & _) & ((X2 & X3 & X4) & X5)). cbn [fst snd] in *. subst b1. split; auto.
    split; [|split; [|split; auto]].
    - apply Ewrt in X5. exact X5.
    - destruct X2 as (_ & -> & _), X3 as (_ & -> & _). reflexivity.
  Qed.
  Lemma i_exists tries M kdk err next lim b h : (2 <= M)%nat -> (b_rank b + 1 <= M)%nat -> sizes M b ->
    exists sch r, piterate tries M kdk st (gwrite I e) rdf set_sync (grun kdk) err next lim sch b s0 h = Some r.
  Proof.
    intros HM Hr (Hs & _). unfold piterate.
    assert (Wb : pW (set_sync s0 true) (set_sync s0 true)) by (split; [|split]; auto using p_base).
    exact (pattempts_exists M kdk st (gwrite I e) rdf set_sync (grun kdk) err next lim nn pS pW p_read (p_run kdk) pSW pW_sym pW_trans pS_trans pS_col HM (gwrite I e s0) p_len
      tries b (set_sync s0 true) h Hr ltac:(lia) Wb).
  Qed.
End Inst.

(** * SimpleSystem and RegularizedSystem *)
Lemma simple_run_is I kdk : simple_run I kdk = grun drift (kick I) kdk. Proof. reflexivity. Qed.
Lemma regu_run_is I r kdk : regu_run I r kdk = grun (rdrift r) (rkick I r) kdk. Proof. reflexivity. Qed.
Lemma esimple_write I s s' : Esimple s s' -> gwrite I 1 s = gwrite I 1 s'.
Proof. intros H. change (gwrite I 1 s) with (gwrite I 1 (set_reg s)). rewrite H. reflexivity. Qed.
Lemma sbs_write I s s' : same_but_scale s s' -> gwrite I 3 s = gwrite I 3 s'.
Proof. intros H. change (gwrite I 3 s) with (gwrite I 3 (set_sc s 0)). rewrite H. reflexivity. Qed.
Lemma esimple_inc s s' : Esimple s s' -> s_inc s = s_inc s'.
Proof. intros H. change (s_inc s) with (s_inc (set_reg s)). rewrite H. reflexivity. Qed.
Lemma sbs_inc s s' : same_but_scale s s' -> s_inc s = s_inc s'.
Proof. intros H. change (s_inc s) with (s_inc (set_sc s 0)). rewrite H. reflexivity. Qed.
Lemma esimple_clear s s' : Esimple s s' -> Esimple (clear_increment s) (clear_increment s').
Proof. unfold Esimple. intros H. change (set_reg (clear_increment s)) with (clear_increment (set_reg s)). rewrite H. reflexivity. Qed.
Lemma sbs_clear s s' : same_but_scale s s' -> same_but_scale (clear_increment s) (clear_increment s').
Proof. unfold same_but_scale. intros H. change (set_sc (clear_increment s) 0) with (clear_increment (set_sc s 0)). rewrite H. reflexivity. Qed.
Lemma esimple_sync s s' f : Esimple s s' -> Esimple (set_sync s f) (set_sync s' f).
Proof. unfold Esimple. intros H. change (set_reg (set_sync s f)) with (set_sync (set_reg s) f). rewrite H. reflexivity. Qed.
Lemma sbs_sync s s' f : same_but_scale s s' -> same_but_scale (set_sync s f) (set_sync s' f).
Proof. unfold same_but_scale. intros H. change (set_sc (set_sync s f) 0) with (set_sync (set_sc s 0) f). rewrite H. reflexivity. Qed.
Lemma kick_y I s h : s_sync (kick I s h) = s_sync s. Proof. unfold kick. destruct (I_dep I); reflexivity. Qed.
Lemma rkick_y I r s h : s_sync (rkick I r s h) = s_sync s.
Proof. rewrite rkick_eq. unfold rkick_body, rkick_pseu. destruct (I_dep I), (I_ind I); reflexivity. Qed.
Lemma simple_rd I p s : well_sized I 1 s -> s_m p = s_m s ->
  exists q, read I p (gwrite I 1 s) = Ok q /\ Esimple q (mkSt (s_m s) (s_t s) (s_p s) (s_v s) (if I_dep I then s_w s else s_w p) (s_om s) (s_be s) 0 (s_inc p) (s_sync p)) /\
            s_m q = s_m s /\ s_t q = s_t s /\ s_p q = s_p s /\ s_v q = s_v s /\ s_w q = (if I_dep I then s_w s else s_w p) /\ s_inc q = s_inc p /\ s_sync q = s_sync p.
Proof.
  intros Ws Em. rewrite gwrite1, (read_write I s p Ws Em). eexists. split; [reflexivity|]. cbn [s_m s_t s_p s_v s_w s_inc s_sync]. rewrite Em.
  split; [reflexivity|]. repeat split; auto.
Qed.
Lemma regu_rd I p s : well_sized I 3 s -> s_m p = s_m s ->
  exists q, rread I p (gwrite I 3 s) = Ok q /\ same_but_scale q (mkSt (s_m s) (s_t s) (s_p s) (s_v s) (if I_dep I then s_w s else s_w p) (s_om s) (s_be s) 0 (s_inc p) (s_sync p)) /\
            s_m q = s_m s /\ s_t q = s_t s /\ s_p q = s_p s /\ s_v q = s_v s /\ s_w q = (if I_dep I then s_w s else s_w p) /\ s_inc q = s_inc p /\ s_sync q = s_sync p.
Proof.
  intros Ws Em. rewrite gwrite3, (rread_rwrite I s p Ws Em). eexists. split; [reflexivity|]. cbn [s_m s_t s_p s_v s_w s_inc s_sync]. rewrite Em.
  split; [reflexivity|]. repeat split; auto.
Qed.
Lemma simple_rd0 I s : well_sized I 1 s -> read I s (gwrite I 1 s) = Ok s.
Proof. intros Ws. rewrite gwrite1, (read_write I s s Ws eq_refl). destruct s; cbn. destruct (I_dep I); reflexivity. Qed.
Lemma regu_rd0 I s : well_sized I 3 s -> rread I s (gwrite I 3 s) = Ok s.
Proof. intros Ws. rewrite gwrite3, (rread_rwrite I s s Ws eq_refl). destruct s; cbn. destruct (I_dep I); reflexivity. Qed.
Lemma rdrift_y r s h : s_sync (rdrift r s h) = s_sync s. Proof. rewrite rdrift_eq. reflexivity. Qed.
Lemma rdrift_m r s h : s_m (rdrift r s h) = s_m s. Proof. rewrite rdrift_eq. reflexivity. Qed.
Lemma rdrift_w r s h : s_w (rdrift r s h) = s_w s. Proof. rewrite rdrift_eq. reflexivity. Qed.
Lemma esimple_drift s s' h : Esimple s s' -> Esimple (drift s h) (drift s' h).
Proof. unfold Esimple. intros E. change (set_reg (drift s h)) with (drift (set_reg s) h). rewrite E. reflexivity. Qed.
Lemma esimple_kick I s s' h : Esimple s s' -> Esimple (kick I s h) (kick I s' h).
Proof. unfold Esimple. intros E. rewrite !set_reg_kick. congruence. Qed.
