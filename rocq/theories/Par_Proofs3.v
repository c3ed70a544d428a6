(** The interleaving lemmas on SimpleSystem and RegularizedSystem. *)
From Coq Require Import ZArith Lia.
From Verif Require Import System_Spec BS_Spec Chain_Proofs System_Proofs System_Proofs2 System_Proofs3.
From Verif Require Export Par_Spec Par_Proofs2.
Open Scope R_scope.

Section S.
  Context (I : inter) (HI : sized I).
  Let He : (1 = 1 \/ 1 = 3)%nat := or_introl eq_refl.
  Let Wdr s h : well_sized I 1 s -> well_sized I 1 (drift s h). Proof. intros; apply ws_drift; auto. Qed.
  Let Wki s h : well_sized I 1 s -> well_sized I 1 (kick I s h). Proof. intros; apply ws_kick; auto. Qed.
  Let Mdr s h : s_m (drift s h) = s_m s. Proof. reflexivity. Qed.
  Let Ydr s h : s_sync (drift s h) = s_sync s. Proof. reflexivity. Qed.
  Let Odr s h : I_dep I = false -> s_w (drift s h) = s_w s. Proof. reflexivity. Qed.
  Let Er s : Esimple s s. Proof. reflexivity. Qed.
  Let Es s s' : Esimple s s' -> Esimple s' s. Proof. unfold Esimple; congruence. Qed.
  Let Et a b c : Esimple a b -> Esimple b c -> Esimple a c. Proof. unfold Esimple; congruence. Qed.
  Lemma s_ok s (W0 : well_sized I 1 s) M kdk h rank ext0 (Hr : (rank + 1 <= M)%nat) (Hl : (M + 1 <= length ext0)%nat) sched r :
    psched M st (read I) (simple_run I kdk) (write I s) h (pstart st ext0 (set_sync s true) rank) sched = Some r ->
    good_schedule M rank (serial_row drift (kick I) kdk s h) ext0 sched r.
  Proof.
    rewrite <- gwrite1, simple_run_is. intros H.
    destruct (i_ok I 1 He drift (kick I) (read I) Esimple Wdr Wki esimple_drift (esimple_kick I) Mdr (kick_m I) Ydr (kick_y I) Odr (kick_w I) esimple_inc esimple_clear (esimple_write I) (simple_rd I)
      Er Es Et (simple_rd0 I) s W0 M kdk h rank ext0 Hr Hl (set_sync s true) (p_base I 1 s W0) sched r H) as (c & -> & L & NR & F).
    exists c. split; auto. split; auto. split; [intros w1 f1 w2 f2 l A B D; exact (NR _ _ A B D eq_refl)|]. intros Fc. destruct (F Fc) as (F1 & F2 & F3). split; auto.
    intros j. destruct (Nat.leb_spec j (rank + 1)); [|apply F3; lia]. destruct (F2 j ltac:(lia)) as (p1 & p2 & R1 & R2).
    assert (p1 = set_sync s true) as -> by (pose proof (simple_rd0 I (set_sync s true) W0) as X; change (gwrite I 1 (set_sync s true)) with (gwrite I 1 s) in X; congruence).
    unfold serial_row, entry in *. unfold grun, stp in R2. congruence.
  Qed.
  Lemma s_any s (W0 : well_sized I 1 s) M kdk h rank ext0 (Hr : (rank + 1 <= M)%nat) (Hl : (M + 1 <= length ext0)%nat) sched c :
    psched M st (read I) (simple_run I kdk) (write I s) h (pstart st ext0 (set_sync s true) rank) sched = Some (Ok c) ->
    exists rest c', psched M st (read I) (simple_run I kdk) (write I s) h (pstart st ext0 (set_sync s true) rank) (sched ++ rest) = Some (Ok c') /\ finished st c'.
  Proof.
    rewrite <- gwrite1, simple_run_is.
    exact (i_any I 1 He drift (kick I) (read I) Esimple Wdr Wki esimple_drift (esimple_kick I) Mdr (kick_m I) Ydr (kick_y I) Odr (kick_w I) esimple_inc esimple_clear (esimple_write I) (simple_rd I)
      Er Es Et (simple_rd0 I) s W0 M kdk h rank ext0 Hr Hl (set_sync s true) (p_base I 1 s W0) sched c).
  Qed.
  Lemma s_iter s (W0 : well_sized I 1 s) tries M kdk err next lim sch b h r : (2 <= M)%nat -> (b_rank b + 1 <= M)%nat -> sizes M b ->
    piterate tries M kdk st (write I) (read I) set_sync (simple_run I kdk) err next lim sch b s h = Some r ->
    same_call (write I) (iterate tries M kdk st (write I) (read I) set_sync (simple_run I kdk) err next lim b s h) r.
  Proof.
    intros HM Hr HS H. unfold piterate in H. rewrite <- gwrite1 in H.
    pose proof (i_iterate I 1 He drift (kick I) (read I) Esimple Wdr Wki esimple_drift (esimple_kick I) Mdr (kick_m I) Ydr (kick_y I) Odr (kick_w I) esimple_inc esimple_clear esimple_sync
      (esimple_write I) (simple_rd I) Er Es Et (simple_rd0 I) s W0 tries M kdk err next lim sch b h r HM Hr HS H) as X.
    unfold iterate in *. rewrite gwrite1 in X. unfold same_call. rewrite simple_run_is.
    destruct (attempts _ _ _ _ _ _ _ _ _ _ _ _ _ _) as [[[b1 s1] h1]| |]; destruct r as [[[b2 s2] h2]| |]; auto. rewrite <- !gwrite1. exact X.
  Qed.
  Lemma s_exists s (W0 : well_sized I 1 s) tries M kdk err next lim b h : (2 <= M)%nat -> (b_rank b + 1 <= M)%nat -> sizes M b ->
    exists sch r, piterate tries M kdk st (write I) (read I) set_sync (simple_run I kdk) err next lim sch b s h = Some r.
  Proof.
    intros HM Hr HS.
    destruct (i_exists I 1 He drift (kick I) (read I) Esimple Wdr Wki esimple_drift (esimple_kick I) Mdr (kick_m I) Ydr (kick_y I) Odr (kick_w I) esimple_inc esimple_clear esimple_sync
      (esimple_write I) (simple_rd I) Er Es Et (simple_rd0 I) s W0 tries M kdk err next lim b h HM Hr HS) as (sch & r & X). exists sch, r. unfold piterate in *. rewrite gwrite1 in X. exact X.
  Qed.
End S.
Section T.
  Context (I : inter) (HI : sized I) (r : regu).
  Let He : (3 = 1 \/ 3 = 3)%nat := or_intror eq_refl.
  Let Wdr s h : well_sized I 3 s -> well_sized I 3 (rdrift r s h). Proof. intros; apply ws_rdrift; auto. Qed.
  Let Wki s h : well_sized I 3 s -> well_sized I 3 (rkick I r s h). Proof. intros; apply ws_rkick; auto. Qed.
  Let Mdr s h : s_m (rdrift r s h) = s_m s. Proof. apply rdrift_m. Qed.
  Let Ydr s h : s_sync (rdrift r s h) = s_sync s. Proof. apply rdrift_y. Qed.
  Let Odr s h : I_dep I = false -> s_w (rdrift r s h) = s_w s. Proof. intros _. apply rdrift_w. Qed.
  Let Er s : same_but_scale s s. Proof. reflexivity. Qed.
  Let Es s s' : same_but_scale s s' -> same_but_scale s' s. Proof. unfold same_but_scale; congruence. Qed.
  Let Et a b c : same_but_scale a b -> same_but_scale b c -> same_but_scale a c. Proof. unfold same_but_scale; congruence. Qed.
  Lemma r_ok s (W0 : well_sized I 3 s) M kdk h rank ext0 (Hr : (rank + 1 <= M)%nat) (Hl : (M + 1 <= length ext0)%nat) sched o :
    psched M st (rread I) (regu_run I r kdk) (rwrite I s) h (pstart st ext0 (set_sync s true) rank) sched = Some o ->
    good_schedule M rank (serial_row (rdrift r) (rkick I r) kdk s h) ext0 sched o.
  Proof.
    rewrite <- gwrite3, regu_run_is. intros H.
    destruct (i_ok I 3 He (rdrift r) (rkick I r) (rread I) same_but_scale Wdr Wki (rdrift_cong r) (rkick_cong I r) Mdr (rkick_m I r) Ydr (rkick_y I r) Odr (rkick_w I r) sbs_inc sbs_clear (sbs_write I) (regu_rd I)
      Er Es Et (regu_rd0 I) s W0 M kdk h rank ext0 Hr Hl (set_sync s true) (p_base I 3 s W0) sched o H) as (c & -> & L & NR & F).
    exists c. split; auto. split; auto. split; [intros w1 f1 w2 f2 l A B D; exact (NR _ _ A B D eq_refl)|]. intros Fc. destruct (F Fc) as (F1 & F2 & F3). split; auto.
    intros j. destruct (Nat.leb_spec j (rank + 1)); [|apply F3; lia]. destruct (F2 j ltac:(lia)) as (p1 & p2 & R1 & R2).
    assert (p1 = set_sync s true) as -> by (pose proof (regu_rd0 I (set_sync s true) W0) as X; change (gwrite I 3 (set_sync s true)) with (gwrite I 3 s) in X; congruence).
    unfold serial_row, entry in *. unfold grun, stp in R2. congruence.
  Qed.
  Lemma r_any s (W0 : well_sized I 3 s) M kdk h rank ext0 (Hr : (rank + 1 <= M)%nat) (Hl : (M + 1 <= length ext0)%nat) sched c :
    psched M st (rread I) (regu_run I r kdk) (rwrite I s) h (pstart st ext0 (set_sync s true) rank) sched = Some (Ok c) ->
    exists rest c', psched M st (rread I) (regu_run I r kdk) (rwrite I s) h (pstart st ext0 (set_sync s true) rank) (sched ++ rest) = Some (Ok c') /\ finished st c'.
  Proof.
    rewrite <- gwrite3, regu_run_is.
    exact (i_any I 3 He (rdrift r) (rkick I r) (rread I) same_but_scale Wdr Wki (rdrift_cong r) (rkick_cong I r) Mdr (rkick_m I r) Ydr (rkick_y I r) Odr (rkick_w I r) sbs_inc sbs_clear (sbs_write I) (regu_rd I)
      Er Es Et (regu_rd0 I) s W0 M kdk h rank ext0 Hr Hl (set_sync s true) (p_base I 3 s W0) sched c).
  Qed.
  Lemma r_iter s (W0 : well_sized I 3 s) tries M kdk err next lim sch b h o : (2 <= M)%nat -> (b_rank b + 1 <= M)%nat -> sizes M b ->
    piterate tries M kdk st (rwrite I) (rread I) set_sync (regu_run I r kdk) err next lim sch b s h = Some o ->
    same_call (rwrite I) (iterate tries M kdk st (rwrite I) (rread I) set_sync (regu_run I r kdk) err next lim b s h) o.
  Proof.
    intros HM Hr HS H. unfold piterate in H. rewrite <- gwrite3 in H.
    pose proof (i_iterate I 3 He (rdrift r) (rkick I r) (rread I) same_but_scale Wdr Wki (rdrift_cong r) (rkick_cong I r) Mdr (rkick_m I r) Ydr (rkick_y I r) Odr (rkick_w I r) sbs_inc sbs_clear sbs_sync
      (sbs_write I) (regu_rd I) Er Es Et (regu_rd0 I) s W0 tries M kdk err next lim sch b h o HM Hr HS H) as X.
    unfold iterate in *. rewrite gwrite3 in X. unfold same_call. rewrite regu_run_is.
    destruct (attempts _ _ _ _ _ _ _ _ _ _ _ _ _ _) as [[[b1 s1] h1]| |]; destruct o as [[[b2 s2] h2]| |]; auto. rewrite <- !gwrite3. exact X.
  Qed.
  Lemma r_exists s (W0 : well_sized I 3 s) tries M kdk err next lim b h : (2 <= M)%nat -> (b_rank b + 1 <= M)%nat -> sizes M b ->
    exists sch o, piterate tries M kdk st (rwrite I) (rread I) set_sync (regu_run I r kdk) err next lim sch b s h = Some o.
  Proof.
    intros HM Hr HS.
    destruct (i_exists I 3 He (rdrift r) (rkick I r) (rread I) same_but_scale Wdr Wki (rdrift_cong r) (rkick_cong I r) Mdr (rkick_m I r) Ydr (rkick_y I r) Odr (rkick_w I r) sbs_inc sbs_clear sbs_sync
      (sbs_write I) (regu_rd I) Er Es Et (regu_rd0 I) s W0 tries M kdk err next lim b h HM Hr HS) as (sch & o & X). exists sch, o. unfold piterate in *. rewrite gwrite3 in X. exact X.
  Qed.
End T.
