(** Every interleaving of the two threads fills the table with the same rows; the parallel iterator agrees with the sequential one. *)
From Coq Require Import ZArith Lia.
From Verif Require Export Par_Model Meth_Proofs.
Open Scope R_scope.

Section Gen.
  Context (M : nat) (kdk : bool) (P : Type) (wr : P -> list R) (rd : P -> list R -> outcome P) (collect : P -> bool -> P)
          (run : P -> R -> nat -> outcome (P * list R)) (err : list R -> list R -> list R -> R) (next lim : nat -> R -> R)
          (n : nat) (Sx W : P -> P -> Prop).
  Notation N := (M + 1)%nat.
  Context (Hrd : forall p q y, W p q -> length y = n -> exists p' q', rd p y = Ok p' /\ rd q y = Ok q' /\ Sx p' q' /\ W p p')
          (Hrun : forall p q h k, Sx p q -> (0 < k)%nat -> exists p' q' dy, run p h k = Ok (p', dy) /\ run q h k = Ok (q', dy) /\ length dy = n /\ W p p' /\ W q q')
          (HSW : forall p q, Sx p q -> W p q) (Wsym : forall p q, W p q -> W q p) (Wtrans : forall p q r, W p q -> W q r -> W p r)
          (Ssym : forall p q, Sx p q -> Sx q p) (Strans : forall p q r, Sx p q -> Sx q r -> Sx p r)
          (Hcol : forall p q, Sx p q -> Sx (collect p false) (collect q false)).

  (** The row that one thread alone would put at index k, starting from [p]. *)
  Definition row_is (p : P) (input : list R) (h : R) (k : nat) (dy : list R) : Prop :=
    exists p1 p2, rd p input = Ok p1 /\ run p1 h (h_at N k) = Ok (p2, dy).

  Section Sub.
    Context (p0 : P) (input : list R) (h : R) (rank : nat) (ext0 : list (list R))
            (Li : length input = n) (Hr : (rank + 1 <= M)%nat) (He : (N <= length ext0)%nat) (W0 : W p0 p0).
    Lemma row_unique k d d' : row_is p0 input h k d -> row_is p0 input h k d' -> d = d'.
    Proof. intros (a & b & A & B) (a' & b' & A' & B'). congruence. Qed.
    Lemma row_exists k : (k <= M)%nat -> exists dy, row_is p0 input h k dy /\ length dy = n.
    Proof.
      intros Hk. destruct (Hrd p0 p0 input W0 Li) as (p1 & q1 & A & A' & B & C).
      destruct (Hrun p1 q1 h (h_at N k) B) as (p2 & q2 & dy & D & _ & L & _); [apply h_at_pos; lia|].
      exists dy. split; auto. exists p1, p2. auto.
    Qed.
    Definition start (who : bool) : Z := if who then Z.of_nat rank else Z.of_nat (rank + 1).
    Definition owner (j : nat) : bool := Z.even (Z.of_nat j - Z.of_nat rank).
    Definition tinv (who : bool) (ext : list (list R)) (t : thr P) : Prop :=
      W p0 (t_sys P t) /\ (-2 <= t_p P t <= start who)%Z /\ Z.even (t_p P t - Z.of_nat rank) = who /\
      match t_ph P t with
      | Test => True
      | Integrate => (0 <= t_p P t)%Z /\ exists s, rd p0 input = Ok s /\ Sx s (t_sys P t)
      | Copy dy => (0 <= t_p P t)%Z /\ row_is p0 input h (Z.to_nat (t_p P t)) dy
      | Done => (t_p P t < 0)%Z
      end /\
      forall j, (j <= rank + 1)%nat -> owner j = who -> (t_p P t < Z.of_nat j)%Z -> row_is p0 input h j (entry ext j).
    Definition cinv (c : conf P) : Prop :=
      length (k_ext P c) = length ext0 /\ (forall j, (rank + 1 < j)%nat -> entry (k_ext P c) j = entry ext0 j) /\
      tinv true (k_ext P c) (k_async P c) /\ tinv false (k_ext P c) (k_main P c) /\
      Forall (fun a => match snd (snd a) with LRow j => owner j = fst a /\ (j <= rank + 1)%nat | _ => fst (snd a) = false end) (k_log P c).
    Lemma even_m2 (z : Z) : Z.even (z - 2)%Z = Z.even z.
    Proof. rewrite Z.even_sub. replace (Z.even 2) with true by reflexivity. destruct (Z.even z); reflexivity. Qed.
    Lemma start_inv : cinv (pstart P ext0 p0 rank).
    Proof.
      unfold cinv, pstart. cbn [k_ext k_async k_main k_log]. repeat split; auto; cbn [t_sys t_p t_ph start]; try lia.
      - rewrite Z.sub_diag. reflexivity.
      - intros j Hj Ho Hl. unfold owner in Ho. replace (Z.of_nat j - Z.of_nat rank)%Z with 1%Z in Ho by lia. discriminate.
      - rewrite Nat2Z.inj_add. replace (Z.of_nat rank + Z.of_nat 1 - Z.of_nat rank)%Z with 1%Z by lia. reflexivity.
    Qed.
    Lemma tinv_other who who' ext j x t : tinv who ext t -> owner j = who' -> who <> who' -> tinv who (list_set ext j x) t.
    Proof.
      intros (A & B & C & D & E) Ho Hw. repeat split; auto; try lia. intros i Hi Hoi Hl. rewrite entry_set_neq; [apply E; auto|].
      intros ->. congruence.
    Qed.
    (** One step of one thread from a good state: it happens, and preserves the invariant. *)
    Lemma tstep_ok who ext t : length ext = length ext0 -> tinv who ext t ->
      exists ext' t' acc, tstep M P rd run input h ext t = Ok (ext', t', acc) /\ tinv who ext' t' /\ length ext' = length ext0 /\
        (ext' = ext \/ exists j x, (j <= rank + 1)%nat /\ owner j = who /\ ext' = list_set ext j x) /\
        Forall (fun a => match snd a with LRow j => owner j = who /\ (j <= rank + 1)%nat | _ => fst a = false end) acc.
    Proof.
      intros Le (A & B & C & D & E). unfold tstep. destruct t as [s z ph]. cbn [t_sys t_p t_ph] in *. destruct ph as [| |dy|].
      - destruct (Z.ltb_spec z 0).
        + do 3 eexists. split; [reflexivity|]. split; [|split; [auto|split; [auto|constructor]]].
          repeat split; cbn [t_sys t_p t_ph]; auto; lia.
        + destruct (Hrd p0 s input A Li) as (s0 & s1 & R0 & R1 & Hs & Hw). rewrite R1. cbn [obind].
          do 3 eexists. split; [reflexivity|]. split; [|split; [auto|split; [auto|repeat constructor]]].
          repeat split; cbn [t_sys t_p t_ph]; auto; try lia.
          * eapply Wtrans; [exact Hw|]. apply HSW; auto.
          * eauto.
      - destruct D as (Hz & s0 & R0 & Hs).
        assert (Hk : (Z.to_nat z <= M)%nat) by (destruct who; cbn [start] in B; lia).
        unfold bs_h. rewrite (proj2 (Nat.ltb_lt _ _)) by lia. cbn [obind].
        destruct (Hrun s0 s h (h_at N (Z.to_nat z)) Hs) as (a & b & dy & Ra & Rb & Ld & Wa & Wb); [apply h_at_pos; lia|].
        rewrite Rb. cbn [obind]. do 3 eexists. split; [reflexivity|]. split; [|split; [auto|split; [auto|repeat constructor]]].
        repeat split; cbn [t_sys t_p t_ph]; auto; try lia.
        + eapply Wtrans; eauto.
        + exists s0, a. auto.
      - destruct D as (Hz & Hd). assert (Hk : (Z.to_nat z <= rank + 1)%nat) by (destruct who; cbn [start] in B; lia).
        assert (Ho : owner (Z.to_nat z) = who) by (unfold owner; rewrite Z2Nat.id by lia; exact C).
        rewrite aset_ok by lia. cbn [obind]. do 3 eexists. split; [reflexivity|].
        split; [|split; [rewrite list_set_length; lia|split; [right; eauto|repeat constructor; auto]]].
        repeat split; cbn [t_sys t_p t_ph]; auto; try lia.
        + rewrite <- C. rewrite <- (even_m2 (z - Z.of_nat rank)). f_equal. lia.
        + intros j Hj Hoj Hl. destruct (Nat.eq_dec (Z.to_nat z) j) as [<-|Ne].
          * rewrite entry_set_eq by lia. exact Hd.
          * rewrite entry_set_neq by auto. apply E; auto. destruct (Z.eq_dec (Z.of_nat j) (z - 1)) as [Ez|Ez]; [|lia]. exfalso.
            unfold owner in Hoj. rewrite Ez in Hoj. replace (z - 1 - Z.of_nat rank)%Z with (z - Z.of_nat rank - 1)%Z in Hoj by lia.
            rewrite Z.even_sub, C in Hoj. change (Z.even 1) with false in Hoj. destruct who; discriminate.
      - do 3 eexists. split; [reflexivity|]. split; [|split; [auto|split; [auto|constructor]]]. repeat split; cbn [t_sys t_p t_ph]; auto; lia.
    Qed.
    Lemma pstep_ok c (who : bool) : cinv c -> t_ph P (if who then k_async P c else k_main P c) <> Done ->
      exists c', pstep M P rd run input h c who = Some (Ok c') /\ cinv c'.
    Proof.
      intros (A & B & C & D & E) Hn. unfold pstep.
      assert (T : tinv who (k_ext P c) (if who then k_async P c else k_main P c)) by (destruct who; auto).
      destruct (tstep_ok who _ _ A T) as (ext' & t' & acc & R1 & T' & L' & X & F).
      assert (G : cinv (if who then mkConf P ext' t' (k_main P c) (k_log P c ++ map (fun a => (who, a)) acc) else mkConf P ext' (k_async P c) t' (k_log P c ++ map (fun a => (who, a)) acc))).
      { assert (LB : forall j, (rank + 1 < j)%nat -> entry ext' j = entry ext0 j).
        { intros j Hj. rewrite <- B by auto. destruct X as [->|(i & x & Hi & _ & ->)]; auto. apply entry_set_neq. lia. }
        assert (LF : Forall (fun a => match snd (snd a) with LRow j => owner j = fst a /\ (j <= rank + 1)%nat | _ => fst (snd a) = false end) (k_log P c ++ map (fun a => (who, a)) acc)).
        { apply Forall_app. split; auto. apply Forall_map. eapply Forall_impl; [|exact F]. intros [w l]. cbn. auto. }
        destruct who; unfold cinv; cbn [k_ext k_async k_main k_log].
        - split; [auto|]. split; [auto|]. split; [auto|]. split; [|auto].
          destruct X as [->|(i & x & Hi & Ho & ->)]; auto. eapply tinv_other; eauto; discriminate.
        - split; [auto|]. split; [auto|]. split; [|auto].
          destruct X as [->|(i & x & Hi & Ho & ->)]; auto. eapply tinv_other; eauto; discriminate. }
      eexists. split; [|exact G]. destruct (t_ph P (if who then k_async P c else k_main P c)); try contradiction; cbv zeta; rewrite R1; reflexivity.
    Qed.
    Definition ph_left (ph : phase) : nat := match ph with Test => 3 | Integrate => 2 | Copy _ => 1 | Done => 0 end.
    Definition t_left (t : thr P) : nat := (3 * Z.to_nat (t_p P t + 2) + ph_left (t_ph P t))%nat.
    Definition c_left (c : conf P) : nat := (t_left (k_async P c) + t_left (k_main P c))%nat.
    Lemma tstep_left ext t ext' t' acc : (-2 <= t_p P t)%Z -> (match t_ph P t with Test => True | Done => False | _ => (0 <= t_p P t)%Z end) ->
      tstep M P rd run input h ext t = Ok (ext', t', acc) -> (t_left t' < t_left t)%nat.
    Proof.
      destruct t as [s z ph]. cbn [t_p t_ph]. unfold tstep, t_left. cbn [t_sys t_p t_ph]. intros Hz D H. destruct ph.
      - destruct (z <? 0)%Z; [|destruct (rd s input); cbn in H; try discriminate]; injection H as <- <- <-; cbn [t_p t_ph ph_left]; lia.
      - destruct (bs_h N (Z.to_nat z)); cbn in H; try discriminate. destruct (run s h a) as [[s1 dy]| |]; cbn in H; try discriminate. injection H as <- <- <-. cbn [t_p t_ph ph_left]. lia.
      - destruct (aset ext (Z.to_nat z) dy); cbn in H; try discriminate. injection H as <- <- <-. cbn [t_p t_ph ph_left]. lia.
      - contradiction.
    Qed.
    Lemma pstep_left c (who : bool) c' : cinv c -> pstep M P rd run input h c who = Some (Ok c') -> (c_left c' < c_left c)%nat.
    Proof.
      intros (A & B & C & D & E) H. unfold pstep in H.
      assert (T : tinv who (k_ext P c) (if who then k_async P c else k_main P c)) by (destruct who; auto).
      destruct T as (T1 & T2 & T3 & T4 & _).
      destruct (t_ph P (if who then k_async P c else k_main P c)) eqn:Ph; try discriminate;
        injection H as H; destruct (tstep M P rd run input h (k_ext P c) (if who then k_async P c else k_main P c)) as [[[ext' t'] acc]| |] eqn:Et; cbn in H; try discriminate;
        (apply tstep_left in Et; [|lia|rewrite Ph; try tauto; exact Logic.I]); injection H as <-; unfold c_left; destruct who; cbn [k_async k_main]; lia.
    Qed.
    Lemma psched_ok sched : forall c r, cinv c -> psched M P rd run input h c sched = Some r -> exists c', r = Ok c' /\ cinv c' /\ (length sched + c_left c' <= c_left c)%nat.
    Proof.
      induction sched as [|w t IH]; intros c r I H; cbn [psched] in H.
      - injection H as <-. exists c. cbn. auto.
      - destruct (pstep M P rd run input h c w) as [[c1| |]|] eqn:E; try discriminate.
        + assert (Hn : t_ph P (if w then k_async P c else k_main P c) <> Done).
          { intros Q. unfold pstep in E. rewrite Q in E. discriminate. }
          destruct (pstep_ok c w I Hn) as (c2 & E2 & I2). rewrite E2 in E. injection E as <-.
          destruct (IH c2 r I2 H) as (c' & -> & I' & L'). exists c'. split; auto. split; auto. pose proof (pstep_left c w c2 I E2). cbn [length]. lia.
        + exfalso. assert (Hn : t_ph P (if w then k_async P c else k_main P c) <> Done) by (intros Q; unfold pstep in E; rewrite Q in E; discriminate).
          destruct (pstep_ok c w I Hn) as (c2 & E2 & _). congruence.
        + exfalso. assert (Hn : t_ph P (if w then k_async P c else k_main P c) <> Done) by (intros Q; unfold pstep in E; rewrite Q in E; discriminate).
          destruct (pstep_ok c w I Hn) as (c2 & E2 & _). congruence.
    Qed.
    (** There is a complete interleaving from every good state. *)
    Lemma psched_exists m : forall c, (c_left c < m)%nat -> cinv c -> exists sched c', psched M P rd run input h c sched = Some (Ok c') /\ finished P c'.
    Proof.
      induction m as [|m IH]; intros c L I; [lia|].
      assert (K : forall who : bool, t_ph P (if who then k_async P c else k_main P c) <> Done -> exists sched c', psched M P rd run input h c sched = Some (Ok c') /\ finished P c').
      { intros who Hn. destruct (pstep_ok c who I Hn) as (c1 & E1 & I1). pose proof (pstep_left _ _ _ I E1).
        destruct (IH c1) as (sc & c' & R1 & F1); [lia|auto|]. exists (who :: sc), c'. cbn [psched]. rewrite E1. auto. }
      assert (Dec : forall ph : phase, ph = Done \/ ph <> Done) by (intros []; auto; right; discriminate).
      destruct (Dec (t_ph P (k_async P c))) as [Ea|Ea]; [|apply (K true Ea)].
      destruct (Dec (t_ph P (k_main P c))) as [Em|Em]; [|apply (K false Em)].
      exists [], c. split; [reflexivity|]. split; auto.
    Qed.
    (** What a complete interleaving leaves behind. *)
    Lemma finished_rows c : cinv c -> finished P c -> length (k_ext P c) = length ext0 /\ W p0 (t_sys P (k_main P c)) /\
      (forall j, (j <= rank + 1)%nat -> row_is p0 input h j (entry (k_ext P c) j)) /\ (forall j, (rank + 1 < j)%nat -> entry (k_ext P c) j = entry ext0 j).
    Proof.
      intros (A & B & (C1 & C2 & C3 & C4 & C5) & (D1 & D2 & D3 & D4 & D5) & E) (F1 & F2). rewrite F1 in C4. rewrite F2 in D4.
      repeat split; auto. intros j Hj. destruct (owner j) eqn:Ho; [apply C5|apply D5]; auto; lia.
    Qed.
    (** No two threads touch the same object with one of them writing. *)
    Lemma no_race c a b : cinv c -> In a (k_log P c) -> In b (k_log P c) -> fst a <> fst b -> snd (snd a) = snd (snd b) -> fst (snd a) = false /\ fst (snd b) = false.
    Proof.
      intros (_ & _ & _ & _ & E) Ha Hb Hn Hl. rewrite Forall_forall in E. apply E in Ha. apply E in Hb. destruct a as [wa [fa la]], b as [wb [fb lb]]. cbn [fst snd] in *. subst lb.
      destruct la; auto. destruct Ha as (Ha & _). destruct Hb as (Hb & _). congruence.
    Qed.
  End Sub.

  (** * The whole iterator *)
  Lemma extrap_keeps k : forall j ext ext', extrap_loop N k j ext = Ok ext' -> length ext' = length ext /\ forall i, (j <= i)%nat -> entry ext' i = entry ext i.
  Proof.
    induction j as [|j IH]; intros ext ext' H; cbn [extrap_loop] in H; [injection H as <-; auto|].
    destruct (bs_coef N k (k - S j)); cbn in H; try discriminate. destruct (aget ext (S j)); cbn in H; try discriminate. destruct (aget ext j); cbn in H; try discriminate.
    destruct (aset ext j (zipw (fun x y : R => x + (x - y) * a) a0 a1)) as [e| |] eqn:Ea; cbn in H; try discriminate.
    apply IH in H as (L & K). unfold aset in Ea. destruct (Nat.ltb_spec j (length ext)); [|discriminate]. injection Ea as <-.
    rewrite list_set_length in L by lia. split; auto. intros i Hi. rewrite K by lia. apply entry_set_neq. lia.
  Qed.
  (** The first k rows agree (and have the right length). *)
  Notation Tr := (Trel (fun x => x) n).
  Definition Beq (k : nat) (bS bP : bs) : Prop := exists eS, bS = set_row bP eS (b_ideal bP) (b_cpl bP) /\ Tr k eS (b_ext bP).
  Lemma row_len p input h k dy : W p p -> length input = n -> (k <= M)%nat -> row_is p input h k dy -> length dy = n.
  Proof.
    intros Wp Li Hk (p1 & p2 & A & B). destruct (Hrd p p input Wp Li) as (a & b & A' & _ & S' & _). assert (a = p1) by congruence. subst a.
    destruct (Hrun p1 b h (h_at N k) S') as (c & d & e & E & _ & L & _); [apply h_at_pos; lia|]. congruence.
  Qed.
  Lemma row_sim k bS bP input dy h : (1 <= k)%nat -> length dy = n -> entry (b_ext bP) k = dy -> (k < length (b_ext bP))%nat -> Beq k bS bP ->
    orel (fun x y => Beq (S k) (fst x) (fst y) /\ snd x = snd y /\ b_rank (fst y) = b_rank bP /\ b_first (fst y) = b_first bP /\
                     length (b_ext (fst y)) = length (b_ext bP) /\ forall j, (k < j)%nat -> entry (b_ext (fst y)) j = entry (b_ext bP) j)
         (row_table M kdk err next bS input dy h k) (prow_table M kdk err next bP input h k).
  Proof.
    intros Hk Ld Ed Hl (eS & -> & HT). unfold row_table, prow_table. cbn [set_row b_ext b_ideal b_cpl].
    pose proof HT as (Hlen & HE). rewrite aset_ok by lia. cbn [obind].
    assert (HT1 : Tr (S k) (list_set eS k dy) (b_ext bP)).
    { split; [rewrite list_set_length; lia|]. intros j Hj Hj2. destruct (Nat.eq_dec k j) as [<-|Ne].
      - rewrite entry_set_eq by lia. rewrite Ed. auto.
      - rewrite entry_set_neq by auto. apply HE; lia. }
    unfold extrapolate at 1. unfold extrapolate at 1.
    pose proof (extrap_sim M (fun x => x) n (fun a b c _ _ => eq_refl) k k (list_set eS k dy) (b_ext bP) (le_n _) HT1) as X.
    pose proof (extrap_keeps k k (b_ext bP)) as Kp.
    destruct (extrap_loop N k k (list_set eS k dy)) as [xS| |] eqn:E1; destruct (extrap_loop N k k (b_ext bP)) as [xP| |] eqn:E2; cbn in X; try contradiction; cbn [obind orel]; auto.
    destruct (Kp xP eq_refl) as (Lx & Kx).
    eapply orel_bind; [apply (trel_get (fun x => x) n _ _ _ 1%nat X); lia|]. intros a1 a2 (La & ->).
    eapply orel_bind; [apply (trel_get (fun x => x) n _ _ _ 0%nat X); lia|]. intros b1 b2 (Lb & ->).
    apply orel_eq. intros ideal. apply orel_eq. intros c. apply orel_eq. intros cpl.
    cbn. split; [exists xS; split; auto|]. repeat split; auto. intros j Hj. apply Kx. lia.
  Qed.
  Definition Rout (x : bs * P * rowres) (y : bs * P * rowres) : Prop :=
    snd x = snd y /\ Beq 0 (fst (fst x)) (fst (fst y)) /\
    match snd y with Accepted _ => Sx (snd (fst x)) (snd (fst y)) | _ => W (snd (fst x)) (snd (fst y)) /\ (b_rank (fst (fst y)) + 1 <= M)%nat /\ (N <= length (b_ext (fst (fst y))))%nat end.
  Lemma next_rank b k b2 s : (2 <= M)%nat -> b_first b = false -> (b_rank b + 1 <= M)%nat -> set_next_iteration M kdk b k = Ok (b2, s) -> (b_rank b2 + 1 <= M)%nat.
  Proof.
    intros HM Hf Hr. assert (A : forall i, (allowed M i + 1 <= M)%nat).
    { intros i. unfold allowed. destruct (i <? 2)%nat; [destruct (Nat.ltb_spec (M - 1) 2)|destruct (Nat.ltb_spec (M - 1) i)]; lia. }
    assert (Ws : forall b0, with_step M kdk b0 k = Ok (b2, s) -> b2 = b0).
    { unfold with_step. intros b0 H. destruct (get_next_step_len M kdk b0 (b_rank b0) k); cbn in H; try discriminate. congruence. }
    unfold set_next_iteration. rewrite Hf. cbn [negb]. destruct ((k =? b_rank b - 1)%nat || (k =? b_rank b)%nat).
    - intros H. destruct (aget_sub (b_cpl b) k 1); cbn in H; try discriminate. destruct (aget (b_cpl b) k); cbn in H; try discriminate.
      repeat match type of H with context [if ?c then _ else _] => destruct c end; apply Ws in H; subst b2; cbn [set_rank b_rank]; apply A.
    - destruct (k =? b_rank b + 1)%nat; [|discriminate]. intros H. destruct (aget_sub (b_cpl b) k 2); cbn in H; try discriminate.
      destruct (aget_sub (b_cpl b) k 1); cbn in H; try discriminate. cbv zeta in H.
      destruct (Rlt_dec a (dec_factor * a0)); cbn [set_rank b_cpl b_rank b_reject] in H; destruct (aget (b_cpl b) k); cbn in H; try discriminate;
        match type of H with context [aget (b_cpl b) ?r] => destruct (aget (b_cpl b) r); cbn in H; try discriminate end;
        repeat match type of H with context [if ?c then _ else _] => destruct c end; apply Ws in H; subst b2; cbn [set_rank b_rank]; auto.
  Qed.
  Lemma prows_sim (HM : (2 <= M)%nat) input h p0 (Wp : W p0 p0) : length input = n -> forall f k bS bP p q, (1 <= k)%nat -> (f + k = b_rank bP + 2)%nat ->
    (b_rank bP + 1 <= M)%nat -> (N <= length (b_ext bP))%nat -> Beq k bS bP -> W p0 p -> W p0 q ->
    (forall j, (k <= j <= b_rank bP + 1)%nat -> row_is p0 input h j (entry (b_ext bP) j)) ->
    orel Rout (rows M kdk P rd collect run err next lim f k bS p input h) (prows M kdk P rd collect err next lim f k bP q input h).
  Proof.
    intros Li. induction f as [|f IH]; intros k bS bP p q Hk Hf Hr He HB Hp Hq HR; cbn [rows prows].
    { cbn. split; auto. split.
      - destruct HB as (e & E & L & _). exists e. split; auto. split; auto. intros; lia.
      - cbn [fst snd]. split; [eapply Wtrans; [apply Wsym; exact Hp|exact Hq]|]. split; auto. }
    destruct (Hrd p0 p input Hp Li) as (s0 & s1 & R0 & R1 & Hs & Hw). rewrite R1. cbn [obind].
    unfold bs_h. rewrite (proj2 (Nat.ltb_lt _ _)) by lia. cbn [obind].
    destruct (Hrun s0 s1 h (h_at N k) Hs) as (a & b & dy & Ra & Rb & Ld & Wa & Wb); [apply h_at_pos; lia|]. rewrite Rb. cbn [obind].
    assert (Hb : W p0 b) by (eapply Wtrans; [exact Hp|]; eapply Wtrans; [|exact Wb]; eapply Wtrans; [apply Wsym; exact Hp|]; eapply Wtrans; [exact Hw|apply HSW; exact Hs]).
    assert (Ed : entry (b_ext bP) k = dy) by (apply (row_unique p0 input h k); [apply HR; lia|exists s0, a; auto]).
    eapply orel_bind; [apply (row_sim k bS bP input dy h Hk Ld Ed); auto; lia|].
    intros [b1 e1] [b2 e2] (HB1 & He1 & Hrk & Hfst & Hlen & Hkeep). cbn [fst snd] in *. subst e2.
    destruct HB1 as (eS & -> & HT).
    assert (Hrec : orel Rout (rows M kdk P rd collect run err next lim f (S k) (set_row b2 eS (b_ideal b2) (b_cpl b2)) b input h)
                             (prows M kdk P rd collect err next lim f (S k) b2 q input h)).
    { apply IH; auto; try lia; [exists eS; auto|]. intros j Hj. rewrite Hkeep by lia. apply HR. lia. }
    change (in_converged_window (set_row b2 eS (b_ideal b2) (b_cpl b2)) k) with (in_converged_window b2 k).
    destruct (in_converged_window b2 k); [|exact Hrec]. destruct (Rle_dec e1 1).
    - cbn [set_row b_ext]. eapply orel_bind; [apply (trel_get (fun x => x) n _ _ _ 0%nat HT); lia|]. intros x0 y0 (L0 & ->).
      assert (Wbq : W b q) by (eapply Wtrans; [apply Wsym; exact Hb|exact Hq]).
      destruct (Hrd b q (zipw Rplus input y0) Wbq) as (p3 & q3 & -> & -> & R3 & _); [rewrite zipw_length; lia|]. cbn [obind].
      change (accept1 (set_row b2 eS (b_ideal b2) (b_cpl b2)) e1) with (set_row (accept1 b2 e1) eS (b_ideal (accept1 b2 e1)) (b_cpl (accept1 b2 e1))).
      rewrite set_next_sim. destruct (set_next_iteration M kdk (accept1 b2 e1) k) as [[b3 nh]| |] eqn:E; cbn; auto.
      split; auto. split; [|apply Hcol; auto]. exists eS. split; [reflexivity|].
      destruct (set_next_shape M kdk _ _ _ _ E) as (r' & ->). cbn [not_first set_rank b_ext accept1]. split; [apply HT|]. intros; lia.
    - rewrite diverged_sim. unfold is_diverged_anyhow. destruct (b_first b2) eqn:Ef; cbn [negb obind]; [exact Hrec|].
      apply orel_eq. intros d. destruct d; [|exact Hrec].
      change (reject1 (set_row b2 eS (b_ideal b2) (b_cpl b2))) with (set_row (reject1 b2) eS (b_ideal (reject1 b2)) (b_cpl (reject1 b2))).
      rewrite set_next_sim. destruct (set_next_iteration M kdk (reject1 b2) k) as [[b3 nh]| |] eqn:E; cbn; auto.
      split; auto. destruct (set_next_shape M kdk _ _ _ _ E) as (r' & E3).
      split; [exists eS; split; [reflexivity|]; rewrite E3; cbn [set_rank b_ext reject1]; split; [apply HT|]; intros; lia|].
      split; [eapply Wtrans; [apply Wsym; exact Hb|exact Hq]|]. split; [|rewrite E3; cbn; lia].
      eapply next_rank; [exact HM| | |exact E]; cbn [reject1 b_first b_rank]; auto; lia.
  Qed.
  Definition Rit (x : bs * P * R) (y : bs * P * R) : Prop := snd x = snd y /\ Beq 0 (fst (fst x)) (fst (fst y)) /\ Sx (snd (fst x)) (snd (fst y)).
  Lemma again p3 q3 p4 q4 input : length input = n -> W p3 q3 -> rd q3 input = Ok q4 -> Sx p4 q4 -> W q4 q4 /\ exists p1, rd q4 input = Ok p1 /\ Sx p4 p1.
  Proof.
    intros Li Wx F4 S4. split; [eapply Wtrans; [apply Wsym|]; apply HSW; exact S4|].
    assert (Wq4 : W q3 q4). { destruct (Hrd q3 q3 input (Wtrans _ _ _ (Wsym _ _ Wx) Wx) Li) as (x & y & X1 & _ & _ & X2). congruence. }
    destruct (Hrd q3 q4 input Wq4 Li) as (x & y & X1 & X2 & X3 & _). assert (x = q4) by congruence. subst x. exists y. split; auto. eapply Strans; eauto.
  Qed.
  Lemma pattempts_sim (HM : (2 <= M)%nat) input sch : length input = n -> forall t bS bP p q h r, Beq 0 bS bP -> (b_rank bP + 1 <= M)%nat -> (N <= length (b_ext bP))%nat ->
    W q q -> (exists p1, rd q input = Ok p1 /\ Sx p p1) ->
    pattempts M kdk P rd collect run err next lim t sch bP q input h = Some r ->
    orel Rit (attempts M kdk P rd collect run err next lim t bS p input h) r.
  Proof.
    intros Li. induction t as [|t IH]; intros bS bP p q h r HB Hr He Wq (p1 & E1 & Hs) H; cbn [attempts pattempts] in *; [injection H as <-; exact Logic.I|].
    cbv zeta in H. change (b_ext (count_try bP)) with (b_ext bP) in H. change (b_rank (count_try bP)) with (b_rank bP) in H.
    change (b_ideal (count_try bP)) with (b_ideal bP) in H. change (b_cpl (count_try bP)) with (b_cpl bP) in H.
    destruct (psched M P rd run input h (pstart P (b_ext bP) q (b_rank bP)) (sch t)) as [o|] eqn:Es; [|discriminate].
    destruct (psched_ok q input h (b_rank bP) (b_ext bP) Li Hr He _ _ _ (start_inv q input h (b_rank bP) (b_ext bP) Li Hr He Wq) Es) as (c & -> & Ic & _).
    destruct (t_ph P (k_async P c)) eqn:Pa; try discriminate. destruct (t_ph P (k_main P c)) eqn:Pm; try discriminate.
    destruct (finished_rows q input h (b_rank bP) (b_ext bP) Li Hr He c Ic (conj Pa Pm)) as (Lc & Wc & Rows & _).
    unfold bs_h. rewrite (proj2 (Nat.ltb_lt _ _)) by lia. cbn [obind].
    assert (Hqp1 : W q p1). { destruct (Hrd q q input Wq Li) as (x & y & X1 & _ & _ & X2). congruence. }
    destruct (Hrun p p1 h (h_at N 0) Hs) as (p2 & q2 & dy & R1 & R2 & Ld & W2 & W2'); [apply h_at_pos; lia|]. rewrite R1. cbn [obind].
    destruct HB as (eS & -> & HT). pose proof HT as (HL & _).
    change (b_ext (count_try (set_row bP eS (b_ideal bP) (b_cpl bP)))) with eS. rewrite aset_ok by lia. cbn [obind].
    assert (Hp2 : W q p2). { eapply Wtrans; [exact Hqp1|]. eapply Wtrans; [apply Wsym, HSW; exact Hs|exact W2]. }
    set (bP1 := set_row (count_try bP) (k_ext P c) (b_ideal bP) (b_cpl bP)) in *.
    assert (E0 : entry (k_ext P c) 0 = dy).
    { apply (row_unique q input h 0); [apply Rows; lia|exists p1, q2; auto]. }
    pose proof (prows_sim HM input h q Wq Li (b_rank bP + 1) 1 (set_row (count_try (set_row bP eS (b_ideal bP) (b_cpl bP))) (list_set eS 0 dy) (b_ideal bP) (b_cpl bP)) bP1 p2 (t_sys P (k_main P c))) as X.
    change (b_rank bP1) with (b_rank bP) in X. change (b_ext bP1) with (k_ext P c) in X.
    specialize (X ltac:(lia) ltac:(lia) Hr ltac:(lia)).
    assert (HB1 : Beq 1 (set_row (count_try (set_row bP eS (b_ideal bP) (b_cpl bP))) (list_set eS 0 dy) (b_ideal bP) (b_cpl bP)) bP1).
    { exists (list_set eS 0 dy). split; [reflexivity|]. cbn [bP1 set_row b_ext]. split; [rewrite list_set_length; lia|]. intros j Hj _. assert (j = 0)%nat by lia. subst j.
      rewrite entry_set_eq by lia. rewrite E0. auto. }
    specialize (X HB1 Hp2 Wc). specialize (X ltac:(intros j Hj; apply Rows; lia)).
    change (b_rank (count_try (set_row bP eS (b_ideal bP) (b_cpl bP)))) with (b_rank bP).
    change (b_ideal (count_try (set_row bP eS (b_ideal bP) (b_cpl bP)))) with (b_ideal bP). change (b_cpl (count_try (set_row bP eS (b_ideal bP) (b_cpl bP)))) with (b_cpl bP).
    destruct (rows M kdk P rd collect run err next lim (b_rank bP + 1) 1 (set_row (count_try (set_row bP eS (b_ideal bP) (b_cpl bP))) (list_set eS 0 dy) (b_ideal bP) (b_cpl bP)) p2 input h) as [[[b1 p3] r1]| |];
      destruct (prows M kdk P rd collect err next lim (b_rank bP + 1) 1 bP1 (t_sys P (k_main P c)) input h) as [[[b2 q3] r2]| |]; cbn in X; try contradiction; cbn [obind];
      try (injection H as <-; exact Logic.I).
    destruct X as (Er & HB2 & X). cbn [fst snd] in *. subst r2. destruct r1 as [|h'|h'].
    - destruct X as (Wx & Rk & Ln). destruct (Hrd p3 q3 input Wx Li) as (p4 & q4 & E4 & F4 & S4 & W4). rewrite E4. rewrite F4 in H. cbn [obind].
      destruct (again p3 q3 p4 q4 input Li Wx F4 S4) as (Z1 & Z2). exact (IH b1 b2 p4 q4 h r HB2 Rk Ln Z1 Z2 H).
    - injection H as <-. cbn. split; auto.
    - destruct X as (Wx & Rk & Ln). destruct (Hrd p3 q3 input Wx Li) as (p4 & q4 & E4 & F4 & S4 & W4). rewrite E4. rewrite F4 in H. cbn [obind].
      destruct (again p3 q3 p4 q4 input Li Wx F4 S4) as (Z1 & Z2). exact (IH b1 b2 p4 q4 h' r HB2 Rk Ln Z1 Z2 H).
  Qed.
  Lemma pattempts_ext input sch sch' : forall t b q h, (forall k, (k < t)%nat -> sch k = sch' k) ->
    pattempts M kdk P rd collect run err next lim t sch b q input h = pattempts M kdk P rd collect run err next lim t sch' b q input h.
  Proof.
    induction t as [|t IH]; intros b q h H; cbn [pattempts]; auto. cbv zeta. rewrite (H t) by lia.
    destruct (psched _ _ _ _ _ _ _ _) as [[c| |]|]; auto. destruct (t_ph P (k_async P c)); auto. destruct (t_ph P (k_main P c)); auto.
    destruct (prows _ _ _ _ _ _ _ _ _ _ _ _ _ _) as [[[b1 p2] []]| |]; auto; destruct (rd p2 input); auto.
  Qed.
  (** Some choice of interleavings completes the call. *)
  Lemma pattempts_exists (HM : (2 <= M)%nat) input : length input = n -> forall t bP q h, (b_rank bP + 1 <= M)%nat -> (N <= length (b_ext bP))%nat -> W q q ->
    exists sch r, pattempts M kdk P rd collect run err next lim t sch bP q input h = Some r.
  Proof.
    intros Li. induction t as [|t IH]; intros bP q h Hr He Wq; [exists (fun _ => []), Abort; reflexivity|].
    destruct (psched_exists q input h (b_rank bP) (b_ext bP) Li Hr He _ _ (Nat.lt_succ_diag_r _) (start_inv q input h (b_rank bP) (b_ext bP) Li Hr He Wq)) as (sc & c & Es & Fc).
    destruct (psched_ok q input h (b_rank bP) (b_ext bP) Li Hr He _ _ _ (start_inv q input h (b_rank bP) (b_ext bP) Li Hr He Wq) Es) as (c' & Ec & Ic & _). injection Ec as <-.
    destruct (finished_rows q input h (b_rank bP) (b_ext bP) Li Hr He c Ic Fc) as (Lc & Wc & Rows & _). destruct Fc as (Pa & Pm).
    set (bP1 := set_row (count_try bP) (k_ext P c) (b_ideal bP) (b_cpl bP)).
    pose proof (prows_sim HM input h q Wq Li (b_rank bP + 1) 1 bP1 bP1 q (t_sys P (k_main P c))) as X.
    change (b_rank bP1) with (b_rank bP) in X. change (b_ext bP1) with (k_ext P c) in X.
    specialize (X ltac:(lia) ltac:(lia) Hr ltac:(lia)).
    assert (HB1 : Beq 1 bP1 bP1).
    { exists (k_ext P c). split; [reflexivity|]. cbn [bP1 set_row b_ext]. split; [lia|]. intros j Hj _. split; auto.
      apply (row_len q input h j); auto; [lia|]. apply Rows. lia. }
    specialize (X HB1 Wq Wc ltac:(intros j Hj; apply Rows; lia)).
    assert (K : forall f, pattempts M kdk P rd collect run err next lim (S t) (fun k => if (k =? t)%nat then sc else f k) bP q input h =
      match prows M kdk P rd collect err next lim (b_rank bP + 1) 1 bP1 (t_sys P (k_main P c)) input h with
      | UB => Some UB | Abort => Some Abort
      | Ok (b1, p2, Accepted h') => Some (Ok (b1, p2, h'))
      | Ok (b1, p2, Rejected h') => match rd p2 input with Ok p3 => pattempts M kdk P rd collect run err next lim t f b1 p3 input h' | Abort => Some Abort | UB => Some UB end
      | Ok (b1, p2, Continue) => match rd p2 input with Ok p3 => pattempts M kdk P rd collect run err next lim t f b1 p3 input h | Abort => Some Abort | UB => Some UB end
      end).
    { intros f. cbn [pattempts]. cbv zeta. rewrite Nat.eqb_refl. change (b_ext (count_try bP)) with (b_ext bP). change (b_rank (count_try bP)) with (b_rank bP).
      rewrite Es, Pa, Pm. fold bP1. change (b_ideal (count_try bP)) with (b_ideal bP). change (b_cpl (count_try bP)) with (b_cpl bP). fold bP1.
      assert (Z : forall b p hh, pattempts M kdk P rd collect run err next lim t (fun k => if (k =? t)%nat then sc else f k) b p input hh = pattempts M kdk P rd collect run err next lim t f b p input hh).
      { intros b p hh. apply pattempts_ext. intros k Hk. rewrite (proj2 (Nat.eqb_neq _ _)) by lia. reflexivity. }
      destruct (prows M kdk P rd collect err next lim (b_rank bP + 1) 1 bP1 (t_sys P (k_main P c)) input h) as [[[b1 p2] []]| |]; auto; destruct (rd p2 input); auto. }
    destruct (rows M kdk P rd collect run err next lim (b_rank bP + 1) 1 bP1 q input h) as [[[b1 p3] r1]| |];
      destruct (prows M kdk P rd collect err next lim (b_rank bP + 1) 1 bP1 (t_sys P (k_main P c)) input h) as [[[b2 q3] r2]| |] eqn:Ep; cbn in X; try contradiction.
    - destruct X as (Er & HB2 & X). cbn [fst snd] in *. subst r2. destruct r1 as [|h'|h'].
      + destruct X as (Wx & Rk & Ln). destruct (Hrd p3 q3 input Wx Li) as (p4 & q4 & E4 & F4 & S4 & W4).
        destruct (again p3 q3 p4 q4 input Li Wx F4 S4) as (Z1 & _). destruct (IH b2 q4 h Rk Ln Z1) as (f & r & Ef). eexists _, r. rewrite (K f), F4. exact Ef.
      + eexists (fun k => if (k =? t)%nat then sc else []), _. rewrite (K (fun _ => [])). reflexivity.
      + destruct X as (Wx & Rk & Ln). destruct (Hrd p3 q3 input Wx Li) as (p4 & q4 & E4 & F4 & S4 & W4).
        destruct (again p3 q3 p4 q4 input Li Wx F4 S4) as (Z1 & _). destruct (IH b2 q4 h' Rk Ln Z1) as (f & r & Ef). eexists _, r. rewrite (K f), F4. exact Ef.
    - eexists (fun k => if (k =? t)%nat then sc else []), _. rewrite (K (fun _ => [])). reflexivity.
    - eexists (fun k => if (k =? t)%nat then sc else []), _. rewrite (K (fun _ => [])). reflexivity.
  Qed.
End Gen.
