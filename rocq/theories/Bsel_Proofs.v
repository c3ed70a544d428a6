(** Proofs about the order and step selection of the Bulirsch-Stoer iterator. *)
From Verif Require Export Bsel_Spec BS_Proofs BS_Proofs2.
Open Scope R_scope.

Lemma substeps_h N i : h_at N i = substeps N i. Proof. reflexivity. Qed.
Lemma work_cost N kdk k : INR (cost_at N kdk k) = work N kdk k.
Proof.
  unfold work. induction k as [|k IH].
  - cbn [cost_at rsum Nat.add]. rewrite plus_INR, mult_INR, substeps_h. destruct kdk; cbn [Nat.b2n INR]; ring.
  - cbn [cost_at]. rewrite !plus_INR, IH, mult_INR, substeps_h. cbn [Nat.add]. rewrite (Nat.add_1_r k) at 1. cbn [Nat.add rsum]. replace (k + 1)%nat with (S k) by lia. cbn [rsum]. destruct kdk; cbn [Nat.b2n INR]; ring.
Qed.
Lemma list_set_nth_eq {A} (l : list A) i x d : (i < length l)%nat -> nth i (list_set l i x) d = x.
Proof. revert i. induction l as [|a l IH]; intros i Hi; [cbn in Hi; lia|]. destruct i; cbn; auto. apply IH. cbn in Hi. lia. Qed.
Lemma list_set_nth_neq {A} (l : list A) i j x d : i <> j -> nth j (list_set l i x) d = nth j l d.
Proof. revert i j. induction l as [|a l IH]; intros i j Hi; [destruct i, j; reflexivity|]. destruct i, j; cbn; auto; try lia. Qed.
Lemma aget_nth (l : list R) i : (i < length l)%nat -> aget l i = Ok (nth i l 0).
Proof. intros H. unfold aget. rewrite (nth_error_nth' l 0 H). reflexivity. Qed.
Lemma allowed_clip M i : (3 <= M)%nat -> allowed M i = clip M i.
Proof. intros H. unfold allowed, clip. destruct (Nat.ltb_spec i 2); destruct (Nat.ltb_spec (M - 1) 2); destruct (Nat.ltb_spec (M - 1) i); lia. Qed.

Section Next.
  Context (M : nat) (kdk : bool) (next lim : nat -> R -> R) (E : R -> nat -> R) (HM : (3 <= M)%nat).
  Notation N := (M + 1)%nat.
  Definition holds (b : bs) (h : R) (k : nat) : Prop :=
    sizes M b /\ nth 0 (b_cpl b) 0 = 0 /\ forall j, (1 <= j <= k)%nat -> nth j (b_ideal b) 0 = ideal_len next E h j /\ nth j (b_cpl b) 0 = unit_work M kdk next E h j.
  Lemma holds_work b h k j : holds b h k -> (j <= k)%nat -> nth j (b_cpl b) 0 = unit_work M kdk next E h j.
  Proof. intros (_ & Z & H) Hj. destruct j as [|j]; [exact Z|]. apply H. lia. Qed.
  Lemma with_step_sel b h r k : holds b h k -> (1 <= k <= M)%nat -> (1 <= r <= k + 1)%nat -> (r <= M)%nat -> with_step M kdk (set_rank b r) k = Ok (set_rank b r, step_for M kdk next E h r k).
  Proof.
    intros ((S1 & S2 & S3) & Z & H) Hk Hr HrM. unfold with_step, get_next_step_len, step_for. cbn [set_rank b_rank b_ideal]. destruct (Nat.leb_spec r k) as [L|L].
    - rewrite aget_nth by lia. cbn [obind]. rewrite (proj1 (H r ltac:(lia))). reflexivity.
    - assert (r = k + 1)%nat by lia. subst r. rewrite Nat.eqb_refl. rewrite aget_nth by lia. cbn [obind]. unfold bs_cost. rewrite (proj2 (Nat.ltb_lt (k + 1) N)) by lia. rewrite (proj2 (Nat.ltb_lt k N)) by lia. cbn [obind].
      rewrite !work_cost, (proj1 (H k ltac:(lia))). reflexivity.
  Qed.
  Lemma clip_bounds i : (2 <= clip M i <= M - 1)%nat /\ (clip M i <= Nat.max 2 i)%nat. Proof. unfold clip. lia. Qed.
  Lemma set_next_sel b h k : holds b h k -> b_first b = false -> (1 <= b_rank b <= M - 1)%nat -> (1 <= k)%nat -> (k + 1 = b_rank b \/ k = b_rank b \/ k = b_rank b + 1)%nat ->
    let r := new_rank M (unit_work M kdk next E h) (b_rank b) k (b_reject b) in
    (1 <= r <= M - 1)%nat /\ set_next_iteration M kdk b k = Ok (set_rank b r, step_for M kdk next E h r k).
  Proof.
    intros HH Hf Hr Hk Hw r. pose proof HH as ((S1 & S2 & S3) & Z & H). set (W := unit_work M kdk next E h) in *. unfold set_next_iteration. rewrite Hf. cbn [negb].
    assert (G : forall x y, (y <= x <= k)%nat -> aget_sub (b_cpl b) x y = Ok (W (x - y)%nat)).
    { intros x y Hxy. unfold aget_sub. destruct (Nat.ltb_spec x y); [lia|]. rewrite aget_nth by lia. f_equal. apply (holds_work b h k); auto. lia. }
    assert (G0 : forall x, (x <= k)%nat -> aget (b_cpl b) x = Ok (W x)) by (intros x Hx; rewrite aget_nth by lia; f_equal; apply (holds_work b h k); auto).
    assert (WS : forall y, (y <= k + 1)%nat -> (1 <= clip M y <= M - 1)%nat /\ with_step M kdk (set_rank b (allowed M y)) k = Ok (set_rank b (clip M y), step_for M kdk next E h (clip M y) k)).
    { intros y Hy. rewrite allowed_clip by auto. pose proof (clip_bounds y). split; [lia|]. apply with_step_sel; auto; lia. }
    destruct (Nat.leb_spec k (b_rank b)) as [L|L].
    - assert ((k =? b_rank b - 1)%nat || (k =? b_rank b)%nat = true) as ->.
      { destruct (Nat.eqb_spec k (b_rank b - 1)); [reflexivity|]. destruct (Nat.eqb_spec k (b_rank b)); [reflexivity|]. lia. }
      rewrite (G k 1%nat) by lia. rewrite (G0 k) by lia. cbn [obind]. unfold r, new_rank. fold W. rewrite (proj2 (Nat.leb_le k (b_rank b)) L). unfold dec_factor, inc_factor.
      destruct (Rlt_dec (W (k - 1)%nat) (0.8 * W k)); [apply WS; lia|]. destruct (Rlt_dec (W k) (0.9 * W (k - 1)%nat)); [|apply WS; lia]. destruct (b_reject b); cbn [negb]; apply WS; lia.
    - assert (Hk1 : (k = b_rank b + 1)%nat) by lia.
      assert ((k =? b_rank b - 1)%nat || (k =? b_rank b)%nat = false) as ->.
      { destruct (Nat.eqb_spec k (b_rank b - 1)); [lia|]. destruct (Nat.eqb_spec k (b_rank b)); [lia|]. reflexivity. }
      rewrite (proj2 (Nat.eqb_eq k (b_rank b + 1)) Hk1). rewrite (G k 2%nat), (G k 1%nat) by lia. cbn [obind]. cbv zeta. unfold r, new_rank. fold W. rewrite (proj2 (Nat.leb_gt k (b_rank b)) L). unfold dec_factor, inc_factor. cbv zeta.
      set (r1 := if Rlt_dec (W (k - 2)%nat) (0.8 * W (k - 1)%nat) then clip M (k - 2) else b_rank b).
      assert (X : (if Rlt_dec (W (k - 2)%nat) (0.8 * W (k - 1)%nat) then set_rank b (allowed M (k - 2)) else b) = set_rank b r1 /\ (1 <= r1 <= M - 1)%nat /\ (r1 <= k)%nat).
      { unfold r1. pose proof (clip_bounds (k - 2)). destruct (Rlt_dec (W (k - 2)%nat) (0.8 * W (k - 1)%nat)); [rewrite allowed_clip by auto; split; [reflexivity|lia]|split; [destruct b; reflexivity|lia]]. }
      destruct X as (-> & R1 & R2). cbn [set_rank b_cpl b_rank b_reject]. rewrite (G0 k), (G0 r1) by lia. cbn [obind].
      destruct (Rlt_dec (W k) (0.9 * W r1)); [destruct (b_reject b)|]; cbn [negb].
      + split; [exact R1|]. apply with_step_sel; auto; lia.
      + apply WS. lia.
      + split; [exact R1|]. apply with_step_sel; auto; lia.
  Qed.
  Lemma diverged_sel b h e k : e = E h k -> b_first b = false -> (1 <= b_rank b <= M - 1)%nat -> (k + 1 = b_rank b \/ k = b_rank b \/ k = b_rank b + 1)%nat -> (1 <= k)%nat ->
    exists d, is_diverged_anyhow M b e k = Ok d /\ (d = true <-> hopeless M E false (b_rank b) h k).
  Proof.
    intros -> Hf Hr Hk H1. unfold is_diverged_anyhow, hopeless, reach. rewrite Hf. cbn [negb].
    assert (B : forall i, (i <= M)%nat -> bs_h N i = Ok (substeps N i)) by (intros i Hi; unfold bs_h; rewrite (proj2 (Nat.ltb_lt i N)) by lia; auto).
    assert (H0 : substeps N 0 = 1%nat) by (unfold substeps; destruct (N <=? 11)%nat; reflexivity).
    assert (D : forall x y : R, (if Rgt_dec x y then true else false) = true <-> false = false /\ y < x) by (intros x y; destruct (Rgt_dec x y) as [G|G]; split; intros Q; auto; [discriminate|destruct Q; contradiction]).
    destruct (Nat.eqb_spec k (b_rank b - 1)) as [K|K].
    - rewrite (proj2 (Nat.eqb_eq (k + 1) (b_rank b))) by lia. rewrite !B by lia. rewrite H0. cbn [obind]. eexists. split; [reflexivity|]. rewrite !mult_INR. cbn [INR]. rewrite D. replace (INR (substeps N (k + 1)) * INR (substeps N (k + 2)) / (1 * 1)) with (INR (substeps N (k + 1)) * INR (substeps N (k + 2))) by field. reflexivity.
    - destruct (Nat.eqb_spec (k + 1) (b_rank b)); [lia|]. destruct (Nat.eqb_spec k (b_rank b)) as [Q|Q].
      + rewrite !B by lia. rewrite H0. cbn [obind]. eexists. split; [reflexivity|]. cbn [INR]. rewrite D. replace (INR (substeps N (k + 1)) / 1) with (INR (substeps N (k + 1))) by field. reflexivity.
      + cbn [obind]. eexists. split; [reflexivity|]. rewrite D. reflexivity.
  Qed.
End Next.

Section Rows.
  Context (M : nat) (kdk : bool) {P : Type} (rd : P -> list R -> outcome P) (collect : P -> bool -> P)
          (run : P -> R -> nat -> outcome (P * list R)) (err : list R -> list R -> list R -> R) (next lim : nat -> R -> R).
  Context (Inv : P -> Prop) (input : list R) (row : R -> nat -> list R) (RP : replays rd run Inv input row) (HM : (3 <= M)%nat).
  Notation N := (M + 1)%nat.
  Notation n := (length input).
  Notation Tr := (Tr M row).
  Notation E := (rerr M err input row).
  Notation hold := (holds M kdk next E).
  Lemma row_table_sel b h k : (1 <= k <= M)%nat -> hold b h (k - 1) -> table_ok N n (k - 1) (Tr h) (b_ext b) ->
    exists ext ideal cpl, row_table M kdk err next b input (Tr h k) h k = Ok (set_row b ext ideal cpl, E h k) /\
      hold (set_row b ext ideal cpl) h k /\ table_ok N n k (Tr h) ext /\ aget ext 0 = Ok (tabv N n (Tr h) 0 k).
  Proof.
    intros Hk (HS & Z & H) HT. destruct (row_table_ok M kdk rd run err next Inv input row RP b h k Hk HS HT) as (ext & ideal & cpl & Et & S' & T' & A). exists ext, ideal, cpl. split; auto. split; [|auto]. split; auto.
    destruct HS as (S1 & S2 & S3). unfold row_table in Et. repeat match type of Et with obind ?X _ = _ => let a := fresh "a" in let Q := fresh "Q" in destruct X as [a| |] eqn:Q; cbn [obind] in Et; try discriminate Et; cbv zeta in Et end.
    match type of Et with Ok (?B, ?e) = Ok (?C, _) => assert (Eb : B = C) by congruence; assert (Ee : e = E h k) by congruence end.
    assert (Ei : ideal = a3) by (apply (f_equal b_ideal) in Eb; cbn in Eb; auto). assert (Ec : cpl = a5) by (apply (f_equal b_cpl) in Eb; cbn in Eb; auto). subst ideal cpl.
    rewrite aset_ok in Q3, Q5 by lia. unfold bs_cost in Q4. rewrite (proj2 (Nat.ltb_lt k N)) in Q4 by lia.
    assert (X3 : a3 = list_set (b_ideal b) k (ideal_len next E h k)) by (unfold ideal_len; rewrite <- Ee; congruence).
    assert (X5 : a5 = list_set (b_cpl b) k (unit_work M kdk next E h k)).
    { unfold unit_work, ideal_len. destruct (Nat.eqb_spec k 0); [lia|]. rewrite <- work_cost, <- Ee. congruence. }
    rewrite X3, X5. cbn [set_row b_ideal b_cpl]. split; [rewrite list_set_nth_neq by lia; auto|]. intros j Hj. destruct (Nat.eq_dec j k) as [->|Nj].
    - rewrite !list_set_nth_eq by lia. auto.
    - rewrite !list_set_nth_neq by auto. apply H. lia.
  Qed.
  Lemma window_tested b k : (b_first b = false -> (1 <= b_rank b)%nat) -> (1 <= k)%nat -> in_converged_window b k = true <-> tested (b_first b) (b_rank b) k.
  Proof.
    intros Hr Hk. unfold in_converged_window, tested. rewrite !orb_true_iff, !Nat.eqb_eq. split.
    - intros [[[A|A]|A]|A]; auto. destruct (b_first b); [auto|]. specialize (Hr eq_refl). right. left. lia.
    - intros [A|[A|[A|A]]]; auto. left. left. left. lia.
  Qed.
  Definition usable (b : bs) : Prop := (b_first b = true /\ b_reject b = false /\ (b_rank b <= M - 1)%nat) \/ (b_first b = false /\ (1 <= b_rank b <= M - 1)%nat).
  Lemma rows_sel : forall f k b p h, (1 <= k)%nat -> (f + k = b_rank b + 2)%nat -> usable b -> hold b h (k - 1) -> table_ok N n (k - 1) (Tr h) (b_ext b) -> Inv p ->
    (forall j, (1 <= j < k)%nat -> undecided M E (b_first b) (b_rank b) h j) ->
    exists b' p' res, rows M kdk P rd collect run err next lim f k b p input h = Ok (b', p', res) /\ sizes M b' /\ nth 0 (b_cpl b') 0 = 0 /\
    match res with
    | Accepted h1 => exists k' r p2 q, ends_at M E (b_first b) (b_rank b) h k' /\ E h k' <= 1 /\ r = (if b_first b then k' else new_rank M (unit_work M kdk next E h) (b_rank b) k' false) /\
        b_rank b' = r /\ h1 = limited M kdk next lim E h r k' /\ b_first b' = false /\ b_reject b' = false /\ (b_first b = false -> (1 <= r <= M - 1)%nat) /\
        Inv p2 /\ rd p2 (zipw Rplus input (tabv N n (Tr h) 0 k')) = Ok q /\ p' = collect q false
    | Rejected h1 => exists k', ends_at M E (b_first b) (b_rank b) h k' /\ 1 < E h k' /\ hopeless M E (b_first b) (b_rank b) h k' /\ b_first b = false /\
        let r := new_rank M (unit_work M kdk next E h) (b_rank b) k' true in b_rank b' = r /\ h1 = limited M kdk next lim E h r k' /\ b_first b' = false /\ (1 <= r <= M - 1)%nat /\ Inv p'
    | Continue => b_rank b' = b_rank b /\ b_first b' = b_first b /\ b_reject b' = b_reject b /\ Inv p' /\ (forall j, (1 <= j <= b_rank b + 1)%nat -> undecided M E (b_first b) (b_rank b) h j)
    end.
  Proof.
    induction f as [|f IH]; intros k b p h Hk Hf HU HH HT Hp Un; cbn [rows].
    - exists b, p, Continue. split; [reflexivity|]. split; [exact (proj1 HH)|]. split; [exact (proj1 (proj2 HH))|]. repeat (split; [auto; fail|]). intros j Hj. apply Un. lia.
    - assert (HR : (b_rank b <= M - 1)%nat /\ (b_first b = false -> (1 <= b_rank b)%nat)) by (destruct HU as [(A & _ & B)|(A & B)]; split; try lia; congruence). destruct HR as (R1 & R2).
      destruct (rp_read _ _ _ _ _ RP p input Hp eq_refl) as (q & Eq & Iq). rewrite Eq. cbn [obind]. rewrite bs_h_ok by lia. cbn [obind].
      destruct (rp_run _ _ _ _ _ RP p q h (h_at N k)) as (p2 & Er & I2); auto. { apply h_at_pos; lia. }
      rewrite Er. cbn [obind]. destruct (row_table_sel b h k) as (ext & ideal & cpl & Et & HH1 & HT1 & E0); auto; [lia|]. fold (Tr h k). rewrite Et. cbn [obind].
      set (b1 := set_row b ext ideal cpl) in *. change (in_converged_window b1 k) with (in_converged_window b k).
      assert (Hrec : undecided M E (b_first b) (b_rank b) h k -> exists b' p' res, rows M kdk P rd collect run err next lim f (S k) b1 p2 input h = Ok (b', p', res) /\ sizes M b' /\ nth 0 (b_cpl b') 0 = 0 /\
        match res with
        | Accepted h1 => exists k' r p2 q, ends_at M E (b_first b) (b_rank b) h k' /\ E h k' <= 1 /\ r = (if b_first b then k' else new_rank M (unit_work M kdk next E h) (b_rank b) k' false) /\
            b_rank b' = r /\ h1 = limited M kdk next lim E h r k' /\ b_first b' = false /\ b_reject b' = false /\ (b_first b = false -> (1 <= r <= M - 1)%nat) /\
            Inv p2 /\ rd p2 (zipw Rplus input (tabv N n (Tr h) 0 k')) = Ok q /\ p' = collect q false
        | Rejected h1 => exists k', ends_at M E (b_first b) (b_rank b) h k' /\ 1 < E h k' /\ hopeless M E (b_first b) (b_rank b) h k' /\ b_first b = false /\
            let r := new_rank M (unit_work M kdk next E h) (b_rank b) k' true in b_rank b' = r /\ h1 = limited M kdk next lim E h r k' /\ b_first b' = false /\ (1 <= r <= M - 1)%nat /\ Inv p'
        | Continue => b_rank b' = b_rank b /\ b_first b' = b_first b /\ b_reject b' = b_reject b /\ Inv p' /\ (forall j, (1 <= j <= b_rank b + 1)%nat -> undecided M E (b_first b) (b_rank b) h j)
        end).
      { intros Uk. apply (IH (S k) b1 p2 h); auto; try lia.
        - cbn [b1 set_row b_rank]. lia.
        - replace (S k - 1)%nat with k by lia. auto.
        - replace (S k - 1)%nat with k by lia. auto.
        - intros j Hj. destruct (Nat.eq_dec j k) as [->|]; [exact Uk|apply Un; lia]. }
      destruct (in_converged_window b k) eqn:Ew.
      2:{ apply Hrec. intros T. exfalso. apply (window_tested b k) in T; auto. congruence. }
      apply (window_tested b k) in Ew; auto. assert (EN : ends_at M E (b_first b) (b_rank b) h k) by (split; [lia|]; split; auto).
      destruct (Rle_dec (E h k) 1) as [Hle|Hgt].
      + cbn [b1 set_row b_ext]. rewrite E0. cbn [obind].
        destruct (rp_read _ _ _ _ _ RP p2 (zipw Rplus input (tabv N n (Tr h) 0 k)) I2) as (q3 & Eq3 & _). { rewrite zipw_length; rewrite ?tabv_length; auto. }
        rewrite Eq3. cbn [obind]. cbv zeta. fold b1. set (ba := accept1 b1 (E h k)). assert (Ha : hold ba h k) by exact HH1.
        destruct (b_first b) eqn:Ef.
        * unfold set_next_iteration. change (b_first ba) with (b_first b). rewrite Ef. cbn [negb]. cbv zeta. change (b_reject ba) with false. cbn [negb]. destruct Ha as (Sa & Za & Va). pose proof Sa as (Sa1 & Sa2 & Sa3).
          cbn [set_rank b_ideal]. rewrite aget_nth by lia. cbn [obind]. eexists _, _, _. split; [reflexivity|]. split; [exact Sa|]. split; [exact Za|].
          exists k, k, p2, q3. split; auto. split; auto. split; auto. split; [reflexivity|]. split; [unfold limited, step_for; rewrite Nat.leb_refl, (proj1 (Va k ltac:(lia))); reflexivity|]. split; [reflexivity|]. split; [reflexivity|]. split; [discriminate|]. auto.
        * assert (Hw : (k + 1 = b_rank b \/ k = b_rank b \/ k = b_rank b + 1)%nat) by (destruct Ew as [A|A]; [discriminate|auto]). destruct HU as [(A & _)|(_ & HU)]; [congruence|].
          destruct (set_next_sel M kdk next E HM ba h k Ha Ef HU Hk Hw) as (Rg & Es). change (b_reject ba) with false in Rg, Es. change (b_rank ba) with (b_rank b) in Rg, Es. rewrite Es. cbn [obind].
          eexists _, _, _. split; [reflexivity|]. split; [exact (proj1 Ha)|]. split; [exact (proj1 (proj2 Ha))|]. exists k, (new_rank M (unit_work M kdk next E h) (b_rank b) k false), p2, q3. split; auto. split; auto. split; auto. split; [reflexivity|]. split; [reflexivity|]. split; [reflexivity|]. split; [reflexivity|]. auto.
      + destruct (b_first b) eqn:Ef.
        * unfold is_diverged_anyhow. change (b_first b1) with (b_first b). rewrite Ef. cbn [negb obind]. apply Hrec. intros _. split; [lra|]. intros (A & _). discriminate.
        * assert (Hw : (k + 1 = b_rank b \/ k = b_rank b \/ k = b_rank b + 1)%nat) by (destruct Ew as [A|A]; [discriminate|auto]). destruct HU as [(A & _)|(_ & HU)]; [congruence|].
          destruct (diverged_sel M E HM b1 h (E h k) k eq_refl Ef HU Hw Hk) as (d & -> & Hd). cbn [obind]. change (b_rank b1) with (b_rank b) in Hd. destruct d.
          -- assert (HP : hopeless M E false (b_rank b) h k) by (apply Hd; auto).
             destruct (set_next_sel M kdk next E HM (reject1 b1) h k HH1 Ef HU Hk Hw) as (Rg & Es). change (b_reject (reject1 b1)) with true in Rg, Es. change (b_rank (reject1 b1)) with (b_rank b) in Rg, Es. rewrite Es. cbn [obind].
             eexists _, _, _. split; [reflexivity|]. split; [exact (proj1 HH1)|]. split; [exact (proj1 (proj2 HH1))|]. exists k. split; auto. split; [lra|]. split; [exact HP|]. cbv zeta. repeat (split; [solve [auto]|]). auto.
          -- apply Hrec. intros _. split; [lra|]. intros Q. apply Hd in Q. discriminate.
  Qed.
  Notation sel := (selects M kdk next lim E).
  Lemma attempts_sel : forall t b p h, usable b -> sizes M b -> nth 0 (b_cpl b) 0 = 0 -> fresh rd Inv input p ->
    match attempts M kdk P rd collect run err next lim t b p input h with
    | Ok (b', p', h1) => exists k hk p2 q, sel t (b_rank b) (b_first b) h (Some (b_rank b', k, hk, h1)) /\ (1 <= k <= M)%nat /\ sizes M b' /\ nth 0 (b_cpl b') 0 = 0 /\ b_first b' = false /\ b_reject b' = false /\
        (b_first b = false -> (1 <= b_rank b' <= M - 1)%nat) /\ Inv p2 /\ rd p2 (zipw Rplus input (tabv N n (Tr hk) 0 k)) = Ok q /\ p' = collect q false
    | Abort => sel t (b_rank b) (b_first b) h None
    | UB => False
    end.
  Proof.
    induction t as [|t IH]; intros b p h HU HS HZ (p0 & I0 & E0); cbn [attempts]; [constructor|].
    rewrite bs_h_ok by lia. cbn [obind]. destruct (rp_run _ _ _ _ _ RP p0 p h (h_at N 0)) as (p1 & Er & I1); auto. { apply h_at_pos; lia. }
    rewrite Er. cbn [obind]. destruct (start_table M rd run Inv input row RP b h (row h (h_at N 0)) HS ltac:(lia) eq_refl) as (ext & Ea & La & Ta). cbn [count_try b_ext]. rewrite Ea. cbn [obind].
    set (b0 := set_row (count_try b) ext (b_ideal (count_try b)) (b_cpl (count_try b))).
    destruct (rows_sel (b_rank b + 1) 1 b0 p1 h) as (b1 & p2 & res & Eq & HS1 & HZ1 & X); auto.
    { unfold b0. cbn [set_row count_try b_rank]. lia. }
    { split; [destruct HS as (? & ? & ?); unfold sizes, b0; cbn; auto|]. split; [exact HZ|]. intros j Hj. lia. }
    { intros j Hj. lia. }
    cbn [count_try b_rank]. rewrite Eq. cbn [obind]. change (b_first b0) with (b_first b) in X. change (b_rank b0) with (b_rank b) in X. change (b_reject b0) with (b_reject b) in X.
    assert (RK : (b_rank b + 1 <= M)%nat) by (destruct HU as [(_ & _ & ?)|(_ & ?)]; lia).
    destruct res as [|h'|h'].
    - destruct X as (X1 & X2 & X3 & X4 & X5). destruct (rp_read _ _ _ _ _ RP p2 input X4 eq_refl) as (q & Eq2 & Iq). rewrite Eq2. cbn [obind].
      assert (U1 : usable b1) by (unfold usable; rewrite X1, X2, X3; exact HU). specialize (IH b1 q h U1 HS1 HZ1 (ex_intro _ p2 (conj X4 Eq2))). rewrite X1, X2 in IH.
      destruct (attempts M kdk P rd collect run err next lim t b1 q input h) as [[[b' p'] h1]| |].
      + destruct IH as (k & hk & p3 & q3 & Y & Z). exists k, hk, p3, q3. split; [apply sel_again; auto|exact Z].
      + apply sel_again; auto.
      + exact IH.
    - destruct X as (k & r & p3 & q & X1 & X2 & X3 & X4 & X5 & X6 & X7 & X8 & X9 & X10 & X11). exists k, h, p3, q. split; [rewrite X4, X5, X3; apply sel_accept; auto|]. split; [destruct X1; lia|]. split; auto. split; auto. split; auto. split; auto. split; [rewrite X4; auto|]. auto.
    - destruct X as (k & X1 & X2 & X3 & X4 & X5 & X6 & X7 & X8 & X9). cbv zeta in *. destruct (rp_read _ _ _ _ _ RP p2 input X9 eq_refl) as (q & Eq2 & Iq). rewrite Eq2. cbn [obind].
      assert (U1 : usable b1) by (right; rewrite X5; auto). specialize (IH b1 q h' U1 HS1 HZ1 (ex_intro _ p2 (conj X9 Eq2))). rewrite X5, X6, X7 in IH.
      rewrite X6. destruct (attempts M kdk P rd collect run err next lim t b1 q input _) as [[[b' p'] h1]| |].
      + destruct IH as (kk & hk & p3 & q3 & Y & Y1 & Y2 & Y3 & Y4 & Y5 & Y6 & Z). exists kk, hk, p3, q3. split; [eapply sel_reject; eauto|]. split; [exact Y1|]. repeat (split; [first [exact Y2|exact Y3|exact Y4|exact Y5|intros _; apply Y6; reflexivity]|]). exact Z.
      + eapply sel_reject; eauto.
      + exact IH.
  Qed.
End Rows.
