(** Proofs about the calls of the Bulirsch-Stoer iterator on a function. *)
From Verif Require Export Bfun_Spec Bsel_Proofs.
From Verif Require Import BS_Proofs3 BS_Proofs4.
Open Scope R_scope.

Lemma bf_adv_length x d h : length d = length x -> length (adv x d h) = length x.
Proof. intros H. apply zipw_length; auto. Qed.
Lemma bf_mid_length func n (LF : forall x s, length x = n -> length (func x s) = n) : forall i h mid out t, length mid = n -> length out = n ->
  let r := mid_loop func i h mid out t in length (fst (fst r)) = n /\ length (snd (fst r)) = n.
Proof.
  induction i as [|i IH]; intros h mid out t Lm Lo; cbn [mid_loop]; cbv zeta; [auto|].
  apply IH; auto. rewrite bf_adv_length; [auto|]. rewrite LF; auto.
Qed.
Lemma bf_midpoint_length func input t h n : (forall x s, length x = length input -> length (func x s) = length input) ->
  length (fst (midpoint func input t h n)) = length input.
Proof.
  intros LF. unfold midpoint. cbv zeta. set (g := h / INR n). set (o := adv input (func input t) g).
  assert (Lo : length o = length input) by (apply bf_adv_length; apply LF; auto).
  pose proof (bf_mid_length func (length input) LF (n - 1) g input o (t + g) eq_refl Lo) as X. cbv zeta in X.
  destruct (mid_loop func (n - 1) g input o (t + g)) as [[mid out] t']. cbn [fst snd] in *. destruct X as (Xm & Xo).
  rewrite map_length, zipw_length; rewrite bf_adv_length; auto; rewrite ?LF; auto; congruence.
Qed.

Section F.
  Context (M : nat) (kdk : bool) (err : list R -> list R -> list R -> R) (next lim : nat -> R -> R) (func : list R -> R -> list R).
  Context (input : list R) (HM : (3 <= M)%nat) (LF : forall x s, length x = length input -> length (func x s) = length input).
  Notation N := (M + 1)%nat.
  Notation n := (length input).
  (** row j of an attempt begun at ts *)
  Definition ftab (ts h : R) (j : nat) : list R := fst (midpoint func input (ts + INR j * h) h (h_at N j)).
  Definition ferr (ts h : R) (k : nat) : R := err input (tabv N n (ftab ts h) 1 k) (tabv N n (ftab ts h) 0 k).
  Notation hold ts := (holds M kdk next (ferr ts)).
  Lemma ftab_length ts h j : length (ftab ts h j) = n. Proof. apply bf_midpoint_length; auto. Qed.
  Lemma frow_table_sel ts b h k : (1 <= k <= M)%nat -> hold ts b h (k - 1) -> table_ok N n (k - 1) (ftab ts h) (b_ext b) ->
    exists ext ideal cpl, row_table M kdk err next b input (ftab ts h k) h k = Ok (set_row b ext ideal cpl, ferr ts h k) /\
      hold ts (set_row b ext ideal cpl) h k /\ table_ok N n k (ftab ts h) ext /\ aget ext 0 = Ok (tabv N n (ftab ts h) 0 k).
  Proof.
    intros Hk (HS & Z & H) HT. destruct HS as (S1 & S2 & S3). destruct k as [|k]; [lia|]. replace (S k - 1)%nat with k in * by lia.
    destruct (extrapolate_ok N n k (ftab ts h) (b_ext b) trueQ) as (ext & EX & L & T2 & _); auto; try lia; try (intros; exact I).
    { apply ftab_length. } { apply trueQ_affine. }
    unfold row_table. destruct (aset (b_ext b) (S k) (ftab ts h (S k))) as [ext0| |] eqn:E0; try discriminate. cbn [obind] in *.
    rewrite EX. cbn [obind]. rewrite !aget_entry by lia. cbn [obind]. rewrite !(table_tabv N n (S k) (ftab ts h) ext) by (auto; lia).
    fold (ferr ts h (S k)). cbv zeta. rewrite aset_ok by lia. cbn [obind]. unfold bs_cost. rewrite (proj2 (Nat.ltb_lt (S k) N)) by lia. cbn [obind].
    rewrite aset_ok by lia. cbn [obind]. eexists _, _, _. split; [reflexivity|]. split; [|split; [exact T2|rewrite aget_entry by lia; f_equal; apply (table_tabv N n (S k)); auto; lia]].
    split; [unfold sizes; cbn; rewrite !list_set_length; repeat split; auto; lia|]. cbn [set_row b_ideal b_cpl]. split; [rewrite list_set_nth_neq by lia; auto|].
    intros j Hj. destruct (Nat.eq_dec j (S k)) as [->|Nj].
    - rewrite !list_set_nth_eq by lia. split; [reflexivity|]. unfold unit_work, ideal_len. cbn [Nat.eqb]. rewrite <- work_cost. reflexivity.
    - rewrite !list_set_nth_neq by auto. apply H. lia.
  Qed.
  Definition frows_post (b b' : bs) (ts h t' : R) (res : rowres) : Prop :=
    sizes M b' /\ nth 0 (b_cpl b') 0 = 0 /\ b_first b' = b_first b /\
    match res with
    | Accepted h1 => exists k r, ends_at M (ferr ts) (b_first b) (b_rank b) h k /\ ferr ts h k <= 1 /\
        r = (if b_first b then k else new_rank M (unit_work M kdk next (ferr ts) h) (b_rank b) k false) /\
        b_rank b' = r /\ h1 = limited M kdk next lim (ferr ts) h r k /\ b_reject b' = false /\ (b_first b = false -> (1 <= r <= M - 1)%nat) /\
        aget (b_ext b') 0 = Ok (tabv N n (ftab ts h) 0 k) /\ t' = ts + (INR k + 2) * h
    | Rejected h1 => exists k, ends_at M (ferr ts) (b_first b) (b_rank b) h k /\ 1 < ferr ts h k /\ hopeless M (ferr ts) (b_first b) (b_rank b) h k /\ b_first b = false /\
        let r := new_rank M (unit_work M kdk next (ferr ts) h) (b_rank b) k true in b_rank b' = r /\ h1 = limited M kdk next lim (ferr ts) h r k /\ (1 <= r <= M - 1)%nat /\ t' = ts + (INR k + 1) * h
    | Continue => b_rank b' = b_rank b /\ b_reject b' = b_reject b /\ t' = ts + (INR (b_rank b) + 2) * h /\ (forall j, (1 <= j <= b_rank b + 1)%nat -> undecided M (ferr ts) (b_first b) (b_rank b) h j)
    end.
  Lemma frows_sel ts : forall f k b h, (1 <= k)%nat -> (f + k = b_rank b + 2)%nat -> usable M b -> hold ts b h (k - 1) -> table_ok N n (k - 1) (ftab ts h) (b_ext b) ->
    (forall j, (1 <= j < k)%nat -> undecided M (ferr ts) (b_first b) (b_rank b) h j) ->
    exists b' t' res, frows M kdk err next lim func f k b input (ts + INR k * h) h = Ok (b', t', res) /\ frows_post b b' ts h t' res.
  Proof.
    induction f as [|f IH]; intros k b h Hk Hf HU HH HT Un; cbn [frows].
    - exists b, (ts + INR k * h), Continue. split; [reflexivity|]. split; [exact (proj1 HH)|]. split; [exact (proj1 (proj2 HH))|]. split; auto. split; auto. split; auto. split.
      + assert (k = b_rank b + 2)%nat as -> by lia. rewrite plus_INR. cbn [INR]. ring.
      + intros j Hj. apply Un. lia.
    - assert (HR : (b_rank b <= M - 1)%nat /\ (b_first b = false -> (1 <= b_rank b)%nat)) by (destruct HU as [(A & _ & B)|(A & B)]; split; try lia; congruence). destruct HR as (R1 & R2).
      rewrite bs_h_ok by lia. cbn [obind]. pose proof (midpoint_time func input (ts + INR k * h) h (h_at N k) (h_at_pos M k ltac:(lia))) as T.
      destruct (midpoint func input (ts + INR k * h) h (h_at N k)) as [y t1] eqn:Em. cbn [snd] in T. subst t1.
      assert (y = ftab ts h k) as -> by (unfold ftab; rewrite Em; reflexivity).
      destruct (frow_table_sel ts b h k) as (ext & ideal & cpl & Et & HH1 & HT1 & E0); auto; [lia|]. rewrite Et. cbn [obind].
      set (b1 := set_row b ext ideal cpl) in *. change (in_converged_window b1 k) with (in_converged_window b k).
      replace (ts + INR k * h + h) with (ts + INR (S k) * h) by (rewrite S_INR; ring).
      assert (Hrec : undecided M (ferr ts) (b_first b) (b_rank b) h k -> exists b' t' res, frows M kdk err next lim func f (S k) b1 input (ts + INR (S k) * h) h = Ok (b', t', res) /\ frows_post b b' ts h t' res).
      { intros Uk. apply (IH (S k) b1 h); auto; try lia.
        - cbn [b1 set_row b_rank]. lia.
        - replace (S k - 1)%nat with k by lia. auto.
        - replace (S k - 1)%nat with k by lia. auto.
        - intros j Hj. destruct (Nat.eq_dec j k) as [->|]; [exact Uk|apply Un; lia]. }
      destruct (in_converged_window b k) eqn:Ew.
      2:{ apply Hrec. intros T. exfalso. apply (window_tested M HM b k) in T; auto. congruence. }
      apply (window_tested M HM b k) in Ew; auto. assert (EN : ends_at M (ferr ts) (b_first b) (b_rank b) h k) by (split; [lia|]; split; auto).
      destruct (Rle_dec (ferr ts h k) 1) as [Hle|Hgt].
      + set (ba := accept1 b1 (b_last b1)). assert (Ha : hold ts ba h k) by exact HH1.
        destruct (b_first b) eqn:Ef.
        * unfold set_next_iteration. change (b_first ba) with (b_first b). rewrite Ef. cbn [negb]. cbv zeta. change (b_reject ba) with false. cbn [negb]. destruct Ha as (Sa & Za & Va). pose proof Sa as (Sa1 & Sa2 & Sa3).
          cbn [set_rank b_ideal]. rewrite aget_nth by lia. cbn [obind]. eexists _, _, _. split; [reflexivity|]. split; [exact Sa|]. split; [exact Za|]. split; [cbn; auto|]. rewrite Ef.
          exists k, k. split; auto. split; auto. split; auto. split; [reflexivity|]. split; [unfold limited, step_for; rewrite Nat.leb_refl, (proj1 (Va k ltac:(lia))); reflexivity|]. split; [reflexivity|]. split; [discriminate|]. split; [exact E0|]. rewrite S_INR. ring.
        * assert (Hw : (k + 1 = b_rank b \/ k = b_rank b \/ k = b_rank b + 1)%nat) by (destruct Ew as [A|A]; [discriminate|auto]). destruct HU as [(A & _)|(_ & HU)]; [congruence|].
          destruct (set_next_sel M kdk next (ferr ts) HM ba h k Ha Ef HU Hk Hw) as (Rg & Es). change (b_reject ba) with false in Rg, Es. change (b_rank ba) with (b_rank b) in Rg, Es. rewrite Es. cbn [obind].
          eexists _, _, _. split; [reflexivity|]. split; [exact (proj1 Ha)|]. split; [exact (proj1 (proj2 Ha))|]. split; [cbn; auto|]. rewrite Ef. exists k, (new_rank M (unit_work M kdk next (ferr ts) h) (b_rank b) k false). split; auto. split; auto. split; auto. split; [reflexivity|]. split; [reflexivity|]. split; [reflexivity|]. split; [auto|]. split; [exact E0|]. rewrite S_INR. ring.
      + destruct (b_first b) eqn:Ef.
        * unfold is_diverged_anyhow. change (b_first b1) with (b_first b). rewrite Ef. cbn [negb obind]. apply Hrec. intros _. split; [lra|]. intros (A & _). discriminate.
        * assert (Hw : (k + 1 = b_rank b \/ k = b_rank b \/ k = b_rank b + 1)%nat) by (destruct Ew as [A|A]; [discriminate|auto]). destruct HU as [(A & _)|(_ & HU)]; [congruence|].
          destruct (diverged_sel M (ferr ts) HM b1 h (ferr ts h k) k eq_refl Ef HU Hw Hk) as (d & -> & Hd). cbn [obind]. change (b_rank b1) with (b_rank b) in Hd. destruct d.
          -- assert (HP : hopeless M (ferr ts) false (b_rank b) h k) by (apply Hd; auto).
             destruct (set_next_sel M kdk next (ferr ts) HM (reject1 b1) h k HH1 Ef HU Hk Hw) as (Rg & Es). change (b_reject (reject1 b1)) with true in Rg, Es. change (b_rank (reject1 b1)) with (b_rank b) in Rg, Es. rewrite Es. cbn [obind].
             eexists _, _, _. split; [reflexivity|]. split; [exact (proj1 HH1)|]. split; [exact (proj1 (proj2 HH1))|]. split; [cbn; auto|]. rewrite Ef. exists k. split; auto. split; [lra|]. split; [exact HP|]. split; auto. cbv zeta. split; [reflexivity|]. split; [reflexivity|]. split; [exact Rg|]. rewrite S_INR. ring.
          -- apply Hrec. intros _. split; [lra|]. intros Q. apply Hd in Q. discriminate.
  Qed.
  Notation sel := (fselects M kdk next lim ferr).
  Lemma fattempts_sel : forall t b ts h, usable M b -> sizes M b -> nth 0 (b_cpl b) 0 = 0 ->
    match fattempts M kdk err next lim func t b input ts h with
    | Ok (b', data, time', h1) => exists k hk tk, sel t (b_rank b) (b_first b) h ts (Some (b_rank b', k, hk, h1, tk)) /\ (1 <= k <= M)%nat /\ sizes M b' /\ nth 0 (b_cpl b') 0 = 0 /\ b_first b' = b_first b /\ b_reject b' = false /\
        (b_first b = false -> (1 <= b_rank b' <= M - 1)%nat) /\ data = tabv N n (ftab tk hk) 0 k /\ time' = tk + (INR k + 2) * hk
    | Abort => sel t (b_rank b) (b_first b) h ts None
    | UB => False
    end.
  Proof.
    induction t as [|t IH]; intros b ts h HU HS HZ; cbn [fattempts]; [constructor|].
    rewrite bs_h_ok by lia. cbn [obind]. pose proof (midpoint_time func input ts h (h_at N 0) (h_at_pos M 0 ltac:(lia))) as T.
    destruct (midpoint func input ts h (h_at N 0)) as [y t1] eqn:Em. cbn [snd] in T. subst t1.
    assert (y = ftab ts h 0) as -> by (unfold ftab; replace (ts + INR 0 * h) with ts by (cbn; ring); rewrite Em; reflexivity).
    destruct (fill_ok N n (ftab ts h) (b_ext b) trueQ 0) as (ext & Ea & La & Ta & _); try lia; try (intros; exact I).
    { destruct HS as (? & _); lia. } { intros; apply ftab_length. } { apply trueQ_affine. }
    cbn [fill_table] in Ea. cbn [count_try b_ext]. rewrite Ea. cbn [obind].
    set (b0 := set_row (count_try b) ext (b_ideal (count_try b)) (b_cpl (count_try b))).
    destruct (frows_sel ts (b_rank b + 1) 1 b0 h) as (b1 & t2 & res & Eq & HS1 & HZ1 & HF1 & X); auto.
    { unfold b0. cbn [set_row count_try b_rank]. lia. }
    { split; [destruct HS as (? & ? & ?); unfold sizes, b0; cbn; repeat split; auto; congruence|]. split; [exact HZ|]. intros j Hj. lia. }
    { intros j Hj. lia. }
    cbn [count_try b_rank]. replace (ts + h) with (ts + INR 1 * h) by (cbn; ring). rewrite Eq. cbn [obind]. change (b_first b0) with (b_first b) in *. change (b_rank b0) with (b_rank b) in X. change (b_reject b0) with (b_reject b) in X.
    assert (RK : (b_rank b + 1 <= M)%nat) by (destruct HU as [(_ & _ & ?)|(_ & ?)]; lia).
    destruct res as [|h'|h'].
    - destruct X as (X1 & X2 & X3 & X4).
      assert (U1 : usable M b1) by (unfold usable; rewrite X1, X2, HF1; exact HU). specialize (IH b1 t2 h U1 HS1 HZ1). rewrite X1, HF1 in IH.
      destruct (fattempts M kdk err next lim func t b1 input t2 h) as [[[[b' d] t'] h1]| |].
      + destruct IH as (k & hk & tk & Y & Z). exists k, hk, tk. split; [apply fsel_again; auto; rewrite <- X3; auto|exact Z].
      + apply fsel_again; auto. rewrite <- X3; auto.
      + exact IH.
    - destruct X as (k & r & X1 & X2 & X3 & X4 & X5 & X6 & X7 & X8 & X9). rewrite X8. cbn [obind]. exists k, h, ts.
      split; [rewrite X4, X5, X3; apply fsel_accept; auto|]. split; [destruct X1; lia|]. split; auto. split; auto. split; auto. split; auto. split; [rewrite X4; auto|]. auto.
    - destruct X as (k & X1 & X2 & X3 & X4 & X5 & X6 & X7 & X8). cbv zeta in *.
      assert (U1 : usable M b1) by (right; rewrite X5, HF1; auto). specialize (IH b1 t2 h' U1 HS1 HZ1). rewrite X5, X6, HF1, X4, X8 in IH.
      rewrite X6, X8, X4. destruct (fattempts M kdk err next lim func t b1 input _ _) as [[[[b' d] t'] h1]| |].
      + destruct IH as (kk & hk & tk & Y & Y1 & Y2 & Y3 & Y4 & Y5 & Y6 & Z). exists kk, hk, tk. rewrite X4 in X1, X3. split; [eapply fsel_reject; eauto|]. split; [exact Y1|]. auto 10.
      + rewrite X4 in X1, X3. eapply fsel_reject; eauto.
      + exact IH.
  Qed.
End F.
