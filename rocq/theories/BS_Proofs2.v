From Verif Require Export BS_Spec BS_Proofs.
Open Scope R_scope.
Lemma obind_ok {A B} (x : outcome A) (f : A -> outcome B) r : obind x f = Ok r -> exists a, x = Ok a /\ f a = Ok r.
Proof. destruct x; simpl; intros H; try discriminate. eauto. Qed.
Ltac oinv H := let a := fresh "a" in let E := fresh "E" in apply obind_ok in H; destruct H as (a & E & H).

Definition trueQ (_ : list R) : Prop := True.
Lemma trueQ_affine : affine trueQ. Proof. intros ? ? ? ? ? ?. exact I. Qed.

Section Rows.
  Context (M : nat) (kdk : bool) {P : Type} (rd : P -> list R -> outcome P) (collect : P -> bool -> P)
          (run : P -> R -> nat -> outcome (P * list R)) (err : list R -> list R -> list R -> R) (next lim : nat -> R -> R).
  Context (Inv : P -> Prop) (input : list R) (row : R -> nat -> list R) (RP : replays rd run Inv input row).
  Notation N := (M + 1)%nat.
  Notation n := (length input).
  Definition Tr (h : R) (j : nat) : list R := row h (h_at N j).
  Definition rerr (h : R) (k : nat) : R := err input (tabv N n (Tr h) 1 k) (tabv N n (Tr h) 0 k).
  Lemma h_at_pos j : (j <= M)%nat -> (0 < h_at N j)%nat.
  Proof.
    intros H. unfold h_at. destruct (Nat.leb_spec N 11); [|lia].
    assert (j < 11)%nat by lia. do 11 (destruct j as [|j]; [cbn; lia|]). lia.
  Qed.
  Lemma bs_h_ok j : (j <= M)%nat -> bs_h N j = Ok (h_at N j).
  Proof. intros H. unfold bs_h. rewrite (proj2 (Nat.ltb_lt j N)) by lia. auto. Qed.
  Lemma bs_h_inv j x : bs_h N j = Ok x -> (j <= M)%nat /\ x = h_at N j.
  Proof. unfold bs_h. destruct (Nat.ltb_spec j N); intros E; inversion E. split; auto; lia. Qed.

  Lemma row_table_ok b h k : (1 <= k <= M)%nat -> sizes M b -> table_ok N n (k - 1) (Tr h) (b_ext b) ->
    exists ext ideal cpl, row_table M kdk err next b input (Tr h k) h k = Ok (set_row b ext ideal cpl, rerr h k) /\
      sizes M (set_row b ext ideal cpl) /\ table_ok N n k (Tr h) ext /\
      aget ext 0 = Ok (tabv N n (Tr h) 0 k).
  Proof.
    intros Hk (S1 & S2 & S3) HT. destruct k as [|k]; [lia|]. replace (S k - 1)%nat with k in HT by lia.
    destruct (extrapolate_ok N n k (Tr h) (b_ext b) trueQ) as (ext & E & L & T2 & _); auto; try lia; try (intros; exact I).
    { unfold Tr. apply (rp_len _ _ _ _ _ RP). apply h_at_pos; lia. } { apply trueQ_affine. }
    unfold row_table.
    destruct (aset (b_ext b) (S k) (Tr h (S k))) as [ext0| |] eqn:E0; try discriminate. cbn [obind] in *.
    rewrite E. cbn [obind]. rewrite !aget_entry by lia. cbn [obind]. rewrite !(table_tabv N n (S k) (Tr h) ext) by (auto; lia).
    fold (rerr h (S k)). cbv zeta. rewrite aset_ok by lia. cbn [obind]. unfold bs_cost. rewrite (proj2 (Nat.ltb_lt (S k) N)) by lia. cbn [obind].
    rewrite aset_ok by lia. cbn [obind]. eexists _, _, _. split; [reflexivity|]. split; [unfold sizes; cbn; rewrite !list_set_length; repeat split; auto; lia|]. split; [exact T2|].
    rewrite aget_entry by lia. f_equal. apply (table_tabv N n (S k)); auto; lia.
  Qed.

  Lemma set_next_shape b k b2 s : set_next_iteration M kdk b k = Ok (b2, s) -> exists r, b2 = set_rank b r.
  Proof.
    assert (W : forall b0, with_step M kdk b0 k = Ok (b2, s) -> b2 = b0).
    { unfold with_step. intros b0 H. oinv H. congruence. }
    assert (Id : forall b0, b0 = set_rank b0 (b_rank b0)) by (intros []; reflexivity).
    unfold set_next_iteration. destruct (b_first b); cbn [negb].
    - intros H. oinv H. destruct (b_reject b); cbn [negb] in *; eexists; try (transitivity b; [congruence|apply Id]).
      assert (b2 = set_rank b k) as -> by congruence. reflexivity.
    - destruct ((k =? b_rank b - 1)%nat || (k =? b_rank b)%nat).
      + intros H. oinv H. oinv H. destruct (Rlt_dec _ _); [apply W in H; eauto|]. destruct (Rlt_dec _ _); [|apply W in H; eauto].
        destruct (negb (b_reject b)); apply W in H; eauto.
      + destruct (k =? b_rank b + 1)%nat; [|discriminate]. intros H. oinv H. oinv H. cbv zeta in H. oinv H. oinv H. apply W in H.
        destruct (Rlt_dec a (dec_factor * a0)); destruct (Rlt_dec _ _); try destruct (negb _); subst b2; eauto.
  Qed.

  (** the whole loop over rows, given that it returned *)
  Lemma rows_ok : forall f k b p h b' p' res, (1 <= k)%nat -> sizes M b -> table_ok N n (k - 1) (Tr h) (b_ext b) -> Inv p ->
    rows M kdk P rd collect run err next lim f k b p input h = Ok (b', p', res) -> sizes M b' /\
    match res with
    | Accepted h1 => exists k' p2 q ratio, (k <= k' <= M)%nat /\ rerr h k' <= 1 /\ in_converged_window b k' = true /\
        (forall j, (k <= j < k')%nat -> in_converged_window b j = true -> 1 < rerr h j) /\ Inv p2 /\
        rd p2 (zipw Rplus input (tabv N n (Tr h) 0 k')) = Ok q /\ p' = collect q false /\ h1 = h * lim (2 * k' + 1)%nat ratio /\ b_first b' = false
    | Rejected h1 => Inv p' /\ exists k' ratio, (k <= k' <= M)%nat /\ h1 = h * lim (2 * k' + 1)%nat ratio /\ b_first b = false
    | Continue => Inv p'
    end.
  Proof.
    induction f as [|f IH]; intros k b p h b' p' res Hk HS HT Hp H; cbn [rows] in H.
    - assert (res = Continue) as -> by congruence. assert (p' = p) as -> by congruence. assert (b' = b) as -> by congruence. auto.
    - oinv H. oinv H. apply bs_h_inv in E0. destruct E0 as [HkM ->].
      destruct (rp_read _ _ _ _ _ RP p input Hp eq_refl) as (q & Eq & Iq). assert (q = a) as -> by congruence.
      destruct (rp_run _ _ _ _ _ RP p a h (h_at N k)) as (p2 & Er & I2); auto. { apply h_at_pos; auto. }
      rewrite Er in H. cbn [obind] in H.
      destruct (row_table_ok b h k) as (ext & ideal & cpl & Et & HS1 & HT1 & E0); auto. fold (Tr h k) in H. rewrite Et in H. cbn [obind] in H.
      change (in_converged_window (set_row b ext ideal cpl) k) with (in_converged_window b k) in H.
      assert (Hrec : in_converged_window b k = false \/ 1 < rerr h k -> rows M kdk P rd collect run err next lim f (S k) (set_row b ext ideal cpl) p2 input h = Ok (b', p', res) -> sizes M b' /\
        match res with
        | Accepted h1 => exists k' p2 q ratio, (k <= k' <= M)%nat /\ rerr h k' <= 1 /\ in_converged_window b k' = true /\
            (forall j, (k <= j < k')%nat -> in_converged_window b j = true -> 1 < rerr h j) /\ Inv p2 /\
            rd p2 (zipw Rplus input (tabv N n (Tr h) 0 k')) = Ok q /\ p' = collect q false /\ h1 = h * lim (2 * k' + 1)%nat ratio /\ b_first b' = false
        | Rejected h1 => Inv p' /\ exists k' ratio, (k <= k' <= M)%nat /\ h1 = h * lim (2 * k' + 1)%nat ratio /\ b_first b = false
        | Continue => Inv p'
        end).
      { intros Hno Hr. apply IH in Hr; [|lia|exact HS1|cbn [set_row b_ext]; replace (S k - 1)%nat with k by lia; auto|exact I2].
        destruct Hr as [HS' Hr]. split; [exact HS'|]. destruct res; auto.
        - destruct Hr as (k' & p3 & q & ra & K1 & K2 & K3 & K4 & K5). exists k', p3, q, ra. split; [lia|]. split; auto. split; auto. split; auto.
          intros j Hj Hw. destruct (Nat.eq_dec j k) as [->|]; [destruct Hno; auto; congruence|apply K4; auto; lia].
        - destruct Hr as (I' & k' & ra & K1 & K2). split; auto. exists k', ra. split; auto. lia. }
      destruct (in_converged_window b k) eqn:Ew; [|apply Hrec; auto].
      destruct (Rle_dec (rerr h k) 1) as [Hle|Hgt].
      + cbn [set_row b_ext] in H. rewrite E0 in H. cbn [obind] in H. oinv H. cbv zeta in H. oinv H. destruct a1 as [b2 nh].
        assert (res = Accepted (h * lim (2 * k + 1)%nat (nh / h))) as -> by congruence.
        assert (b' = not_first b2) as -> by congruence. destruct (set_next_shape _ _ _ _ E2) as (r & ->).
        split; [exact HS1|]. exists k, p2, a0, (nh / h). split; [lia|]. split; auto. split; auto. split; [intros; lia|]. split; auto. split; auto.
        split; [congruence|]. split; auto.
      + oinv H. destruct a0; [|apply Hrec; auto; right; lra].
        oinv H. destruct a0 as [b2 nh]. assert (res = Rejected (h * lim (2 * k + 1)%nat (nh / h))) as -> by congruence.
        assert (p' = p2) as -> by congruence. assert (b' = b2) as -> by congruence. destruct (set_next_shape _ _ _ _ E2) as (r & ->).
        split; [exact HS1|]. split; auto. exists k, (nh / h). split; [lia|]. split; auto.
        unfold is_diverged_anyhow in E1. cbn [set_row b_first] in E1. destruct (b_first b); [discriminate|reflexivity].
  Qed.

  (** and its safety *)
  Definition ready (b : bs) : Prop := sizes M b /\ (b_rank b <= M - 1)%nat /\ (b_first b = false -> (1 <= b_rank b)%nat).
  Lemma rows_safe (HM : (3 <= M)%nat) : forall f k b p h, (1 <= k)%nat -> (f + k = b_rank b + 2)%nat -> ready b -> (b_first b = true -> b_reject b = false) ->
    table_ok N n (k - 1) (Tr h) (b_ext b) -> Inv p ->
    exists b' p' res, rows M kdk P rd collect run err next lim f k b p input h = Ok (b', p', res) /\ sizes M b' /\
    match res with
    | Accepted h1 => b_first b' = false /\ b_reject b' = false /\
        if b_first b then exists k', b_rank b' = k' /\ (k <= k' <= b_rank b + 1)%nat /\ rerr h k' <= 1 /\ (forall j, (k <= j < k')%nat -> 1 < rerr h j)
        else (1 <= b_rank b' <= M - 1)%nat
    | Rejected _ => b_first b = false /\ b_first b' = false /\ (1 <= b_rank b' <= M - 1)%nat
    | Continue => b_rank b' = b_rank b /\ b_first b' = b_first b /\ b_reject b' = b_reject b /\ (b_first b = true -> forall j, (k <= j <= b_rank b + 1)%nat -> 1 < rerr h j)
    end.
  Proof.
    induction f as [|f IH]; intros k b p h Hk Hf Hr Hrej HT Hp; cbn [rows].
    - eexists _, _, _. split; [reflexivity|]. split; [apply Hr|]. repeat (split; auto). intros _ j Hj. lia.
    - pose proof Hr as (HS & R1 & R2). assert (HkM : (k <= M)%nat) by lia.
      destruct (rp_read _ _ _ _ _ RP p input Hp eq_refl) as (q & Eq & Iq). rewrite Eq. cbn [obind]. rewrite bs_h_ok by lia. cbn [obind].
      destruct (rp_run _ _ _ _ _ RP p q h (h_at N k)) as (p2 & Er & I2); auto. { apply h_at_pos; auto. }
      rewrite Er. cbn [obind]. destruct (row_table_ok b h k) as (ext & ideal & cpl & Et & HS1 & HT1 & E0); auto. fold (Tr h k). rewrite Et. cbn [obind].
      change (in_converged_window (set_row b ext ideal cpl) k) with (in_converged_window b k).
      assert (Hrec : b_first b = false \/ 1 < rerr h k -> exists b' p' res, rows M kdk P rd collect run err next lim f (S k) (set_row b ext ideal cpl) p2 input h = Ok (b', p', res) /\ sizes M b' /\
        match res with
        | Accepted h1 => b_first b' = false /\ b_reject b' = false /\
            if b_first b then exists k', b_rank b' = k' /\ (k <= k' <= b_rank b + 1)%nat /\ rerr h k' <= 1 /\ (forall j, (k <= j < k')%nat -> 1 < rerr h j)
            else (1 <= b_rank b' <= M - 1)%nat
        | Rejected _ => b_first b = false /\ b_first b' = false /\ (1 <= b_rank b' <= M - 1)%nat
        | Continue => b_rank b' = b_rank b /\ b_first b' = b_first b /\ b_reject b' = b_reject b /\ (b_first b = true -> forall j, (k <= j <= b_rank b + 1)%nat -> 1 < rerr h j)
        end).
      { intros Hno. destruct (IH (S k) (set_row b ext ideal cpl) p2 h) as (b' & p' & res & E & S' & X); auto; try lia.
        - cbn [set_row b_rank]. lia.
        - split; auto.
        - cbn [set_row b_ext]. replace (S k - 1)%nat with k by lia. auto.
        - exists b', p', res. split; auto. split; auto. cbn [set_row b_first b_rank b_reject] in X. destruct res; auto.
          { destruct X as (X1 & X2 & X3 & X4). repeat (split; auto). intros F j Hj.
            destruct (Nat.eq_dec j k) as [->|]; [destruct Hno; auto; congruence|apply X4; auto; lia]. }
          destruct X as (X1 & X2 & X3). split; auto. split; auto. destruct (b_first b); auto.
          destruct X3 as (k' & K1 & K2 & K3 & K4). exists k'. split; auto. split; [lia|]. split; auto. intros j Hj.
          destruct (Nat.eq_dec j k) as [->|]; [destruct Hno; auto; congruence|apply K4; lia]. }
      destruct (in_converged_window b k) eqn:Ew.
      2:{ apply Hrec. left. unfold in_converged_window in Ew. apply orb_false_elim in Ew. apply Ew. }
      unfold in_converged_window in Ew.
      destruct (Rle_dec (rerr h k) 1) as [Hle|Hgt].
      + cbn [set_row b_ext]. rewrite E0. cbn [obind].
        destruct (rp_read _ _ _ _ _ RP p2 (zipw Rplus input (tabv N n (Tr h) 0 k)) I2) as (q3 & Eq3 & _).
        { rewrite zipw_length; rewrite ?tabv_length; auto. }
        rewrite Eq3. cbn [obind]. cbv zeta.
        set (ba := accept1 (set_row b ext ideal cpl) (rerr h k)).
        assert (Sa : sizes M ba) by exact HS1.
        destruct (b_first b) eqn:Ef.
        * destruct (set_next_first M kdk HM ba k) as (s & E); auto. change (b_reject ba) with false in E. cbv iota in E. rewrite E. cbn [obind].
          eexists _, _, _. split; [reflexivity|]. split; [exact HS1|]. cbn [not_first set_rank b_first b_reject b_rank ba accept1].
          split; auto. split; auto. exists k. split; auto. split; [lia|]. split; auto. intros; lia.
        * destruct (set_next_ok M kdk HM ba k) as (r & s & E & Hrr); [exact Sa|exact Ef| |exact Hk| |].
          { change (b_rank ba) with (b_rank b). specialize (R2 eq_refl). lia. }
          { change (b_rank ba) with (b_rank b). rewrite orb_false_r in Ew. apply orb_prop in Ew. destruct Ew as [Ew|Ew]; [apply orb_prop in Ew; destruct Ew as [Ew|Ew]|]; apply Nat.eqb_eq in Ew; auto. }
          rewrite E. cbn [obind]. eexists _, _, _. split; [reflexivity|]. split; [exact HS1|]. cbn. auto.
      + destruct (b_first b) eqn:Ef.
        * unfold is_diverged_anyhow. cbn [set_row b_first]. rewrite Ef. cbn [negb obind]. apply Hrec. right. lra.
        * assert (Hw : (k = b_rank b - 1 \/ k = b_rank b \/ k = b_rank b + 1)%nat).
          { rewrite orb_false_r in Ew. apply orb_prop in Ew. destruct Ew as [Ew|Ew]; [apply orb_prop in Ew; destruct Ew as [Ew|Ew]|]; apply Nat.eqb_eq in Ew; auto. }
          specialize (R2 eq_refl).
          destruct (diverged_ok M HM (set_row b ext ideal cpl) (rerr h k) k) as (d & ->); auto.
          cbn [obind]. destruct d; [|apply Hrec; auto].
          destruct (set_next_ok M kdk HM (reject1 (set_row b ext ideal cpl)) k) as (r & s & E & Hrr); auto.
          rewrite E. cbn [obind]. eexists _, _, _. split; [reflexivity|]. split; [exact HS1|]. cbn. auto.
  Qed.
  (** attempts *)
  Lemma start_table b h dy : sizes M b -> (1 <= M)%nat -> dy = Tr h 0 -> exists ext, aset (b_ext b) 0 dy = Ok ext /\ length ext = N /\ table_ok N n 0 (Tr h) ext.
  Proof.
    intros (S1 & S2 & S3) HM ->. destruct (fill_ok N n (Tr h) (b_ext b) trueQ 0) as (ext & E & L & T & _); try lia; try (intros; exact I).
    - intros i Hi. unfold Tr. apply (rp_len _ _ _ _ _ RP). apply h_at_pos; lia.
    - apply trueQ_affine.
    - exists ext. split; [exact E|]. split; [lia|]. exact T.
  Qed.
  Definition fresh (p : P) : Prop := exists p0, Inv p0 /\ rd p0 input = Ok p.
  Lemma attempts_ok (HM : (1 <= M)%nat) : forall t b p h b' p' h1, sizes M b -> fresh p ->
    attempts M kdk P rd collect run err next lim t b p input h = Ok (b', p', h1) ->
    sizes M b' /\ exists hk k p2 q ratio, tried lim h hk /\ (1 <= k <= M)%nat /\ rerr hk k <= 1 /\ Inv p2 /\
      rd p2 (zipw Rplus input (tabv N n (Tr hk) 0 k)) = Ok q /\ p' = collect q false /\ h1 = hk * lim (2 * k + 1)%nat ratio /\ b_first b' = false.
  Proof.
    intros t b p h b' p' h1 HS Hp H.
    enough (G : forall hb, tried lim hb h -> sizes M b' /\ exists hk k p2 q ratio, tried lim hb hk /\ (1 <= k <= M)%nat /\ rerr hk k <= 1 /\ Inv p2 /\
      rd p2 (zipw Rplus input (tabv N n (Tr hk) 0 k)) = Ok q /\ p' = collect q false /\ h1 = hk * lim (2 * k + 1)%nat ratio /\ b_first b' = false) by (apply G; constructor).
    intros hb. revert b p h HS Hp H. induction t as [|t IH]; intros b p h HS (p0 & I0 & E0) H Hb; cbn [attempts] in H; [discriminate|].
    rewrite bs_h_ok in H by lia. cbn [obind] in H.
    destruct (rp_run _ _ _ _ _ RP p0 p h (h_at N 0)) as (p1 & Er & I1); auto. { apply h_at_pos; lia. }
    rewrite Er in H. cbn [obind] in H.
    destruct (start_table b h (row h (h_at N 0)) HS HM eq_refl) as (ext & Ea & La & Ta). cbn [count_try b_ext] in H. rewrite Ea in H. cbn [obind] in H.
    oinv H. destruct a as [[b1 p2] res]. apply rows_ok in E; auto; [|destruct HS as (? & ? & ?); unfold sizes; cbn; auto].
    destruct E as [HS1 E]. destruct res as [|h'|h'].
    - destruct (rp_read _ _ _ _ _ RP p2 input E eq_refl) as (q & Eq & Iq). rewrite Eq in H. cbn [obind] in H.
      eapply IH in H; eauto. exists p2. auto.
    - assert (b' = b1) as -> by congruence. assert (p' = p2) as -> by congruence. assert (h1 = h') as -> by congruence.
      split; auto. destruct E as (k & p3 & q & ra & K1 & K2 & K3 & K4 & K5 & K6 & K7 & K8 & K9). exists h, k, p3, q, ra. repeat (split; auto); lia.
    - destruct E as (I2 & k & ra & K1 & K2 & K3). destruct (rp_read _ _ _ _ _ RP p2 input I2 eq_refl) as (q & Eq & Iq). rewrite Eq in H. cbn [obind] in H.
      eapply IH in H; eauto. { exists p2. auto. } rewrite K2. constructor. exact Hb.
  Qed.
  Lemma attempts_safe (HM : (3 <= M)%nat) : forall t b p h, safe M b -> b_first b = false -> fresh p ->
    attempts M kdk P rd collect run err next lim t b p input h = Abort \/
    exists b' p' h1, attempts M kdk P rd collect run err next lim t b p input h = Ok (b', p', h1) /\ safe M b' /\ b_first b' = false.
  Proof.
    induction t as [|t IH]; intros b p h (HS & R1 & R2) Hf (p0 & I0 & E0); cbn [attempts]; [auto|].
    rewrite bs_h_ok by lia. cbn [obind].
    destruct (rp_run _ _ _ _ _ RP p0 p h (h_at N 0)) as (p1 & Er & I1); auto. { apply h_at_pos; lia. }
    rewrite Er. cbn [obind]. assert (H1M : (1 <= M)%nat) by lia.
    destruct (start_table b h (row h (h_at N 0)) HS H1M eq_refl) as (ext & Ea & La & Ta). cbn [count_try b_ext]. rewrite Ea. cbn [obind].
    set (b0 := set_row (count_try b) ext (b_ideal (count_try b)) (b_cpl (count_try b))).
    destruct (rows_safe HM (b_rank b + 1) 1 b0 p1 h) as (b1 & p2 & res & E & HS1 & X); auto.
    { unfold b0. cbn. lia. } { destruct HS as (? & ? & ?). unfold ready, sizes, b0. cbn. rewrite Hf. auto. }
    { unfold b0. cbn. rewrite Hf. discriminate. }
    pose proof E as E'. apply rows_ok in E'; auto; [|destruct HS as (? & ? & ?); unfold b0, sizes; cbn; auto]. destruct E' as [_ E'].
    cbn [count_try b_rank]. rewrite E. cbn [obind].
    change (b_first b0) with (b_first b) in X. change (b_rank b0) with (b_rank b) in X. rewrite Hf in X. destruct res as [|h'|h'].
    - destruct (rp_read _ _ _ _ _ RP p2 input E' eq_refl) as (q & Eq & Iq). rewrite Eq. cbn [obind]. apply IH; [|tauto|exists p2; auto].
      split; auto. destruct X as (-> & _). auto.
    - right. exists b1, p2, h'. split; auto. split; [split; auto; tauto|tauto].
    - destruct E' as (I2 & _). destruct (rp_read _ _ _ _ _ RP p2 input I2 eq_refl) as (q & Eq & Iq). rewrite Eq. cbn [obind]. apply IH; [|tauto|exists p2; auto].
      split; auto. tauto.
  Qed.
  (** the first call: full window, no rejection, step never changed *)
  Lemma attempts_first (HM : (3 <= M)%nat) : forall t b p h, ready b -> b_first b = true -> b_reject b = false -> fresh p ->
    (forall k, (1 <= k <= b_rank b + 1)%nat -> 1 < rerr h k) /\ attempts M kdk P rd collect run err next lim t b p input h = Abort \/
    (t = 0)%nat \/
    exists b' p' h1 k, attempts M kdk P rd collect run err next lim t b p input h = Ok (b', p', h1) /\ sizes M b' /\ b_first b' = false /\ b_reject b' = false /\
      b_rank b' = k /\ (1 <= k <= b_rank b + 1)%nat /\ rerr h k <= 1 /\ (forall j, (1 <= j < k)%nat -> 1 < rerr h j) /\
      exists p2 q ratio, Inv p2 /\ rd p2 (zipw Rplus input (tabv N n (Tr h) 0 k)) = Ok q /\ p' = collect q false /\ h1 = h * lim (2 * k + 1)%nat ratio.
  Proof.
    induction t as [|t IH]; intros b p h HR Hf Hrej (p0 & I0 & E0); cbn [attempts]; [auto|].
    pose proof HR as (HS & R1 & R2). rewrite bs_h_ok by lia. cbn [obind].
    destruct (rp_run _ _ _ _ _ RP p0 p h (h_at N 0)) as (p1 & Er & I1); auto. { apply h_at_pos; lia. }
    rewrite Er. cbn [obind]. assert (H1M : (1 <= M)%nat) by lia.
    destruct (start_table b h (row h (h_at N 0)) HS H1M eq_refl) as (ext & Ea & La & Ta). cbn [count_try b_ext]. rewrite Ea. cbn [obind].
    set (b0 := set_row (count_try b) ext (b_ideal (count_try b)) (b_cpl (count_try b))).
    destruct (rows_safe HM (b_rank b + 1) 1 b0 p1 h) as (b1 & p2 & res & E & HS1 & X); auto.
    { unfold b0. cbn. lia. } { destruct HS as (? & ? & ?). unfold ready, sizes, b0. cbn. auto. }
    pose proof E as E'. apply rows_ok in E'; auto; [|destruct HS as (? & ? & ?); unfold b0, sizes; cbn; auto]. destruct E' as [_ E'].
    cbn [count_try b_rank]. rewrite E. cbn [obind].
    change (b_first b0) with (b_first b) in X. change (b_rank b0) with (b_rank b) in X. rewrite Hf in X. destruct res as [|h'|h'].
    - destruct (rp_read _ _ _ _ _ RP p2 input E' eq_refl) as (q & Eq & Iq). rewrite Eq. cbn [obind]. destruct X as (X1 & X2 & X3 & X4).
      assert (HR1 : ready b1) by (split; auto; rewrite X1, X2; split; auto; discriminate).
      assert (Hall : forall k, (1 <= k <= b_rank b + 1)%nat -> 1 < rerr h k) by (intros; apply X4; auto; lia).
      left. split; auto. destruct t as [|t]; [reflexivity|].
      assert (Fq : fresh q) by (exists p2; auto). assert (X3' : b_reject b1 = false) by (rewrite X3; exact Hrej).
      destruct (IH b1 q h HR1 X2 X3' Fq) as [G|[G|G]]; [apply G|discriminate|].
      destruct G as (b' & p' & h1 & k & _ & _ & _ & _ & _ & G1 & G2 & _). rewrite X1 in G1. specialize (Hall k G1). lra.
    - right. right. destruct X as (X1 & X2 & k & X3 & X4 & X5 & X6). exists b1, p2, h', k. repeat (split; [auto|]); auto.
      destruct E' as (k' & p3 & q & ra & K1 & K2 & K3 & K4 & K5 & K6 & K7 & K8 & K9).
      assert (k' = k).
      { assert (W : forall j, in_converged_window b0 j = true) by (intros j; unfold in_converged_window; change (b_first b0) with (b_first b); rewrite Hf; apply orb_true_r).
        destruct (Nat.lt_trichotomy k k') as [L|[L|L]]; auto; exfalso.
        - assert (1 < rerr h k) by (apply K4; auto; lia). lra.
        - assert (1 < rerr h k') by (apply X6; lia). lra. }
      subst k'. exists p3, q, ra. auto.
    - destruct X as (X & _). discriminate.
  Qed.
End Rows.
