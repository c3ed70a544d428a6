From Verif Require Import Base Slice_Model.
From Coq Require Import Lra.

(** * StepSlice *)
Lemma ss_calls_spec n m : (0 < n)%nat -> forall s, ss_interval s = n ->
  ss_calls m s = Ok (map (fun k => (Nat.modulo k n =? 0)%nat) (seq (ss_step s) m)).
Proof.
  intros Hn. induction m as [|m IH]; intros [st iv] E; simpl in *; subst; auto.
  unfold ss_call; simpl. destruct n; [lia|]. cbn [obind fst snd]. rewrite IH by auto.
  cbn [obind]. reflexivity.
Qed.

Lemma step_slice_fires n m : (0 < n)%nat -> exists l, ss_calls m (ss_make n) = Ok l /\
  length l = m /\ forall k, (k < m)%nat -> (nth_error l k = Some true <-> Nat.divide n k).
Proof.
  intros Hn. eexists. split; [apply ss_calls_spec; eauto|]. simpl. split.
  - rewrite map_length, seq_length; auto.
  - intros k Hk. rewrite nth_error_map.
    rewrite (nth_error_nth' _ 0%nat) by (rewrite seq_length; auto). rewrite seq_nth by auto. simpl.
    split.
    + intros H. injection H as H. apply Nat.eqb_eq in H. apply Nat.mod_divide; auto. lia.
    + intros H. apply Nat.mod_divide in H; [|lia]. rewrite H. reflexivity.
Qed.

Lemma count_fires n m : (0 < n)%nat ->
  length (filter (fun k => (Nat.modulo k n =? 0)%nat) (seq 0 m)) = ((m + n - 1) / n)%nat.
Proof.
  intros Hn. induction m as [|m IH].
  - simpl. rewrite Nat.div_small; lia.
  - rewrite seq_S, filter_app, app_length, IH. simpl (0 + m)%nat. simpl filter.
    pose proof (Nat.div_mod m n ltac:(lia)) as D. pose proof (Nat.mod_upper_bound m n ltac:(lia)) as U.
    set (q := (m / n)%nat) in *. set (r := (m mod n)%nat) in *.
    destruct (Nat.eqb_spec r 0) as [E|E]; cbn [length].
    + replace ((m + n - 1) / n)%nat with q by (apply (Nat.div_unique _ _ _ (n - 1)); lia).
      replace ((S m + n - 1) / n)%nat with (S q) by (apply (Nat.div_unique _ _ _ 0); lia). lia.
    + replace ((m + n - 1) / n)%nat with (S q) by (apply (Nat.div_unique _ _ _ (r - 1)); lia).
      replace ((S m + n - 1) / n)%nat with (S q) by (apply (Nat.div_unique _ _ _ r); lia). lia.
Qed.

Lemma filter_map_len {A} (f : A -> bool) l : length (filter (fun b : bool => b) (map f l)) = length (filter f l).
Proof. induction l; simpl; auto. destruct (f a); simpl; auto. Qed.

Lemma step_slice_count n m : (0 < n)%nat -> exists l, ss_calls m (ss_make n) = Ok l /\
  length (filter (fun b => b) l) = ((m + n - 1) / n)%nat.
Proof.
  intros Hn. eexists. split; [apply ss_calls_spec; eauto|]. simpl ss_step. rewrite filter_map_len.
  apply count_fires; auto.
Qed.

Lemma step_slice_zero : ss_calls 1 (ss_make 0) = UB.
Proof. reflexivity. Qed.

(** * TimeSlice *)
Lemma ts_calls_spec ts : forall s l s', ts_calls s ts = (l, s') ->
  ts_end s' = ts_end s /\ ts_int s' = ts_int s /\
  ts_next s' = ts_next s + INR (length l) * ts_int s /\
  (forall i t, nth_error l i = Some t -> ts_next s + INR i * ts_int s <= t <= ts_end s).
Proof.
  induction ts as [|t ts IH]; simpl; intros s l s' H.
  - injection H as <- <-. simpl. repeat split; auto; try lra; destruct i; discriminate.
  - destruct (ts_call s t) as [b s1] eqn:Ec. destruct (ts_calls s1 ts) as [l1 s2] eqn:E.
    destruct (IH _ _ _ E) as (A & B & C & D). injection H as <- <-.
    unfold ts_call in Ec. destruct (Rle_dec _ _); [destruct (Rle_dec _ _)|]; injection Ec as <- <-;
      simpl in *; [|exact (conj A (conj B (conj C D)))..].
    repeat split; auto.
    + rewrite C. destruct (length l1); simpl; lra.
    + destruct i as [|i].
      * simpl in H. injection H as <-. simpl. lra.
      * simpl in H. apply D in H. rewrite S_INR. lra.
    + destruct i as [|i].
      * simpl in H. injection H as <-. simpl. lra.
      * simpl in H. apply D in H. lra.
Qed.

Lemma time_slice_fires st en n ts l s' :
  ts_calls (ts_make st en n) ts = (l, s') ->
  forall i t, nth_error l i = Some t -> st + INR i * ((en - st) / INR n) <= t <= en.
Proof. intros H. apply ts_calls_spec in H. simpl in H. tauto. Qed.

Lemma time_slice_bound st en n ts l s' : st < en -> (0 < n)%nat ->
  ts_calls (ts_make st en n) ts = (l, s') -> (length l <= n + 1)%nat.
Proof.
  intros Hlt Hn H. apply ts_calls_spec in H. simpl in H. destruct H as (_ & _ & _ & D).
  destruct (le_lt_dec (length l) (n + 1)) as [|Hg]; auto. exfalso.
  destruct (nth_error l (S n)) as [t|] eqn:E.
  - apply D in E. assert (Hn' : 0 < INR n) by (apply lt_0_INR; auto).
    rewrite S_INR in E.
    assert (INR n * ((en - st) / INR n) = en - st) by (field; lra).
    assert (0 < (en - st) / INR n) by (apply Rdiv_lt_0_compat; lra). lra.
  - apply nth_error_None in E. lia.
Qed.

(** The firing rule of one call after any history. *)
Lemma time_slice_rule st en n ts l s t : ts_calls (ts_make st en n) ts = (l, s) ->
  (fst (ts_call s t) = true <-> (st + INR (length l) * ((en - st) / INR n) <= t /\ t <= en)).
Proof.
  intros H. apply ts_calls_spec in H. simpl in H. destruct H as (A & _ & C & _).
  unfold ts_call. rewrite C, A. simpl. destruct (Rle_dec _ _); [destruct (Rle_dec _ _)|]; simpl;
  split; intros; auto; try discriminate; tauto.
Qed.

(** * LogTimeSlice *)
Definition slot (s : log_slice) (m : nat) := ls_start s + ls_q s ^ m.

Lemma ls_advance_spec fuel : forall s t s', ls_advance fuel s t = Some s' ->
  t < ls_next s' /\ ls_start s' = ls_start s /\ ls_end s' = ls_end s /\ ls_q s' = ls_q s /\
  exists k, (0 < k)%nat /\ ls_next s' - ls_start s = (ls_next s - ls_start s) * ls_q s ^ k.
Proof.
  induction fuel as [|k IH]; simpl; intros s t s' H; [discriminate|].
  destruct (Rle_dec _ _) as [Hle|Hn].
  - apply IH in H. simpl in H. destruct H as (A & B & C & D & j & Hj & E).
    split; auto. split; auto. split; auto. split; auto. exists (S j). split; [lia|]. rewrite E. simpl. ring.
  - injection H as <-. simpl. repeat split; auto; try lra.
    exists 1%nat. split; [lia|]. simpl. ring.
Qed.

Lemma log_next_after fuel s t s' : ls_call fuel s t = Some (true, s') -> t < ls_next s'.
Proof.
  unfold ls_call. destruct (Rle_dec _ _); [destruct (Rle_dec _ _)|]; try discriminate.
  destruct (ls_advance fuel s t) eqn:E; [|discriminate]. intros H; injection H as <-.
  apply ls_advance_spec in E. tauto.
Qed.

(** Growth for ratio > 1. *)
Lemma pow_unbounded q x : 1 < q -> exists k, x < q ^ k.
Proof.
  intros H. destruct (Pow_x_infinity q ltac:(rewrite Rabs_pos_eq; lra) (x + 1)) as [N HN].
  exists N. specialize (HN N (le_n _)). rewrite Rabs_pos_eq in HN; [lra|].
  apply pow_le; lra.
Qed.

Lemma ls_advance_ends k : forall s t, 1 < ls_q s -> ls_start s < ls_next s ->
  t < ls_start s + (ls_next s - ls_start s) * ls_q s ^ k ->
  exists s', ls_advance (S k) s t = Some s'.
Proof.
  induction k as [|k IH]; intros s t Hq Hs Ht.
  - simpl in *. destruct (Rle_dec _ _) as [Hle|]; [|eauto]. exfalso.
    assert ((ls_next s - ls_start s) * 1 < (ls_next s - ls_start s) * ls_q s) by (apply Rmult_lt_compat_l; lra).
    lra.
  - cbn [ls_advance]. destruct (Rle_dec _ _) as [Hle|]; [|eauto].
    apply IH; simpl in *; auto.
    + assert ((ls_next s - ls_start s) * 1 < (ls_next s - ls_start s) * ls_q s) by (apply Rmult_lt_compat_l; lra). lra.
    + lra.
Qed.

Lemma Rpower_root L n : 0 < L -> (0 < n)%nat -> Rpower L (1 / INR n) ^ n = L.
Proof.
  intros HL Hn. rewrite <- Rpower_pow by (unfold Rpower; apply exp_pos).
  rewrite Rpower_mult. assert (0 < INR n) by (apply lt_0_INR; auto).
  replace (1 / INR n * INR n) with 1 by (field; lra). apply Rpower_1; auto.
Qed.

Lemma Rpower_root_gt1 L n : 1 < L -> (0 < n)%nat -> 1 < Rpower L (1 / INR n).
Proof.
  intros HL Hn. apply Rle_lt_trans with (Rpower L 0); [rewrite Rpower_O; lra|]. apply Rpower_lt; auto.
  apply Rdiv_lt_0_compat; [lra|]. apply lt_0_INR; auto.
Qed.

(** Invariant of a well-formed log slice: the pending slot is start + q^m with m >= 1. *)
Definition LInv (st en q : R) (m : nat) (s : log_slice) : Prop :=
  ls_start s = st /\ ls_end s = en /\ ls_q s = q /\ ls_next s = st + q ^ m.

Lemma linv_call st en q m s fuel t b s' : LInv st en q m s -> ls_call fuel s t = Some (b, s') ->
  if b then t <= en /\ st + q ^ m <= t /\ t < ls_next s' /\ exists m', (m < m')%nat /\ LInv st en q m' s'
  else s' = s.
Proof.
  intros (A & B & C & D). unfold ls_call. destruct (Rle_dec _ _) as [H1|]; [destruct (Rle_dec _ _) as [H2|]|];
    try (intros H; injection H as <- <-; auto; fail).
  destruct (ls_advance fuel s t) as [s1|] eqn:E; [|discriminate]. intros H; injection H as <- <-.
  apply ls_advance_spec in E. destruct E as (E1 & E2 & E3 & E4 & k & Hk & E5).
  rewrite <- B, <- D. repeat split; auto.
  exists (m + k)%nat. split; [lia|]. repeat split; try congruence.
  rewrite A, C, D in E5. rewrite pow_add. lra.
Qed.

Lemma log_call_returns st en q m s t : 1 < q -> LInv st en q m s -> exists fuel b s',
  ls_call fuel s t = Some (b, s').
Proof.
  intros Hq (A & B & C & D).
  assert (Hqm : 0 < q ^ m) by (apply pow_lt; lra).
  destruct (pow_unbounded q ((t - st) / q ^ m) Hq) as [k Hk].
  exists (S k). unfold ls_call. destruct (Rle_dec _ _) as [H1|]; [destruct (Rle_dec _ _) as [H2|]|]; eauto.
  destruct (ls_advance_ends k s t) as [s' E].
  - rewrite C; auto.
  - rewrite A, D; lra.
  - rewrite A, C, D. apply (Rmult_lt_compat_r (q ^ m)) in Hk; auto.
    unfold Rdiv in Hk. rewrite Rmult_assoc, Rinv_l in Hk by lra. lra.
  - rewrite E. eauto.
Qed.

Lemma ls_runs_bound st en q n : 1 < q -> q ^ n = en - st ->
  forall s ts l s', ls_runs s ts l s' -> forall m, LInv st en q m s ->
  (length l + m <= n + 1)%nat \/ l = [].
Proof.
  intros Hq Hn s ts l s' R. induction R as [s|s t fuel b s1 ts l s2 Hc R IH]; intros m I; auto.
  pose proof (linv_call _ _ _ _ _ _ _ _ _ I Hc) as K. destruct b.
  - destruct K as (K1 & K2 & K3 & m' & Hm & I'). left.
    assert (Hmn : (m <= n)%nat).
    { destruct (le_lt_dec m n) as [|Hg]; auto. exfalso.
      assert (q ^ n < q ^ m) by (apply Rlt_pow; auto). lra. }
    destruct (IH m' I') as [H| ->]; simpl; lia.
  - subst s1. apply IH; auto.
Qed.

Lemma log_make_inv st en n : LInv st en (Rpower (en - st) (1 / INR n)) 1 (ls_make st en n).
Proof. unfold LInv, ls_make; simpl. repeat split; auto. ring. Qed.

Lemma log_slice_good st en n : 1 < en - st -> (0 < n)%nat ->
  forall ts l s, ls_runs (ls_make st en n) ts l s ->
  (length l <= n)%nat /\ forall t, exists fuel b s', ls_call fuel s t = Some (b, s').
Proof.
  intros HL Hn ts l s R. pose proof (Rpower_root_gt1 _ _ HL Hn) as Hq.
  pose proof (Rpower_root (en - st) n ltac:(lra) Hn) as Hp.
  split.
  - destruct (ls_runs_bound st en _ n Hq Hp _ _ _ _ R 1 (log_make_inv st en n)) as [H| ->]; simpl; lia.
  - intros t.
    assert (X : exists m, LInv st en (Rpower (en - st) (1 / INR n)) m s).
    { clear t. pose proof (log_make_inv st en n) as I. revert I R. generalize (ls_make st en n).
      intros s0 I R. revert I. generalize 1%nat as m. clear Hq Hp.
      set (q := Rpower (en - st) (1 / INR n)). clearbody q.
      induction R as [s0|s0 t fuel b s1 ts l s2 Hc R IH]; intros m I; [eauto|].
      pose proof (linv_call _ _ _ _ _ _ _ _ _ I Hc) as K. destruct b.
      - destruct K as (_ & _ & _ & m' & _ & I'). eauto.
      - subst s1. eauto. }
    destruct X as [m I]. eapply log_call_returns; eauto.
Qed.

(** Ratio at most 1: the loop never ends once entered. *)
Lemma ls_advance_never fuel : forall s t, 0 < ls_q s <= 1 -> ls_start s < ls_next s -> ls_next s <= t ->
  ls_advance fuel s t = None.
Proof.
  induction fuel as [|k IH]; simpl; intros s t Hq Hs Ht; auto.
  assert (0 < (ls_next s - ls_start s) * ls_q s) by (apply Rmult_lt_0_compat; lra).
  assert ((ls_next s - ls_start s) * ls_q s <= (ls_next s - ls_start s) * 1)
    by (apply Rmult_le_compat_l; lra).
  destruct (Rle_dec _ _) as [|Hn]; [|exfalso; apply Hn; lra].
  apply IH; simpl; auto; lra.
Qed.

Lemma log_call_hangs s t : 0 < ls_q s <= 1 -> ls_start s < ls_next s ->
  ls_next s <= t <= ls_end s -> forall fuel, ls_call fuel s t = None.
Proof.
  intros Hq Hs Ht fuel. unfold ls_call.
  destruct (Rle_dec _ _); [destruct (Rle_dec _ _)|]; try lra.
  rewrite ls_advance_never; auto; lra.
Qed.

(** Interval length exactly 1: the call at the end time never returns. *)
Lemma log_hang_at_end st n : (0 < n)%nat -> forall fuel,
  ls_call fuel (ls_make st (st + 1) n) (st + 1) = None.
Proof.
  intros Hn fuel. assert (E : Rpower (st + 1 - st) (1 / INR n) = 1).
  { replace (st + 1 - st) with 1 by ring. unfold Rpower. rewrite ln_1, Rmult_0_r, exp_0. reflexivity. }
  apply log_call_hangs; unfold ls_make; simpl; rewrite E; lra.
Qed.

(** Shorter than 1 with at least two slots: the operation never runs. *)
Lemma log_never_fires st en n : 0 < en - st < 1 -> (2 <= n)%nat ->
  forall ts l s, ls_runs (ls_make st en n) ts l s -> l = [].
Proof.
  intros HL Hn.
  assert (Hq : en - st < Rpower (en - st) (1 / INR n)).
  { assert (Hn' : 2 <= INR n) by (replace 2 with (INR 2) by (simpl; lra); apply le_INR; auto).
    unfold Rpower. rewrite <- (exp_ln (en - st)) at 1 by lra. apply exp_increasing.
    assert (ln (en - st) < 0) by (rewrite <- ln_1; apply ln_increasing; lra).
    assert (1 / INR n < 1).
    { apply (Rmult_lt_reg_r (INR n)); [lra|]. unfold Rdiv. rewrite Rmult_1_l, Rinv_l, Rmult_1_l; lra. }
    assert (X := Rmult_lt_gt_compat_neg_l (ln (en - st)) _ _ H H0). lra. }
  assert (K : forall s0 ts l s, ls_runs s0 ts l s -> s0 = ls_make st en n -> l = []).
  { intros s0 ts l s R. induction R as [s0|s0 t fuel b s1 ts l s2 Hc R IH]; intros ->; auto.
    unfold ls_call in Hc. simpl in Hc. destruct (Rle_dec _ _) as [H1|].
    - destruct (Rle_dec _ _) as [H2|]; [lra|]. injection Hc as <- <-. auto.
    - injection Hc as <- <-. auto. }
  intros ts l s R. eapply K; eauto.
Qed.

(** reset_slice_params keeps the old origin. *)
Lemma log_reset_stale : exists fuel t s', t = 20 /\
  ls_call fuel (ls_reset (ls_make 0 100 1) 10 110 2) t = Some (true, s') /\ ls_next s' = 200.
Proof.
  assert (E : Rpower (110 - 10) (1 / INR 2) = 10).
  { replace (110 - 10) with (10 * 10) by ring. simpl (INR 2). unfold Rpower. rewrite ln_mult by lra.
    replace (1 / (1 + 1) * (ln 10 + ln 10)) with (ln 10) by field. apply exp_ln; lra. }
  exists 1%nat, 20. unfold ls_reset, ls_make. cbv zeta. rewrite E. unfold ls_call.
  cbn [ls_next ls_end ls_start ls_q ls_advance].
  repeat match goal with |- context [Rle_dec ?a ?b] => destruct (Rle_dec a b); try lra end.
  eexists. split; [reflexivity|]. split; [reflexivity|]. simpl. ring.
Qed.

(** * Writers *)
Definition is_row (b : block) : bool := match b with Row _ => true | _ => false end.
Fixpoint rows_of (os : list dw_op) : list nat :=
  match os with [] => [] | DwCall _ r :: t => r :: rows_of t | _ :: t => rows_of t end.
Definition no_raw (o : dw_op) : bool := match o with DwRaw _ => false | _ => true end.

Lemma dw_run_spec os : forall s s', forallb no_raw os = true ->
  (dw_file s = [] -> Forall (fun b => b = false) (dw_header s)) ->
  dw_run s os = Some s' ->
  dw_file s' = (if is_empty (dw_file s) && negb (is_empty (rows_of os)) then [Header] else []) ++ dw_file s ++ map Row (rows_of os).
Proof.
  induction os as [|o os IH]; simpl; intros s s' Hr Hh H.
  - injection H as <-. rewrite andb_false_r. simpl. rewrite app_nil_r; auto.
  - apply andb_true_iff in Hr as [Hr1 Hr2]. destruct (dw_step s o) as [s1|] eqn:E; [|discriminate].
    destruct o as [c r|c|r]; simpl in *; try discriminate.
    + destruct (nth_error (dw_header s) c) as [[]|] eqn:Ec; try discriminate; injection E as <-.
      * assert (Hne : dw_file s <> []).
        { intros F. specialize (Hh F). rewrite Forall_forall in Hh. apply nth_error_In, Hh in Ec. discriminate. }
        rewrite (fun X => IH _ _ Hr2 X H); simpl.
        -- destruct (dw_file s); [congruence|]. simpl. rewrite <- app_assoc. reflexivity.
        -- intros F. destruct (dw_file s); discriminate.
      * rewrite (fun X => IH _ _ Hr2 X H); simpl.
        -- destruct (dw_file s); simpl; auto. rewrite <- app_assoc. reflexivity.
        -- intros F. destruct (dw_file s); simpl in F; discriminate.
    + destruct (nth_error (dw_header s) c) as [b|] eqn:Ec; [|discriminate]. injection E as <-.
      rewrite (fun X => IH _ _ Hr2 X H); simpl; auto.
      intros F. specialize (Hh F). apply Forall_app. split; auto. constructor; auto.
      rewrite Forall_forall in Hh. apply Hh. eapply nth_error_In; eauto.
Qed.

Lemma writer_header_once os s : forallb no_raw os = true -> dw_run dw_new os = Some s ->
  dw_file s = match rows_of os with [] => [] | rs => Header :: map Row rs end.
Proof.
  intros Hr H. rewrite (dw_run_spec os dw_new s Hr ltac:(simpl; auto) H). simpl.
  destruct (rows_of os); reflexivity.
Qed.

(** Text streamed into the writer before its first call suppresses the header for good. *)
Lemma dw_nonempty os : forall s s', dw_file s <> [] -> ~ In Header (dw_file s) -> dw_run s os = Some s' ->
  ~ In Header (dw_file s').
Proof.
  induction os as [|o os IH]; simpl; intros s s' Hn Hh H; [injection H as <-; auto|].
  destruct (dw_step s o) as [s1|] eqn:E; [|discriminate].
  assert (X : dw_file s1 <> [] /\ ~ In Header (dw_file s1)).
  { destruct o as [c r|c|r]; simpl in E.
    - destruct (nth_error (dw_header s) c) as [[]|]; try discriminate; injection E as <-; simpl.
      + split; [destruct (dw_file s); discriminate|]. intros Hin. apply in_app_or in Hin as [?|[?|[]]]; auto; discriminate.
      + destruct (dw_file s) eqn:F; [congruence|]. simpl. split; [discriminate|].
        intros [Hin|Hin]; [apply Hh; left; auto|]. apply in_app_or in Hin as [?|[?|[]]]; try discriminate.
        apply Hh; right; auto.
    - destruct (nth_error (dw_header s) c); [|discriminate]. injection E as <-; auto.
    - injection E as <-; simpl. split; [destruct (dw_file s); discriminate|].
      intros Hin. apply in_app_or in Hin as [?|[?|[]]]; auto; discriminate. }
  destruct X. eapply IH; eauto.
Qed.

Lemma writer_raw_suppresses r os s : dw_run dw_new (DwRaw r :: os) = Some s -> ~ In Header (dw_file s).
Proof.
  simpl. intros H. eapply dw_nonempty; [| |exact H]; simpl; try discriminate. intros [?|[]]; discriminate.
Qed.

Lemma ew_run_some e cs : ew_run (Some e) cs = map (fun c => (fst (fst c), snd (fst c), energy_error (snd c) e)) cs.
Proof. induction cs as [|[[w t] E] cs IH]; simpl; auto. rewrite IH. reflexivity. Qed.

Lemma energy_reference w t E cs :
  ew_run None ((w, t, E) :: cs) =
  map (fun c => (fst (fst c), snd (fst c), Rabs ((snd c - E) / E))) ((w, t, E) :: cs).
Proof. simpl. rewrite ew_run_some. reflexivity. Qed.
