(** C94: TimeSlice on IEEE 754 numbers. *)
From Verif Require Import Slice_Model Slice_Proofs Ieee_Proofs Ieee_Proofs2 Ieee_Proofs3 Ieee_Props2 Kahan_Proofs Fchain_Proofs2 Fsim_Proofs4 Islice_Model Islice_Spec Islice_Proofs Islice_Proofs2.
From Coq Require Import Lra Lia.
Open Scope R_scope.
Section C94.
Context {prec emax : Z} { prec_gt_0_ : Prec_gt_0 prec } { prec_lt_emax_ : Prec_lt_emax prec emax }.
Notation fl := (binary_float prec emax).
Notation u := (unit_roundoff prec).

(** The rule, for every start, end, number of slots and list of call times (NaN and infinities included): the k-th slot is obtained by repeated
    addition; after k outputs the next call at time t makes an output iff slot k <= t <= end (false as soon as one of the three is NaN); the i-th output is
    made at one of the call times, not before the i-th slot and not after the end. *)
Theorem C94_rule (st en : fl) n ts l s : it_calls (it_make st en n) ts = (l, s) ->
  (forall t, fst (it_call s t) = true <-> leq (slot st (idiv (isub en st) (of_nat n)) (length l)) t /\ leq t en) /\
  forall i t, nth_error l i = Some t -> leq (slot st (idiv (isub en st) (of_nat n)) i) t /\ leq t en /\ In t ts.
Proof.
  intros H. destruct (calls_spec ts _ _ _ H) as (A & B & C & D). cbn [it_make it_next it_end it_int] in *. split; [|exact D]. intros t. rewrite call_iff, A, B. tauto.
Qed.
(** Time, start or end NaN: no output. *)
Theorem C94_nan (st en : fl) n ts l s : it_calls (it_make st en n) ts = (l, s) ->
  (forall t, In t l -> is_nan t = false) /\ (is_nan st = true \/ is_nan en = true -> l = []).
Proof.
  intros H. destruct (C94_rule st en n ts l s H) as (_ & D). split.
  - intros t Ht. destruct (In_nth_error _ _ Ht) as (i & Hi). destruct (D i t Hi) as (D1 & D2 & _). apply (leq_nan _ _ D2).
  - intros N. destruct l as [|t l]; auto. exfalso. destruct (D 0%nat t eq_refl) as (D1 & D2 & _). destruct (leq_nan _ _ D1) as (A & _). destruct (leq_nan _ _ D2) as (_ & B).
    cbn [slot] in A. destruct N; congruence.
Qed.
(** opt_num = 0 (a division by zero, defined for IEEE numbers): at most one output, whatever the call times. *)
Theorem C94_zero_number (st en : fl) ts l s : is_finite st = true -> is_finite en = true -> it_calls (it_make st en 0) ts = (l, s) -> (length l <= 1)%nat.
Proof.
  intros Fs Fe H. destruct (calls_spec ts _ _ _ H) as (_ & _ & _ & D). cbn [it_make it_next it_end it_int] in D. destruct l as [|a [|b l]]; cbn [length]; try lia. exfalso.
  destruct (D 0%nat a eq_refl) as (A1 & A2 & _). destruct (D 1%nat b eq_refl) as (B1 & B2 & _). cbn [slot] in *. exact (zero_interval st en a Fs Fe A1 A2 b B1 B2).
Qed.
(** Accuracy of the slots: B bounds |start| and |end| (no overflow), the interval is not in the underflow range, n <= 2^prec.  After k outputs a call at
    time t <= end makes an output if t is not before the exact slot start + k (end - start)/n by more than k rounding errors of the size of B (plus four
    intervals), and makes none if t is earlier than that exact slot by more than the same amount; the i-th output is not earlier than the i-th exact slot by
    more than i such errors. *)
Theorem C94_accurate (st en : fl) n B ts l s : (2 <= prec)%Z -> is_finite st = true -> is_finite en = true -> (0 < n)%nat -> (Z.of_nat n <= 2 ^ prec)%Z ->
  Rabs (B2R st) <= B -> Rabs (B2R en) <= B -> B <= bpow radix2 (emax - 3) -> bpow radix2 (least prec emax + prec) * INR n <= B2R en - B2R st ->
  it_calls (it_make st en n) ts = (l, s) ->
  let v := (B2R en - B2R st) / INR n in let e := u * (B + 4 * v) in
  (forall t, is_finite t = true -> B2R t <= B2R en -> B2R st + INR (length l) * v + INR (length l) * e <= B2R t -> fst (it_call s t) = true) /\
  (forall t, fst (it_call s t) = true -> is_finite t = true /\ B2R st + INR (length l) * v - INR (length l) * e <= B2R t <= B2R en) /\
  (forall i t, nth_error l i = Some t -> is_finite t = true /\ B2R st + INR i * v - INR i * e <= B2R t <= B2R en).
Proof.
  intros Hp Fs Fe Hn Hn2 Bs Be Bm Hw H v e. destruct (calls_spec ts _ _ _ H) as (A & Bd & _ & D). change (it_next (it_make st en n)) with st in *. change (it_end (it_make st en n)) with en in *.
  set (int := it_int (it_make st en n)) in *.
  assert (DR : forall k, (k <= length l)%nat -> is_finite (slot st int k) = true /\ Rabs (B2R (slot st int k) - (B2R st + INR k * v)) <= INR k * e /\ B2R st <= B2R (slot st int k)).
  { intros k Hk. apply (drift st en n B); auto. intros j Hj. destruct (nth_error l j) as [t|] eqn:E; [|apply nth_error_None in E; lia]. destruct (D j t E) as (D1 & D2 & _). exists t. auto. }
  assert (X : forall k t, (k <= length l)%nat -> leq (slot st int k) t -> leq t en -> is_finite t = true /\ B2R st + INR k * v - INR k * e <= B2R t <= B2R en).
  { intros k t Hk L1 L2. destruct (DR k Hk) as (F & E & _). destruct (leq_fin _ _ _ F Fe L1 L2) as (Ft & T). split; auto. apply Rabs_le_inv in E. lra. }
  split; [|split].
  - intros t Ft T1 T2. apply call_iff. rewrite A, Bd. destruct (DR (length l) (le_n _)) as (F & E & _). apply Rabs_le_inv in E. split; apply leq_iff; auto. lra.
  - intros t Ht. apply call_iff in Ht. rewrite A, Bd in Ht. destruct Ht as (Ht1 & Ht2). exact (X (length l) t (le_n _) Ht1 Ht2).
  - intros i t Ht. destruct (D i t Ht) as (D1 & D2 & _). apply X; auto. apply Nat.lt_le_incl. apply nth_error_Some. congruence.
Qed.
(** While n+1 of these errors are less than an interval there are at most n+1 outputs. *)
Theorem C94_bound (st en : fl) n B ts l s : (2 <= prec)%Z -> is_finite st = true -> is_finite en = true -> (0 < n)%nat -> (Z.of_nat n <= 2 ^ prec)%Z ->
  Rabs (B2R st) <= B -> Rabs (B2R en) <= B -> B <= bpow radix2 (emax - 3) -> bpow radix2 (least prec emax + prec) * INR n <= B2R en - B2R st ->
  (INR n + 1) * (u * (B + 4 * ((B2R en - B2R st) / INR n))) < (B2R en - B2R st) / INR n ->
  it_calls (it_make st en n) ts = (l, s) -> (length l <= n + 1)%nat.
Proof.
  intros Hp Fs Fe Hn Hn2 Bs Be Bm Hw Hs H. destruct (C94_accurate st en n B ts l s Hp Fs Fe Hn Hn2 Bs Be Bm Hw H) as (_ & _ & D).
  destruct (Nat.le_gt_cases (length l) (n + 1)) as [|G]; auto. exfalso. destruct (nth_error l (n + 1)) as [t|] eqn:E; [|apply nth_error_None in E; lia].
  destruct (D _ _ E) as (_ & D1). assert (Nn : 1 <= INR n) by (apply (le_INR 1); lia). rewrite plus_INR in D1. change (INR 1) with 1 in D1.
  replace (B2R en) with (B2R st + INR n * ((B2R en - B2R st) / INR n)) in D1 at 3 by (field; lra). lra.
Qed.
(** Start, end and interval multiples of one power of two, with at most [prec] bits: every output is made by exactly the call that the TimeSlice in exact
    arithmetic would choose (C12 then applies), for all finite call times. *)
Theorem C94_exact (st en : fl) (a b c g : Z) n ts : (least prec emax <= g)%Z -> (g + prec < emax)%Z -> (0 < n)%nat -> (Z.of_nat n <= 2 ^ prec)%Z -> (0 <= c)%Z ->
  is_finite st = true -> is_finite en = true -> B2R st = IZR a * bpow radix2 g -> B2R en = IZR b * bpow radix2 g -> (b - a = Z.of_nat n * c)%Z ->
  (Z.abs a <= 2 ^ prec)%Z -> (Z.abs b + c <= 2 ^ prec)%Z -> (b - a <= 2 ^ prec)%Z -> (forall t, In t ts -> is_finite t = true) ->
  map B2R (fst (it_calls (it_make st en n) ts)) = fst (ts_calls (ts_make (B2R st) (B2R en) n) (map B2R ts)).
Proof.
  intros Hg Hg2 Hn Hn2 Hc Fs Fe Ea Eb Hd Ha Hb Hba Ht. pose proof (bpow_gt_0 radix2 g) as G0. assert (Nn : 1 <= INR n) by (apply (le_INR 1); lia).
  assert (GR : forall m, (Z.abs m <= 2 ^ prec)%Z -> rne prec emax (IZR m * bpow radix2 g) = IZR m * bpow radix2 g /\ Rabs (rne prec emax (IZR m * bpow radix2 g)) < bpow radix2 emax).
  { intros m Hm. assert (E : rne prec emax (IZR m * bpow radix2 g) = IZR m * bpow radix2 g) by (unfold Ieee_Spec.rne; apply rnd_id; apply (fmt_grid (least prec emax) prec m g); auto).
    split; auto. rewrite E, Rabs_mult, <- abs_IZR, (Rabs_pos_eq (bpow radix2 g)) by lra. pose proof (prec_gt_0 prec) as P0.
    apply Rle_lt_trans with (bpow radix2 prec * bpow radix2 g); [|rewrite <- bpow_plus; apply bpow_lt; lia].
    apply Rmult_le_compat_r; [lra|]. rewrite <- IZR_Zpower by lia. apply IZR_le. exact Hm. }
  destruct (GR (b - a)%Z) as (G1 & G2); [nia|]. destruct (cr_sub en st Fe Fs) as (C & _). rewrite Ea, Eb in C. replace (IZR b * bpow radix2 g - IZR a * bpow radix2 g) with (IZR (b - a) * bpow radix2 g) in C by (rewrite minus_IZR; ring).
  destruct (C G2) as (Fd & Ed). rewrite G1 in Ed. destruct (@of_nat_int prec emax _ _ n Hn2) as (Fn & En). rewrite <- INR_IZR_INZ in En. assert (NZ : B2R (of_nat n : fl) <> 0) by lra.
  destruct (cr_div (isub en st) (of_nat n) Fd Fn NZ) as (C2 & _). rewrite Ed, En in C2.
  assert (Q : IZR (b - a) * bpow radix2 g / INR n = IZR c * bpow radix2 g) by (rewrite Hd, mult_IZR, <- INR_IZR_INZ; field; lra). rewrite Q in C2.
  destruct (GR c) as (G3 & G4); [lia|]. destruct (C2 G4) as (Fi & Ei). rewrite G3 in Ei. clear C C2 G1 G2 G3 G4.
  assert (VI : (B2R en - B2R st) / INR n = IZR c * bpow radix2 g) by (rewrite Ea, Eb, <- Q, minus_IZR; field; lra).
  unfold it_make, ts_make. rewrite VI. set (int := idiv (isub en st) (of_nat n)) in *. clearbody int.
  assert (K : forall ts x m, (forall t, In t ts -> is_finite t = true) -> is_finite x = true -> B2R x = IZR m * bpow radix2 g -> (Z.abs m <= 2 ^ prec)%Z ->
    map B2R (fst (it_calls (mkIT x en int) ts)) = fst (ts_calls (mkTS (B2R x) (B2R en) (IZR c * bpow radix2 g)) (map B2R ts))).
  { clear Ht ts. induction ts as [|t ts IH]; intros x m Ht Fx Ex Hm; [reflexivity|]. assert (Ft : is_finite t = true) by (apply Ht; left; auto).
    assert (Ht' : forall r, In r ts -> is_finite r = true) by (intros; apply Ht; right; auto).
    cbn [map it_calls ts_calls]. pose proof (call_iff (mkIT x en int) t) as CI. cbn [it_next it_end] in CI. rewrite (leq_iff x t Fx Ft), (leq_iff t en Ft Fe) in CI.
    unfold it_call, ts_call in *. cbn [it_next it_end it_int ts_next ts_end ts_int] in *. destruct (Rle_dec (B2R x) (B2R t)) as [L1|L1]; [destruct (Rle_dec (B2R t) (B2R en)) as [L2|L2]|].
    - destruct (ige t x && ile t en) eqn:E; [|cbn in CI; exfalso; destruct CI as (_ & CI); discriminate CI; auto].
      assert (Lm : (m <= b)%Z). { apply le_IZR. apply Rmult_le_reg_r with (bpow radix2 g); auto. rewrite <- Ex, <- Eb. lra. }
      destruct (GR (m + c)%Z) as (G1 & G2); [lia|]. destruct (cr_add x int Fx Fi) as (C & _). rewrite Ex, Ei in C. replace (IZR m * bpow radix2 g + IZR c * bpow radix2 g) with (IZR (m + c) * bpow radix2 g) in C by (rewrite plus_IZR; ring).
      destruct (C G2) as (Fa & Va). rewrite G1 in Va. specialize (IH (iadd x int) (m + c)%Z Ht' Fa Va ltac:(lia)).
      replace (B2R x + IZR c * bpow radix2 g) with (B2R (iadd x int)) by (rewrite Va, Ex, plus_IZR; ring).
      destruct (it_calls (mkIT (iadd x int) en int) ts) as [l1 s1]. destruct (ts_calls _ (map B2R ts)) as [l2 s2]. cbn [fst map] in *. congruence.
    - destruct (ige t x && ile t en) eqn:E; [cbn in CI; exfalso; destruct CI as (CI & _); destruct (CI eq_refl); contradiction|].
      specialize (IH x m Ht' Fx Ex Hm). destruct (it_calls (mkIT x en int) ts) as [l1 s1]. destruct (ts_calls _ (map B2R ts)) as [l2 s2]. exact IH.
    - destruct (ige t x && ile t en) eqn:E; [cbn in CI; exfalso; destruct CI as (CI & _); destruct (CI eq_refl); contradiction|].
      specialize (IH x m Ht' Fx Ex Hm). destruct (it_calls (mkIT x en int) ts) as [l1 s1]. destruct (ts_calls _ (map B2R ts)) as [l2 s2]. exact IH. }
  apply (K ts st a); auto.
Qed.
(** An interval below a quarter of the spacing of the numbers at the start is lost in the addition: every call between start and end makes an output,
    however many there are. *)
Theorem C94_stuck (st en : fl) n ts : is_finite st = true -> 0 < B2R st -> is_finite (it_int (it_make st en n)) = true ->
  4 * Rabs (B2R (it_int (it_make st en n))) < u * B2R st -> (forall t, In t ts -> leq st t /\ leq t en) -> fst (it_calls (it_make st en n) ts) = ts.
Proof.
  intros Fs Ps Fi Hi Ht. cbn [it_make it_int] in *. set (int := idiv (isub en st) (of_nat n)) in *.
  assert (A : iadd st int = st).
  { assert (V : rne prec emax (B2R st + B2R int) = B2R st).
    { unfold Ieee_Spec.rne. apply absorbed; auto; [apply B2R_fmt|]. apply Rlt_le_trans with (1 := Hi). rewrite ulp_neq_0 by lra. unfold cexp.
      pose proof (bpow_mag_gt radix2 (B2R st)) as M. rewrite Rabs_pos_eq in M by lra.
      apply Rle_trans with (bpow radix2 (- prec + mag radix2 (B2R st))); [|apply bpow_le; unfold FLT_exp; lia].
      rewrite bpow_plus. apply Rmult_le_compat_l; [apply bpow_ge_0|lra]. }
    destruct (cr_add st int Fs Fi) as (C & _). rewrite V in C. destruct C as (F & E); [apply abs_B2R_lt_emax|].
    assert (NZ : B2R st <> 0) by lra. apply B2R_inj; auto.
    - destruct (iadd st int) as [z|z| |z m e0 Hb]; try discriminate; auto.
    - destruct st as [z|z| |z m e0 Hb]; try discriminate; auto. }
  unfold it_make. fold int. clearbody int. clear Hi Fi. induction ts as [|t ts IH]; [reflexivity|]. cbn [it_calls]. destruct (it_call (mkIT st en int) t) as [bb s1] eqn:E.
  pose proof (call_iff (mkIT st en int) t) as CI. rewrite E in CI. cbn [fst it_next it_end] in CI. assert (bb = true) by (apply CI; apply Ht; left; auto). subst bb.
  unfold it_call in E. cbn [it_next it_end it_int] in E. rewrite A in E. destruct (ige t st && ile t en); [|discriminate]. injection E as <-.
  specialize (IH ltac:(intros; apply Ht; right; auto)). destruct (it_calls (mkIT st en int) ts) as [l1 s2]. cbn [fst] in *. congruence.
Qed.
(** reset_slice_params: nothing of the past remains. *)
Theorem C94_reset (s : islice prec emax) (st en : fl) n ts : it_calls (it_reset s st en n) ts = it_calls (it_make st en n) ts.
Proof. reflexivity. Qed.
End C94.
Print Assumptions C94_rule. Print Assumptions C94_nan. Print Assumptions C94_zero_number. Print Assumptions C94_accurate. Print Assumptions C94_bound.
Print Assumptions C94_exact. Print Assumptions C94_stuck. Print Assumptions C94_reset.

(** * Doubles *)
#[local] Instance p53i : Prec_gt_0 53 := eq_refl.
#[local] Instance e1024i : Prec_lt_emax 53 1024 := eq_refl.
Notation fl64 := (binary_float 53 1024).
Definition t0 : fl64 := B754_zero false.
Definition t100 : fl64 := (@B754_finite 53 1024 false 7036874417766400 (-46) eq_refl).
(** Six slots from 0 to 100: calls at the six slots 0, 16.67, .. 83.33 and at 100.  The slots are served, but the sixth addition of the rounded
    interval gives 100.00000000000001, and the call at 100 makes no output, nor does any later one: n+1 outputs, the last at the end, are not always made. *)
Definition six_times : list fl64 := [(B754_zero false : fl64); (@B754_finite 53 1024 false 4691249611844267 (-48) eq_refl); (@B754_finite 53 1024 false 4691249611844267 (-47) eq_refl); (@B754_finite 53 1024 false 7036874417766400 (-47) eq_refl); (@B754_finite 53 1024 false 4691249611844267 (-46) eq_refl); (@B754_finite 53 1024 false 5864062014805334 (-46) eq_refl); t100].
Theorem C94_end_output_refuted : fst (it_calls (it_make t0 t100 6) six_times) = firstn 6 six_times /\
  forall t, fst (it_call (snd (it_calls (it_make t0 t100 6) six_times)) t) = false.
Proof.
  assert (E : it_next (snd (it_calls (it_make t0 t100 6) six_times)) = (@B754_finite 53 1024 false 7036874417766401 (-46) eq_refl) /\ it_end (snd (it_calls (it_make t0 t100 6) six_times)) = t100).
  { split; apply B2SF_inj; vm_compute; reflexivity. }
  split; [vm_compute; reflexivity|]. intros t. destruct (fst (it_call (snd (it_calls (it_make t0 t100 6) six_times)) t)) eqn:F; auto. exfalso.
  apply call_iff in F. destruct E as (E1 & E2). rewrite E1, E2 in F. destruct F as (F1 & F2). set (x := (@B754_finite 53 1024 false 7036874417766401 (-46) eq_refl) : fl64) in *.
  assert (Fx : is_finite x = true) by reflexivity. assert (F100 : is_finite t100 = true) by reflexivity. destruct (leq_fin _ _ _ Fx F100 F1 F2) as (_ & L1 & L2).
  assert (C : Bcompare x t100 = Some Gt) by (vm_compute; reflexivity). rewrite (Bcompare_correct 53 1024 x t100 Fx F100) in C. assert (C' : Rcompare (B2R x) (B2R t100) = Gt) by congruence. apply Rcompare_Gt_inv in C'. clearbody x. lra.
Qed.
(** From 2^53 to 2^53 + 6 in 25 slots: every call in that interval makes an output, so there is no bound on the number of outputs. *)
Definition t2p53 : fl64 := (@B754_finite 53 1024 false 4503599627370496 (1) eq_refl).
Definition t2p53e : fl64 := (@B754_finite 53 1024 false 4503599627370499 (1) eq_refl).
Theorem C94_bound_refuted m : length (fst (it_calls (it_make t2p53 t2p53e 25) (repeat t2p53e m))) = m.
Proof.
  assert (I : it_int (it_make t2p53 t2p53e 25) = (@B754_finite 53 1024 false 8646911284551352 (-55) eq_refl)) by (apply B2SF_inj; vm_compute; reflexivity).
  rewrite C94_stuck; [apply repeat_length|reflexivity| | | |].
  - cbn. unfold F2R. cbn. lra.
  - rewrite I. reflexivity.
  - rewrite I. unfold unit_roundoff. cbn [B2R t2p53]. unfold F2R. cbn [Fnum Fexp cond_Zopp]. rewrite Rabs_pos_eq by (cbn; lra). cbn. lra.
  - intros t Ht. apply repeat_spec in Ht. subst t. split; [left|right]; vm_compute; reflexivity.
Qed.
(** The hypotheses of C94_accurate and C94_bound are met: 0 to 100 in six slots. *)
Lemma t100_val : B2R t100 = 100.
Proof. cbn [B2R t100]. unfold F2R. cbn. lra. Qed.
Lemma eta_small : bpow radix2 (least 53 1024 + 53) <= 1.
Proof. change 1 with (bpow radix2 0). apply bpow_le. unfold least. lia. Qed.
Example C94_case ts l s : it_calls (it_make t0 t100 6) ts = (l, s) -> (length l <= 7)%nat.
Proof.
  pose proof t100_val as V. pose proof eta_small as H1. assert (V0 : B2R t0 = 0) by reflexivity. assert (N : INR 6 = 6) by (cbn; lra).
  apply (C94_bound t0 t100 6 100); try reflexivity; try lia; rewrite ?V, ?V0, ?N.
  - rewrite Rabs_R0. lra.
  - rewrite Rabs_pos_eq; lra.
  - apply Rle_trans with (bpow radix2 7); [cbn; lra|]. apply bpow_le. lia.
  - lra.
  - unfold unit_roundoff. cbn. lra.
Qed.
(** The hypotheses of C94_exact are met: 0 to 100 in four slots, served at the first call at or after 0, 25, 50, 75, 100. *)
Example C94_exact_case ts : (forall t, In t ts -> is_finite t = true) ->
  map B2R (fst (it_calls (it_make t0 t100 4) ts)) = fst (ts_calls (ts_make 0 100 4) (map B2R ts)).
Proof.
  intros H. assert (V0 : B2R t0 = 0) by reflexivity. rewrite <- t100_val at 1. rewrite <- V0 at 1. apply (C94_exact t0 t100 0 100 25 0 4 ts); try reflexivity; try lia; auto; try (cbn; lia).
  - cbn. lra.
  - rewrite t100_val. cbn. lra.
Qed.
(** One output when opt_num is 0, none afterwards. *)
Example C94_zero_case : fst (it_calls (it_make t0 t100 0) [t0; t0; t100; t100]) = [t0].
Proof. vm_compute. reflexivity. Qed.
Print Assumptions C94_end_output_refuted. Print Assumptions C94_bound_refuted.
