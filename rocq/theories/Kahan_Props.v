(** C38: compensated summation, for every binary precision p, least exponent, tie-breaking rule,
    starting value and sequence of addends of the format. *)
From Verif Require Import Kahan_Model Kahan_Proofs Kahan_Proofs2.
From Coq Require Import Lra Lia.
Open Scope R_scope.

(** Specification vocabulary: the exact sum, the sum of absolute values. *)
Definition exact_sum (l : list R) : R := fold_right Rplus 0 l.
Definition abs_sum (l : list R) : R := fold_right Rplus 0 (map Rabs l).

(** C38.  Kahan +=, addend (after compensation) not larger than the sum: sum minus compensation
    is exactly the old sum plus the compensated addend. *)
Theorem C38_kahan_add_exact : forall emin prec choice, Prec_gt_0 prec -> forall k x,
  fmt emin prec (k_real k) ->
  Rabs (rnd emin prec choice (x - k_err k)) <= Rabs (k_real k) ->
  let k' := k_add emin prec choice k x in
  k_real k' - k_err k' = k_real k + rnd emin prec choice (x - k_err k) /\
  fmt emin prec (k_real k') /\ fmt emin prec (k_err k').
Proof.
  intros emin prec choice Hp k x F H. split; [apply kahan_exact; auto|]. apply k_add_fmt; auto.
Qed.
Print Assumptions C38_kahan_add_exact.

(** C38.  Without that order the low-order part is lost: 1 += 2^(p+2) gives the sum 2^(p+2) with
    compensation 0, in every binary format with p >= 2. *)
Theorem C38_kahan_any_order_refuted : forall emin prec choice, Prec_gt_0 prec ->
  (2 <= prec)%Z -> (emin <= 0)%Z ->
  let big := bpow radix2 (prec + 2) in
  fmt emin prec 1 /\ fmt emin prec big /\
  k_add emin prec choice (k_of 1) big = mkKahan big 0 /\ big - 0 <> 1 + big.
Proof.
  intros emin prec choice Hp H1 H2 big. split; [apply fmt_1; auto|]. split; [apply fmt_bpow; auto; lia|].
  split; [apply kahan_loses; auto|lra].
Qed.
Print Assumptions C38_kahan_any_order_refuted.

(** C38.  Neumaier +=: exact in every case. *)
Theorem C38_neumaier_add_exact : forall emin prec choice, Prec_gt_0 prec -> forall k x,
  fmt emin prec (k_real k) ->
  let k' := n_add emin prec choice k x in
  k_real k' + k_err k' = k_real k + rnd emin prec choice (x + k_err k) /\
  fmt emin prec (k_real k') /\ fmt emin prec (k_err k').
Proof.
  intros emin prec choice Hp k x F. split; [apply neumaier_exact; auto|]. apply n_add_fmt; auto.
Qed.
Print Assumptions C38_neumaier_add_exact.

(** C38.  Klein +=: both stages are exact, only the sum of the two old residuals is rounded. *)
Theorem C38_klein_add_exact : forall emin prec choice, Prec_gt_0 prec -> forall k x,
  fmt emin prec (e_real k) -> fmt emin prec (e_err k) -> fmt emin prec (e_eoe k) -> fmt emin prec x ->
  let k' := e_add emin prec choice k x in
  e_real k' + e_err k' + e_eoe k' = e_real k + x + rnd emin prec choice (e_err k + e_eoe k) /\
  Rabs (e_err k') <= bpow radix2 (- prec) * Rabs (e_real k') /\
  Rabs (e_eoe k') <= bpow radix2 (- prec) * Rabs (x + rnd emin prec choice (e_err k + e_eoe k)).
Proof.
  intros emin prec choice Hp k x F1 F2 F3 Fx. split; [apply klein_exact; auto|].
  apply klein_residual; auto. split; auto.
Qed.
Print Assumptions C38_klein_add_exact.

(** C38.  -= is += of the negated operand, for all three. *)
Theorem C38_subtraction_is_addition : forall emin prec choice k e x,
  k_sub emin prec choice k x = k_add emin prec choice k (- x) /\
  n_sub emin prec choice k x = n_add emin prec choice k (- x) /\
  e_sub emin prec choice e x = e_add emin prec choice e (- x).
Proof. intros. split; [reflexivity|]. split; [reflexivity|]. apply e_sub_add. Qed.
Print Assumptions C38_subtraction_is_addition.

(** C38.  Any sequence of Neumaier additions, starting from a plain number: the stored pair
    differs from the exact sum by first order in the addends only (2^-p times the sum of their
    absolute values), the partial sums [n_partial] enter with 2^-2p; and so the number read off
    is within one rounding of that. *)
Theorem C38_neumaier_sum_error : forall emin prec choice, Prec_gt_0 prec -> forall r l,
  fmt emin prec r -> Forall (fmt emin prec) l ->
  let k := n_sum emin prec choice (k_of r) l in
  let u := bpow radix2 (- prec) in
  Rabs (k_real k + k_err k - (r + exact_sum l)) <=
    u * abs_sum l + u * u * n_partial emin prec choice (k_of r) l /\
  Rabs (k_real k - (r + exact_sum l)) <=
    u * Rabs (k_real k) + u * abs_sum l + u * u * n_partial emin prec choice (k_of r) l.
Proof.
  intros emin prec choice Hp r l Fr Fl k u.
  assert (F0 : kfmt emin prec (k_of r)) by (split; simpl; auto; apply generic_format_0).
  pose proof (neumaier_sum emin prec choice l (k_of r) F0 Fl) as H.
  pose proof (n_losses_bound emin prec choice l (k_of r) Fr) as L.
  assert (H0 : Rabs (k_err (k_of r)) <= Kahan_Proofs.u prec * Rabs (k_real (k_of r))).
  { simpl. rewrite Rabs_R0. pose proof (u_pos prec). pose proof (Rabs_pos r). nra. }
  specialize (L H0). rewrite u_eq in L. fold u in L. simpl in H. rewrite Rplus_0_r in H.
  assert (A : Rabs (k_real k + k_err k - (r + exact_sum l)) <=
    u * abs_sum l + u * u * n_partial emin prec choice (k_of r) l).
  { eapply Rle_trans; [exact H|exact L]. }
  split; auto.
  assert (E : Rabs (k_err k) <= u * Rabs (k_real k)).
  { clear -Hp Fr F0. subst k u. rewrite <- (u_eq prec).
    assert (K : kfmt emin prec (k_of r) /\ Rabs (k_err (k_of r)) <= Kahan_Proofs.u prec * Rabs (k_real (k_of r))).
    { split; auto. simpl. rewrite Rabs_R0. pose proof (u_pos prec). pose proof (Rabs_pos r). nra. }
    revert K. generalize (k_of r). induction l as [|x l IH]; intros k [K1 K2]; simpl; auto.
    apply IH. split; [apply n_add_fmt; auto|]. apply n_err_small; auto. apply K1. }
  replace (k_real k - (r + exact_sum l)) with (- k_err k + (k_real k + k_err k - (r + exact_sum l))) by ring.
  eapply Rle_trans; [apply Rabs_triang|]. rewrite Rabs_Ropp. lra.
Qed.
Print Assumptions C38_neumaier_sum_error.

(** C38.  Any sequence of Kahan additions in which no compensated addend exceeds the running sum
    ([k_ordered]): only the roundings of the compensated addends are lost. *)
Theorem C38_kahan_sum_error : forall emin prec choice, Prec_gt_0 prec -> forall k l,
  fmt emin prec (k_real k) -> fmt emin prec (k_err k) -> Forall (fmt emin prec) l ->
  k_ordered emin prec choice k l ->
  let k' := k_sum emin prec choice k l in
  Rabs (k_real k' - k_err k' - (k_real k - k_err k + exact_sum l)) <= k_losses emin prec choice k l.
Proof. intros emin prec choice Hp k l F1 F2 Fl Ho. apply kahan_sum; auto. split; auto. Qed.
Print Assumptions C38_kahan_sum_error.

(** C38.  Any sequence of Klein additions: only the roundings of the residuals are lost. *)
Theorem C38_klein_sum_error : forall emin prec choice, Prec_gt_0 prec -> forall k l,
  fmt emin prec (e_real k) -> fmt emin prec (e_err k) -> fmt emin prec (e_eoe k) -> Forall (fmt emin prec) l ->
  let k' := e_sum emin prec choice k l in
  Rabs (e_real k' + e_err k' + e_eoe k' - (e_real k + e_err k + e_eoe k + exact_sum l))
    <= e_losses emin prec choice k l.
Proof. intros emin prec choice Hp k l F1 F2 F3 Fl. apply klein_sum; auto. split; auto. Qed.
Print Assumptions C38_klein_sum_error.

(** C38.  *= scales the sum but not its compensation: after the exact accumulation 2^(p+2) += 1
    (value 2^(p+2) + 1), multiplying by 2 yields the value 2^(p+3) + 1. *)
Theorem C38_multiplication_refuted : forall emin prec choice, Prec_gt_0 prec ->
  (2 <= prec)%Z -> (emin <= 0)%Z ->
  let big := bpow radix2 (prec + 2) in
  let k := k_add emin prec choice (k_of big) 1 in
  let k2 := k_mul emin prec choice k 2 in
  k_real k - k_err k = big + 1 /\ k_real k2 - k_err k2 = 2 * big + 1 /\ 2 * big + 1 <> 2 * (big + 1).
Proof.
  intros emin prec choice Hp H1 H2 big k k2. subst k2 k. unfold big.
  rewrite kahan_keeps by auto. change (bpow radix2 (prec + 2)) with (B prec).
  rewrite mul_wrong by auto. simpl. repeat split; lra.
Qed.
Print Assumptions C38_multiplication_refuted.

(** C38.  Reading a Klein number from a stream resets the first residual only: after reading 0
    into a number and adding 0 to it the sum is the old second residual, e.g. 1 for a number that
    held 2^(p+2) + 1 + 2^(p+2). *)
Theorem C38_klein_read_refuted : forall emin prec choice, Prec_gt_0 prec ->
  (2 <= prec)%Z -> (emin <= 0)%Z ->
  (forall k, fmt emin prec (e_eoe k) ->
     e_real (e_add emin prec choice (e_read k 0) 0) = e_eoe k) /\
  let big := bpow radix2 (prec + 2) in
  e_real (e_add emin prec choice
    (e_read (e_sum emin prec choice (e_of big) [1; big]) 0) 0) = 1.
Proof.
  intros emin prec choice Hp H1 H2.
  assert (K : forall k, fmt emin prec (e_eoe k) ->
     e_real (e_add emin prec choice (e_read k 0) 0) = e_eoe k) by (intros; apply klein_stale; auto).
  split; auto. intros big. assert (R1 := klein_reach emin prec choice H1 H2).
  change (e_eoe (e_sum emin prec choice (e_of big) [1; big]) = 1) in R1.
  rewrite K; rewrite R1; auto. apply fmt_1; auto.
Qed.
Print Assumptions C38_klein_read_refuted.

(** binary64 and a non-trivial run meet the hypotheses. *)
Example C38_binary64 : Prec_gt_0 53 /\ (2 <= 53)%Z /\ (-1074 <= 0)%Z.
Proof. repeat split; unfold Prec_gt_0; lia. Qed.
Example C38_case : forall choice, let big := bpow radix2 55 in
  fmt (-1074) 53 big /\ Forall (fmt (-1074) 53) [1; 1] /\
  k_ordered (-1074) 53 choice (k_of big) [1] /\
  k_add (-1074) 53 choice (k_of big) 1 = mkKahan big (-1).
Proof.
  intros choice big. assert (Hp : Prec_gt_0 53) by (unfold Prec_gt_0; lia).
  assert (F1 : fmt (-1074) 53 1) by (apply fmt_1; auto; lia).
  split; [apply fmt_bpow; auto; lia|]. split; [auto|].
  split.
  - simpl. split; auto. rewrite Rminus_0_r, rnd_id by auto.
    rewrite Rabs_R1, Rabs_pos_eq by apply bpow_ge_0. change 1 with (bpow radix2 0). apply bpow_le. lia.
  - apply (kahan_keeps (-1074) 53); auto; lia.
Qed.
