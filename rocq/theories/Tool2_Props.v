(** More on C52: default limits of a parameter and the edges of the power-law generator. *)
From Coq Require Import Lra.
From Verif Require Import Tool_Model Tool_Props.
Open Scope R_scope.

(** A parameter whose limits were never set returns the first value of its distribution between the smallest normal double 2^-1022 and the
    largest one (2 - 2^-52) 2^1023: negative values, zero and subnormal values are dropped. *)
Theorem C52_default_limits s k v k' : draw parameter_new s k v k' <->
  exists n, k' = S n /\ (k <= n)%nat /\ s n = v /\ (forall x, v = Num x -> / 2 ^ 1022 <= x <= (2 - / 2 ^ 52) * 2 ^ 1023) /\
            forall i, (k <= i < n)%nat -> exists x, s i = Num x /\ (x < / 2 ^ 1022 \/ (2 - / 2 ^ 52) * 2 ^ 1023 < x).
Proof. exact (C52_draw_is_first (/ 2 ^ 1022) ((2 - / 2 ^ 52) * 2 ^ 1023) s k v k'). Qed.
(** So a parameter fixed at zero never returns. *)
Corollary C52_fixed_zero_refuted k v k' : ~ draw parameter_new (fun _ => Num 0) k v k'.
Proof. apply C52_default_boundary_refuted. intros n. exists 0. split; [reflexivity|lra]. Qed.
(** Exponents closer to -1 than the machine epsilon use the logarithmic generator, all others the inverse of the power law's distribution function. *)
Theorem C52_power_law_cases power low high u : 0 < low -> 0 < high -> 0 <= u <= 1 ->
  (Rabs (power + 1) < / 2 ^ 52 -> power_law power low high u = exp (u * (ln high - ln low) + ln low)) /\
  (/ 2 ^ 52 <= Rabs (power + 1) -> power_law power low high u =
     exp (ln (u * (exp ((power + 1) * ln high) - exp ((power + 1) * ln low)) + exp ((power + 1) * ln low)) / (power + 1))).
Proof.
  intros L H U. unfold power_law. replace (power - -1) with (power + 1) by lra. change epsilon with (/ 2 ^ 52). split; intros E; destruct (Rlt_dec _ _) as [G|G]; try lra.
  - unfold logarithm. rewrite cpow_pos by lra. unfold Rpower. f_equal. unfold uniform, log10. field. pose proof ln10_pos. lra.
  - assert (Hp : power + 1 <> 0). { intros Z. rewrite Z, Rabs_R0 in E. assert (0 < / 2 ^ 52) by (apply Rinv_0_lt_compat, pow_lt; lra). lra. }
    cbv zeta. rewrite (cpow_pos low), (cpow_pos high) by auto. fold (Rpower low (power + 1)). fold (Rpower high (power + 1)). set (a := Rpower low (power + 1)). set (b := Rpower high (power + 1)).
    assert (Pa : 0 < a) by apply exp_pos. assert (Pb : 0 < b) by apply exp_pos. unfold uniform.
    assert (W : 0 < u * (b - a) + a). { replace (u * (b - a) + a) with (u * b + (1 - u) * a) by ring. destruct (Req_dec u 0) as [->|Nu]; [lra|].
      assert (0 < u * b) by (apply Rmult_lt_0_compat; lra). assert (0 <= (1 - u) * a) by (apply Rmult_le_pos; lra). lra. }
    rewrite cpow_pos by auto. unfold Rpower. f_equal. field. auto.
Qed.
(** A lower limit of zero is allowed for exponents above -1: the value is high * u^(1/(power+1)), and zero for u = 0. *)
Theorem C52_power_law_from_zero power high u : / 2 ^ 52 <= power + 1 -> 0 < high -> 0 <= u <= 1 ->
  (0 < u -> power_law power 0 high u = high * exp (ln u / (power + 1))) /\ (u = 0 -> power_law power 0 high u = 0).
Proof.
  intros E H U. assert (P52 : 0 < / 2 ^ 52) by (apply Rinv_0_lt_compat, pow_lt; lra).
  unfold power_law. replace (power - -1) with (power + 1) by lra. change epsilon with (/ 2 ^ 52). destruct (Rlt_dec _ _) as [G|_]; [rewrite Rabs_pos_eq in G; lra|].
  cbv zeta. assert (Z : cpow 0 (power + 1) = 0) by (unfold cpow; destruct (Rlt_dec 0 0); auto; lra). rewrite Z, (cpow_pos high) by auto. unfold uniform.
  replace (u * (Rpower high (power + 1) - 0) + 0) with (u * Rpower high (power + 1)) by ring. assert (Ph : 0 < Rpower high (power + 1)) by apply exp_pos. split; intros Hu.
  - rewrite cpow_pos by (apply Rmult_lt_0_compat; auto). unfold Rpower at 1. rewrite ln_mult by auto. unfold Rpower at 1. rewrite ln_exp.
    replace (1 / (power + 1) * (ln u + (power + 1) * ln high)) with (ln high + ln u / (power + 1)) by (field; lra). rewrite exp_plus, exp_ln; auto.
  - subst u. rewrite Rmult_0_l. unfold cpow. destruct (Rlt_dec 0 0); auto; lra.
Qed.
Example C52_power_law_from_zero_case : power_law 1 0 2 (1 / 4) = 1.
Proof.
  assert (E1 : / 2 ^ 52 <= 1 + 1). { assert (/ 2 ^ 52 < 1); [|lra]. rewrite <- Rinv_1. apply Rinv_lt_contravar; [rewrite Rmult_1_l; apply pow_lt; lra|]. apply Rlt_pow_R1; [lra|lia]. }
  destruct (C52_power_law_from_zero 1 2 (1/4) E1) as (A & _); [lra|lra|]. rewrite A by lra.
  replace (ln (1 / 4) / (1 + 1)) with (- ln 2). { rewrite exp_Ropp, exp_ln by lra. lra. }
  replace (1 / 4) with (/ (2 * 2)) by lra. rewrite ln_Rinv, ln_mult by lra. field.
Qed.
Print Assumptions C52_default_limits. Print Assumptions C52_fixed_zero_refuted. Print Assumptions C52_power_law_cases. Print Assumptions C52_power_law_from_zero.
