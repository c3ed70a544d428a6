(** Bounds on pi to 20 decimals (Machin-like series of the standard library). *)
From Coq Require Import Reals Lra Machin QArith Qreals Lia.
Open Scope R_scope.
(** Term n of the series, over Q. *)
Definition qterm (n : nat) : Q := Qred ((if Nat.even n then 1 else -1) * (2 * (1 # (Pos.pow 3 (Pos.of_nat (2 * n + 1)))) + (1 # (Pos.pow 7 (Pos.of_nat (2 * n + 1))))) * (1 # Pos.of_nat (2 * n + 1))).
Fixpoint qsum (n : nat) : Q := match n with O => qterm 0 | S k => Qred (qsum k + qterm (S k)) end.
Lemma q2r_pow p n : (1 <= n)%nat -> Q2R (1 # Pos.pow p (Pos.of_nat n)) = (/ IZR (Zpos p)) ^ n.
Proof.
  intros Hn. unfold Q2R. cbn [Qnum Qden]. rewrite Rmult_1_l, pow_inv by (apply not_0_IZR; discriminate). f_equal.
  rewrite pow_IZR. f_equal. rewrite Pos2Z.inj_pow. f_equal. lia.
Qed.
Lemma q2r_term n : Q2R (qterm n) = tg_alt PI_2_3_7_tg n.
Proof.
  unfold qterm. rewrite (Qeq_eqR _ _ (Qred_correct _)). rewrite !Q2R_mult, Q2R_plus, Q2R_mult, !q2r_pow by lia.
  unfold tg_alt, PI_2_3_7_tg, Ratan_seq.
  assert (E : Q2R (1 # Pos.of_nat (2 * n + 1)) = / INR (2 * n + 1)).
  { unfold Q2R. cbn [Qnum Qden]. rewrite Rmult_1_l. f_equal. rewrite INR_IZR_INZ. f_equal. lia. }
  rewrite E. assert (S1 : Q2R (if Nat.even n then 1 else -1) = (-1) ^ n).
  { clear. destruct (Nat.even n) eqn:H.
    - apply Nat.even_spec in H. destruct H as (k & ->). rewrite pow_mult. replace ((-1) ^ 2) with 1 by ring. rewrite pow1. unfold Q2R. cbn. field.
    - assert (O : Nat.odd n = true) by (rewrite <- Nat.negb_even, H; reflexivity). apply Nat.odd_spec in O. destruct O as (k & ->). rewrite pow_add, pow_mult. replace ((-1) ^ 2) with 1 by ring. rewrite pow1. unfold Q2R. cbn. field. }
  rewrite S1. assert (S2 : Q2R 2 = 2) by (unfold Q2R; cbn; field). rewrite S2. unfold Rdiv. ring.
Qed.
Lemma q2r_sum n : Q2R (qsum n) = sum_f_R0 (tg_alt PI_2_3_7_tg) n.
Proof. induction n; cbn [qsum sum_f_R0]; [apply q2r_term|]. rewrite (Qeq_eqR _ _ (Qred_correct _)), Q2R_plus, IHn, q2r_term. reflexivity. Qed.
Lemma pi_near : 3.14159265358979323846 < PI < 3.14159265358979323847.
Proof.
  pose proof (PI_2_3_7_ineq 10) as (A & B). rewrite <- q2r_sum in A, B.
  assert (L : (314159265358979323846 # 400000000000000000000 < qsum 21)%Q) by (vm_compute; reflexivity).
  assert (U : (qsum 20 < 314159265358979323847 # 400000000000000000000)%Q) by (vm_compute; reflexivity).
  apply Qlt_Rlt in L. apply Qlt_Rlt in U. change (S (2 * 10)) with 21%nat in A. change (2 * 10)%nat with 20%nat in B.
  unfold Q2R at 1 in L. unfold Q2R at 2 in U. cbn [Qnum Qden] in L, U. lra.
Qed.
