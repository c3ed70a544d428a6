(** Properties C35-C37 on the special values of binary64: infinite, zero and NaN errors. *)
From Verif Require Import Ctrl_Model Ctrl_Spec Ctrl_Proofs Ctrl_Props.
From Coq Require Import Psatz.
Open Scope R_scope.

(** * The ordering and the arithmetic of special values follow IEEE 754 *)
(** The place of a value on the extended line; NaN has none. *)
Definition place (a : ext) : option (Z * R) :=
  match a with NaN => None | MInf => Some ((-1)%Z, 0) | PInf => Some (1%Z, 0) | Fin r => Some (0%Z, r) end.
Definition line_lt (p q : Z * R) : Prop := (fst p < fst q)%Z \/ fst p = fst q /\ snd p < snd q.
Theorem C36_comparisons a b :
  (egt a b = true <-> exists p q, place a = Some p /\ place b = Some q /\ line_lt q p) /\
  (ele a b = true <-> exists p q, place a = Some p /\ place b = Some q /\ ~ line_lt q p).
Proof.
  assert (G : egt a b = true <-> exists p q, place a = Some p /\ place b = Some q /\ line_lt q p).
  { destruct a as [x| | |], b as [y| | |]; cbn [egt place];
      try (split; [discriminate|intros (p & q & A & B & _); discriminate]);
      try (split; [intros _; do 2 eexists; split; [reflexivity|]; split; [reflexivity|]; left; cbn; lia|intros _; reflexivity]);
      try (split; [discriminate|intros (p & q & A & B & L); exfalso; injection A as <-; injection B as <-; destruct L as [L|[L _]]; cbn in L; lia]);
      try (split; [discriminate|intros (p & q & A & B & L); exfalso; injection A as <-; injection B as <-; destruct L as [L|[_ L]]; cbn in L; [lia|lra]]).
    split.
    - intros E. destruct (rgtb_spec x y) as [L|]; [|discriminate]. do 2 eexists. split; [reflexivity|]. split; [reflexivity|]. right. cbn. auto.
    - intros (p & q & A & B & L). injection A as <-. injection B as <-. destruct L as [L|[_ L]]; cbn in L; [lia|]. destruct (rgtb_spec x y); [reflexivity|lra]. }
  split; [exact G|]. unfold ele.
  destruct (place a) as [p|] eqn:Pa; [destruct (place b) as [q|] eqn:Pb|].
  - assert (X : (match a, b with NaN, _ | _, NaN => false | _, _ => negb (egt a b) end) = negb (egt a b)) by (destruct a, b; try reflexivity; discriminate).
    rewrite X. destruct (egt a b) eqn:E; cbn [negb].
    + split; [discriminate|]. intros (p' & q' & A & B & N). destruct (proj1 G eq_refl) as (p2 & q2 & A2 & B2 & L). exfalso. apply N. congruence.
    + split; [|reflexivity]. intros _. exists p, q. split; [reflexivity|]. split; [reflexivity|]. intros L. assert (false = true) by (apply G; exists p, q; auto). discriminate.
  - split; [destruct a, b; discriminate|intros (p' & q' & A & B & _); discriminate].
  - split; [destruct a, b; discriminate|intros (p' & q' & A & B & _); discriminate].
Qed.
(** Division by zero gives the infinity of the sign of the dividend, zero over zero NaN, a finite value over an
    infinite one zero, and an infinite value over a finite one the infinity of the product of the signs. *)
Theorem C36_division : (forall x, 0 < x -> ediv (Fin x) (Fin 0) = PInf) /\ (forall x, x < 0 -> ediv (Fin x) (Fin 0) = MInf) /\ ediv (Fin 0) (Fin 0) = NaN /\
  (forall x, ediv (Fin x) PInf = Fin 0 /\ ediv (Fin x) MInf = Fin 0) /\ (forall y, 0 <= y -> ediv PInf (Fin y) = PInf /\ ediv MInf (Fin y) = MInf) /\
  (forall y, y < 0 -> ediv PInf (Fin y) = MInf /\ ediv MInf (Fin y) = PInf) /\ (forall x y, y <> 0 -> ediv (Fin x) (Fin y) = Fin (x / y)) /\
  (forall a, ediv NaN a = NaN /\ ediv a NaN = NaN).
Proof.
  repeat split; intros; cbn [ediv]; try reflexivity; try (destruct a; reflexivity);
    repeat match goal with |- context [Req_EM_T ?a ?b] => destruct (Req_EM_T a b) | |- context [Rlt_dec ?a ?b] => destruct (Rlt_dec a b) end; try lra; try reflexivity;
    unfold esgn; repeat match goal with |- context [Rlt_dec ?a ?b] => destruct (Rlt_dec a b) end; try lra; reflexivity.
Qed.

(** * C35: infinite errors shorten the step as much as the limiter allows *)
Lemma zero_clamp n : clamp (low_factor n) (high_factor n) 0 = low_factor n.
Proof. destruct (factors n) as (A & B & C). unfold clamp, Rmax, Rmin. repeat destruct (Rle_dec _ _); lra. Qed.
Theorem C35_infinite_error l n : (1 <= n < 50)%nat -> next_with_limiter (configured l) n (Err1 PInf) = Ok (Fin (low_factor n)).
Proof.
  intros H. destruct (nlim_ok l n (Err1 PInf) ltac:(lia)) as (v & E & ->). cbn [next nonzero] in E. rewrite exp_get in E by auto. cbn [obind ediv] in E.
  destruct (expon_range n ltac:(lia)) as [X _]. unfold epow in E. destruct (Req_EM_T (1 / INR n) 0); [lra|]. destruct (Rlt_dec 0 0); [lra|]. destruct (Req_EM_T 0 0); [|lra].
  destruct (Rlt_dec 0 (1 / INR n)); [|lra]. cbn [emul] in E. rewrite Rmult_0_r in E. injection E as <-. rewrite in_range_fin by apply factors_le. rewrite zero_clamp. reflexivity.
Qed.
(** With two errors and positive coefficients: an infinite new error gives the lower limit when the old one is finite; a vanished old error
    the lower limit; an infinite old error the upper limit; two infinite ones NaN. *)
Theorem C35_special_pairs l n s1 s2 kp ki e0 e1 : (1 <= n < 50)%nat -> guards l = (s1, s2) -> coefs l = (kp, ki) -> 0 < kp -> 0 < ki -> 0 < s1 -> 0 < s2 -> 0 < e0 -> 0 < e1 ->
  next_with_limiter (configured l) n (Err2 PInf (Fin e1)) = Ok (Fin (low_factor n)) /\
  next_with_limiter (configured l) n (Err2 (Fin e0) (Fin 0)) = Ok (Fin (low_factor n)) /\
  next_with_limiter (configured l) n (Err2 (Fin e0) PInf) = Ok (Fin (high_factor n)) /\
  next_with_limiter (configured l) n (Err2 PInf PInf) = Ok NaN.
Proof.
  intros H G Cf Hkp Hki Hs1 Hs He0 He1.
  rewrite <- guards_ok in G. assert (G1 : c_s1 (configured l) = s1) by congruence. assert (G2 : c_s2 (configured l) = s2) by congruence.
  rewrite <- coefs_ok in Cf. assert (C1 : c_kp (configured l) = kp) by congruence. assert (C2 : c_ki (configured l) = ki) by congruence.
  destruct (expon_range n ltac:(lia)) as [X _].
  assert (V : forall a b, nonzero a = true -> next (configured l) n (Err2 a b) = Ok (emul (emul (Fin s1) (epow (ediv (Fin s2) a) (kp * (1 / INR n)))) (epow (ediv b (Fin s2)) (ki * (1 / INR n))))).
  { intros a b N. cbn [next]. rewrite N, exp_get by auto. cbn [obind]. rewrite G1, G2, C1, C2. reflexivity. }
  set (x := 1 / INR n) in *. assert (K : 0 < kp * x) by nra. assert (K' : 0 < ki * x) by nra.
  assert (P0 : forall y, 0 < y -> epow (Fin 0) y = Fin 0).
  { intros y Hy. unfold epow. destruct (Req_EM_T y 0); [lra|]. destruct (Rlt_dec 0 0); [lra|]. destruct (Req_EM_T 0 0); [|lra]. destruct (Rlt_dec 0 y); [auto|lra]. }
  assert (PP : forall z y, 0 < z -> 0 < y -> epow (Fin z) y = Fin (Rpower z y)).
  { intros z y Hz Hy. unfold epow. destruct (Req_EM_T y 0); [lra|]. destruct (Rlt_dec 0 z); [auto|lra]. }
  assert (PI : forall y, 0 < y -> epow PInf y = PInf).
  { intros y Hy. unfold epow. destruct (Req_EM_T y 0); [lra|]. destruct (Rlt_dec 0 y); [auto|lra]. }
  assert (D : forall a, ediv (Fin a) (Fin s2) = Fin (a / s2)) by (intros a; unfold ediv; destruct (Req_EM_T s2 0); [lra|auto]).
  assert (D' : ediv (Fin s2) (Fin e0) = Fin (s2 / e0)) by (unfold ediv; destruct (Req_EM_T e0 0); [lra|auto]).
  assert (DI : ediv PInf (Fin s2) = PInf) by (unfold ediv; destruct (Rlt_dec s2 0); [lra|auto]).
  assert (Q0 : 0 < s2 / e0) by (apply Rdiv_lt_0_compat; auto). assert (Q1 : 0 < e1 / s2) by (apply Rdiv_lt_0_compat; auto).
  assert (N0 : nonzero (Fin e0) = true) by (cbn; destruct (Req_EM_T e0 0); [lra|auto]).
  repeat split.
  - destruct (nlim_ok l n (Err2 PInf (Fin e1)) ltac:(lia)) as (v & E & ->). rewrite V in E by auto. cbn [ediv] in E. fold (ediv (Fin e1) (Fin s2)) in E. rewrite D, P0, PP in E by auto.
    cbn [emul] in E. rewrite Rmult_0_r, Rmult_0_l in E. injection E as <-. rewrite in_range_fin by apply factors_le. rewrite zero_clamp. reflexivity.
  - destruct (nlim_ok l n (Err2 (Fin e0) (Fin 0)) ltac:(lia)) as (v & E & ->). rewrite V in E by auto. rewrite D, D' in E. replace (0 / s2) with 0 in E by (unfold Rdiv; ring). rewrite P0, PP in E by auto.
    cbn [emul] in E. rewrite Rmult_0_r in E. injection E as <-. rewrite in_range_fin by apply factors_le. rewrite zero_clamp. reflexivity.
  - destruct (nlim_ok l n (Err2 (Fin e0) PInf) ltac:(lia)) as (v & E & ->). rewrite V in E by auto. rewrite DI, D', PI, PP in E by auto.
    cbn [emul] in E. assert (0 < s1 * Rpower (s2 / e0) (kp * x)) by (apply Rmult_lt_0_compat; [auto|apply exp_pos]). unfold esgn in E. destruct (Rlt_dec 0 _); [|lra]. injection E as <-.
    unfold in_range. cbn [egt]. reflexivity.
  - destruct (nlim_ok l n (Err2 PInf PInf) ltac:(lia)) as (v & E & ->). rewrite V in E by auto. rewrite DI, PI in E by auto. cbn [ediv] in E. rewrite P0 in E by auto.
    cbn [emul] in E. rewrite Rmult_0_r in E. unfold esgn in E. destruct (Rlt_dec 0 0); [lra|]. injection E as <-. apply f_equal, in_range_nan.
Qed.
(** * C37: a NaN error estimate never ends the refinement *)
Theorem C37_nan_never_converges order i i' e t : e = NaN -> ele (scaled_error order i i' e) (Fin t) = false.
Proof. intros ->. unfold scaled_error. cbn. reflexivity. Qed.
Example C35_example_infinite : next_with_limiter (configured [SetGuards 0.7 1]) 7 (Err1 PInf) = Ok (Fin (Rpower 0.02 (1 / INR 7) / 4)).
Proof. apply (C35_infinite_error [SetGuards 0.7 1] 7). lia. Qed.
Example C35_example_pairs : guards [SetPID 0.7 0.4 0] = (0.65, 0.95) /\ coefs [SetPID 0.7 0.4 0] = (0.7, 0.4) /\ 0 < 0.7 /\ 0 < 0.4 /\ 0 < 0.65 /\ 0 < 0.95.
Proof. repeat split; lra. Qed.
Print Assumptions C36_comparisons. Print Assumptions C36_division. Print Assumptions C35_infinite_error. Print Assumptions C35_special_pairs. Print Assumptions C37_nan_never_converges.
