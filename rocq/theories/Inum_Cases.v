(** C99: a pow correctly rounded on finite numbers is tame and grows; the default safe guards. *)
From Verif Require Import Inum_Model Inum_Spec Inum_Proofs Inum_Props Inum_Props2 Ibis_Proofs Ibis_Proofs2 Ikah_Proofs2 Ieee_Proofs Ieee_Proofs2 Ieee_Proofs3 Ieee_Props2 Kahan_Proofs Islice_Spec Islice_Proofs Islice_Proofs2 Ianom_Proofs3 Ianom_Cases.
From Coq Require Import Lra Lia Bool Arith.
Open Scope R_scope.
Section P.
Context {prec emax : Z} { prec_gt_0_ : Prec_gt_0 prec } { prec_lt_emax_ : Prec_lt_emax prec emax }.
Hypothesis Hp : (1 < prec)%Z.
Notation fl := (binary_float prec emax).
Notation rne := (Ieee_Spec.rne prec emax).
Notation L := (least prec emax).
Notation fmt := (Kahan_Model.fmt L prec).
Notation fin a := (is_finite a = true).
Definition rpow (x y : fl) : fl := if Req_EM_T (B2R y) 0 then ione else match x with
  | B754_nan | B754_infinity true => B754_nan
  | B754_infinity false => B754_infinity false
  | B754_zero _ => izero
  | B754_finite _ _ _ _ => if Rlt_dec (B2R x) 0 then B754_nan else of_real (Rpower (B2R x) (B2R y))
  end.
Lemma of_real_key z : 0 <= z -> is_nan (of_real z : fl) = false /\ key (of_real z : fl) = Rmin (rne z) (bpow radix2 emax).
Proof.
  intros P. destruct (of_real_spec (prec:=prec) (emax:=emax) z) as (A & B). pose proof (rne_nonneg (prec:=prec) (emax:=emax) z P) as R0. destruct (Rlt_or_le (rne z) (bpow radix2 emax)) as [H|H].
  - destruct A as (F & V); [rewrite Rabs_right; lra|]. split; [apply finite_not_nan; exact F|]. rewrite (proj1 (key_fin _ F)), V, Rmin_left; lra.
  - rewrite (B H). split; [reflexivity|]. cbn [key]. rewrite Rmin_right; lra.
Qed.
Lemma Rpower_pos x y : 0 < Rpower x y. Proof. apply exp_pos. Qed.
(** Positive bases. *)
Lemma rpow_pos (x y : fl) : is_nan x = false -> 0 < key x -> 0 < B2R y -> is_nan (rpow x y) = false /\ (x = B754_infinity false /\ rpow x y = B754_infinity false \/ fin x /\ 0 < B2R x /\ key (rpow x y) = Rmin (rne (Rpower (B2R x) (B2R y))) (bpow radix2 emax)).
Proof.
  intros N K Y. destruct (pos_cases x N K) as [(F & V)| ->].
  - assert (E : rpow x y = of_real (Rpower (B2R x) (B2R y))).
    { unfold rpow. destruct (Req_EM_T (B2R y) 0) as [Z|_]; [lra|]. destruct x as [s|s| |s m e B]; try discriminate F; [cbn in V; lra|]. destruct (Rlt_dec _ 0) as [Z|_]; [lra|reflexivity]. }
    rewrite E. destruct (of_real_key (Rpower (B2R x) (B2R y))) as (A & B); [apply Rlt_le, Rpower_pos|]. split; auto.
  - unfold rpow. destruct (Req_EM_T (B2R y) 0) as [Z|_]; [lra|]. split; auto.
Qed.
Lemma rpow_one (x y : fl) : B2R y = 0 -> rpow x y = ione.
Proof. intros Y. unfold rpow. destruct (Req_EM_T (B2R y) 0); [reflexivity|congruence]. Qed.
Lemma rpow_zero s (y : fl) : 0 < B2R y -> rpow (B754_zero s) y = izero.
Proof. intros Y. unfold rpow. destruct (Req_EM_T (B2R y) 0); [lra|reflexivity]. Qed.
Lemma rne_one : rne 1 = 1.
Proof. destruct (one_val (prec:=prec) (emax:=emax)) as (F1 & V1). rewrite <- V1. apply rne_id. Qed.
Lemma rpow_low (x y : fl) : leq izero x -> proper y -> leq izero (rpow x y) /\ (leq x ione -> leq (rpow x y) ione) /\ (leq ione x -> leq ione (rpow x y)).
Proof.
  intros X (Fy & Y). assert (O : 1 < bpow radix2 emax) by (change 1 with (bpow radix2 0); apply bpow_lt; pose proof (dims (prec:=prec) (emax:=emax)); lia). apply leqk in X. rewrite zero_key in X. destruct X as (_ & N & K). destruct (Rle_lt_or_eq_dec _ _ Y) as [P|Z].
  - destruct (Rle_lt_or_eq_dec _ _ K) as [Q|Q].
    + destruct (rpow_pos x y N Q P) as (Nr & [(-> & E)|(F & V & E)]).
      * rewrite E. split; [apply leqk; cbn [key]; rewrite zero_key; auto with real|]. split; intros H; apply leqk in H; destruct H as (_ & _ & H); cbn [key] in H; rewrite one_key in H; [lra|]. apply leqk. cbn [key]. rewrite one_key. split; [apply one_nan|]. auto.
      * pose proof (Rpower_pos (B2R x) (B2R y)) as Pp. split; [apply leqk; rewrite zero_key, E; split; auto; split; auto; pose proof (rne_nonneg (prec:=prec) (emax:=emax) _ (Rlt_le _ _ Pp)); unfold Rmin; destruct (Rle_dec _ _); lra|].
        split; intros H; apply leqk in H; destruct H as (_ & _ & H); rewrite one_key, (proj1 (key_fin x F)) in H; apply leqk; rewrite one_key, E.
        -- split; auto. split; [apply one_nan|]. assert (Q1 : Rpower (B2R x) (B2R y) <= 1). { replace 1 with (Rpower 1 (B2R y)) by (unfold Rpower; rewrite ln_1, Rmult_0_r; apply exp_0). apply Rle_Rpower_l; lra. }
           pose proof (rne_le (prec:=prec) (emax:=emax) _ _ Q1) as R. rewrite rne_one in R. unfold Rmin. destruct (Rle_dec _ _); lra.
        -- split; [apply one_nan|]. split; auto. assert (Q1 : 1 <= Rpower (B2R x) (B2R y)). { replace 1 with (Rpower 1 (B2R y)) by (unfold Rpower; rewrite ln_1, Rmult_0_r; apply exp_0). apply Rle_Rpower_l; lra. }
           pose proof (rne_le (prec:=prec) (emax:=emax) _ _ Q1) as R. rewrite rne_one in R. unfold Rmin. destruct (Rle_dec _ _); lra.
    + destruct (zero_cases x N (eq_sym Q)) as (s & ->). rewrite rpow_zero by exact P. split; [apply leqk; rewrite zero_key; split; auto; split; auto; lra|]. split; intros H; apply leqk in H; destruct H as (_ & _ & H); cbn [key B2R] in H; rewrite one_key in H; [|lra]. apply leqk. rewrite zero_key, one_key. split; auto. split; [apply one_nan|lra].
  - rewrite rpow_one by auto. split; [apply leqk; rewrite zero_key, one_key; split; auto; split; [apply one_nan|lra]|]. assert (leq (ione : fl) ione) by (apply leqk; split; [apply one_nan|]; split; [apply one_nan|lra]). auto.
Qed.
Theorem C99_tame_pow : tame rpow /\ grows rpow.
Proof.
  split.
  - constructor.
    + intros y _ P. unfold rpow. destruct (Req_EM_T (B2R y) 0); [lra|reflexivity].
    + intros x y _ Z. apply rpow_one. exact Z.
    + intros s y _ P. rewrite rpow_zero by exact P. split; reflexivity.
    + intros x y X1 X2 Y. destruct (rpow_low x y X1 Y) as (A & B & _). auto.
    + intros x y X1 Y. assert (X0 : leq izero x). { apply leqk in X1. rewrite one_key in X1. apply leqk. rewrite zero_key. split; auto. split; [apply X1|lra]. } destruct (rpow_low x y X0 Y) as (_ & _ & A). auto.
  - intros x x' y X Le Y. pose proof Y as (Fy & Y0). destruct (rpow_low x y X Y) as (A & _). assert (X' : leq izero x'). { apply leqk in X. apply leqk in Le. rewrite zero_key in X. apply leqk. rewrite zero_key. split; auto. split; [apply Le|lra]. } destruct (rpow_low x' y X' Y) as (A' & _).
    apply leqk in X. apply leqk in Le. apply leqk in A. apply leqk in A'. rewrite zero_key in *. destruct X as (_ & N & K), Le as (_ & N' & Le), A as (_ & Na & A), A' as (_ & Na' & A'). apply leqk. split; auto. split; auto.
    destruct (Rle_lt_or_eq_dec _ _ Y0) as [P|Z]; [|rewrite !rpow_one by auto; lra]. destruct (Rle_lt_or_eq_dec _ _ K) as [Q|Q].
    + destruct (rpow_pos x' y N') as (_ & [(-> & E)|(F & V & E)]); [lra|exact P| |].
      * rewrite E. destruct (rpow_pos x y N Q P) as (_ & [(-> & E')|(F & V & E')]); [rewrite E'; lra|]. rewrite E'. cbn [key]. apply Rmin_r.
      * destruct (rpow_pos x y N Q P) as (_ & [(-> & E')|(F' & V' & E')]).
        -- cbn [key] in Le. destruct (key_fin x' F) as (Kx & Bx). rewrite Kx in Le. lra.
        -- rewrite E, E'. rewrite (proj1 (key_fin x F')), (proj1 (key_fin x' F)) in Le. assert (Q1 : Rpower (B2R x) (B2R y) <= Rpower (B2R x') (B2R y)) by (apply Rle_Rpower_l; lra).
           pose proof (rne_le (prec:=prec) (emax:=emax) _ _ Q1). unfold Rmin. repeat destruct (Rle_dec _ _); lra.
    + destruct (zero_cases x N (eq_sym Q)) as (s & ->). rewrite (rpow_zero s y P). rewrite zero_key. exact A'.
Qed.
End P.
(** The doubles 0.65, 0.95, 0.02 and 4.0. *)
#[local] Instance p53 : Prec_gt_0 53 := eq_refl.
#[local] Instance p53' : Prec_lt_emax 53 1024 := eq_refl.
Definition d065 : binary_float 53 1024 := @B754_finite 53 1024 false 5854679515581645 (-53) eq_refl.
Definition d095 : binary_float 53 1024 := @B754_finite 53 1024 false 8556839292003942 (-53) eq_refl.
Definition d002 : binary_float 53 1024 := @B754_finite 53 1024 false 5764607523034235 (-58) eq_refl.
Definition d4 : binary_float 53 1024 := @B754_finite 53 1024 false 4503599627370496 (-50) eq_refl.
Example C99_case : guards d065 d095 d002 d4 /\ (Z.of_nat 49 <= 2 ^ 53)%Z /\ leq (izero : binary_float 53 1024) d4.
Proof.
  split; [|split; [lia|left; reflexivity]]. unfold guards, d065, d095, d002, d4. cbn [is_finite B2R]. unfold F2R. cbn [Fnum Fexp cond_Zopp bpow Z.pow_pos Pos.iter]. repeat (split; [reflexivity|]). change (radix_val radix2) with 2%Z.
  repeat split; cbn [Z.mul Pos.mul]; lra.
Qed.
Print Assumptions C99_tame_pow.
