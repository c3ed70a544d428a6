From Coq Require Import Reals ZArith List Lra Lia.
From Flocq Require Import Core.
From Verif Require Import Disk_Tables Disk_Model Disk_Proofs Disk64_Model.
Open Scope R_scope.
Lemma r64_to z e n : mag radix2 z = (e + 53)%Z :> Z -> (-1074 <= e)%Z ->
  Rabs (z * bpow radix2 (- e) - IZR n) < 1 / 2 -> r64 z = IZR n * bpow radix2 e.
Proof.
  intros Hm He H. unfold r64, round, F2R, scaled_mantissa, cexp; simpl.
  rewrite Hm. unfold FLT_exp. rewrite Z.max_l by lia.
  replace (e + 53 - 53)%Z with e by lia.
  rewrite (Znearest_imp _ _ n); auto. lra.
Qed.
Lemma is64_F (m e : Z) : (Z.abs m < 2 ^ 53)%Z -> (-1074 <= e)%Z -> is64 (IZR m * bpow radix2 e).
Proof.
  intros H He. apply generic_format_FLT. exists (Float radix2 m e); auto.
Qed.
Lemma r64_id x : is64 x -> r64 x = x. Proof. intros H. apply round_generic; auto. apply valid_rnd_N. Qed.
Lemma b53 : bpow radix2 (-53) = / IZR (2 ^ 53). Proof. reflexivity. Qed.
Lemma lit0 : lit64 0 = -1.
Proof.
  unfold lit64. replace (nth 0 t_lgM 0) with (IZR (-1) * bpow radix2 0).
  - rewrite r64_id; [simpl; lra|]. apply is64_F; [lia|lia].
  - change (nth 0 t_lgM 0) with (IZR (-1000000000000000000) / 10 ^ 18). simpl. field.
Qed.
Lemma lit1 : lit64 1 = IZR (-8871412331302686) * bpow radix2 (-53).
Proof.
  unfold lit64. apply r64_to; [|lia|].
  - change (nth 1 t_lgM 0) with (IZR (-984924623115577900) / 10 ^ 18). apply mag_unique. rewrite Rabs_left by (simpl; lra). simpl. lra.
  - change (nth 1 t_lgM 0) with (IZR (-984924623115577900) / 10 ^ 18). simpl. apply Rabs_def1; lra.
Qed.
Definition witness64 : R := 2 - bpow radix2 (-52).
Lemma wit_is : is64 witness64.
Proof. replace witness64 with (IZR 9007199254740991 * bpow radix2 (-52)); [apply is64_F; lia|]. unfold witness64. simpl. lra. Qed.
Lemma wit_index : (199 <= index64 witness64)%Z.
Proof.
  unfold index64. rewrite lit0, lit1.
  replace (IZR (-8871412331302686) * bpow radix2 (-53) - -1) with (IZR 135786923438306 * bpow radix2 (-53)) by (simpl; lra).
  rewrite (r64_id (IZR 135786923438306 * bpow radix2 (-53))) by (apply is64_F; lia).
  set (st := IZR 135786923438306 * bpow radix2 (-53)).
  assert (A : IZR 6755399441055743 * bpow radix2 (-51) <= r64 (witness64 - -1)).
  { apply round_ge_generic; [apply FLT_exp_valid; red; lia|apply valid_rnd_N|apply is64_F; lia|]. unfold witness64. simpl. lra. }
  assert (Hst : 0 < st) by (unfold st; simpl; lra).
  assert (B : 199 <= r64 (r64 (witness64 - -1) / st)).
  { apply round_ge_generic; [apply FLT_exp_valid; red; lia|apply valid_rnd_N| |].
    - replace 199 with (IZR 199 * bpow radix2 0) by (simpl; lra). apply is64_F; lia.
    - apply (Rmult_le_reg_r st); auto. unfold Rdiv. rewrite Rmult_assoc, Rinv_l by lra. eapply Rle_trans; [|rewrite Rmult_1_r; exact A]. unfold st. simpl. lra. }
  set (q := r64 (r64 (witness64 - -1) / st)) in *. unfold trunc. destruct (Rle_dec 0 q); [|lra].
  destruct (base_Int_part q) as (C & D). apply Z.lt_succ_r, lt_IZR. rewrite succ_IZR. lra.
Qed.
