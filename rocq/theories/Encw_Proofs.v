(** Lemmas for C101: the bit arithmetic computes the fields. *)
From Verif Require Import Enc_Model Encw_Model Encw_Spec.
From Coq Require Import ZArith Lia Bool List.
Local Open Scope Z_scope.
Definition fits (x : word) : Prop := Z.of_nat (wc x) < 2 ^ 16 /\ forall i, stk x = Some i -> Z.of_nat i < 65535.
Definition field (e c k : Z) : Z := e * 2 ^ 32 + c * 2 ^ 16 + k.
Definition good (e c k : Z) : Prop := 0 <= e < 2 ^ 32 /\ 0 <= c < 2 ^ 16 /\ 0 <= k < 2 ^ 16.
Lemma enc_field x : enc x = field (Z.of_nat (ep x) mod 2 ^ 32) (Z.of_nat (wc x)) (top (stk x)).
Proof. reflexivity. Qed.
Lemma top_range x : fits x -> 0 <= top (stk x) < 2 ^ 16.
Proof. intros (_ & H). unfold top. destruct (stk x) as [i|]; [specialize (H i eq_refl)|]; lia. Qed.
Lemma enc_good x : fits x -> good (Z.of_nat (ep x) mod 2 ^ 32) (Z.of_nat (wc x)) (top (stk x)).
Proof. intros F. pose proof (top_range x F). destruct F. split; [apply Z.mod_pos_bound; lia|lia]. Qed.
Lemma f_stack e c k : good e c k -> Z.land (field e c k) kStackMask = k.
Proof. intros (He & Hc & Hk). change kStackMask with (Z.ones 16). rewrite Z.land_ones by lia. unfold field. replace (e * 2 ^ 32 + c * 2 ^ 16 + k) with (k + (e * 2 ^ 16 + c) * 2 ^ 16) by lia. rewrite Z.mod_add by lia. apply Z.mod_small; lia. Qed.
Lemma f_shr e c k : good e c k -> Z.shiftr (field e c k) 16 = e * 2 ^ 16 + c.
Proof. intros (He & Hc & Hk). rewrite Z.shiftr_div_pow2 by lia. unfold field. replace (e * 2 ^ 32 + c * 2 ^ 16 + k) with (k + (e * 2 ^ 16 + c) * 2 ^ 16) by lia. rewrite Z.div_add by lia. rewrite Z.div_small by lia. lia. Qed.
Lemma f_waiters e c k : good e c k -> Z.land (field e c k) kWaiterMask = c * 2 ^ 16.
Proof.
  intros G. change kWaiterMask with (Z.shiftl (Z.ones 16) 16).
  assert (Q : Z.land (field e c k) (Z.shiftl (Z.ones 16) 16) = Z.shiftl (Z.land (Z.shiftr (field e c k) 16) (Z.ones 16)) 16).
  { apply Z.bits_inj'. intros i Hi. rewrite Z.land_spec, !Z.shiftl_spec by lia. destruct (Z.ltb_spec i 16) as [L|L]; [rewrite !(Z.testbit_neg_r _ (i - 16)) by lia; apply andb_false_r|]. rewrite Z.land_spec, Z.shiftr_spec by lia. f_equal. f_equal. lia. }
  rewrite Q, f_shr by auto. destruct G as (He & Hc & Hk). rewrite Z.land_ones by lia. replace (e * 2 ^ 16 + c) with (c + e * 2 ^ 16) by lia. rewrite Z.mod_add, Z.mod_small by lia. apply Z.shiftl_mul_pow2. lia.
Qed.
Lemma f_epoch e c k : good e c k -> Z.land (field e c k) kEpochMask = e * 2 ^ 32.
Proof.
  intros G. change kEpochMask with (Z.shiftl (Z.ones 32) 32).
  assert (Q : Z.land (field e c k) (Z.shiftl (Z.ones 32) 32) = Z.shiftl (Z.land (Z.shiftr (field e c k) 32) (Z.ones 32)) 32).
  { apply Z.bits_inj'. intros i Hi. rewrite Z.land_spec, !Z.shiftl_spec by lia. destruct (Z.ltb_spec i 32) as [L|L]; [rewrite !(Z.testbit_neg_r _ (i - 32)) by lia; apply andb_false_r|]. rewrite Z.land_spec, Z.shiftr_spec by lia. f_equal. f_equal. lia. }
  destruct G as (He & Hc & Hk). rewrite Q, Z.shiftr_div_pow2 by lia. unfold field. replace (e * 2 ^ 32 + c * 2 ^ 16 + k) with (c * 2 ^ 16 + k + e * 2 ^ 32) by lia. rewrite Z.div_add, Z.div_small by lia. rewrite Z.land_ones, Z.mod_small by lia. apply Z.shiftl_mul_pow2. lia.
Qed.
Lemma u64_add a b : u64 (u64 a + b) = u64 (a + b).
Proof. unfold u64. apply Z.add_mod_idemp_l. lia. Qed.
Lemma u64_sub a b : u64 (u64 a - b) = u64 (a - b).
Proof. unfold u64. apply Zminus_mod_idemp_l. Qed.
(** An epoch reduced modulo 2^32 in the upper half is a multiple of 2^32 modulo 2^64. *)
Lemma u64_epoch e r : 0 <= r < 2 ^ 32 -> u64 (e * 2 ^ 32 + r) = e mod 2 ^ 32 * 2 ^ 32 + r.
Proof.
  intros Hr. unfold u64. pose proof (Z.mod_pos_bound e (2 ^ 32) ltac:(lia)). pose proof (Z.div_mod e (2 ^ 32) ltac:(lia)) as D.
  replace (e * 2 ^ 32 + r) with (e mod 2 ^ 32 * 2 ^ 32 + r + e / 2 ^ 32 * 2 ^ 64) by nia. rewrite Z.mod_add by lia. apply Z.mod_small. nia.
Qed.
Lemma mod_S e : (e mod 2 ^ 32 + 1) mod 2 ^ 32 = (e + 1) mod 2 ^ 32.
Proof. apply Z.add_mod_idemp_l. lia. Qed.
Lemma word_init n : 0 <= n < 65535 -> b_init n = enc (mkW (Z.to_nat (2 ^ 32 - 1 - 2 * n)) 0 None).
Proof.
  intros Hn. unfold b_init, enc. cbn [ep wc stk top]. rewrite Z2Nat.id by lia. assert (Q : u64 (kEpochMask - u64 (u64 (kEpochInc * n) * 2)) = (2 ^ 32 - 1 - 2 * n) * 2 ^ 32).
  { change kEpochMask with ((2 ^ 32 - 1) * 2 ^ 32). change kEpochInc with (2 ^ 32). unfold u64. rewrite Z.mul_mod_idemp_l by lia. rewrite Zminus_mod_idemp_r. rewrite Z.mod_small by lia. lia. }
  rewrite Q, (Z.mod_small (2 ^ 32 - 1 - 2 * n)) by lia. change kStackMask with 65535. rewrite <- Z.lxor_lor, <- Z.add_nocarry_lxor; [lia| |];
  (change 65535 with (Z.ones 16); rewrite Z.land_comm, Z.land_ones by lia; replace ((2 ^ 32 - 1 - 2 * n) * 2 ^ 32) with ((2 ^ 32 - 1 - 2 * n) * 2 ^ 16 * 2 ^ 16) by lia; apply Z.mod_mul; lia).
Qed.
Lemma word_prepare x : fits x -> Z.of_nat (wc x) + 1 < 2 ^ 16 -> b_prepare (enc x) = enc (mkW (ep x) (S (wc x)) (stk x)).
Proof.
  intros F L. pose proof (enc_good x F) as (He & Hc & Hk). unfold b_prepare, enc. cbn [ep wc stk]. change kWaiterInc with (2 ^ 16). unfold u64. rewrite Z.mod_small by lia. lia.
Qed.
Lemma word_epoch x : fits x -> b_epoch (enc x) = Z.of_nat (ep x + wc x) mod 2 ^ 32 * 2 ^ 32.
Proof.
  intros F. pose proof (enc_good x F) as G. unfold b_epoch. rewrite enc_field, f_epoch, f_waiters by auto. rewrite Z.shiftr_div_pow2, Z.div_mul, Z.shiftl_mul_pow2 by lia. rewrite <- Z.mul_add_distr_r. pose proof (u64_epoch (Z.of_nat (ep x) mod 2 ^ 32 + Z.of_nat (wc x)) 0 ltac:(lia)) as Q. rewrite !Z.add_0_r in Q. rewrite Q. rewrite Z.add_mod_idemp_l by lia. now rewrite Nat2Z.inj_add.
Qed.
Lemma word_diff x t : fits x -> - 2 ^ 31 <= Z.of_nat (ep x) - Z.of_nat t < 2 ^ 31 -> b_diff (enc x) (Z.of_nat t mod 2 ^ 32 * 2 ^ 32) = (Z.of_nat (ep x) - Z.of_nat t) * 2 ^ 32.
Proof.
  intros F B. pose proof (enc_good x F) as G. unfold b_diff. rewrite enc_field, f_epoch by auto. rewrite <- Z.mul_sub_distr_r. pose proof (u64_epoch (Z.of_nat (ep x) mod 2 ^ 32 - Z.of_nat t mod 2 ^ 32) 0 ltac:(lia)) as Q. rewrite !Z.add_0_r in Q. rewrite Q. rewrite Zminus_mod_idemp_l, Zminus_mod_idemp_r.
  set (d := Z.of_nat (ep x) - Z.of_nat t) in *. unfold i64. destruct (Z.ltb_spec d 0) as [N|N].
  - replace (d mod 2 ^ 32) with (d + 2 ^ 32); [destruct (Z.ltb_spec ((d + 2 ^ 32) * 2 ^ 32) (2 ^ 63)); lia|]. symmetry. replace d with (d + 2 ^ 32 + (-1) * 2 ^ 32) at 1 by lia. rewrite Z.mod_add by lia. apply Z.mod_small. lia.
  - rewrite Z.mod_small by lia. destruct (Z.ltb_spec (d * 2 ^ 32) (2 ^ 63)); lia.
Qed.
Lemma word_some x : fits x -> b_some (enc x) = negb (wc x =? 0)%nat.
Proof. intros F. pose proof (enc_good x F) as G. unfold b_some. rewrite enc_field, f_waiters by auto. f_equal. destruct (Z.eqb_spec (Z.of_nat (wc x) * 2 ^ 16) 0), (Nat.eqb_spec (wc x) 0); auto; lia. Qed.
Lemma word_cancel x : fits x -> wc x <> O -> b_cancel (enc x) = enc (mkW (S (ep x)) (wc x - 1) (stk x)).
Proof.
  intros F N. pose proof (enc_good x F) as (He & Hc & Hk). unfold b_cancel. rewrite u64_add. unfold enc. cbn [ep wc stk]. change kWaiterInc with (2 ^ 16). change kEpochInc with (2 ^ 32).
  replace (Z.of_nat (ep x) mod 2 ^ 32 * 2 ^ 32 + Z.of_nat (wc x) * 2 ^ 16 + top (stk x) - 2 ^ 16 + 2 ^ 32) with ((Z.of_nat (ep x) mod 2 ^ 32 + 1) * 2 ^ 32 + ((Z.of_nat (wc x) - 1) * 2 ^ 16 + top (stk x))) by lia. rewrite u64_epoch by lia. rewrite mod_S. rewrite Nat2Z.inj_succ, Nat2Z.inj_sub by lia. lia.
Qed.
Lemma word_one x : fits x -> wc x <> O -> b_one (enc x) = enc (mkW (S (ep x)) (wc x - 1) (stk x)).
Proof. intros F N. rewrite <- word_cancel by auto. unfold b_one, b_cancel. rewrite u64_add, u64_sub. f_equal. lia. Qed.
Lemma word_commit x i : fits x -> wc x <> O -> Z.of_nat i < 65535 -> b_commit (enc x) (Z.of_nat i) = enc (mkW (S (ep x)) (wc x - 1) (Some i)).
Proof.
  intros F N Hi. unfold b_commit. pose proof (word_cancel x F N) as Q. unfold b_cancel in Q. rewrite Q. clear Q.
  assert (F' : fits (mkW (S (ep x)) (wc x - 1) (stk x))) by (destruct F; split; cbn [wc stk]; [lia|auto]). pose proof (enc_good _ F') as (He & Hc & Hk). cbn [ep wc stk] in *. set (y := enc (mkW (S (ep x)) (wc x - 1) (stk x))).
  assert (Y : y = (Z.of_nat (S (ep x)) mod 2 ^ 32 * 2 ^ 16 + Z.of_nat (wc x - 1)) * 2 ^ 16 + top (stk x)) by (unfold y, enc; cbn [ep wc stk]; lia).
  assert (M : Z.land y (Z.lxor kStackMask (Z.shiftl 1 64 - 1)) = (Z.of_nat (S (ep x)) mod 2 ^ 32 * 2 ^ 16 + Z.of_nat (wc x - 1)) * 2 ^ 16).
  { change (Z.lxor kStackMask (Z.shiftl 1 64 - 1)) with (Z.shiftl (Z.ones 48) 16).
    assert (Q : Z.land y (Z.shiftl (Z.ones 48) 16) = Z.shiftl (Z.land (Z.shiftr y 16) (Z.ones 48)) 16).
    { apply Z.bits_inj'. intros j Hj. rewrite Z.land_spec, !Z.shiftl_spec by lia. destruct (Z.ltb_spec j 16) as [L|L]; [rewrite !(Z.testbit_neg_r _ (j - 16)) by lia; apply andb_false_r|]. rewrite Z.land_spec, Z.shiftr_spec by lia. f_equal. f_equal. lia. }
    rewrite Q, Z.shiftr_div_pow2 by lia. rewrite Y, Z.add_comm, Z.div_add, Z.div_small by lia. rewrite Z.land_ones, Z.mod_small by lia. rewrite Z.shiftl_mul_pow2 by lia. lia. }
  rewrite M. unfold enc. cbn [ep wc stk top]. set (h := Z.of_nat (S (ep x)) mod 2 ^ 32 * 2 ^ 16 + Z.of_nat (wc x - 1)) in *.
  assert (D : Z.land (h * 2 ^ 16) (Z.of_nat i) = 0).
  { apply Z.bits_inj'. intros j Hj. rewrite Z.land_spec, Z.bits_0. destruct (Z.ltb_spec j 16) as [L|L]; [rewrite Z.mul_pow2_bits_low by lia; reflexivity|]. destruct (Z.eq_dec (Z.of_nat i) 0) as [->|Ni]; [rewrite Z.bits_0; apply andb_false_r|]. rewrite (Z.bits_above_log2 (Z.of_nat i)); [apply andb_false_r|lia|]. apply Z.lt_le_trans with 16; [|lia]. apply Z.log2_lt_pow2; lia. }
  rewrite <- Z.lxor_lor, <- Z.add_nocarry_lxor by exact D. unfold h. lia.
Qed.
Lemma word_top x : fits x -> b_top (enc x) = option_map Z.of_nat (stk x).
Proof. intros F. pose proof (enc_good x F) as G. unfold b_top. rewrite enc_field, f_stack by auto. change kStackMask with 65535. unfold top. destruct (stk x) as [i|] eqn:E; cbn [option_map]; auto. destruct F as (_ & F). specialize (F i E). destruct (Z.eqb_spec (Z.of_nat i) 65535); [lia|auto]. Qed.
Lemma word_empty x : fits x -> b_empty (enc x) = empty x.
Proof.
  intros F. pose proof (enc_good x F) as G. unfold b_empty, empty. rewrite enc_field, f_stack, f_waiters by auto. change kStackMask with 65535. unfold top. destruct (stk x) as [i|] eqn:E.
  - destruct F as (_ & F). specialize (F i E). destruct (Z.eqb_spec (Z.of_nat i) 65535); [lia|auto].
  - rewrite Z.eqb_refl. cbn [andb]. destruct (Z.eqb_spec (Z.of_nat (wc x) * 2 ^ 16) 0), (Nat.eqb_spec (wc x) 0); auto; lia.
Qed.
Lemma word_waiters x : fits x -> b_waiters (enc x) = Z.of_nat (wc x).
Proof. intros F. pose proof (enc_good x F) as G. unfold b_waiters. rewrite enc_field, f_waiters by auto. rewrite Z.shiftr_div_pow2, Z.div_mul by lia. auto. Qed.
Lemma word_all x : fits x -> b_all (enc x) = enc (mkW (ep x + wc x) 0 None).
Proof.
  intros F. pose proof (enc_good x F) as G. unfold b_all. rewrite word_waiters by auto. rewrite enc_field, f_epoch by auto. rewrite u64_add. change kEpochInc with (2 ^ 32). change kStackMask with 65535. unfold enc. cbn [ep wc stk top].
  unfold u64 at 2. replace (Z.of_nat (ep x) mod 2 ^ 32 * 2 ^ 32 + (2 ^ 32 * Z.of_nat (wc x)) mod 2 ^ 64 + 65535) with ((2 ^ 32 * Z.of_nat (wc x)) mod 2 ^ 64 + (Z.of_nat (ep x) mod 2 ^ 32 * 2 ^ 32 + 65535)) by lia. fold (u64 (2 ^ 32 * Z.of_nat (wc x))). rewrite u64_add.
  replace (2 ^ 32 * Z.of_nat (wc x) + (Z.of_nat (ep x) mod 2 ^ 32 * 2 ^ 32 + 65535)) with ((Z.of_nat (ep x) mod 2 ^ 32 + Z.of_nat (wc x)) * 2 ^ 32 + 65535) by lia. rewrite u64_epoch by lia. rewrite Z.add_mod_idemp_l by lia. rewrite Nat2Z.inj_add. lia.
Qed.
Lemma word_pop x nx : fits x -> (forall i, nx = Some i -> Z.of_nat i < 65535) -> b_pop (enc x) (option_map Z.of_nat nx) = enc (mkW (ep x) 0 nx).
Proof.
  intros F H. pose proof (enc_good x F) as G. unfold b_pop. rewrite enc_field, f_epoch by auto. destruct G as (He & _ & _). change kStackMask with 65535. unfold enc. cbn [ep wc stk]. unfold u64. destruct nx as [i|]; cbn [option_map top]; [specialize (H i eq_refl)|]; rewrite Z.mod_small by lia; lia.
Qed.
(** Half a cycle behind. *)
Lemma word_wrap x t : fits x -> Z.of_nat (ep x) = Z.of_nat t + 2 ^ 31 -> b_diff (enc x) (tick64 t) < 0.
Proof.
  intros F B. pose proof (enc_good x F) as G. unfold b_diff, tick64. rewrite enc_field, f_epoch by auto. rewrite <- Z.mul_sub_distr_r. pose proof (u64_epoch (Z.of_nat (ep x) mod 2 ^ 32 - Z.of_nat t mod 2 ^ 32) 0 ltac:(lia)) as Q. rewrite !Z.add_0_r in Q. rewrite Q. rewrite Zminus_mod_idemp_l, Zminus_mod_idemp_r.
  replace (Z.of_nat (ep x) - Z.of_nat t) with (2 ^ 31) by lia. reflexivity.
Qed.
