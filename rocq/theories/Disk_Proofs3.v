(** Interpolation below the table. *)
From Verif Require Import Disk_Model Disk_Proofs Disk_Spec Disk_Proofs2.
Open Scope R_scope.

(** Below the first entry the index is truncated towards zero. *)
Section Below.
Variables (dx dy : nat) (X Y : list Z).
Hypothesis Hlen : length Y = length X.
Hypothesis H2 : (2 <= length X)%nat.
Hypothesis Hstep : (nth 0 X 0 < nth 1 X 0)%Z.
Notation xs := (table dx X). Notation ys := (table dy Y).
Lemma interp_below x : x <= entry xs 0 -> interpolate x xs ys = if Rlt_dec (entry xs 0 - gstep xs) x then Ok (segment xs ys 0 x) else UB.
Proof.
  intros Hx. pose proof (gstep_pos dx X Hstep) as SP. unfold interpolate.
  rewrite (aget_entry dx X 0), (aget_entry dx X 1) by lia. cbn [obind]. fold (gstep xs).
  assert (Q : (x - entry xs 0) / gstep xs <= 0). { unfold Rdiv. pose proof (Rinv_0_lt_compat _ SP). nra. }
  destruct (Rlt_dec (entry xs 0 - gstep xs) x) as [L|L].
  - assert (Q1 : -1 < (x - entry xs 0) / gstep xs). { apply (Rmult_lt_reg_r (gstep xs)); auto. unfold Rdiv. rewrite Rmult_assoc, Rinv_l by lra. lra. }
    assert (T : trunc ((x - entry xs 0) / gstep xs) = 0%Z).
    { unfold trunc. destruct (Rle_dec 0 _) as [N|N]; [rewrite (int_part_unique _ 0) by lra; reflexivity|]. rewrite (int_part_unique _ 0) by lra. reflexivity. }
    rewrite T. destruct (Z.ltb_spec 0 0); [lia|]. change (Z.to_nat 0) with 0%nat. cbv zeta. change (0 + 1)%nat with 1%nat.
    rewrite (aget_entry dy Y 0), (aget_entry dy Y 1) by lia. cbn [obind]. rewrite (aget_entry dx X 0), (aget_entry dx X 1) by lia. reflexivity.
  - assert (Q1 : (x - entry xs 0) / gstep xs <= -1). { apply (Rmult_le_reg_r (gstep xs)); auto. unfold Rdiv. rewrite Rmult_assoc, Rinv_l by lra. lra. }
    assert (T : (trunc ((x - entry xs 0) / gstep xs) < 0)%Z).
    { unfold trunc. destruct (Rle_dec 0 _) as [N|N]; [lra|]. set (q := (x - entry xs 0) / gstep xs) in *. destruct (base_Int_part (- q)) as (A & B).
      assert (0 < IZR (Int_part (- q))) by lra. apply lt_IZR in H. lia. }
    destruct (Z.ltb_spec (trunc ((x - entry xs 0) / gstep xs)) 0); [reflexivity|lia].
Qed.
End Below.
