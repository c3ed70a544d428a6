(** Lemmas about table interpolation. *)
From Verif Require Import Disk_Model.
Open Scope R_scope.

Lemma int_part_unique (x : R) (z : Z) : IZR z <= x < IZR z + 1 -> Int_part x = z.
Proof.
  intros H. destruct (base_Int_part x) as (A & B). assert (IZR (Int_part x) < IZR (z + 1)) by (rewrite plus_IZR; lra).
  assert (IZR z < IZR (Int_part x + 1)) by (rewrite plus_IZR; lra). apply lt_IZR in H0, H1. lia.
Qed.
Lemma aget_table digits l i z : nth_error l i = Some z -> aget (table digits l) i = Ok (IZR z / 10 ^ digits).
Proof. intros H. unfold aget, table. rewrite nth_error_map, H. reflexivity. Qed.
Lemma nth_some (l : list Z) i : (i < length l)%nat -> nth_error l i = Some (nth i l 0%Z).
Proof. intros H. apply nth_error_nth'. auto. Qed.
Lemma ten_pos d : 0 < 10 ^ d. Proof. apply pow_lt. lra. Qed.

(** In cell i of the grid x0 + i*d (d the first step) the value is the line through entries i and i+1. *)
Section Grid.
Variables (dx dy : nat) (X Y : list Z).
Let xs := table dx X. Let ys := table dy Y.
Let xr i := IZR (nth i X 0%Z) / 10 ^ dx. Let yr i := IZR (nth i Y 0%Z) / 10 ^ dy.
Hypothesis Hlen : length Y = length X.
Hypothesis H2 : (2 <= length X)%nat.
Hypothesis Hstep : (nth 0 X 0 < nth 1 X 0)%Z.
Let step := xr 1 - xr 0.
Lemma step_pos : 0 < step.
Proof. unfold step, xr, Rdiv. rewrite <- Rmult_minus_distr_r. apply Rmult_lt_0_compat; [apply IZR_lt in Hstep; lra|apply Rinv_0_lt_compat, ten_pos]. Qed.
Lemma cell_value x i : xr 0 + INR i * step <= x < xr 0 + INR (i + 1) * step ->
  interpolate x xs ys = if (i + 1 <? length X)%nat then Ok (yr i + (x - xr i) * (yr (i + 1) - yr i) / (xr (i + 1) - xr i)) else UB.
Proof.
  intros Hx. pose proof step_pos as SP. unfold interpolate, xs, ys. rewrite (aget_table _ _ _ _ (nth_some X 0 ltac:(lia))), (aget_table _ _ _ _ (nth_some X 1 ltac:(lia))). cbn [obind].
  fold (xr 0). fold (xr 1). fold step. rewrite plus_INR in Hx. simpl INR in Hx.
  assert (Q : INR i <= (x - xr 0) / step < INR i + 1).
  { split; [apply (Rmult_le_reg_r step)|apply (Rmult_lt_reg_r step)]; auto; unfold Rdiv; rewrite Rmult_assoc, Rinv_l by lra; lra. }
  assert (T : trunc ((x - xr 0) / step) = Z.of_nat i).
  { unfold trunc. destruct (Rle_dec 0 ((x - xr 0) / step)) as [_|N]; [|pose proof (pos_INR i); lra]. apply int_part_unique. rewrite <- INR_IZR_INZ. auto. }
  rewrite T. destruct (Z.ltb_spec (Z.of_nat i) 0); [lia|]. rewrite Nat2Z.id. cbv zeta.
  destruct (Nat.ltb_spec (i + 1) (length X)) as [L|L].
  - rewrite (aget_table _ _ _ _ (nth_some X i ltac:(lia))), (aget_table _ _ _ _ (nth_some X (i + 1) L)), (aget_table _ _ _ _ (nth_some Y i ltac:(lia))), (aget_table _ _ _ _ (nth_some Y (i + 1) ltac:(lia))). reflexivity.
  - assert (E : forall d l, length l = length X -> aget (table d l) (i + 1) = UB). { intros d l El. unfold aget. rewrite (proj2 (nth_error_None _ _)); auto. unfold table. rewrite map_length. lia. }
    unfold obind. destruct (aget (table dx X) i) eqn:A; try reflexivity; [|exfalso; revert A; unfold aget; destruct (nth_error _ _); discriminate]. rewrite E by auto. reflexivity.
Qed.
Lemma in_some_cell x : xr 0 <= x -> exists i, xr 0 + INR i * step <= x < xr 0 + INR (i + 1) * step.
Proof.
  intros Hx. pose proof step_pos as SP. assert (P : 0 <= (x - xr 0) / step) by (apply Rmult_le_pos; [lra|left; apply Rinv_0_lt_compat; auto]).
  destruct (base_Int_part ((x - xr 0) / step)) as (A & B). set (z := Int_part ((x - xr 0) / step)) in *.
  assert (Z0 : (0 <= z)%Z). { assert (-1 < z)%Z; [|lia]. apply lt_IZR. lra. }
  exists (Z.to_nat z). rewrite plus_INR. simpl (INR 1). rewrite INR_IZR_INZ, Z2Nat.id by auto.
  assert (E : (x - xr 0) / step * step = x - xr 0) by (field; lra). split.
  - apply (Rmult_le_compat_r step) in A; lra.
  - assert (Q : (x - xr 0) / step < IZR z + 1) by lra. apply (Rmult_lt_compat_r step) in Q; auto. lra.
Qed.
(** Scaled integers. *)
Lemma xr_step_le i j k c : (nth i X 0 <= nth j X 0 + Z.of_nat k * (nth 1 X 0 - nth 0 X 0) + c)%Z -> xr i <= xr j + INR k * step + IZR c / 10 ^ dx.
Proof.
  intros H. apply IZR_le in H. rewrite !plus_IZR, mult_IZR, minus_IZR, <- INR_IZR_INZ in H. unfold step, xr.
  apply (Rmult_le_compat_r (/ 10 ^ dx)) in H; [|left; apply Rinv_0_lt_compat, ten_pos]. unfold Rdiv. lra.
Qed.
Lemma xr_step_lt i j k : (nth i X 0 < nth j X 0 + Z.of_nat k * (nth 1 X 0 - nth 0 X 0))%Z -> xr i < xr j + INR k * step.
Proof.
  intros H. apply IZR_lt in H. rewrite !plus_IZR, mult_IZR, minus_IZR, <- INR_IZR_INZ in H. unfold step, xr.
  apply (Rmult_lt_compat_r (/ 10 ^ dx)) in H; [|apply Rinv_0_lt_compat, ten_pos]. unfold Rdiv. lra.
Qed.
Lemma xr_step_ge i j k : (nth j X 0 + Z.of_nat k * (nth 1 X 0 - nth 0 X 0) <= nth i X 0)%Z -> xr j + INR k * step <= xr i.
Proof.
  intros H. apply IZR_le in H. rewrite !plus_IZR, mult_IZR, minus_IZR, <- INR_IZR_INZ in H. unfold step, xr.
  apply (Rmult_le_compat_r (/ 10 ^ dx)) in H; [|left; apply Rinv_0_lt_compat, ten_pos]. unfold Rdiv. lra.
Qed.
End Grid.

(** * The concrete tables *)
Lemma lgr_len : length mag_lgr = 252%nat. Proof. reflexivity. Qed.
Lemma lgrho_len : length mag_lgrho = 252%nat. Proof. reflexivity. Qed.
Lemma lgH_len : length mag_lgH = 252%nat. Proof. reflexivity. Qed.
Lemma v_len : length mag_v = 252%nat. Proof. reflexivity. Qed.
Lemma lgM_len : length gdf_lgM = 200%nat. Proof. reflexivity. Qed.
Lemma I_len : length gdf_I = 200%nat. Proof. reflexivity. Qed.
Lemma tab_len d l : length (table d l) = length l. Proof. apply map_length. Qed.

Definition seqZ (n : nat) : list nat := seq 0 n.
Lemma forall_seq (P : nat -> bool) n : forallb P (seq 0 n) = true -> forall i, (i < n)%nat -> P i = true.
Proof. intros H i Hi. rewrite forallb_forall in H. apply H, in_seq. lia. Qed.

(** Where the nodes lie with respect to the uniform grid of first-step size. *)
Lemma lgr_nodes : forall i, (2 <= i < 252)%nat ->
  (nth 0 mag_lgr 0 + Z.of_nat (i - 1) * (nth 1 mag_lgr 0 - nth 0 mag_lgr 0) <= nth i mag_lgr 0)%Z /\
  (nth i mag_lgr 0 < nth 0 mag_lgr 0 + Z.of_nat i * (nth 1 mag_lgr 0 - nth 0 mag_lgr 0))%Z.
Proof.
  assert (C : forallb (fun i => if (i <? 2)%nat then true else
     ((nth 0 mag_lgr 0 + Z.of_nat (i - 1) * (nth 1 mag_lgr 0 - nth 0 mag_lgr 0) <=? nth i mag_lgr 0) &&
      (nth i mag_lgr 0 <? nth 0 mag_lgr 0 + Z.of_nat i * (nth 1 mag_lgr 0 - nth 0 mag_lgr 0)))%bool)%Z (seq 0 252) = true) by (vm_compute; reflexivity).
  intros i Hi. pose proof (forall_seq _ _ C i ltac:(lia)) as Q. cbv beta in Q. destruct (Nat.ltb_spec i 2); [lia|].
  apply andb_prop in Q. destruct Q as (A & B). apply Z.leb_le in A. apply Z.ltb_lt in B. split; assumption.
Qed.
Lemma lgM_nodes : forall i, (i < 200)%nat ->
  (nth 0 gdf_lgM 0 + Z.of_nat i * (nth 1 gdf_lgM 0 - nth 0 gdf_lgM 0) <= nth i gdf_lgM 0)%Z /\
  (nth i gdf_lgM 0 < nth 0 gdf_lgM 0 + Z.of_nat (i + 1) * (nth 1 gdf_lgM 0 - nth 0 gdf_lgM 0))%Z.
Proof.
  assert (C : forallb (fun i => 
     ((nth 0 gdf_lgM 0 + Z.of_nat i * (nth 1 gdf_lgM 0 - nth 0 gdf_lgM 0) <=? nth i gdf_lgM 0) &&
      (nth i gdf_lgM 0 <? nth 0 gdf_lgM 0 + Z.of_nat (i + 1) * (nth 1 gdf_lgM 0 - nth 0 gdf_lgM 0)))%bool)%Z (seq 0 200) = true) by (vm_compute; reflexivity).
  intros i Hi. pose proof (forall_seq _ _ C i ltac:(lia)) as Q. cbv beta in Q.
  apply andb_prop in Q. destruct Q as (A & B). apply Z.leb_le in A. apply Z.ltb_lt in B. split; assumption.
Qed.
Lemma lgr_incr : forall i, (i < 251)%nat -> (nth i mag_lgr 0 < nth (i + 1) mag_lgr 0)%Z.
Proof.
  assert (C : forallb (fun i => (nth i mag_lgr 0 <? nth (i + 1) mag_lgr 0)%Z) (seq 0 251) = true) by (vm_compute; reflexivity).
  intros i Hi. apply Z.ltb_lt, (forall_seq _ _ C i Hi).
Qed.
Lemma lgM_incr : forall i, (i < 199)%nat -> (nth i gdf_lgM 0 < nth (i + 1) gdf_lgM 0)%Z.
Proof.
  assert (C : forallb (fun i => (nth i gdf_lgM 0 <? nth (i + 1) gdf_lgM 0)%Z) (seq 0 199) = true) by (vm_compute; reflexivity).
  intros i Hi. apply Z.ltb_lt, (forall_seq _ _ C i Hi).
Qed.
(** Non-negative at both ends of every cell. *)
Lemma gdf_cells : forall i, (i < 199)%nat -> forall e, e = 0%nat \/ e = 1%nat ->
  (0 <= nth i gdf_I 0 * (nth (i + 1) gdf_lgM 0 - nth i gdf_lgM 0) + (nth 0 gdf_lgM 0 + Z.of_nat (i + e) * (nth 1 gdf_lgM 0 - nth 0 gdf_lgM 0) - nth i gdf_lgM 0) * (nth (i + 1) gdf_I 0 - nth i gdf_I 0))%Z.
Proof.
  assert (C : forallb (fun i => forallb (fun e => (0 <=? nth i gdf_I 0 * (nth (i + 1) gdf_lgM 0 - nth i gdf_lgM 0) + (nth 0 gdf_lgM 0 + Z.of_nat (i + e) * (nth 1 gdf_lgM 0 - nth 0 gdf_lgM 0) - nth i gdf_lgM 0) * (nth (i + 1) gdf_I 0 - nth i gdf_I 0))%Z) [0%nat; 1%nat]) (seq 0 199) = true) by (vm_compute; reflexivity).
  intros i Hi e He. pose proof (forall_seq _ _ C i Hi) as Q. cbv beta in Q. rewrite forallb_forall in Q.
  apply Z.leb_le, Q. destruct He as [-> | ->]; [left|right; left]; reflexivity.
Qed.
