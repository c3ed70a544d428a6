(** Proofs about the magnetised disk. *)
From Verif Require Import Disk_Model Disk_Proofs Disk_Spec Force_Proofs.
Open Scope R_scope.

Lemma entry_table d l i : entry (table d l) i = IZR (nth i l 0%Z) / 10 ^ d.
Proof.
  unfold entry, table. rewrite <- (map_nth (fun z => IZR z / 10 ^ d)). f_equal. unfold Rdiv. change (IZR 0) with 0. ring.
Qed.
Lemma aget_entry d l i : (i < length l)%nat -> aget (table d l) i = Ok (entry (table d l) i).
Proof. intros H. rewrite (aget_table _ _ _ _ (nth_some l i H)), entry_table. reflexivity. Qed.

Section Uni.
Variables (dx dy : nat) (X Y : list Z).
Hypothesis Hlen : length Y = length X.
Hypothesis H2 : (2 <= length X)%nat.
Hypothesis Hstep : (nth 0 X 0 < nth 1 X 0)%Z.
Notation xs := (table dx X). Notation ys := (table dy Y).
Definition gstep (xs : list R) := entry xs 1 - entry xs 0.
Lemma gstep_pos : 0 < gstep xs.
Proof. unfold gstep. rewrite !entry_table. apply (step_pos dx X Hstep). Qed.
Lemma interp_cell x i : entry xs 0 + INR i * gstep xs <= x < entry xs 0 + INR (i + 1) * gstep xs ->
  interpolate x xs ys = if (i + 1 <? length X)%nat then Ok (segment xs ys i x) else UB.
Proof.
  intros H. unfold gstep in H. rewrite !entry_table in H. rewrite (cell_value dx dy X Y Hlen H2 Hstep x i H).
  unfold segment. rewrite !entry_table. reflexivity.
Qed.
Lemma some_cell x : entry xs 0 <= x -> exists i, entry xs 0 + INR i * gstep xs <= x < entry xs 0 + INR (i + 1) * gstep xs.
Proof. unfold gstep. rewrite !entry_table. apply (in_some_cell dx X Y); assumption. Qed.
End Uni.

Lemma seg_left xs ys i : segment xs ys i (entry xs i) = entry ys i.
Proof. unfold segment, Rdiv. ring. Qed.
Lemma seg_right xs ys i : entry xs i < entry xs (i + 1) -> segment xs ys i (entry xs (i + 1)) = entry ys (i + 1).
Proof. intros H. unfold segment. field. lra. Qed.

Lemma lgr_step : (nth 0 mag_lgr 0 < nth 1 mag_lgr 0)%Z. Proof. vm_compute. reflexivity. Qed.
Lemma lgM_step : (nth 0 gdf_lgM 0 < nth 1 gdf_lgM 0)%Z. Proof. vm_compute. reflexivity. Qed.
Lemma lgr_inc i : (i < 251)%nat -> entry t_lgr i < entry t_lgr (i + 1).
Proof. intros H. unfold t_lgr. rewrite !entry_table. apply Rmult_lt_compat_r; [apply Rinv_0_lt_compat, ten_pos|]. apply IZR_lt, lgr_incr; auto. Qed.
Lemma lgM_inc i : (i < 199)%nat -> entry t_lgM i < entry t_lgM (i + 1).
Proof. intros H. unfold t_lgM. rewrite !entry_table. apply Rmult_lt_compat_r; [apply Rinv_0_lt_compat, ten_pos|]. apply IZR_lt, lgM_incr; auto. Qed.

(** Node positions over the reals. *)
Lemma lgr_node i : (2 <= i < 252)%nat -> entry t_lgr 0 + INR (i - 1) * gstep t_lgr <= entry t_lgr i < entry t_lgr 0 + INR i * gstep t_lgr.
Proof.
  intros H. destruct (lgr_nodes i H) as (A & B). unfold gstep, t_lgr. rewrite !entry_table. split.
  - apply (xr_step_ge mag_lgr_digits mag_lgr i 0 (i - 1) A).
  - apply (xr_step_lt mag_lgr_digits mag_lgr i 0 i B).
Qed.
Lemma lgM_node i : (i < 200)%nat -> entry t_lgM 0 + INR i * gstep t_lgM <= entry t_lgM i < entry t_lgM 0 + INR (i + 1) * gstep t_lgM.
Proof.
  intros H. destruct (lgM_nodes i H) as (A & B). unfold gstep, t_lgM. rewrite !entry_table. split.
  - apply (xr_step_ge gdf_lgM_digits gdf_lgM i 0 i A).
  - apply (xr_step_lt gdf_lgM_digits gdf_lgM i 0 (i + 1) B).
Qed.

Lemma lgr_mono i j : (i <= j)%nat -> (j < 252)%nat -> entry t_lgr i <= entry t_lgr j.
Proof.
  intros H. induction H as [|j H IH]; intros Hj; [lra|]. specialize (IH ltac:(lia)). pose proof (lgr_inc j ltac:(lia)).
  replace (j + 1)%nat with (S j) in * by lia. lra.
Qed.

Section Rad.
Variables (dy : nat) (Y : list Z).
Hypothesis HY : length Y = 252%nat.
Notation ys := (table dy Y).
Let Hl : length Y = length mag_lgr. Proof. rewrite HY, lgr_len; auto. Qed.
Let H2 : (2 <= length mag_lgr)%nat. Proof. rewrite lgr_len; lia. Qed.
Lemma dv_unfold x : disk_value x t_lgr ys = if Rlt_dec x (entry t_lgr 0) then Ok (entry ys 0) else if Rle_dec (entry t_lgr 251) x then Ok (entry ys 251) else interpolate x t_lgr ys.
Proof.
  unfold disk_value. unfold t_lgr at 1 2 3. rewrite !tab_len, lgr_len, HY.
  rewrite !(aget_entry mag_lgr_digits) by (rewrite lgr_len; lia). cbn [obind]. fold t_lgr.
  rewrite !(aget_entry dy) by (rewrite HY; lia). reflexivity.
Qed.
Lemma dv_cell x i : entry t_lgr 0 + INR i * gstep t_lgr <= x < entry t_lgr 0 + INR (i + 1) * gstep t_lgr -> x < entry t_lgr 251 ->
  (i < 251)%nat /\ disk_value x t_lgr ys = Ok (segment t_lgr ys i x).
Proof.
  intros H Hx. pose proof (gstep_pos mag_lgr_digits mag_lgr lgr_step) as SP. fold t_lgr in SP.
  assert (Hi : (i < 251)%nat). { pose proof (lgr_node 251 ltac:(lia)) as (A & B). destruct (le_lt_dec 251 i) as [L|L]; auto. exfalso. apply le_INR in L. nra. }
  split; auto. rewrite dv_unfold. pose proof (pos_INR i). destruct (Rlt_dec x (entry t_lgr 0)) as [C|C]; [nra|]. destruct (Rle_dec (entry t_lgr 251) x) as [D|D]; [lra|].
  pose proof (interp_cell mag_lgr_digits dy mag_lgr Y Hl H2 lgr_step x i H) as IC. fold t_lgr in IC. rewrite IC, lgr_len. destruct (Nat.ltb_spec (i + 1) 252); [auto|lia].
Qed.
Lemma dv_total x : exists y, disk_value x t_lgr ys = Ok y.
Proof.
  destruct (Rlt_dec x (entry t_lgr 0)) as [C|C]; [|destruct (Rle_dec (entry t_lgr 251) x) as [D|D]].
  - rewrite dv_unfold. destruct (Rlt_dec x (entry t_lgr 0)); [eauto|lra].
  - rewrite dv_unfold. destruct (Rlt_dec x (entry t_lgr 0)); [lra|]. destruct (Rle_dec (entry t_lgr 251) x); [eauto|lra].
  - destruct (some_cell mag_lgr_digits mag_lgr Y Hl H2 lgr_step x ltac:(fold t_lgr; lra)) as (i & Hi). fold t_lgr in Hi.
    destruct (dv_cell x i Hi ltac:(lra)) as (_ & E). eauto.
Qed.
Lemma dv_node i : (i < 252)%nat -> disk_value (entry t_lgr i) t_lgr ys = Ok (entry ys i).
Proof.
  intros Hi. pose proof (gstep_pos mag_lgr_digits mag_lgr lgr_step) as SP. fold t_lgr in SP.
  destruct (Nat.eq_dec i 251) as [->|N].
  - rewrite dv_unfold. pose proof (lgr_mono 0 251 ltac:(lia) ltac:(lia)). destruct (Rlt_dec _ _); [lra|]. destruct (Rle_dec _ _); [auto|lra].
  - assert (Hx : entry t_lgr i < entry t_lgr 251). { pose proof (lgr_inc i ltac:(lia)). pose proof (lgr_mono (i + 1) 251 ltac:(lia) ltac:(lia)). lra. }
    destruct (le_lt_dec 2 i) as [L|L].
    + pose proof (lgr_node i ltac:(lia)) as A. destruct (dv_cell (entry t_lgr i) (i - 1)) as (_ & E); auto. { replace (i - 1 + 1)%nat with i by lia. auto. }
      rewrite E. f_equal. pose proof (seg_right t_lgr ys (i - 1) (lgr_inc (i - 1) ltac:(lia))) as SR. replace (i - 1 + 1)%nat with i in SR by lia. exact SR.
    + destruct (dv_cell (entry t_lgr i) i) as (_ & E); auto.
      * assert (Q : i = 0%nat \/ i = 1%nat) by lia. unfold gstep in *. destruct Q as [-> | ->]; simpl INR; lra.
      * rewrite E, seg_left. auto.
Qed.
End Rad.

(** The dynamical-friction coefficient. *)
Lemma I_lgM : length gdf_I = length gdf_lgM. Proof. reflexivity. Qed.
Lemma lgM_2 : (2 <= length gdf_lgM)%nat. Proof. rewrite lgM_len. lia. Qed.
Definition gdf_end : R := entry t_lgM 0 + 199 * gstep t_lgM.
Lemma gdf_unfold M : gdf M = if Rle_dec M 0 then Ok (M / 3) else if Rlt_dec (lg M) (entry t_lgM 0) then Ok (M / 3) else if Rle_dec (entry t_lgM 199) (lg M) then Ok 0 else interpolate (lg M) t_lgM t_I.
Proof.
  unfold gdf. unfold t_lgM at 1 2 3. rewrite !tab_len, lgM_len.
  rewrite !(aget_entry gdf_lgM_digits) by (rewrite lgM_len; lia). cbn [obind]. fold t_lgM. reflexivity.
Qed.
Lemma gdf_cell M i : 0 < M -> entry t_lgM 0 + INR i * gstep t_lgM <= lg M < entry t_lgM 0 + INR (i + 1) * gstep t_lgM -> lg M < entry t_lgM 199 ->
  gdf M = if (i <? 199)%nat then Ok (segment t_lgM t_I i (lg M)) else UB.
Proof.
  intros HM H Hx. pose proof (gstep_pos gdf_lgM_digits gdf_lgM lgM_step) as SP. fold t_lgM in SP. pose proof (pos_INR i).
  rewrite gdf_unfold. destruct (Rle_dec M 0); [lra|]. destruct (Rlt_dec _ _); [nra|]. destruct (Rle_dec _ _); [lra|].
  pose proof (interp_cell gdf_lgM_digits gdf_I_digits gdf_lgM gdf_I I_lgM lgM_2 lgM_step (lg M) i H) as IC. fold t_lgM t_I in IC. rewrite IC, lgM_len.
  destruct (Nat.ltb_spec (i + 1) 200), (Nat.ltb_spec i 199); auto; lia.
Qed.
Lemma gdf_end_lt : gdf_end < entry t_lgM 199.
Proof.
  unfold gdf_end, gstep, t_lgM. rewrite !entry_table. pose proof (ten_pos gdf_lgM_digits) as P.
  apply (Rmult_lt_reg_r (10 ^ gdf_lgM_digits)); auto.
  set (p := 10 ^ gdf_lgM_digits) in *.
  replace ((IZR (nth 0 gdf_lgM 0%Z) / p + 199 * (IZR (nth 1 gdf_lgM 0%Z) / p - IZR (nth 0 gdf_lgM 0%Z) / p)) * p)%R with (IZR (nth 0 gdf_lgM 0%Z) + 199 * (IZR (nth 1 gdf_lgM 0%Z) - IZR (nth 0 gdf_lgM 0%Z))) by (field; lra).
  replace (IZR (nth 199 gdf_lgM 0%Z) / p * p) with (IZR (nth 199 gdf_lgM 0%Z)) by (field; lra).
  rewrite <- minus_IZR, <- mult_IZR, <- plus_IZR. apply IZR_lt. vm_compute. reflexivity.
Qed.
Lemma gdf_ub M : gdf M = UB <-> 0 < M /\ gdf_end <= lg M < entry t_lgM 199.
Proof.
  pose proof (gstep_pos gdf_lgM_digits gdf_lgM lgM_step) as SP. fold t_lgM in SP. split.
  - intros H. assert (HM : 0 < M). { rewrite gdf_unfold in H. destruct (Rle_dec M 0); [discriminate|lra]. }
    assert (A : entry t_lgM 0 <= lg M < entry t_lgM 199). { rewrite gdf_unfold in H. destruct (Rle_dec M 0); [lra|]. destruct (Rlt_dec _ _); [discriminate|]. destruct (Rle_dec _ _); [discriminate|lra]. }
    destruct (some_cell gdf_lgM_digits gdf_lgM gdf_I I_lgM lgM_2 lgM_step (lg M) ltac:(fold t_lgM; lra)) as (i & Hi). fold t_lgM in Hi.
    rewrite (gdf_cell M i HM Hi (proj2 A)) in H. destruct (Nat.ltb_spec i 199) as [L|L]; [discriminate|].
    split; [auto|split; [|lra]]. apply le_INR in L. change (INR 199) with (INR (Z.to_nat 199)) in L. rewrite INR_IZR_INZ, Z2Nat.id in L by lia. unfold gdf_end. nra.
  - intros (HM & A & B). destruct (some_cell gdf_lgM_digits gdf_lgM gdf_I I_lgM lgM_2 lgM_step (lg M)) as (i & Hi). { fold t_lgM. unfold gdf_end in A. nra. } fold t_lgM in Hi.
    rewrite (gdf_cell M i HM Hi B). destruct (Nat.ltb_spec i 199) as [L|L]; [|auto]. exfalso. assert (L' : (i + 1 <= 199)%nat) by lia. apply le_INR in L'. change (INR 199) with (INR (Z.to_nat 199)) in L'. rewrite (INR_IZR_INZ (Z.to_nat 199)), Z2Nat.id in L' by lia. unfold gdf_end in A. nra.
Qed.
Lemma lg_ten x : lg (ten_to x) = x.
Proof. unfold lg, ten_to. rewrite ln_Rpower by lra. field. apply Rgt_not_eq. rewrite <- ln_1. apply ln_increasing; lra. Qed.
Lemma ten_to_pos x : 0 < ten_to x. Proof. apply exp_pos. Qed.
Lemma gdf_node i : (i < 199)%nat -> gdf (ten_to (entry t_lgM i)) = Ok (entry t_I i).
Proof.
  intros Hi. assert (M1 : forall a b, (a <= b)%nat -> (b < 200)%nat -> entry t_lgM a <= entry t_lgM b).
  { intros a b H. induction H as [|b H IH]; intros Hb; [lra|]. specialize (IH ltac:(lia)). pose proof (lgM_inc b ltac:(lia)). replace (b + 1)%nat with (S b) in * by lia. lra. }
  rewrite (gdf_cell _ i (ten_to_pos _)); rewrite ?lg_ten.
  - destruct (Nat.ltb_spec i 199); [|lia]. rewrite seg_left. auto.
  - apply lgM_node; lia.
  - pose proof (lgM_inc i Hi). pose proof (M1 (i + 1)%nat 199%nat ltac:(lia) ltac:(lia)). lra.
Qed.
Lemma gdf_seg_nonneg i x : (i < 199)%nat -> entry t_lgM 0 + INR i * gstep t_lgM <= x <= entry t_lgM 0 + INR (i + 1) * gstep t_lgM -> 0 <= segment t_lgM t_I i x.
Proof.
  intros Hi Hx. pose proof (lgM_inc i Hi) as Inc.
  assert (E : forall e, e = 0%nat \/ e = 1%nat -> 0 <= entry t_I i * (entry t_lgM (i + 1) - entry t_lgM i) + (entry t_lgM 0 + INR (i + e) * gstep t_lgM - entry t_lgM i) * (entry t_I (i + 1) - entry t_I i)).
  { intros e He. pose proof (gdf_cells i Hi e He) as G. apply IZR_le in G. rewrite plus_IZR, !mult_IZR, !minus_IZR, plus_IZR, mult_IZR, minus_IZR, <- INR_IZR_INZ in G.
    unfold gstep, t_lgM, t_I. rewrite !entry_table. pose proof (ten_pos gdf_lgM_digits) as P. pose proof (ten_pos gdf_I_digits) as Q.
    set (p := 10 ^ gdf_lgM_digits) in *. set (q := 10 ^ gdf_I_digits) in *. apply (Rmult_le_reg_r (p * q)); [apply Rmult_lt_0_compat; auto|]. rewrite Rmult_0_l.
    eapply Rle_trans; [exact G|]. right. field. split; lra. }
  pose proof (E 0%nat (or_introl eq_refl)) as E0. pose proof (E 1%nat (or_intror eq_refl)) as E1. rewrite Nat.add_0_r in E0.
  unfold segment. assert (D : 0 < entry t_lgM (i + 1) - entry t_lgM i) by lra.
  replace (entry t_I i + (x - entry t_lgM i) * (entry t_I (i + 1) - entry t_I i) / (entry t_lgM (i + 1) - entry t_lgM i)) with ((entry t_I i * (entry t_lgM (i + 1) - entry t_lgM i) + (x - entry t_lgM i) * (entry t_I (i + 1) - entry t_I i)) / (entry t_lgM (i + 1) - entry t_lgM i)) by (field; lra).
  apply Rmult_le_pos; [|left; apply Rinv_0_lt_compat; auto].
  set (k := entry t_I (i + 1) - entry t_I i) in *. set (c := entry t_I i * _) in *. destruct (Rle_dec 0 k); nra.
Qed.
Lemma gdf_nonneg M I : 0 <= M -> gdf M = Ok I -> 0 <= I.
Proof.
  intros HM H. rewrite gdf_unfold in H. destruct (Rle_dec M 0) as [|N]; [|destruct (Rlt_dec _ _) as [|N2]; [|destruct (Rle_dec _ _) as [|N3]]].
  - assert (I = M / 3) by congruence. lra.
  - assert (I = M / 3) by congruence. lra.
  - assert (I = 0) by congruence. lra.
  - destruct (some_cell gdf_lgM_digits gdf_lgM gdf_I I_lgM lgM_2 lgM_step (lg M) ltac:(fold t_lgM; lra)) as (i & Hi). fold t_lgM in Hi.
    pose proof (interp_cell gdf_lgM_digits gdf_I_digits gdf_lgM gdf_I I_lgM lgM_2 lgM_step (lg M) i Hi) as IC. fold t_lgM t_I in IC. rewrite IC, lgM_len in H.
    destruct (Nat.ltb_spec (i + 1) 200) as [L|L]; [|discriminate]. assert (E : I = segment t_lgM t_I i (lg M)) by congruence. rewrite E. apply gdf_seg_nonneg; [lia|lra].
Qed.

(** The force. *)
Lemma mag_rho_ok r : exists y, mag_rho r = Ok y /\ 0 < y.
Proof. unfold mag_rho. destruct (dv_total mag_lgrho_digits mag_lgrho lgrho_len (lgR_cgs r)) as (y & E). fold t_lgrho in E. rewrite E. cbn [obind]. eexists; split; [reflexivity|]. apply Rdiv_lt_0_compat; [apply ten_to_pos|lra]. Qed.
Lemma mag_H_ok r : exists y, mag_H r = Ok y /\ 0 < y.
Proof. unfold mag_H. destruct (dv_total mag_lgH_digits mag_lgH lgH_len (lgR_cgs r)) as (y & E). fold t_lgH in E. rewrite E. cbn [obind]. eexists; split; [reflexivity|]. apply Rdiv_lt_0_compat; [apply ten_to_pos|lra]. Qed.
Lemma mag_vel_ok r : exists u, mag_vel r = Ok u.
Proof. unfold mag_vel. destruct (dv_total mag_v_digits mag_v v_len (lgR_cgs r)) as (y & E). fold t_v in E. rewrite E. cbn [obind]. eauto. Qed.
Definition oget {A} (d : A) (o : outcome A) : A := match o with Ok a => a | _ => d end.
Lemma mag_v_rel_ok s i : exists w, mag_v_rel s i = Ok w.
Proof. unfold mag_v_rel. destruct (mag_vel_ok (vsub (sp s i) (sp s 0%nat))) as (u & ->). cbn [obind]. eauto. Qed.
Lemma mach_ok s i : exists M, mach s i = Ok M /\ 0 <= M.
Proof.
  unfold mach. destruct (mag_v_rel_ok s i) as (w & ->). cbn [obind]. destruct (mag_H_ok (vsub (sp s i) (sp s 0%nat))) as (H & -> & HH). cbn [obind].
  eexists; split; [reflexivity|]. set (O := sqrt (Gc * _ / _)). assert (0 <= O) by apply sqrt_pos. destruct (Req_dec O 0) as [E|N].
  - rewrite E, Rmult_0_l. unfold Rdiv. rewrite Rinv_0, Rmult_0_r. lra.
  - apply Rmult_le_pos; [apply sqrt_pos|left; apply Rinv_0_lt_compat, Rmult_lt_0_compat; lra].
Qed.
Lemma mag_f_cases s rad i M : mach s i = Ok M ->
  match gdf M with
  | Ok I0 => exists f, mag_f s rad i = Ok f /\ (0 <= I0 -> 0 <= f)
  | _ => mag_f s rad i = UB end.
Proof.
  unfold mach, mag_f. destruct (mag_rho_ok (vsub (sp s i) (sp s 0%nat))) as (rho & -> & Hrho). destruct (mag_v_rel_ok s i) as (w & ->). destruct (mag_H_ok (vsub (sp s i) (sp s 0%nat))) as (H & -> & HH).
  cbn [obind]. cbv zeta. intros E. replace (sqrt (dot w w) / _) with M by congruence. clear E. destruct (gdf M) as [I0| |] eqn:G; [| |reflexivity].
  - cbn [obind]. eexists; split; [reflexivity|]. intros HI. assert (HG : 0 <= Gc) by (unfold Gc; lra). set (O := sqrt (Gc * _ / _)).
    assert (P : 0 <= PI) by (pose proof PI_RGT_0; lra). assert (W : 0 <= dot w w) by (unfold dot; nra).
    assert (A : 0 <= sm s i * sm s i) by nra. assert (B : 0 <= rad i * rad i) by nra. assert (C : 0 <= / (O * H * (O * H))).
    { destruct (Req_dec (O * H * (O * H)) 0) as [->|N]; [rewrite Rinv_0; lra|]. left. apply Rinv_0_lt_compat. nra. }
    apply Rplus_le_le_0_compat.
    + replace (I0 * 4 * PI * Gc * Gc * sm s i * sm s i / (O * H * (O * H)) * rho) with (4 * (I0 * (PI * (Gc * (Gc * (sm s i * sm s i * (/ (O * H * (O * H)) * rho))))))) by (unfold Rdiv; ring).
      repeat (apply Rmult_le_pos; [lra|]); lra.
    + replace (4 * PI * rad i * rad i * rho * dot w w) with (4 * (PI * (rad i * rad i * (rho * dot w w)))) by ring.
      repeat (apply Rmult_le_pos; [lra|]); lra.
  - exfalso. rewrite gdf_unfold in G. destruct (Rle_dec M 0); [discriminate|]. destruct (Rlt_dec _ _); [discriminate|]. destruct (Rle_dec _ _); [discriminate|].
    destruct (some_cell gdf_lgM_digits gdf_lgM gdf_I I_lgM lgM_2 lgM_step (lg M) ltac:(fold t_lgM; lra)) as (j & Hj). fold t_lgM in Hj.
    pose proof (interp_cell gdf_lgM_digits gdf_I_digits gdf_lgM gdf_I I_lgM lgM_2 lgM_step (lg M) j Hj) as IC. fold t_lgM t_I in IC. rewrite IC in G. destruct (_ <? _)%nat; discriminate.
Qed.
Definition mag_fr s rad i := oget 0 (mag_f s rad i).
Definition mag_wr s i := oget vzero (mag_v_rel s i).
Definition mag_loop s rad := fun oa i => obind oa (fun a : nat -> vec => obind (mag_f s rad i) (fun f => obind (mag_v_rel s i) (fun w =>
      let a1 := upd a i (vsub (a i) (disk_term f w (sm s i))) in
      Ok (upd a1 0 (vadd (a1 0%nat) (disk_term f w (sm s 0%nat))))))).
Lemma mag_loop_ub s rad : forall L, fold_left (mag_loop s rad) L UB = UB.
Proof. induction L; simpl; auto. Qed.
Lemma mag_loop_spec s rad : forall L acc,
  fold_left (mag_loop s rad) L (Ok acc) =
  if forallb (fun i => match mag_f s rad i with Ok _ => true | _ => false end) L then
    Ok (fold_left (fun a i => let a1 := upd a i (vsub (a i) (disk_term (mag_fr s rad i) (mag_wr s i) (sm s i))) in
      upd a1 0 (vadd (a1 0%nat) (disk_term (mag_fr s rad i) (mag_wr s i) (sm s 0%nat)))) L acc)
  else UB.
Proof.
  induction L as [|i L IH]; intros acc; [reflexivity|]. cbn [fold_left forallb]. unfold mag_loop at 2. cbn [obind]. unfold mag_fr, mag_wr.
  destruct (mach_ok s i) as (M & HM & _). pose proof (mag_f_cases s rad i M HM) as C. destruct (mag_v_rel_ok s i) as (w & Ew).
  destruct (gdf M); [destruct C as (f & Ef & _)| | ]; rewrite ?C, ?Ef, ?Ew; cbn [obind andb oget]; [rewrite IH; reflexivity|apply mag_loop_ub|apply mag_loop_ub].
Qed.
