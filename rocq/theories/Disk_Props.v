(** C55: the tables of the magnetised disk. *)
From Verif Require Import Disk_Model Disk_Spec Disk_Proofs Disk_Proofs2 Disk_Proofs3 Disk64_Model Disk64_Proofs Force_Spec Force_Props.
Open Scope R_scope.

(** C55.  Whatever the radius, density, height and speed are read from inside of their tables. *)
Theorem C55_radius_lookup_defined :
  defined_everywhere (fun x => disk_value x t_lgr t_lgrho) /\ defined_everywhere (fun x => disk_value x t_lgr t_lgH) /\
  defined_everywhere (fun x => disk_value x t_lgr t_v) /\
  forall r, (exists rho, mag_rho r = Ok rho /\ 0 < rho) /\ (exists H, mag_H r = Ok H /\ 0 < H).
Proof.
  split; [|split; [|split]]; try (intros x).
  - apply (dv_total mag_lgrho_digits mag_lgrho lgrho_len).
  - apply (dv_total mag_lgH_digits mag_lgH lgH_len).
  - apply (dv_total mag_v_digits mag_v v_len).
  - split; [apply mag_rho_ok|apply mag_H_ok].
Qed.
Print Assumptions C55_radius_lookup_defined.

(** C55.  At every tabulated radius the lookup returns the tabulated value, and between a grid point and the next table
    point the line through the two neighbouring table points; outside of the table the end values. *)
Theorem C55_radius_lookup_values : forall ys, ys = t_lgrho \/ ys = t_lgH \/ ys = t_v ->
  (forall i, (i < 252)%nat -> disk_value (entry t_lgr i) t_lgr ys = Ok (entry ys i)) /\
  (forall i x, (i < 251)%nat -> entry t_lgr 0 + INR i * (entry t_lgr 1 - entry t_lgr 0) <= x <= entry t_lgr (i + 1) -> 
     disk_value x t_lgr ys = Ok (segment t_lgr ys i x)) /\
  (forall x, x <= entry t_lgr 0 -> disk_value x t_lgr ys = Ok (entry ys 0)) /\
  (forall x, entry t_lgr 251 <= x -> disk_value x t_lgr ys = Ok (entry ys 251)).
Proof.
  assert (P : forall dy Y, length Y = 252%nat -> forall ys, ys = table dy Y ->
   (forall i, (i < 252)%nat -> disk_value (entry t_lgr i) t_lgr ys = Ok (entry ys i)) /\
  (forall i x, (i < 251)%nat -> entry t_lgr 0 + INR i * (entry t_lgr 1 - entry t_lgr 0) <= x <= entry t_lgr (i + 1) -> 
     disk_value x t_lgr ys = Ok (segment t_lgr ys i x)) /\
  (forall x, x <= entry t_lgr 0 -> disk_value x t_lgr ys = Ok (entry ys 0)) /\
  (forall x, entry t_lgr 251 <= x -> disk_value x t_lgr ys = Ok (entry ys 251))).
  { intros dy Y HY ys ->. pose proof (gstep_pos mag_lgr_digits mag_lgr lgr_step) as SP. fold t_lgr in SP.
    assert (ND : forall i, (i < 252)%nat -> disk_value (entry t_lgr i) t_lgr (table dy Y) = Ok (entry (table dy Y) i)) by (intros; apply dv_node; auto).
    assert (LM : forall i, (i < 252)%nat -> entry t_lgr 0 <= entry t_lgr i) by (intros; apply lgr_mono; lia).
    split; [exact ND|]. split; [|split].
    - intros i x Hi Hx. fold (gstep t_lgr) in Hx. destruct (Req_dec x (entry t_lgr (i + 1))) as [->|N]; [rewrite ND by lia; rewrite seg_right; auto; apply lgr_inc; auto|].
      assert (L : x < entry t_lgr 251). { pose proof (lgr_mono (i + 1) 251 ltac:(lia) ltac:(lia)). lra. }
      apply (dv_cell dy Y HY x i); auto. split; [lra|]. destruct (Nat.eq_dec i 0) as [->|N0].
      + unfold gstep in *. simpl in *. lra.
      + pose proof (lgr_node (i + 1) ltac:(lia)) as B. lra.
    - intros x Hx. destruct (Req_dec x (entry t_lgr 0)) as [->|N]; [apply ND; lia|]. rewrite dv_unfold by auto. destruct (Rlt_dec _ _); [auto|lra].
    - intros x Hx. rewrite dv_unfold by auto. pose proof (LM 251%nat ltac:(lia)). destruct (Rlt_dec _ _); [lra|]. destruct (Rle_dec _ _); [auto|lra]. }
  intros ys [H|[H|H]]; [apply (P mag_lgrho_digits mag_lgrho lgrho_len ys H)|apply (P mag_lgH_digits mag_lgH lgH_len ys H)|apply (P mag_v_digits mag_v v_len ys H)].
Qed.
Print Assumptions C55_radius_lookup_values.

(** C55.  The lookup is not continuous in the radius: the index is computed with the first step of the table although
    the table is not evenly spaced, so the value jumps between table points (by 3 percent of the density and more). *)
Theorem C55_continuous_density_refuted : exists x, jumps (fun x => disk_value x t_lgr t_lgrho) x (1 / 100).
Proof.
  set (xs := entry t_lgr 0 + INR 222 * gstep t_lgr). exists xs. pose proof (gstep_pos mag_lgr_digits mag_lgr lgr_step) as SP. fold t_lgr in SP.
  assert (N : INR 222 = 222). { change 222%nat with (Z.to_nat 222). rewrite INR_IZR_INZ, Z2Nat.id by lia. auto. }
  assert (N' : INR 221 = 221). { change 221%nat with (Z.to_nat 221). rewrite INR_IZR_INZ, Z2Nat.id by lia. auto. }
  assert (N'' : INR 223 = 223). { change 223%nat with (Z.to_nat 223). rewrite INR_IZR_INZ, Z2Nat.id by lia. auto. }
  assert (E0 : entry t_lgr 0 = 10848169570835784 / 10 ^ 15) by (unfold t_lgr; rewrite entry_table; f_equal).
  assert (E1 : entry t_lgr 1 = 10859134940659754 / 10 ^ 15) by (unfold t_lgr; rewrite entry_table; f_equal).
  assert (E221 : entry t_lgr 221 = 13270672968821552 / 10 ^ 15) by (unfold t_lgr; rewrite entry_table; f_equal).
  assert (E222 : entry t_lgr 222 = 13281635531822902 / 10 ^ 15) by (unfold t_lgr; rewrite entry_table; f_equal).
  assert (E223 : entry t_lgr 223 = 13292590220345916 / 10 ^ 15) by (unfold t_lgr; rewrite entry_table; f_equal).
  assert (E251 : entry t_lgr 251 = 13599535635149245 / 10 ^ 15) by (unfold t_lgr; rewrite entry_table; f_equal).
  assert (Y221 : entry t_lgrho 221 = -128637311765524800 / 10 ^ 16) by (unfold t_lgrho; rewrite entry_table; f_equal).
  assert (Y222 : entry t_lgrho 222 = -128764809196630420 / 10 ^ 16) by (unfold t_lgrho; rewrite entry_table; f_equal).
  assert (Y223 : entry t_lgrho 223 = -130735116737417900 / 10 ^ 16) by (unfold t_lgrho; rewrite entry_table; f_equal).
  assert (Hxs : xs = entry t_lgr 0 + 222 * (entry t_lgr 1 - entry t_lgr 0)) by (unfold xs, gstep; rewrite N; auto).
  destruct (dv_cell mag_lgrho_digits mag_lgrho lgrho_len xs 222) as (_ & V).
  { change (222 + 1)%nat with 223%nat. unfold xs. rewrite N, N''. lra. } { rewrite Hxs, E0, E1, E251. lra. }
  eexists; split; [exact V|]. intros d Hd. set (e := Rmin (d / 2) (1 / 10000)).
  assert (He : 0 < e <= 1 / 10000 /\ e < d). { unfold e, Rmin. destruct (Rle_dec _ _); lra. }
  destruct (dv_cell mag_lgrho_digits mag_lgrho lgrho_len (xs - e) 221) as (_ & W).
  { change (221 + 1)%nat with 222%nat. rewrite N, N'. unfold gstep in *. rewrite Hxs. rewrite E0, E1 in *. lra. } { rewrite Hxs, E0, E1, E251. lra. }
  exists (xs - e), (segment t_lgr t_lgrho 221 (xs - e)). split; [lra|]. split; [exact W|].
  unfold segment. change (221 + 1)%nat with 222%nat. change (222 + 1)%nat with 223%nat. fold t_lgrho. rewrite Hxs, E0, E1, E221, E222, E223, Y221, Y222, Y223.
  unfold Rabs. destruct (Rcase_abs _); lra.
Qed.
Print Assumptions C55_continuous_density_refuted.

(** C55.  The friction coefficient: exactly the Mach numbers for which the table is left, the value at every table point
    but the last, linear Mach/3 below the table, zero from the last table point on; never negative. *)
Theorem C55_friction_coefficient : forall M, 0 <= M ->
  (gdf M = UB <-> 0 < M /\ entry t_lgM 0 + 199 * (entry t_lgM 1 - entry t_lgM 0) <= lg M < 2) /\
  (forall c, gdf M = Ok c -> 0 <= c) /\
  (lg M < -1 -> gdf M = Ok (M / 3)) /\
  (0 < M -> 2 <= lg M -> gdf M = Ok 0).
Proof.
  intros M HM. assert (E199 : entry t_lgM 199 = 2). { unfold t_lgM. rewrite entry_table. change (nth 199 gdf_lgM 0%Z) with 2000000000000000000%Z. unfold gdf_lgM_digits. lra. }
  assert (E0 : entry t_lgM 0 = -1). { unfold t_lgM. rewrite entry_table. change (nth 0 gdf_lgM 0%Z) with (-1000000000000000000)%Z. unfold gdf_lgM_digits. lra. }
  split; [|split; [|split]].
  - rewrite <- E199. apply gdf_ub.
  - intros c. apply gdf_nonneg; auto.
  - intros H. rewrite gdf_unfold. destruct (Rle_dec M 0); [auto|]. destruct (Rlt_dec _ _); [auto|lra].
  - intros HM' H. rewrite gdf_unfold. destruct (Rle_dec M 0); [lra|]. destruct (Rlt_dec _ _); [lra|]. destruct (Rle_dec _ _); [auto|lra].
Qed.
Print Assumptions C55_friction_coefficient.
Theorem C55_friction_nodes : forall i, (i < 199)%nat -> gdf (ten_to (entry t_lgM i)) = Ok (entry t_I i).
Proof. exact gdf_node. Qed.
Print Assumptions C55_friction_nodes.

(** C55.  So some Mach number below 100 makes the program read past the end of the table; in binary64 the largest
    number below 2 (a possible value of log10) does: its index 199 is the last entry, and entry 200 is read. *)
Theorem C55_friction_in_table_refuted :
  (exists M, 0 < M < 100 /\ gdf M = UB) /\
  (is64 witness64 /\ -1 <= witness64 < 2 /\ (length t_lgM <= Z.to_nat (index64 witness64) + 1)%nat).
Proof.
  split.
  - exists (ten_to gdf_end). assert (E199 : entry t_lgM 199 = 2). { unfold t_lgM. rewrite entry_table. change (nth 199 gdf_lgM 0%Z) with 2000000000000000000%Z. unfold gdf_lgM_digits. lra. }
    pose proof gdf_end_lt as L. split.
    + split; [apply ten_to_pos|]. assert (E : ten_to 2 = 100). { unfold ten_to. replace 2 with (INR 2) by (simpl; lra). rewrite Rpower_pow by lra. lra. }
      rewrite <- E. unfold ten_to. apply Rpower_lt; lra.
    + apply gdf_ub. rewrite lg_ten. split; [apply ten_to_pos|lra].
  - split; [exact wit_is|]. split; [unfold witness64; simpl; lra|]. pose proof wit_index. change (length t_lgM) with 200%nat. lia.
Qed.
Print Assumptions C55_friction_in_table_refuted.

(** C55.  The force: either the Mach number of some star is in the bad interval and the program leaves the table, or the
    total momentum is unchanged and every star is decelerated along its motion relative to the gas. *)
Theorem C55_drag : forall s rad acc, (1 <= sn s)%nat -> (forall i, (i < sn s)%nat -> 0 < sm s i) ->
  (add_mag s rad acc = UB <-> exists i M, (1 <= i < sn s)%nat /\ mach s i = Ok M /\ 0 < M /\
      entry t_lgM 0 + 199 * (entry t_lgM 1 - entry t_lgM 0) <= lg M < 2) /\
  (forall a, add_mag s rad acc = Ok a -> total_force s a = total_force s acc /\
     forall i, (1 <= i < sn s)%nat -> exists q w, 0 <= q /\ mag_v_rel s i = Ok w /\ a i = vsub (acc i) (vscal q w)) /\
  add_mag s rad acc <> Abort.
Proof.
  intros s rad acc Hn Hm. unfold add_mag. fold (mag_loop s rad). rewrite mag_loop_spec.
  assert (K : forall i, match mag_f s rad i with Ok f => 0 <= f | _ => exists M, mach s i = Ok M /\ gdf M = UB end).
  { intros i. destruct (mach_ok s i) as (M & HM & H0). pose proof (mag_f_cases s rad i M HM) as C. destruct (gdf M) as [c| |] eqn:G.
    - destruct C as (f & -> & C). apply C. apply (gdf_nonneg M); auto.
    - exfalso. rewrite gdf_unfold in G. destruct (Rle_dec M 0); [discriminate|]. destruct (Rlt_dec _ _); [discriminate|]. destruct (Rle_dec _ _); [discriminate|].
      destruct (some_cell gdf_lgM_digits gdf_lgM gdf_I I_lgM lgM_2 lgM_step (lg M) ltac:(fold t_lgM; lra)) as (j & Hj). fold t_lgM in Hj.
      pose proof (interp_cell gdf_lgM_digits gdf_I_digits gdf_lgM gdf_I I_lgM lgM_2 lgM_step (lg M) j Hj) as IC. fold t_lgM t_I in IC. rewrite IC in G. destruct (_ <? _)%nat; discriminate.
    - rewrite C. exists M. auto. }
  assert (E199 : entry t_lgM 199 = 2). { unfold t_lgM. rewrite entry_table. change (nth 199 gdf_lgM 0%Z) with 2000000000000000000%Z. unfold gdf_lgM_digits. lra. }
  destruct (forallb _ _) eqn:F; (split; [|split; [|discriminate]]).
  - split; [discriminate|]. intros (i & M & Hi & HM & HU). exfalso. rewrite forallb_forall in F. specialize (F i ltac:(apply in_seq; lia)). cbv beta in F.
    pose proof (mag_f_cases s rad i M HM) as C. assert (G : gdf M = UB) by (apply gdf_ub; rewrite E199; exact HU). rewrite G in C. rewrite C in F. discriminate.
  - intros a Ha. assert (Ea : a = add_disk s (fun i => mag_fr s rad i) (fun i => mag_wr s i) acc) by (unfold add_disk; injection Ha as Ha; symmetry; exact Ha). subst a.
    destruct (C24_disk_drag s (fun i => mag_fr s rad i) (fun i => mag_wr s i) acc Hn Hm) as (A & B).
    { intros i. unfold mag_fr. specialize (K i). destruct (mag_f s rad i); simpl; lra. }
    split; [exact A|]. intros i Hi. destruct (B i Hi) as (q & Hq & E). destruct (mag_v_rel_ok s i) as (w & Ew). exists q, w. split; auto. split; auto. rewrite E. unfold mag_wr. rewrite Ew. reflexivity.
  - split; [intros _|auto]. assert (X : exists i, In i (seq 1 (sn s - 1)) /\ match mag_f s rad i with Ok _ => false | _ => true end = true).
    { clear - F. induction (seq 1 (sn s - 1)) as [|j L IH]; simpl in F; [discriminate|]. apply Bool.andb_false_iff in F. destruct F as [F|F].
      - exists j. split; [left; auto|]. destruct (mag_f s rad j); auto; discriminate.
      - destruct (IH F) as (i & Hi & E). exists i. split; [right; auto|auto]. }
    destruct X as (i & Hi & E). apply in_seq in Hi. specialize (K i). exists i. destruct (mag_f s rad i); [discriminate| |].
    + destruct K as (M & A & B). exists M. apply gdf_ub in B. rewrite E199 in B. split; [lia|]. split; [auto|]. exact B.
    + destruct K as (M & A & B). exists M. apply gdf_ub in B. rewrite E199 in B. split; [lia|]. split; [auto|]. exact B.
  - intros a Ha. discriminate.
Qed.
Print Assumptions C55_drag.

(** Non-vacuity: a table point whose coefficient is returned, and a system the drag theorem applies to. *)
Example C55_case : gdf (ten_to (entry t_lgM 72)) = Ok (entry t_I 72) /\ entry t_I 72 <> 0 /\
  exists s rad, (1 <= sn s)%nat /\ (forall i, (i < sn s)%nat -> 0 < sm s i) /\ sn s = 2%nat /\ rad 1%nat = 1.
Proof.
  split; [apply C55_friction_nodes; lia|]. split.
  - unfold t_I. rewrite entry_table. unfold gdf_I_digits. change (nth 72 gdf_I 0%Z) with (nth 0 [nth 72 gdf_I 0%Z] 0%Z). vm_compute (nth 72 gdf_I 0%Z). simpl nth. lra.
  - exists (mkS 2 (fun _ => 1) (fun i => mkV (INR i) 0 0) (fun _ => vzero)), (fun _ => 1). simpl. split; [lia|]. split; [intros; lra|auto].
Qed.

(** C55.  The gas: it moves in the plane of the disk, around the centre, and its angular momentum per mass is the
    radius times the tabulated (signed) speed times the conversion factor of the source. *)
Theorem C55_gas_velocity : forall r, 0 < polar_radius r -> exists u y, mag_vel r = Ok u /\ disk_value (lgR_cgs r) t_lgr t_v = Ok y /\
  vz u = 0 /\ vx r * vx u + vy r * vy u = 0 /\ norm u = Rabs y * 3.357318203286629e-07 /\
  vx r * vy u - vy r * vx u = polar_radius r * (y * 3.357318203286629e-07).
Proof.
  intros r HR. unfold mag_vel. destruct (dv_total mag_v_digits mag_v v_len (lgR_cgs r)) as (y & E). fold t_v in E. rewrite E. cbn [obind].
  eexists; exists y. split; [reflexivity|]. split; [reflexivity|]. cbn [vx vy vz]. split; [reflexivity|].
  assert (S : polar_radius r * polar_radius r = vx r * vx r + vy r * vy r) by (unfold polar_radius; apply sqrt_sqrt; nra).
  set (R := polar_radius r) in *. set (v := y * 3.357318203286629e-07). 
  assert (N : norm (mkV (- v * vy r / R) (v * vx r / R) 0) = Rabs v).
  { unfold norm. replace (norm2 (mkV (- v * vy r / R) (v * vx r / R) 0)) with (Rsqr v); [apply sqrt_Rsqr_abs|].
    unfold norm2, dot, Rsqr. cbn [vx vy vz]. replace (- v * vy r / R * (- v * vy r / R) + v * vx r / R * (v * vx r / R) + 0 * 0) with (v * v * (vx r * vx r + vy r * vy r) / (R * R)) by (field; lra). rewrite <- S. field. lra. }
  split; [field; lra|]. split. { rewrite N. unfold v. rewrite Rabs_mult. f_equal. apply Rabs_right. lra. }
  replace (vx r * (v * vx r / R) - vy r * (- v * vy r / R)) with (v * (vx r * vx r + vy r * vy r) / R) by (field; lra). rewrite <- S. field. lra.
Qed.
Print Assumptions C55_gas_velocity.

(** C55.  Not all of the gas rotates in one sense: the table of speeds changes sign, so in some annuli the gas moves
    clockwise, in others counter-clockwise. *)
Theorem C55_one_sense_of_rotation_refuted : exists r1 r2 u1 u2, mag_vel r1 = Ok u1 /\ mag_vel r2 = Ok u2 /\
  0 < vx r1 * vy u1 - vy r1 * vx u1 /\ vx r2 * vy u2 - vy r2 * vx u2 < 0.
Proof.
  assert (UC : 0 < unit_cm) by (unfold unit_cm; lra).
  set (r := fun i => mkV (ten_to (entry t_lgr i) * unit_cm) 0 0). pose proof (fun i => ten_to_pos (entry t_lgr i)) as TP.
  assert (PR : forall i, polar_radius (r i) = ten_to (entry t_lgr i) * unit_cm).
  { intros i. unfold polar_radius, r. cbn [vx vy]. replace (_ + 0 * 0) with ((ten_to (entry t_lgr i) * unit_cm) * (ten_to (entry t_lgr i) * unit_cm)) by ring. apply sqrt_square. specialize (TP i). nra. }
  assert (PP : forall i, 0 < polar_radius (r i)) by (intros i; rewrite PR; specialize (TP i); nra).
  assert (LG : forall i, lgR_cgs (r i) = entry t_lgr i) by (intros i; unfold lgR_cgs; rewrite PR; replace (ten_to (entry t_lgr i) * unit_cm / unit_cm) with (ten_to (entry t_lgr i)) by (field; lra); apply lg_ten).
  assert (K : forall i, (i < 252)%nat -> exists u, mag_vel (r i) = Ok u /\ vx (r i) * vy u - vy (r i) * vx u = polar_radius (r i) * (entry t_v i * 3.357318203286629e-07)).
  { intros i Hi. destruct (C55_gas_velocity (r i) (PP i)) as (u & y & A & B & _ & _ & _ & L). exists u. split; [exact A|]. rewrite LG in B. pose proof (dv_node mag_v_digits mag_v v_len i Hi) as N. fold t_v in N. rewrite N in B. rewrite L. assert (Y : y = entry t_v i) by congruence. rewrite Y. reflexivity. }
  destruct (K 0%nat ltac:(lia)) as (u1 & A1 & B1). destruct (K 81%nat ltac:(lia)) as (u2 & A2 & B2). exists (r 0%nat), (r 81%nat), u1, u2. split; [exact A1|]. split; [exact A2|]. rewrite B1, B2.
  assert (T10 : 0 < / 10 ^ mag_v_digits) by (apply Rinv_0_lt_compat, ten_pos).
  assert (V0 : 0 < entry t_v 0). { unfold t_v. rewrite entry_table. apply Rmult_lt_0_compat; [apply (IZR_lt 0); reflexivity|exact T10]. }
  assert (V81 : entry t_v 81 < 0). { unfold t_v. rewrite entry_table. assert (Q : IZR (nth 81 mag_v 0%Z) < 0) by (apply (IZR_lt _ 0); reflexivity). unfold Rdiv. nra. }
  pose proof (PP 0%nat) as P1. pose proof (PP 81%nat) as P2. split.
  - apply Rmult_lt_0_compat; [exact P1|lra].
  - assert (Q : 0 < polar_radius (r 81%nat) * (- entry t_v 81 * 3.357318203286629e-07)) by (apply Rmult_lt_0_compat; [exact P2|lra]). lra.
Qed.
Print Assumptions C55_one_sense_of_rotation_refuted.

(** C55.  The velocity relative to the gas: that of the star minus that of the central body minus that of the gas at the
    star; moving or boosting the whole system does not change it, nor does it change the force. *)
Definition shifted (d w : vec) (s : sys) : sys := mkS (sn s) (sm s) (fun i => vadd (sp s i) d) (fun i => vadd (sv s i) w).
Theorem C55_relative_velocity : forall s i,
  (exists u, mag_vel (vsub (sp s i) (sp s 0%nat)) = Ok u /\ mag_v_rel s i = Ok (vsub (vsub (sv s i) (sv s 0%nat)) u)) /\
  forall d w, mag_v_rel (shifted d w s) i = mag_v_rel s i /\ forall rad, mag_f (shifted d w s) rad i = mag_f s rad i.
Proof.
  intros s i. assert (V : forall a b c : vec, vsub (vadd a c) (vadd b c) = vsub a b) by (intros; apply vec_eq; cbn; ring).
  split. { destruct (mag_vel_ok (vsub (sp s i) (sp s 0%nat))) as (u & E). exists u. split; [exact E|]. unfold mag_v_rel. rewrite E. reflexivity. }
  intros d w. assert (A : mag_v_rel (shifted d w s) i = mag_v_rel s i) by (unfold mag_v_rel, shifted; cbn [sp sv]; rewrite !V; reflexivity).
  split; [exact A|]. intros rad. unfold mag_f. rewrite A. unfold shifted; cbn [sp sm]. rewrite !V. reflexivity.
Qed.
Print Assumptions C55_relative_velocity.

(** C55.  interpolate called directly: up to one (first) step below the table it extrapolates the first segment, further
    below it reads outside of the table. *)
Theorem C55_interpolate_below : forall ys, ys = t_lgrho \/ ys = t_lgH \/ ys = t_v -> forall x, x <= entry t_lgr 0 ->
  (entry t_lgr 0 - (entry t_lgr 1 - entry t_lgr 0) < x -> interpolate x t_lgr ys = Ok (segment t_lgr ys 0 x)) /\
  (x <= entry t_lgr 0 - (entry t_lgr 1 - entry t_lgr 0) -> interpolate x t_lgr ys = UB).
Proof.
  assert (P : forall dy Y, length Y = 252%nat -> forall x, x <= entry t_lgr 0 -> interpolate x t_lgr (table dy Y) = if Rlt_dec (entry t_lgr 0 - gstep t_lgr) x then Ok (segment t_lgr (table dy Y) 0 x) else UB).
  { intros dy Y HY x Hx. apply (interp_below mag_lgr_digits dy mag_lgr Y); [rewrite HY, lgr_len; auto|rewrite lgr_len; lia|apply lgr_step|exact Hx]. }
  intros ys Hys x Hx. assert (E : interpolate x t_lgr ys = if Rlt_dec (entry t_lgr 0 - gstep t_lgr) x then Ok (segment t_lgr ys 0 x) else UB).
  { destruct Hys as [->|[->| ->]]; [apply (P mag_lgrho_digits mag_lgrho lgrho_len)|apply (P mag_lgH_digits mag_lgH lgH_len)|apply (P mag_v_digits mag_v v_len)]; auto. }
  rewrite E. unfold gstep. clear. set (a := entry t_lgr 0). set (b := entry t_lgr 1). clearbody a b. split; intros H; destruct (Rlt_dec _ _) as [L|L]; try reflexivity; exfalso; lra.
Qed.
Print Assumptions C55_interpolate_below.
Example C55_gas_case : 0 < polar_radius (mkV 3 4 7).
Proof. assert (E : polar_radius (mkV 3 4 7) = 5) by (unfold polar_radius; cbn [vx vy]; replace (3 * 3 + 4 * 4) with (5 * 5) by ring; apply sqrt_square; lra). lra. Qed.
