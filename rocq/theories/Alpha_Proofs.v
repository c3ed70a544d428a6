(** Calculus of the alpha-disk friction coefficient. *)
From Coq Require Import Reals Lra Lia.
From Verif Require Import Disk_Model.
Open Scope R_scope.

Lemma exp_nat n x : exp (INR n * x) = exp x ^ n.
Proof. induction n; [simpl; rewrite Rmult_0_l; apply exp_0|]. rewrite S_INR. replace ((INR n + 1) * x) with (x + INR n * x) by ring. rewrite exp_plus, IHn. simpl. ring. Qed.
Lemma exp1_lo : 2.69 < exp 1.
Proof.
  replace 1 with (INR 64 * (1 / 64)) by (simpl; lra). rewrite exp_nat.
  apply Rlt_le_trans with ((1 + 1 / 64) ^ 64); [lra|]. apply pow_incr. pose proof (exp_ineq1_le (1 / 64)). lra.
Qed.
Lemma exp1_hi : exp 1 < 2.74.
Proof.
  assert (H : 0 < exp (- 1)) by apply exp_pos. assert (E : exp 1 * exp (-1) = 1) by (rewrite <- exp_plus; replace (1 + -1) with 0 by lra; apply exp_0).
  assert (L : 1 / 2.74 < exp (-1)).
  { replace (-1) with (INR 64 * (- (1 / 64))) by (simpl; lra). rewrite exp_nat. apply Rlt_le_trans with ((1 + - (1 / 64)) ^ 64); [lra|]. apply pow_incr. pose proof (exp_ineq1_le (- (1 / 64))). lra. }
  pose proof (exp_pos 1). nra.
Qed.
Lemma eps_eq : eps_a = / (exp 1 * exp 1).
Proof. unfold eps_a, logR. replace (2 * 3 / 3) with (1 + 1) by lra. rewrite exp_plus. unfold Rdiv. ring. Qed.
Lemma eps_lo : 0.133 < eps_a.
Proof. rewrite eps_eq. pose proof exp1_hi. pose proof exp1_lo. apply (Rmult_lt_reg_r (exp 1 * exp 1)); [nra|]. rewrite Rinv_l by nra. nra. Qed.
Lemma eps_hi : eps_a < 0.1383.
Proof. rewrite eps_eq. pose proof exp1_hi. pose proof exp1_lo. apply (Rmult_lt_reg_r (exp 1 * exp 1)); [nra|]. rewrite Rinv_l by nra. nra. Qed.

(** Derivatives. *)
Lemma d_ln f x l : 0 < f x -> derivable_pt_lim f x l -> derivable_pt_lim (fun y => ln (f y)) x (l / f x).
Proof.
  intros H D. replace (l / f x) with (/ f x * l) by (unfold Rdiv; ring). apply (derivable_pt_lim_comp f ln); auto. apply derivable_pt_lim_ln; auto.
Qed.
Lemma d_ext f g x l : (forall y, f y = g y) -> derivable_pt_lim f x l -> derivable_pt_lim g x l.
Proof. intros E D eps He. destruct (D eps He) as (d & H). exists d. intros h H1 H2. rewrite <- !E. auto. Qed.
Lemma d_quot f g x l m : g x <> 0 -> derivable_pt_lim f x l -> derivable_pt_lim g x m -> derivable_pt_lim (fun y => f y / g y) x ((l * g x - m * f x) / (g x * g x)).
Proof. intros H D1 D2. exact (derivable_pt_lim_div f g x l m D1 D2 H). Qed.
Lemma d_id x : derivable_pt_lim (fun y => y) x 1. Proof. apply derivable_pt_lim_id. Qed.
Lemma d_c c x : derivable_pt_lim (fun _ => c) x 0. Proof. apply derivable_pt_lim_const. Qed.
Lemma d_plus f g x l m : derivable_pt_lim f x l -> derivable_pt_lim g x m -> derivable_pt_lim (fun y => f y + g y) x (l + m).
Proof. apply derivable_pt_lim_plus. Qed.
Lemma d_minus f g x l m : derivable_pt_lim f x l -> derivable_pt_lim g x m -> derivable_pt_lim (fun y => f y - g y) x (l - m).
Proof. apply derivable_pt_lim_minus. Qed.
Lemma d_mult f g x l m : derivable_pt_lim f x l -> derivable_pt_lim g x m -> derivable_pt_lim (fun y => f y * g y) x (l * g x + f x * m).
Proof. apply derivable_pt_lim_mult. Qed.
Lemma d_eq f x l m : l = m -> derivable_pt_lim f x l -> derivable_pt_lim f x m. Proof. intros ->; auto. Qed.

Lemma I_sub_deriv M : 0 < M < 1 -> derivable_pt_lim I_sub M (dIdM_sub M).
Proof.
  intros HM. unfold I_sub. 
  eapply d_eq; [|apply d_quot; [|apply d_quot; [|apply d_minus; [apply d_mult; [apply d_c|apply d_ln; [|apply d_quot; [|apply d_plus; [apply d_c|apply d_id]|apply d_minus; [apply d_c|apply d_id]]]]|apply d_id]|apply d_id]|apply d_id]]; cbv beta; try lra.
  - unfold dIdM_sub. set (L := ln _). replace 0.5 with (1 / 2) by lra. field. nra.
  - apply Rdiv_lt_0_compat; lra.
Qed.
Lemma I_sup_deriv M c : 1 < M -> derivable_pt_lim (fun M => I_sup M c) M (dIdM_sup M c).
Proof.
  intros HM. unfold I_sup.
  assert (P : 0 < 1 - 1 / M / M). { unfold Rdiv. rewrite Rmult_1_l. assert (/ M < 1) by (rewrite <- Rinv_1; apply Rinv_lt_contravar; lra). assert (0 < / M) by (apply Rinv_0_lt_compat; lra). nra. }
  eapply d_eq; [|apply d_quot; [|apply d_quot; [|apply d_plus; [apply d_mult; [apply d_c|apply d_ln; [|apply d_minus; [apply d_c|apply d_quot; [|apply d_quot; [|apply d_c|apply d_id]|apply d_id]]]]|apply d_c]|apply d_id]|apply d_id]]; cbv beta; try lra.
  unfold dIdM_sup. set (L := ln _). replace 0.5 with (1 / 2) by lra. field. nra.
Qed.
Definition dconnect (M : R) : R :=
  let t := (M - x1a) / (x2a - x1a) in
  ((y2a - y1a) + (1 - 2 * t) * (t * ba + (1 - t) * aa) + (1 - t) * t * (ba - aa)) / (x2a - x1a).
Lemma dx_pos : 0 < x2a - x1a. Proof. unfold x2a, x1a. pose proof eps_lo. lra. Qed.
Lemma connect_deriv M : derivable_pt_lim connect M (dconnect M).
Proof.
  pose proof dx_pos as P. set (tf := fun M => (M - x1a) / (x2a - x1a)).
  assert (DT : forall M, derivable_pt_lim tf M (1 / (x2a - x1a))).
  { intros m. eapply d_eq; [|apply d_quot; [|apply d_minus; [apply d_id|apply d_c]|apply d_c]]; cbv beta; [field; lra|lra]. }
  unfold connect, dconnect. cbv zeta. change (derivable_pt_lim (fun M => (1 - tf M) * y1a + y2a * tf M + (1 - tf M) * tf M * (tf M * ba + (1 - tf M) * aa)) M
    ((y2a - y1a + (1 - 2 * tf M) * (tf M * ba + (1 - tf M) * aa) + (1 - tf M) * tf M * (ba - aa)) / (x2a - x1a))).
  clearbody tf. set (D := x2a - x1a) in *. 
  assert (DU : derivable_pt_lim (fun M => 1 - tf M) M (0 - 1 / D)) by (apply d_minus; [apply d_c|apply DT]).
  eapply d_eq; [|apply d_plus; [apply d_plus; [apply d_mult; [exact DU|apply d_c]|apply d_mult; [apply d_c|apply DT]]|apply d_mult; [apply d_mult; [exact DU|apply DT]|apply d_plus; [apply d_mult; [apply DT|apply d_c]|apply d_mult; [exact DU|apply d_c]]]]].
  cbv beta. set (t := tf M). field. lra.
Qed.
Lemma connect_x1 : connect x1a = y1a /\ dconnect x1a = k1a.
Proof.
  pose proof dx_pos as P. unfold connect, dconnect. replace ((x1a - x1a) / (x2a - x1a)) with 0 by (field; lra). cbv zeta. split; [ring|]. unfold aa. field. lra.
Qed.
Lemma connect_x2 : connect x2a = y2a /\ dconnect x2a = k2a.
Proof.
  pose proof dx_pos as P. unfold connect, dconnect. replace ((x2a - x1a) / (x2a - x1a)) with 1 by (field; lra). cbv zeta. split; [ring|]. unfold ba. field. lra.
Qed.

(** Gluing. *)
Lemma glue_d f g h c l r : 0 < r -> (forall y, Rabs (y - c) < r -> y < c -> f y = g y) -> (forall y, Rabs (y - c) < r -> c <= y -> f y = h y) -> g c = h c ->
  derivable_pt_lim g c l -> derivable_pt_lim h c l -> derivable_pt_lim f c l.
Proof.
  intros Hr Fg Fh E Dg Dh eps He. destruct (Dg eps He) as ((d1 & P1) & H1). destruct (Dh eps He) as ((d2 & P2) & H2). simpl in *.
  assert (Q : 0 < Rmin r (Rmin d1 d2)) by (repeat apply Rmin_pos; auto). exists (mkposreal _ Q). intros k K0 K1. simpl in K1.
  pose proof (Rmin_l r (Rmin d1 d2)). pose proof (Rmin_r r (Rmin d1 d2)). pose proof (Rmin_l d1 d2). pose proof (Rmin_r d1 d2).
  assert (Fc : f c = h c) by (apply Fh; [rewrite Rminus_diag_eq, Rabs_R0 by auto; auto|lra]). rewrite Fc.
  destruct (Rlt_dec k 0) as [N|N].
  - rewrite Fg by (replace (c + k - c) with k by ring; lra). rewrite <- E. apply H1; auto. lra.
  - rewrite Fh by (try (replace (c + k - c) with k by ring); lra). apply H2; auto. lra.
Qed.
Lemma loc_d f g c l r : 0 < r -> (forall y, Rabs (y - c) < r -> f y = g y) -> derivable_pt_lim g c l -> derivable_pt_lim f c l.
Proof. intros Hr E D. apply (glue_d f g g c l r); auto. Qed.
Lemma glue_c f g h c r : 0 < r -> (forall y, Rabs (y - c) < r -> y < c -> f y = g y) -> (forall y, Rabs (y - c) < r -> c <= y -> f y = h y) -> g c = h c ->
  continuity_pt g c -> continuity_pt h c -> continuity_pt f c.
Proof.
  intros Hr Fg Fh E Cg Ch eps He. destruct (Cg eps He) as (d1 & P1 & H1). destruct (Ch eps He) as (d2 & P2 & H2).
  exists (Rmin r (Rmin d1 d2)). split; [repeat apply Rmin_pos; auto|]. intros y (Dy & K). simpl in *. unfold R_dist in *.
  pose proof (Rmin_l r (Rmin d1 d2)). pose proof (Rmin_r r (Rmin d1 d2)). pose proof (Rmin_l d1 d2). pose proof (Rmin_r d1 d2).
  assert (Fc : f c = h c) by (apply Fh; [rewrite Rminus_diag_eq, Rabs_R0 by auto; auto|lra]). rewrite Fc.
  destruct (Rlt_dec y c) as [N|N].
  - rewrite Fg by lra. rewrite <- E. apply H1. split; auto. lra.
  - rewrite Fh by lra. apply H2. split; auto. lra.
Qed.
Lemma loc_c f g c r : 0 < r -> (forall y, Rabs (y - c) < r -> f y = g y) -> continuity_pt g c -> continuity_pt f c.
Proof. intros Hr E D. apply (glue_c f g g c r); auto. Qed.
Lemma lim_cont f x l : derivable_pt_lim f x l -> continuity_pt f x.
Proof. intros H. apply derivable_continuous_pt. exists l. exact H. Qed.

Lemma c_quot f g x : continuity_pt f x -> continuity_pt g x -> g x <> 0 -> continuity_pt (fun y => f y / g y) x.
Proof. intros. apply (continuity_pt_div f g); auto. Qed.
Lemma c_plus f g x : continuity_pt f x -> continuity_pt g x -> continuity_pt (fun y => f y + g y) x.
Proof. intros. apply (continuity_pt_plus f g); auto. Qed.
Lemma c_minus f g x : continuity_pt f x -> continuity_pt g x -> continuity_pt (fun y => f y - g y) x.
Proof. intros. apply (continuity_pt_minus f g); auto. Qed.
Lemma c_mult f g x : continuity_pt f x -> continuity_pt g x -> continuity_pt (fun y => f y * g y) x.
Proof. intros. apply (continuity_pt_mult f g); auto. Qed.
Lemma c_c c x : continuity_pt (fun _ => c) x. Proof. apply continuity_pt_const. intros a b. auto. Qed.
Lemma c_id x : continuity_pt (fun y => y) x. Proof. apply (lim_cont _ _ _ (d_id x)). Qed.
Lemma c_ln f x : continuity_pt f x -> 0 < f x -> continuity_pt (fun y => ln (f y)) x.
Proof. intros C H. apply (continuity_pt_comp f ln); auto. apply (lim_cont _ _ _ (derivable_pt_lim_ln _ H)). Qed.
Ltac cont := repeat first [apply c_id | apply c_c | apply c_quot | apply c_minus | apply c_plus | apply c_mult | apply c_ln]; cbv beta.
Lemma sub_cont M : 0 < M < 1 -> continuity_pt dIdM_sub M.
Proof.
  intros H. unfold dIdM_sub. cont; try lra.
  - apply Rdiv_lt_0_compat; lra.
  - apply Rmult_integral_contrapositive. split; [apply Rgt_not_eq; repeat apply Rmult_lt_0_compat; lra|nra].
Qed.
Lemma sup_cont M c : 1 < M -> continuity_pt (fun M => dIdM_sup M c) M.
Proof.
  intros H. unfold dIdM_sup.
  assert (P : 0 < 1 - 1 / M / M). { unfold Rdiv. rewrite Rmult_1_l. assert (/ M < 1) by (rewrite <- Rinv_1; apply Rinv_lt_contravar; lra). assert (0 < / M) by (apply Rinv_0_lt_compat; lra). nra. }
  cont; try lra; nra.
Qed.
Lemma dcon_cont M : continuity_pt dconnect M.
Proof. pose proof dx_pos. unfold dconnect. cbv zeta. cont; lra. Qed.

Definition alpha_slope (M : R) : R := if Rlt_dec M x1a then dIdM_sub M else if Rlt_dec M x2a then dconnect M else dIdM_sup M logR.

Lemma aI_low M : M < 0.1 -> alpha_I M = M / 3.
Proof. intros H. unfold alpha_I. pose proof eps_lo. pose proof eps_hi. destruct (Rlt_dec (1 + eps_a) M); [lra|]. destruct (Rlt_dec 0.1 M); [lra|]. destruct (Rlt_dec M 0.1); [auto|lra]. Qed.
Lemma aI_01 : alpha_I 0.1 = connect 0.1.
Proof. unfold alpha_I. pose proof eps_lo. pose proof eps_hi. destruct (Rlt_dec (1 + eps_a) 0.1); [lra|]. destruct (Rlt_dec 0.1 0.1); [lra|]. destruct (Rlt_dec 0.1 0.1); [lra|auto]. Qed.
Lemma aI_sub M : 0.1 < M < x1a -> alpha_I M = I_sub M.
Proof. intros H. unfold x1a in H. unfold alpha_I. pose proof eps_lo. pose proof eps_hi. destruct (Rlt_dec (1 + eps_a) M); [lra|]. destruct (Rlt_dec 0.1 M); [|lra]. destruct (Rlt_dec M (1 - eps_a)); [|lra]. unfold I_sub. field. lra. Qed.
Lemma aI_mid M : x1a <= M <= x2a -> alpha_I M = connect M.
Proof. intros H. unfold x1a, x2a in H. unfold alpha_I. pose proof eps_lo. pose proof eps_hi. destruct (Rlt_dec (1 + eps_a) M); [lra|]. destruct (Rlt_dec 0.1 M); [|lra]. destruct (Rlt_dec M (1 - eps_a)); [lra|]. destruct (Rlt_dec M 0.1); [lra|auto]. Qed.
Lemma aI_sup M : x2a <= M -> alpha_I M = I_sup M logR.
Proof.
  intros H. destruct (Req_dec M x2a) as [->|N].
  - rewrite aI_mid by (pose proof dx_pos; lra). apply connect_x2.
  - unfold x2a in *. unfold alpha_I. pose proof eps_lo. destruct (Rlt_dec (1 + eps_a) M); [|lra]. unfold I_sup. replace (1 / (M * M)) with (1 / M / M) by (field; lra). field. lra.
Qed.
Lemma aI_deriv M : 0.1 < M -> derivable_pt_lim alpha_I M (alpha_slope M).
Proof.
  intros HM. pose proof eps_lo as El. pose proof eps_hi as Eh. pose proof dx_pos as DX. unfold alpha_slope.
  assert (AB : forall y r, Rabs (y - M) < r -> M - r < y < M + r). { intros y r H. apply Rabs_def2 in H. lra. }
  assert (X1 : x1a = 1 - eps_a) by reflexivity. assert (X2 : x2a = 1 + eps_a) by reflexivity.
  destruct (Rlt_dec M x1a) as [A|A].
  - assert (Q : 0 < Rmin (M - 0.1) (x1a - M)) by (apply Rmin_pos; lra). apply (loc_d _ I_sub M _ _ Q); [|apply I_sub_deriv; lra].
    intros y Hy. apply AB in Hy. pose proof (Rmin_l (M - 0.1) (x1a - M)). pose proof (Rmin_r (M - 0.1) (x1a - M)). apply aI_sub. lra.
  - destruct (Rlt_dec M x2a) as [B|B].
    + destruct (Req_dec M x1a) as [->|N].
      * assert (Q : 0 < Rmin (x1a - 0.1) (x2a - x1a)) by (apply Rmin_pos; lra). pose proof (Rmin_l (x1a - 0.1) (x2a - x1a)). pose proof (Rmin_r (x1a - 0.1) (x2a - x1a)).
        apply (glue_d _ I_sub connect x1a _ _ Q).
        -- intros y Hy L. apply AB in Hy. apply aI_sub. lra.
        -- intros y Hy L. apply AB in Hy. apply aI_mid. lra.
        -- symmetry. apply connect_x1.
        -- rewrite (proj2 connect_x1). apply I_sub_deriv. lra.
        -- apply connect_deriv.
      * assert (Q : 0 < Rmin (M - x1a) (x2a - M)) by (apply Rmin_pos; lra). pose proof (Rmin_l (M - x1a) (x2a - M)). pose proof (Rmin_r (M - x1a) (x2a - M)).
        apply (loc_d _ connect M _ _ Q); [|apply connect_deriv]. intros y Hy. apply AB in Hy. apply aI_mid. lra.
    + destruct (Req_dec M x2a) as [->|N].
      * apply (glue_d _ connect (fun M => I_sup M logR) x2a _ _ DX).
        -- intros y Hy L. apply AB in Hy. apply aI_mid. lra.
        -- intros y Hy L. apply aI_sup. lra.
        -- apply connect_x2.
        -- fold k2a. rewrite <- (proj2 connect_x2). apply connect_deriv.
        -- apply I_sup_deriv. lra.
      * assert (Q : 0 < M - x2a) by lra. apply (loc_d _ (fun M => I_sup M logR) M _ _ Q); [|apply I_sup_deriv; lra]. intros y Hy. apply AB in Hy. apply aI_sup. lra.
Qed.
Lemma slope_cont M : 0.1 < M -> continuity_pt alpha_slope M.
Proof.
  intros HM. pose proof eps_lo as El. pose proof eps_hi as Eh. pose proof dx_pos as DX.
  assert (AB : forall y r, Rabs (y - M) < r -> M - r < y < M + r). { intros y r H. apply Rabs_def2 in H. lra. }
  assert (X1 : x1a = 1 - eps_a) by reflexivity. assert (X2 : x2a = 1 + eps_a) by reflexivity.
  assert (S1 : forall y, y < x1a -> alpha_slope y = dIdM_sub y) by (intros y H; unfold alpha_slope; destruct (Rlt_dec y x1a); [auto|lra]).
  assert (S2 : forall y, x1a <= y < x2a -> alpha_slope y = dconnect y) by (intros y H; unfold alpha_slope; destruct (Rlt_dec y x1a); [lra|]; destruct (Rlt_dec y x2a); [auto|lra]).
  assert (S3 : forall y, x2a <= y -> alpha_slope y = dIdM_sup y logR) by (intros y H; unfold alpha_slope; destruct (Rlt_dec y x1a); [lra|]; destruct (Rlt_dec y x2a); [lra|auto]).
  destruct (Rlt_dec M x1a) as [A|A].
  - apply (loc_c _ dIdM_sub M (x1a - M)); [lra| |apply sub_cont; lra]. intros y Hy. apply AB in Hy. apply S1. lra.
  - destruct (Rlt_dec M x2a) as [B|B].
    + destruct (Req_dec M x1a) as [->|N].
      * apply (glue_c _ dIdM_sub dconnect x1a _ DX).
        -- intros y Hy L. apply S1. lra.
        -- intros y Hy L. apply AB in Hy. apply S2. lra.
        -- symmetry. apply connect_x1.
        -- apply sub_cont. lra.
        -- apply dcon_cont.
      * assert (Q : 0 < Rmin (M - x1a) (x2a - M)) by (apply Rmin_pos; lra). pose proof (Rmin_l (M - x1a) (x2a - M)). pose proof (Rmin_r (M - x1a) (x2a - M)).
        apply (loc_c _ dconnect M _ Q); [|apply dcon_cont]. intros y Hy. apply AB in Hy. apply S2. lra.
    + destruct (Req_dec M x2a) as [->|N].
      * apply (glue_c _ dconnect (fun M => dIdM_sup M logR) x2a _ DX).
        -- intros y Hy L. apply AB in Hy. apply S2. lra.
        -- intros y Hy L. apply S3. lra.
        -- apply connect_x2.
        -- apply dcon_cont.
        -- apply sup_cont. lra.
      * apply (loc_c _ (fun M => dIdM_sup M logR) M (M - x2a)); [lra| |apply sup_cont; lra]. intros y Hy. apply AB in Hy. apply S3. lra.
Qed.

(** Signs. *)
Lemma mono0 f f' b : 0 < b -> (forall c, 0 <= c <= b -> derivable_pt_lim f c (f' c)) -> (forall c, 0 < c < b -> 0 <= f' c) -> f 0 <= f b.
Proof. intros Hb D P. destruct (MVT_cor2 f f' 0 b Hb D) as (c & E & Hc). specialize (P c Hc). nra. Qed.
Lemma atanh_ge M : 0 < M < 1 -> 2 * M <= ln ((1 + M) / (1 - M)).
Proof.
  intros H. pose (f := fun x => ln ((1 + x) / (1 - x)) - 2 * x). pose (f' := fun x => 2 / (1 - x * x) - 2).
  assert (A : f 0 <= f M).
  { apply (mono0 f f'); [lra| |].
    - intros c Hc. unfold f. eapply d_eq; [|apply d_minus; [apply d_ln; [|apply d_quot; [|apply d_plus; [apply d_c|apply d_id]|apply d_minus; [apply d_c|apply d_id]]]|apply d_mult; [apply d_c|apply d_id]]]; cbv beta; try lra; [|apply Rdiv_lt_0_compat; lra].
      unfold f'. field. split; nra.
    - intros c Hc. unfold f'. assert (1 <= / (1 - c * c)). { rewrite <- Rinv_1 at 1. apply Rinv_le_contravar; nra. } unfold Rdiv. lra. }
  unfold f in A. replace ((1 + 0) / (1 - 0)) with 1 in A by field. rewrite ln_1 in A. lra.
Qed.
Lemma atanh_le M : 0 < M < 1 -> ln ((1 + M) / (1 - M)) <= M * (2 - M * M) / (1 - M * M).
Proof.
  intros H. pose (f := fun x => x * (2 - x * x) / (1 - x * x) - ln ((1 + x) / (1 - x))). pose (f' := fun x => (x * x + x * x * (x * x)) / ((1 - x * x) * (1 - x * x))).
  assert (A : f 0 <= f M).
  { apply (mono0 f f'); [lra| |].
    - intros c Hc. unfold f. eapply d_eq; [|apply d_minus; [apply d_quot; [|apply d_mult; [apply d_id|apply d_minus; [apply d_c|apply d_mult; apply d_id]]|apply d_minus; [apply d_c|apply d_mult; apply d_id]]|apply d_ln; [|apply d_quot; [|apply d_plus; [apply d_c|apply d_id]|apply d_minus; [apply d_c|apply d_id]]]]]; cbv beta; try lra; [|nra|apply Rdiv_lt_0_compat; lra].
      unfold f'. field. split; nra.
    - intros c Hc. unfold f'. assert (0 < 1 - c * c) by nra. apply Rmult_le_pos; [nra|]. left. apply Rinv_0_lt_compat. nra. }
  unfold f in A. replace ((1 + 0) / (1 - 0)) with 1 in A by field. rewrite ln_1 in A. unfold Rdiv in A. rewrite Rmult_0_l, Rmult_0_l in A. unfold Rdiv. lra.
Qed.
Lemma I_sub_nonneg M : 0 < M < 1 -> 0 <= I_sub M.
Proof.
  intros H. unfold I_sub. pose proof (atanh_ge M H). assert (0 < / M) by (apply Rinv_0_lt_compat; lra). unfold Rdiv. repeat apply Rmult_le_pos; unfold Rdiv in *; lra.
Qed.
Lemma dI_sub_nonneg M : 0 < M < 1 -> 0 <= dIdM_sub M.
Proof.
  intros H. unfold dIdM_sub. pose proof (atanh_le M H) as A. set (L := ln _) in *. assert (Q : 0 < 1 - M * M) by nra.
  assert (B : (1 - M * M) * L <= M * (2 - M * M)). { apply (Rmult_le_compat_l (1 - M * M)) in A; [|lra]. replace ((1 - M * M) * (M * (2 - M * M) / (1 - M * M))) with (M * (2 - M * M)) in A by (field; lra). lra. }
  replace ((M * M * M + (1 - M * M) * L - 2 * M) / (M * M * M * (M * M - 1))) with ((M * (2 - M * M) - (1 - M * M) * L) / (M * M * M * (1 - M * M))) by (field; nra).
  apply Rmult_le_pos; [lra|]. left. apply Rinv_0_lt_compat. repeat apply Rmult_lt_0_compat; lra.
Qed.
Lemma ln_w M : 1 + eps_a <= M -> -2 <= ln (1 - 1 / M / M) <= 0.
Proof.
  intros H. pose proof eps_lo. pose proof eps_hi. assert (P : 0 < M) by lra.
  assert (E : eps_a = exp (-2)). { rewrite eps_eq, <- exp_plus, <- exp_Ropp. apply f_equal. lra. }
  assert (I1 : 1 / M / M = / (M * M)) by (field; lra).
  assert (0 < / (M * M)) by (apply Rinv_0_lt_compat; nra).
  assert (B : / (M * M) <= / ((1 + eps_a) * (1 + eps_a))) by (apply Rinv_le_contravar; nra).
  assert (C : / ((1 + eps_a) * (1 + eps_a)) <= 1 - eps_a). { apply (Rmult_le_reg_r ((1 + eps_a) * (1 + eps_a))); [nra|]. rewrite Rinv_l by nra. nra. }
  split.
  - rewrite <- (ln_exp (-2)), <- E. destruct (Req_dec eps_a (1 - 1 / M / M)) as [->|N]; [lra|]. left. apply ln_increasing; lra.
  - rewrite <- ln_1. destruct (Req_dec (1 - 1 / M / M) 1) as [->|N]; [lra|]. left. apply ln_increasing; lra.
Qed.
Lemma I_sup_nonneg M : x2a <= M -> 0 <= I_sup M logR.
Proof.
  intros H. unfold I_sup. pose proof (ln_w M H). pose proof eps_lo. unfold x2a in H. assert (0 < / M) by (apply Rinv_0_lt_compat; lra). unfold logR. unfold Rdiv in *. repeat apply Rmult_le_pos; lra.
Qed.
Lemma x2sq : 0.283 < x2a * x2a - 1. Proof. unfold x2a. pose proof eps_lo. nra. Qed.
Lemma k2_nonpos : k2a <= 0.
Proof.
  unfold k2a, dIdM_sup. pose proof (ln_w x2a (Rle_refl _)) as W. pose proof x2sq as X. pose proof eps_lo.
  assert (A : 1 / (x2a * x2a - 1) <= 3.6). { unfold Rdiv. rewrite Rmult_1_l. apply (Rmult_le_reg_r (x2a * x2a - 1)); [lra|]. rewrite Rinv_l by lra. lra. }
  assert (P : 0 < / x2a) by (apply Rinv_0_lt_compat; unfold x2a; lra).
  unfold logR. set (N := -2 * 3 + _ - _). assert (HN : N <= 0) by (unfold N; lra).
  replace (N / x2a / x2a / x2a) with (N * (/ x2a * / x2a * / x2a)) by (unfold Rdiv; ring). assert (0 < / x2a * / x2a * / x2a) by (repeat apply Rmult_lt_0_compat; lra). nra.
Qed.
Lemma connect_nonneg M : x1a <= M <= x2a -> 0 <= connect M.
Proof.
  intros H. pose proof dx_pos as DX. pose proof eps_lo. pose proof eps_hi.
  assert (Y1 : 0 <= y1a) by (apply I_sub_nonneg; unfold x1a; lra). assert (Y2 : 0 <= y2a) by (apply I_sup_nonneg; lra).
  assert (K1 : 0 <= k1a) by (apply dI_sub_nonneg; unfold x1a; lra). pose proof k2_nonpos as K2.
  unfold connect. cbv zeta. set (D := x2a - x1a) in *. set (t := (M - x1a) / D).
  assert (T : 0 <= t <= 1). { unfold t. split; [apply Rmult_le_pos; [lra|left; apply Rinv_0_lt_compat; lra]|]. apply (Rmult_le_reg_r D); auto. unfold Rdiv. rewrite Rmult_assoc, Rinv_l by lra. unfold D in *. lra. }
  replace ((1 - t) * y1a + y2a * t + (1 - t) * t * (t * ba + (1 - t) * aa)) with
    ((1 - t) * (1 - t) * (1 + 2 * t) * y1a + t * t * (3 - 2 * t) * y2a + (1 - t) * (1 - t) * t * (k1a * D) + (1 - t) * t * t * (- k2a * D)) by (unfold ba, aa; fold D; ring).
  assert (0 <= k1a * D) by nra. assert (0 <= - k2a * D) by nra. assert (0 <= 1 - t) by lra.
  assert (0 <= 1 + 2 * t) by lra. assert (0 <= 3 - 2 * t) by lra.
  repeat apply Rplus_le_le_0_compat; repeat (apply Rmult_le_pos; [|lra]); lra.
Qed.
Lemma L_hi : ln ((1 + x1a) / (1 - x1a)) <= 2.75.
Proof.
  pose proof eps_lo. pose proof eps_hi. unfold x1a. assert (E : eps_a = exp (-2)). { rewrite eps_eq, <- exp_plus, <- exp_Ropp. apply f_equal. lra. }
  assert (E34 : 2 <= exp (3 / 4)). { replace (3 / 4) with (INR 8 * (3 / 32)) by (simpl; lra). rewrite exp_nat. apply Rle_trans with ((1 + 3 / 32) ^ 8); [lra|]. apply pow_incr. pose proof (exp_ineq1_le (3 / 32)). lra. }
  assert (Q : (1 + (1 - eps_a)) / (1 - (1 - eps_a)) < exp 2.75).
  { replace (1 - (1 - eps_a)) with eps_a by ring. replace 2.75 with (3 / 4 + 2) by lra. rewrite exp_plus.
    assert (E2 : exp 2 = / eps_a) by (rewrite E, <- exp_Ropp; f_equal; lra). rewrite E2. unfold Rdiv. apply Rmult_lt_compat_r; [apply Rinv_0_lt_compat; lra|lra]. }
  rewrite <- (ln_exp 2.75). left. apply ln_increasing; auto. apply Rdiv_lt_0_compat; lra.
Qed.
Lemma L_lo : 2 <= ln ((1 + x1a) / (1 - x1a)).
Proof.
  pose proof eps_lo. pose proof eps_hi. unfold x1a. assert (E : eps_a = exp (-2)). { rewrite eps_eq, <- exp_plus, <- exp_Ropp. apply f_equal. lra. }
  assert (E2 : exp 2 = / eps_a) by (rewrite E, <- exp_Ropp; f_equal; lra). rewrite <- (ln_exp 2) at 1. left. apply ln_increasing; [apply exp_pos|]. rewrite E2.
  replace (1 - (1 - eps_a)) with eps_a by ring. unfold Rdiv. rewrite <- (Rmult_1_l (/ eps_a)) at 1. apply Rmult_lt_compat_r; [apply Rinv_0_lt_compat; lra|lra].
Qed.
Lemma connect_01 : 1 < connect 0.1.
Proof.
  pose proof eps_lo as El. pose proof eps_hi as Eh. pose proof L_hi as Lh. pose proof L_lo as Ll. pose proof k2_nonpos as K2.
  assert (X1 : x1a = 1 - eps_a) by reflexivity. assert (X2 : x2a = 1 + eps_a) by reflexivity.
  assert (Y1 : 0 <= y1a) by (apply I_sub_nonneg; unfold x1a; lra).
  assert (P : y1a <= 0.695).
  { unfold y1a, I_sub. set (L := ln _) in *. apply (Rmult_le_reg_r (x1a * x1a)); [nra|]. replace ((0.5 * L - x1a) / x1a / x1a * (x1a * x1a)) with (0.5 * L - x1a) by (field; lra). nra. }
  assert (Q : 1.54 <= y2a).
  { unfold y2a, I_sup, logR. pose proof (ln_w x2a (Rle_refl _)) as W. set (w := ln (1 - 1 / x2a / x2a)) in *. apply (Rmult_le_reg_r (x2a * x2a)); [nra|]. replace ((0.5 * w + 3) / x2a / x2a * (x2a * x2a)) with (0.5 * w + 3) by (field; lra). assert (x2a * x2a <= 1.2958) by (rewrite X2; nra). lra. }
  assert (K : k1a <= 3.8).
  { unfold k1a, dIdM_sub. set (L := ln _) in *. set (x := x1a) in *. assert (Hx : 0.861 <= x <= 0.868) by lra.
    assert (S : 0.741 <= x * x <= 0.754) by nra. assert (C3 : 0.637 <= x * x * x <= 0.655) by nra.
    assert (DD : 0 < x * x * x * (1 - x * x)) by nra.
    replace ((x * x * x + (1 - x * x) * L - 2 * x) / (x * x * x * (x * x - 1))) with ((2 * x - x * x * x - (1 - x * x) * L) / (x * x * x * (1 - x * x))) by (field; nra).
    apply (Rmult_le_reg_r (x * x * x * (1 - x * x))); auto. unfold Rdiv. rewrite Rmult_assoc, Rinv_l by lra. rewrite Rmult_1_r.
    set (c := x * x * x) in *. set (q := x * x) in *.
    assert ((1 - q) * 2 <= (1 - q) * L) by nra. assert (B1 : 2 * x - c - (1 - q) * 2 <= 3.8 * (c * (1 - q))); [|lra].
    unfold c. replace (x * x * x) with (q * x) by (unfold q; ring). nra. }
  unfold connect. cbv zeta. set (D := x2a - x1a) in *. assert (HD : D = 2 * eps_a) by (unfold D; lra). set (t := (0.1 - x1a) / D).
  assert (TD : t * D = 0.1 - x1a) by (unfold t; field; lra).
  assert (T : -2.885 <= t <= -2.75). { rewrite HD, X1 in TD. split; nra. }
  set (s := - t). assert (Hs : 2.75 <= s <= 2.885) by (unfold s; lra).
  replace ((1 - t) * y1a + y2a * t + (1 - t) * t * (t * ba + (1 - t) * aa)) with
    (y1a + (y2a - y1a) * (s * (1 + s) * (1 + 2 * s) - s) + s * s * (1 + s) * (- k2a * D) - k1a * D * (s * (1 + s) * (1 + s))) by (unfold ba, aa, s; fold D; ring).
  assert (A : 64 <= s * (1 + s) * (1 + 2 * s) - s). { assert (10.3 <= s * (1 + s)) by nra. nra. }
  assert (C : 0 <= s * (1 + s) * (1 + s) <= 43.6). { assert (0 <= s * (1 + s) <= 11.21) by nra. split; nra. }
  assert (B : 0 <= s * s * (1 + s) * (- k2a * D)). { assert (0 <= - k2a * D) by nra. assert (0 <= s * s) by nra. apply Rmult_le_pos; [apply Rmult_le_pos; lra|lra]. }
  assert (KD : k1a * D <= 1.052) by nra.
  assert (F1 : 54 <= (y2a - y1a) * (s * (1 + s) * (1 + 2 * s) - s)) by nra.
  assert (F2 : k1a * D * (s * (1 + s) * (1 + s)) <= 46) by nra. lra.
Qed.
Lemma alpha_I_nonneg M : 0 <= M -> 0 <= alpha_I M.
Proof.
  intros H. pose proof eps_lo. pose proof eps_hi. assert (X1 : x1a = 1 - eps_a) by reflexivity. assert (X2 : x2a = 1 + eps_a) by reflexivity.
  destruct (Rlt_dec M 0.1) as [A|A]; [rewrite aI_low by auto; lra|]. destruct (Req_dec M 0.1) as [->|N]; [rewrite aI_01; pose proof connect_01; lra|].
  destruct (Rlt_dec M x1a) as [B|B]; [rewrite aI_sub by lra; apply I_sub_nonneg; lra|].
  destruct (Rle_dec M x2a) as [C|C]; [rewrite aI_mid by lra; apply connect_nonneg; lra|]. rewrite aI_sup by lra. apply I_sup_nonneg. lra.
Qed.
