(** C61: the post-Newtonian terms against the published equations of motion. *)
From Verif Require Import Force_Model Force_Spec Force_Proofs PN_Spec PN_Proofs.
Open Scope R_scope.

Lemma dist_nz s i j : distinct_positions s -> (i < sn s)%nat -> (j < sn s)%nat -> i <> j -> norm (vsub (sp s j) (sp s i)) <> 0.
Proof.
  intros D Hi Hj N. apply Rgt_not_eq. apply norm_pos. intros E. apply vsub_eq_zero in E. apply (D i j); auto.
Qed.

(** 1PN: every particle receives exactly the published 1/c^2 acceleration from every other one. *)
Theorem C61_pn1 s c acc k : c <> 0 -> distinct_positions s -> (k < sn s)%nat ->
  add_acc (pn1_pair (/ c) (sm s) (sv s)) (direct_calls s) acc k =
  vadd (acc k) (vsum (fun j => if (j =? k)%nat then vzero
     else bl_1pn 1 c (sm s k) (sm s j) (sp s k) (sp s j) (sv s k) (sv s j)) (sn s)).
Proof.
  intros Hc D Hk. rewrite direct_sum2 by auto. f_equal. apply vsum_ext. intros j Hj.
  destruct (Nat.eqb_spec j k); auto. unfold pull2. destruct (Nat.ltb_spec k j); rewrite pn1_bl; auto; apply dist_nz; auto.
Qed.
Print Assumptions C61_pn1.

(** 2.5PN (radiation reaction): likewise, order 1/c^5. *)
Theorem C61_pn25 s c acc k : c <> 0 -> distinct_positions s -> (k < sn s)%nat ->
  add_acc (pn25_pair (/ c) (sm s)) (direct_calls s) acc k =
  vadd (acc k) (vsum (fun j => if (j =? k)%nat then vzero
     else bl_25pn 1 c (sm s k) (sm s j) (sp s k) (sp s j) (sv s k) (sv s j)) (sn s)).
Proof.
  intros Hc D Hk. rewrite direct_sum2 by auto. f_equal. apply vsum_ext. intros j Hj.
  destruct (Nat.eqb_spec j k); auto. unfold pull2. destruct (Nat.ltb_spec k j); rewrite pn25_bl; auto; apply dist_nz; auto.
Qed.
Print Assumptions C61_pn25.

(** 2PN: from particles listed later a particle receives the published 1/c^4 acceleration; from a particle j
    listed earlier it receives in addition
    5 m_j |v_j|^2 ((x_j-x_k).(v_k-v_j)) / (c^4 r^3) (v_k-v_j), which the published equations do not contain. *)
Theorem C61_pn2 s c acc k : c <> 0 -> distinct_positions s -> (k < sn s)%nat ->
  add_acc (pn2_pair (/ c) (sm s) (sv s)) (direct_calls s) acc k =
  vadd (acc k) (vsum (fun j => if (j =? k)%nat then vzero
     else vadd (bl_2pn 1 c (sm s k) (sm s j) (sp s k) (sp s j) (sv s k) (sv s j))
       (if (j <? k)%nat then
          vscal (5 * sm s j * norm2 (sv s j) / (c ^ 4 * norm (vsub (sp s j) (sp s k)) ^ 3)
                 * dot (vsub (sp s j) (sp s k)) (vsub (sv s k) (sv s j))) (vsub (sv s k) (sv s j))
        else vzero)) (sn s)).
Proof.
  intros Hc D Hk. rewrite direct_sum2 by auto. f_equal. apply vsum_ext. intros j Hj.
  destruct (Nat.eqb_spec j k); auto. unfold pull2. destruct (Nat.ltb_spec k j), (Nat.ltb_spec j k); try lia;
    rewrite pn2_bl; auto; try (apply dist_nz; auto).
  cbn [fst]. rewrite vadd_0_r. auto.
Qed.
Print Assumptions C61_pn2.

(** So the published 2PN equations are not what is integrated: two unit masses at unit distance. *)
Definition two_pn : sys := mkS 2 (fun _ => 1) (fun k => if (k =? 0)%nat then vzero else mkV 1 0 0)
                            (fun k => if (k =? 0)%nat then mkV 1 0 0 else vzero).
Theorem C61_pn2_published_refuted :
  ~ (forall s c acc k, c <> 0 -> distinct_positions s -> (k < sn s)%nat ->
  add_acc (pn2_pair (/ c) (sm s) (sv s)) (direct_calls s) acc k =
  vadd (acc k) (vsum (fun j => if (j =? k)%nat then vzero
     else bl_2pn 1 c (sm s k) (sm s j) (sp s k) (sp s j) (sv s k) (sv s j)) (sn s))).
Proof.
  intros H.
  assert (D : distinct_positions two_pn).
  { intros i j Hi Hj N E. simpl in *. destruct i as [|[|]], j as [|[|]]; try lia; simpl in E; inversion E; lra. }
  specialize (H two_pn 1 (fun _ => vzero) 1%nat ltac:(lra) D ltac:(simpl; lia)).
  rewrite C61_pn2 in H; [|lra|exact D|simpl; lia].
  cbn [two_pn sn vsum sm sp sv Nat.eqb Nat.ltb Nat.leb] in H.
  assert (N1 : norm (vsub vzero (mkV 1 0 0)) = 1).
  { unfold norm. replace (norm2 (vsub vzero (mkV 1 0 0))) with 1 by vring. apply sqrt_1. }
  rewrite N1 in H. set (B := bl_2pn _ _ _ _ _ _ _ _) in H. destruct B as [b1 b2 b3].
  apply (f_equal vx) in H. vunf. lra.
Qed.
Print Assumptions C61_pn2_published_refuted.

(** Peters' formula: on a circular two-body orbit the 2.5PN terms take energy out at the rate
    32/5 m1^2 m2^2 (m1+m2) / (c^5 r^5). *)
Theorem C61_circular_decay s c r : c <> 0 -> sn s = 2%nat -> 0 < sm s 0 -> 0 < sm s 1 -> 0 < r ->
  norm (vsub (sp s 0%nat) (sp s 1%nat)) = r ->
  vadd (vscal (sm s 0%nat) (sv s 0%nat)) (vscal (sm s 1%nat) (sv s 1%nat)) = vzero ->
  dot (vsub (sp s 0%nat) (sp s 1%nat)) (vsub (sv s 0%nat) (sv s 1%nat)) = 0 ->
  norm2 (vsub (sv s 0%nat) (sv s 1%nat)) = (sm s 0%nat + sm s 1%nat) / r ->
  rsum (fun k => sm s k * dot (add_acc (pn25_pair (/ c) (sm s)) (direct_calls s) (fun _ => vzero) k) (sv s k)) 2
  = - (32 / 5) * (sm s 0%nat ^ 2 * sm s 1%nat ^ 2 * (sm s 0%nat + sm s 1%nat) / (c ^ 5 * r ^ 5)).
Proof.
  intros Hc N M0 M1 Hr Er P O V.
  assert (D : distinct_positions s).
  { intros i j Hi Hj Ne E. rewrite N in *. assert (X : vsub (sp s 0%nat) (sp s 1%nat) = vzero).
    { destruct i as [|[|]], j as [|[|]]; try lia; rewrite E; vring. }
    rewrite X in Er. unfold norm in Er. replace (norm2 vzero) with 0 in Er by vring. rewrite sqrt_0 in Er. lra. }
  cbn [rsum]. rewrite !C61_pn25 by (auto; rewrite N; lia). rewrite N. cbn [vsum Nat.eqb].
  unfold bl_25pn. rewrite (norm_vsub_sym (sp s 1%nat)), Er.
  set (m1 := sm s 0%nat) in *. set (m2 := sm s 1%nat) in *.
  set (X := vsub (sp s 0%nat) (sp s 1%nat)) in *.
  replace (vsub (sp s 1%nat) (sp s 0%nat)) with (vneg X) by (unfold X; generalize (sp s 0%nat) (sp s 1%nat); intros; vring).
  set (W := vsub (sv s 0%nat) (sv s 1%nat)) in *.
  replace (vsub (sv s 1%nat) (sv s 0%nat)) with (vneg W) by (unfold W; generalize (sv s 0%nat) (sv s 1%nat); intros; vring).
  assert (V1 : sv s 0%nat = vscal (m2 / (m1 + m2)) W).
  { unfold W. revert P. generalize (sv s 0%nat) (sv s 1%nat). intros [a b d] [e f g] P. vunf. injection P as P1 P2 P3.
    apply vec_eq; cbn [vx vy vz]; apply Rmult_eq_reg_r with (m1 + m2); try lra; field_simplify; try lra. }
  assert (V2 : sv s 1%nat = vscal (- m1 / (m1 + m2)) W).
  { unfold W. revert P. generalize (sv s 0%nat) (sv s 1%nat). intros [a b d] [e f g] P. vunf. injection P as P1 P2 P3.
    apply vec_eq; cbn [vx vy vz]; apply Rmult_eq_reg_r with (m1 + m2); try lra; field_simplify; try lra. }
  rewrite V1, V2.
  assert (Z1 : forall a, dot (vscal a X) W = 0).
  { intros a. replace (dot (vscal a X) W) with (a * dot X W) by (generalize X W; intros; vring). rewrite O; ring. }
  assert (Z2 : forall a, dot (vscal a (vneg X)) (vneg W) = 0).
  { intros a. replace (dot (vscal a (vneg X)) (vneg W)) with (a * dot X W) by (generalize X W; intros; vring). rewrite O; ring. }
  rewrite !Z1, !Z2.
  replace (norm2 (vneg W)) with (norm2 W) by (generalize W; intros; vring). rewrite V.
  match goal with |- ?L = ?Rr => assert (Q : L = / c ^ 5 * norm2 W * (m1 * (8 * 1 ^ 3 * m1 ^ 2 * m2 / (5 * r ^ 4) - 32 * 1 ^ 3 * m1 * m2 ^ 2 / (5 * r ^ 4) -
          4 * 1 ^ 2 * m1 * m2 / (5 * r ^ 3) * ((m1 + m2) / r)) * (m2 / (m1 + m2)) - m2 * (8 * 1 ^ 3 * m2 ^ 2 * m1 / (5 * r ^ 4) - 32 * 1 ^ 3 * m2 * m1 ^ 2 / (5 * r ^ 4) -
          4 * 1 ^ 2 * m2 * m1 / (5 * r ^ 3) * ((m1 + m2) / r)) * (- m1 / (m1 + m2)))) end.
  { generalize X W. intros [] []. unfold Rdiv. vunf. ring. }
  rewrite Q, V. field. repeat split; lra.
Qed.
Print Assumptions C61_circular_decay.

(** Non-vacuity: the hypotheses of the circular case are met by two unit masses at distance 2. *)
Example C61_case : exists s, sn s = 2%nat /\ distinct_positions s /\ sm s 0%nat = 1 /\ sm s 1%nat = 1 /\
  norm (vsub (sp s 0%nat) (sp s 1%nat)) = 2 /\
  vadd (vscal (sm s 0%nat) (sv s 0%nat)) (vscal (sm s 1%nat) (sv s 1%nat)) = vzero /\
  dot (vsub (sp s 0%nat) (sp s 1%nat)) (vsub (sv s 0%nat) (sv s 1%nat)) = 0 /\
  norm2 (vsub (sv s 0%nat) (sv s 1%nat)) = (sm s 0%nat + sm s 1%nat) / 2.
Proof.
  exists (mkS 2 (fun _ => 1) (fun k => if (k =? 0)%nat then mkV 1 0 0 else mkV (-1) 0 0)
                (fun k => if (k =? 0)%nat then mkV 0 (1/2) 0 else mkV 0 (-1/2) 0)).
  simpl. split; auto. split.
  { intros i j Hi Hj N E. simpl in *. destruct i as [|[|]], j as [|[|]]; try lia; simpl in E; inversion E; lra. }
  split; auto. split; auto. split.
  { unfold norm. replace (norm2 _) with (2 * 2) by vring. apply sqrt_square; lra. }
  split; [apply vec_eq; vunf; field|]. split; vunf; field.
Qed.
