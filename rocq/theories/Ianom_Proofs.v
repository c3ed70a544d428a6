(** Real-number facts about the three Kepler functions. *)
From Coq Require Import Reals Lra Lia.
From Flocq Require Import Core.Raux.
Open Scope R_scope.
Lemma sin_abs t : Rabs (sin t) <= Rabs t.
Proof.
  assert (P : forall a, 0 < a -> Rabs (sin a) <= a).
  { intros a Ha. pose proof (sin_lt_x a Ha). pose proof (SIN_bound a) as B. apply Rabs_le. split; [|lra].
    destruct (Rle_or_lt a 1) as [X|X]; [|lra]. assert (0 <= sin a). { apply sin_ge_0; [lra|]. pose proof PI_4. pose proof PI2_3_2. lra. } lra. }
  destruct (Rtotal_order 0 t) as [H|[H|H]].
  - rewrite (Rabs_right t) by lra. auto.
  - subst t. rewrite sin_0, Rabs_R0. lra.
  - rewrite (Rabs_left t) by lra. rewrite <- (Ropp_involutive t) at 1. rewrite sin_neg, Rabs_Ropp. apply P. lra.
Qed.
Lemma sin_lip a b : Rabs (sin a - sin b) <= Rabs (a - b).
Proof.
  rewrite form4. rewrite !Rabs_mult, (Rabs_right 2) by lra. pose proof (sin_abs ((a - b) / 2)) as S1. unfold Rdiv in S1 at 2. rewrite Rabs_mult, (Rabs_right (/ 2)) in S1 by lra.
  assert (C1 : Rabs (cos ((a + b) / 2)) <= 1) by (apply Rabs_le; pose proof (COS_bound ((a + b) / 2)); lra).
  pose proof (Rabs_pos (cos ((a + b) / 2))). pose proof (Rabs_pos (sin ((a - b) / 2))). nra.
Qed.
Lemma ell_growth e y z : 0 <= e <= 1 -> (1 - e) * Rabs (y - z) <= Rabs ((y - e * sin y) - (z - e * sin z)).
Proof.
  intros He. pose proof (sin_lip y z) as S1. replace ((y - e * sin y) - (z - e * sin z)) with ((y - z) - e * (sin y - sin z)) by ring.
  pose proof (Rabs_triang_inv (y - z) (e * (sin y - sin z))) as T. rewrite Rabs_mult, (Rabs_right e) in T by lra. nra.
Qed.
Lemma cosh_ge x : 1 <= cosh x.
Proof. unfold cosh. pose proof (exp_ineq1_le x). pose proof (exp_ineq1_le (- x)). lra. Qed.
Lemma sinh_growth a b : a <= b -> b - a <= sinh b - sinh a.
Proof.
  intros [H|H]; [|subst; lra]. destruct (MVT_cor2 sinh cosh a b H) as (c & E & _); [intros; apply derivable_pt_lim_sinh|]. rewrite E. pose proof (cosh_ge c). nra.
Qed.
Lemma hyp_growth e y z : 1 <= e -> (e - 1) * Rabs (y - z) <= Rabs ((e * sinh y - y) - (e * sinh z - z)).
Proof.
  intros He. assert (P : forall a b, a <= b -> (e - 1) * (b - a) <= (e * sinh b - b) - (e * sinh a - a)). { intros a b H. pose proof (sinh_growth a b H). nra. }
  destruct (Rle_or_lt y z) as [H|H].
  - specialize (P y z H). rewrite (Rabs_minus_sym y z), (Rabs_right (z - y)) by lra. rewrite Rabs_minus_sym. eapply Rle_trans; [exact P|apply Rle_abs].
  - specialize (P z y ltac:(lra)). rewrite (Rabs_right (y - z)) by lra. eapply Rle_trans; [exact P|apply Rle_abs].
Qed.
Lemma par_growth y z : Rabs (y - z) <= Rabs ((y + y * y * y / 3) - (z + z * z * z / 3)).
Proof.
  replace ((y + y * y * y / 3) - (z + z * z * z / 3)) with ((y - z) * (1 + (y * y + y * z + z * z) / 3)) by field. rewrite Rabs_mult.
  assert (0 <= y * y + y * z + z * z) by (pose proof (Rle_0_sqr (y + z / 2)); pose proof (Rle_0_sqr z); unfold Rsqr in *; nra). rewrite (Rabs_right (1 + _)) by lra. pose proof (Rabs_pos (y - z)). nra.
Qed.
Lemma exp4 : exp 4 <= 81.
Proof. pose proof exp_le_3. replace 4 with ((1 + 1) + (1 + 1)) by ring. rewrite !exp_plus. pose proof (exp_pos 1). assert (exp 1 * exp 1 <= 9) by nra. assert (0 <= exp 1 * exp 1) by nra. nra. Qed.
Lemma sinh_bound x : Rabs x <= 4 -> Rabs (sinh x) <= 41.
Proof.
  intros H. apply Rabs_le_inv in H. assert (P : forall t, t <= 4 -> exp t <= 81). { intros t [Ht|Ht]; [pose proof (exp_increasing t 4 Ht)|subst t]; pose proof exp4; lra. }
  unfold sinh. pose proof (P x ltac:(lra)). pose proof (P (- x) ltac:(lra)). pose proof (exp_pos x). pose proof (exp_pos (- x)). apply Rabs_le. lra.
Qed.
Lemma ell_cont e y : continuity_pt (fun y => y - e * sin y) y.
Proof. reg. Qed.
Lemma hyp_cont e y : continuity_pt (fun y => e * sinh y - y) y.
Proof. reg. Qed.
Lemma par_cont y : continuity_pt (fun y => y + y * y * y / 3) y.
Proof. reg. Qed.
(** A continuous function that is at most c + D at one end and at least c - D at the other is within D of c somewhere between. *)
Lemma almost (g : R -> R) l h c D : (forall y, Rmin l h <= y <= Rmax l h -> continuity_pt g y) -> 0 <= D -> (g l <= c + D /\ c - D <= g h) \/ (g h <= c + D /\ c - D <= g l) ->
  exists y, Rmin l h <= y <= Rmax l h /\ Rabs (g y - c) <= D.
Proof.
  intros Cg HD H. pose proof (Rmin_l l h). pose proof (Rmin_r l h). pose proof (Rmax_l l h). pose proof (Rmax_r l h).
  destruct (Rle_or_lt (Rabs (g l - c)) D) as [A|A]; [exists l; split; auto|]. destruct (Rle_or_lt (Rabs (g h - c)) D) as [B|B]; [exists h; split; auto|].
  assert (Q : (g l < c /\ c < g h) \/ (g h < c /\ c < g l)). { unfold Rabs in A, B. destruct (Rcase_abs _), (Rcase_abs _); destruct H; lra. }
  assert (R : exists y, Rmin l h <= y <= Rmax l h /\ g y = c).
  { assert (W : forall k a b, a < b -> Rmin l h <= a -> b <= Rmax l h -> (k = 1 \/ k = -1) -> k * g a < k * c -> k * c < k * g b -> exists y, Rmin l h <= y <= Rmax l h /\ g y = c).
    { intros k a b Hab Ha Hb Hk K1 K2. destruct (Ranalysis5.IVT_interv (fun y => k * g y - k * c) a b) as (y & Hy & E).
      - intros z Hz. apply (continuity_pt_minus (fun y => k * g y) (fun _ => k * c)); [|apply continuity_pt_const; intros ? ?; reflexivity].
        apply (continuity_pt_mult (fun _ => k) g); [apply continuity_pt_const; intros ? ?; reflexivity|apply Cg; lra].
      - exact Hab.
      - cbn. lra.
      - cbn. lra.
      - exists y. split; [lra|]. cbn in E. destruct Hk; subst k; lra. }
    destruct (Rtotal_order l h) as [X|[X|X]].
    - destruct Q as [Q|Q]; [apply (W 1 l h)|apply (W (-1) l h)]; try lra.
    - subst h. destruct Q; lra.
    - destruct Q as [Q|Q]; [apply (W (-1) h l)|apply (W 1 h l)]; try lra. }
  destruct R as (y & Hy & E). exists y. split; auto. rewrite E. replace (c - c) with 0 by ring. rewrite Rabs_R0. exact HD.
Qed.
