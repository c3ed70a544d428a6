From Verif Require Import Kahan_Model.
From Flocq Require Import Sterbenz Plus_error Relative.
From Coq Require Import Lra Lia.
Open Scope R_scope.

Section P.
Variables (emin prec : Z) (choice : Z -> bool).
Context { prec_gt_0_ : Prec_gt_0 prec }.
Notation fmt := (fmt emin prec).
Notation rnd := (rnd emin prec choice).
Notation fexp := (FLT_exp emin prec).
Notation fadd := (fadd emin prec choice).
Notation fsub := (fsub emin prec choice).

Lemma rnd_fmt x : fmt (rnd x).
Proof. apply generic_format_round; auto with typeclass_instances. Qed.
Lemma rnd_id x : fmt x -> rnd x = x.
Proof. intros; apply round_generic; auto with typeclass_instances. Qed.
Lemma rnd_le x y : x <= y -> rnd x <= rnd y.
Proof. intros; apply round_le; auto with typeclass_instances. Qed.
Lemma fmt_opp x : fmt x -> fmt (- x).
Proof. apply generic_format_opp. Qed.
Lemma fmt_0 : fmt 0.
Proof. apply generic_format_0. Qed.
Lemma add_err x y : fmt x -> fmt y -> fmt (rnd (x + y) - (x + y)).
Proof. intros; apply plus_error; auto with typeclass_instances. Qed.

Lemma fmt_double x : fmt x -> fmt (2 * x).
Proof.
  intros Fx.
  apply generic_format_FLT. apply FLT_format_generic in Fx; auto.
  destruct Fx as [f Hf H1 H2].
  exists (Float radix2 (Fnum f) (Fexp f + 1)); simpl; auto; [|lia].
  rewrite Hf. unfold F2R; simpl. rewrite bpow_plus. change (bpow radix2 1) with 2. ring.
Qed.

(** x - rnd (x + y) is representable for 0 < x, |y| <= x. *)
Lemma diff_repr_pos x y : fmt x -> fmt y -> 0 < x -> Rabs y <= x -> fmt (rnd (x + y) - x).
Proof.
  intros Fx Fy Hx Hy.
  assert (St : forall a b, fmt a -> fmt b -> b / 2 <= a <= 2 * b -> fmt (a - b)).
  { intros; apply sterbenz; auto with typeclass_instances. }
  destruct (Rle_or_lt 0 y) as [Py|Py].
  - rewrite Rabs_pos_eq in Hy by auto.
    apply St; auto using rnd_fmt. split.
    + apply Rle_trans with x; [lra|]. rewrite <- (rnd_id x) at 1 by auto. apply rnd_le; lra.
    + rewrite <- (rnd_id (2 * x)) by (apply fmt_double; auto). apply rnd_le; lra.
  - rewrite Rabs_left in Hy by auto.
    destruct (Rle_or_lt (x / 2) (- y)) as [B|B].
    + assert (fmt (x + y)).
      { replace (x + y) with (x - - y) by ring. rewrite <- Ropp_minus_distr.
        apply fmt_opp. apply St; auto using fmt_opp. lra. }
      rewrite rnd_id by auto. replace (x + y - x) with y by ring. auto.
    + destruct (Rle_or_lt (Rabs (x + y)) (bpow radix2 (prec + emin))) as [S|S].
      * rewrite rnd_id by (apply FLT_format_plus_small; auto). replace (x + y - x) with y by ring. auto.
      * assert (Fh : fmt (x / 2)).
        { apply generic_format_FLT. pose proof Fx as Gx. apply FLT_format_generic in Gx; auto.
          rewrite Rabs_pos_eq in S by lra.
          assert (Hx2 : bpow radix2 (emin + prec) <= Rabs x).
          { rewrite Rabs_pos_eq by lra. rewrite Z.add_comm. lra. }
          assert (G2 : generic_format radix2 (FLX_exp prec) x).
          { apply generic_format_FLX_FLT in Fx. exact Fx. }
          apply FLX_format_generic in G2; auto. destruct G2 as [f Hf H1].
          destruct (Z_lt_le_dec emin (Fexp f)) as [L|L].
          - exists (Float radix2 (Fnum f) (Fexp f - 1)); simpl; auto; [|lia].
            rewrite Hf. unfold F2R; simpl. unfold Z.sub. rewrite bpow_plus.
            change (bpow radix2 (-(1))) with (/2). unfold Rdiv. ring.
          - exfalso. (* |x| < 2^prec * 2^emin *)
            assert (Rabs x < bpow radix2 (emin + prec)).
            { rewrite Hf. unfold F2R. rewrite Rabs_mult, (Rabs_pos_eq (bpow radix2 (Fexp f))) by apply bpow_ge_0.
              rewrite <- abs_IZR.
              apply Rlt_le_trans with (bpow radix2 prec * bpow radix2 (Fexp f)).
              - apply Rmult_lt_compat_r; [apply bpow_gt_0|].
                rewrite <- IZR_Zpower by (unfold Prec_gt_0 in *; lia). apply IZR_lt. exact H1.
              - rewrite <- bpow_plus. apply bpow_le. lia. }
            lra. }
        apply St; auto using rnd_fmt. split.
        -- rewrite <- (rnd_id (x / 2)) by auto. apply rnd_le; lra.
        -- apply Rle_trans with x; [|lra]. rewrite <- (rnd_id x) at 2 by auto. apply rnd_le; lra.
Qed.
End P.

Section Q.
Variables (emin prec : Z).
Context { prec_gt_0_ : Prec_gt_0 prec }.
Notation fmt := (fmt emin prec).
Notation rnd := (rnd emin prec).

Lemma rnd_opp choice x : rnd choice (- x) = - rnd (fun t => negb (choice (- (t + 1))%Z)) x.
Proof. apply round_N_opp. Qed.

Lemma diff_repr choice x y : fmt x -> fmt y -> Rabs y <= Rabs x -> fmt (rnd choice (x + y) - x).
Proof.
  intros Fx Fy H. destruct (Rtotal_order x 0) as [N|[->|P]].
  - rewrite (Rabs_left x) in H by auto.
    replace (x + y) with (- (- x + - y)) by ring. rewrite rnd_opp.
    match goal with |- fmt (- ?r - x) => replace (- r - x) with (- (r - (- x))) by ring end.
    apply fmt_opp. apply diff_repr_pos; auto using fmt_opp; [lra|]. rewrite Rabs_Ropp. auto.
  - rewrite Rabs_R0 in H. assert (y = 0).
    { destruct (Req_dec y 0); auto. apply Rabs_pos_lt in H0. lra. }
    subst. rewrite Rplus_0_l. unfold Rminus. rewrite Ropp_0, Rplus_0_r. apply rnd_fmt; auto.
  - rewrite (Rabs_pos_eq x) in H by lra. apply diff_repr_pos; auto.
Qed.

Variable choice : Z -> bool.
Notation fadd := (fadd emin prec choice).
Notation fsub := (fsub emin prec choice).

(** Kahan's form. *)
Lemma fast_k x y : fmt x -> fmt y -> Rabs y <= Rabs x ->
  fsub (fsub (fadd x y) x) y = fadd x y - (x + y).
Proof.
  intros Fx Fy H. unfold Kahan_Model.fsub, Kahan_Model.fadd.
  rewrite (rnd_id emin prec choice (rnd choice (x + y) - x)) by (apply diff_repr; auto).
  replace (rnd choice (x + y) - x - y) with (rnd choice (x + y) - (x + y)) by ring.
  apply rnd_id; auto. apply add_err; auto.
Qed.
(** Neumaier's form. *)
Lemma fast_n x y : fmt x -> fmt y -> Rabs y <= Rabs x ->
  fadd (fsub x (fadd x y)) y = x + y - fadd x y.
Proof.
  intros Fx Fy H. unfold Kahan_Model.fsub, Kahan_Model.fadd.
  rewrite (rnd_id emin prec choice (x - rnd choice (x + y))).
  2:{ rewrite <- Ropp_minus_distr. apply fmt_opp. apply diff_repr; auto. }
  replace (x - rnd choice (x + y) + y) with (- (rnd choice (x + y) - (x + y))) by ring.
  rewrite rnd_id; auto; [ring|]. apply fmt_opp, add_err; auto.
Qed.
(** Either order, as in Neumaier and Klein. *)
Lemma two_n x y : fmt x -> fmt y ->
  (if Rlt_dec (Rabs y) (Rabs x) then fadd (fsub x (fadd x y)) y else fadd (fsub y (fadd x y)) x)
  = x + y - fadd x y.
Proof.
  intros Fx Fy. destruct (Rlt_dec _ _).
  - apply fast_n; auto; lra.
  - replace (fadd x y) with (fadd y x) by (unfold Kahan_Model.fadd; f_equal; ring).
    rewrite fast_n; auto; lra.
Qed.

Notation k_add := (k_add emin prec choice).
Notation n_add := (n_add emin prec choice).
Notation e_add := (e_add emin prec choice).

Definition kfmt (k : kahan) := fmt (k_real k) /\ fmt (k_err k).
Definition efmt (k : klein) := fmt (e_real k) /\ fmt (e_err k) /\ fmt (e_eoe k).

Lemma k_add_fmt k x : kfmt (k_add k x).
Proof. split; apply rnd_fmt; auto. Qed.
Lemma n_add_fmt k x : kfmt (n_add k x).
Proof. split; simpl; [|destruct (Rlt_dec _ _)]; apply rnd_fmt; auto. Qed.
Lemma e_add_fmt k x : efmt (e_add k x).
Proof. split; [|split]; simpl; [|destruct (Rlt_dec _ _)|destruct (Rlt_dec _ _)]; apply rnd_fmt; auto. Qed.

Lemma kahan_exact k x : fmt (k_real k) -> Rabs (rnd choice (x - k_err k)) <= Rabs (k_real k) ->
  k_real (k_add k x) - k_err (k_add k x) = k_real k + rnd choice (x - k_err k).
Proof.
  intros F H. unfold Kahan_Model.k_add. cbv zeta. cbn [k_real k_err].
  rewrite fast_k; auto. { unfold Kahan_Model.fsub; ring. } apply rnd_fmt; auto.
Qed.
Lemma neumaier_exact k x : fmt (k_real k) ->
  k_real (n_add k x) + k_err (n_add k x) = k_real k + rnd choice (x + k_err k).
Proof.
  intros F. unfold Kahan_Model.n_add. cbv zeta. cbn [k_real k_err].
  rewrite two_n; auto. { unfold Kahan_Model.fadd; ring. } apply rnd_fmt; auto.
Qed.
Lemma klein_exact k x : fmt (e_real k) -> fmt x ->
  e_real (e_add k x) + e_err (e_add k x) + e_eoe (e_add k x) =
  e_real k + x + rnd choice (e_err k + e_eoe k).
Proof.
  intros F Fx. unfold Kahan_Model.e_add. cbv zeta. cbn [e_real e_err e_eoe].
  rewrite !two_n; auto; try (apply rnd_fmt; auto).
  unfold Kahan_Model.fadd; ring.
Qed.

(** * Sequences *)
(** Unit roundoff 2^-prec. *)
Definition u : R := u_ro radix2 prec.
Lemma u_eq : u = bpow radix2 (- prec).
Proof.
  unfold u, u_ro. replace (/ 2) with (bpow radix2 (-1)) by (simpl; lra).
  rewrite <- bpow_plus. f_equal; lia.
Qed.
Lemma u_pos : 0 < u. Proof. rewrite u_eq. apply bpow_gt_0. Qed.

Lemma rnd_add_err x y : fmt x -> fmt y -> Rabs (rnd choice (x + y) - (x + y)) <= u * Rabs (x + y).
Proof.
  intros Fx Fy. destruct (FLT_plus_error_N_ex radix2 emin prec choice x y Fx Fy) as (e & He & E).
  change (round radix2 (FLT_exp emin prec) (Znearest choice) (x + y)) with (rnd choice (x + y)) in E.
  rewrite E. replace ((x + y) * (1 + e) - (x + y)) with (e * (x + y)) by ring.
  rewrite Rabs_mult. apply Rmult_le_compat_r; [apply Rabs_pos|].
  apply Rle_trans with (1 := He). fold u. pose proof u_pos.
  apply (Rmult_le_reg_r (1 + u)); [lra|]. unfold Rdiv. rewrite Rmult_assoc, Rinv_l by lra. nra.
Qed.
Lemma rnd_add_err' x y : fmt x -> fmt y -> Rabs (rnd choice (x + y) - (x + y)) <= u * Rabs (rnd choice (x + y)).
Proof.
  intros Fx Fy. destruct (FLT_plus_error_N_round_ex radix2 emin prec choice x y Fx Fy) as (e & He & E).
  change (round radix2 (FLT_exp emin prec) (Znearest choice) (x + y)) with (rnd choice (x + y)) in E.
  fold u in He. rewrite E at 2. 
  replace (rnd choice (x + y) - rnd choice (x + y) * (1 + e)) with (- e * rnd choice (x + y)) by ring.
  rewrite Rabs_mult, Rabs_Ropp. apply Rmult_le_compat_r; auto. apply Rabs_pos.
Qed.

Definition rsuml (l : list R) : R := fold_right Rplus 0 l.
(** The rounding errors committed on the compensated addends along a run. *)
Fixpoint n_losses (k : kahan) (l : list R) : R :=
  match l with
  | [] => 0
  | x :: l' => u * Rabs (x + k_err k) + n_losses (n_add k x) l'
  end.
Fixpoint k_losses (k : kahan) (l : list R) : R :=
  match l with
  | [] => 0
  | x :: l' => u * Rabs (x - k_err k) + k_losses (k_add k x) l'
  end.
Fixpoint e_losses (k : klein) (l : list R) : R :=
  match l with
  | [] => 0
  | x :: l' => u * Rabs (e_err k + e_eoe k) + e_losses (e_add k x) l'
  end.
(** Every compensated addend of the run is at most as large as the sum so far. *)
Fixpoint k_ordered (k : kahan) (l : list R) : Prop :=
  match l with
  | [] => True
  | x :: l' => Rabs (rnd choice (x - k_err k)) <= Rabs (k_real k) /\ k_ordered (k_add k x) l'
  end.

Lemma neumaier_sum l : forall k, kfmt k -> Forall fmt l ->
  Rabs (k_real (n_sum emin prec choice k l) + k_err (n_sum emin prec choice k l)
        - (k_real k + k_err k + rsuml l)) <= n_losses k l.
Proof.
  induction l as [|x l IH]; simpl; intros k [F1 F2] Fl.
  - match goal with |- Rabs ?e <= _ => replace e with 0 by ring end. rewrite Rabs_R0. lra.
  - inversion Fl; subst. specialize (IH (n_add k x) (n_add_fmt k x) H2).
    unfold n_sum in *. pose proof (neumaier_exact k x F1) as E.
    pose proof (rnd_add_err x (k_err k) H1 F2) as B.
    match goal with |- Rabs ?e <= _ => match type of IH with Rabs ?f <= _ =>
      replace e with (f + (rnd choice (x + k_err k) - (x + k_err k))) by lra end end.
    eapply Rle_trans; [apply Rabs_triang|]. lra.
Qed.
Lemma kahan_sum l : forall k, kfmt k -> Forall fmt l -> k_ordered k l ->
  Rabs (k_real (k_sum emin prec choice k l) - k_err (k_sum emin prec choice k l)
        - (k_real k - k_err k + rsuml l)) <= k_losses k l.
Proof.
  induction l as [|x l IH]; simpl; intros k [F1 F2] Fl Ho.
  - match goal with |- Rabs ?e <= _ => replace e with 0 by ring end. rewrite Rabs_R0. lra.
  - inversion Fl; subst. destruct Ho as [Ho1 Ho2]. specialize (IH (k_add k x) (k_add_fmt k x) H2 Ho2).
    unfold k_sum in *. pose proof (kahan_exact k x F1 Ho1) as E.
    pose proof (rnd_add_err x (- k_err k) H1 (fmt_opp _ _ _ F2)) as B.
    replace (x + - k_err k) with (x - k_err k) in B by ring.
    match goal with |- Rabs ?e <= _ => match type of IH with Rabs ?f <= _ =>
      replace e with (f + (rnd choice (x - k_err k) - (x - k_err k))) by lra end end.
    eapply Rle_trans; [apply Rabs_triang|]. lra.
Qed.
Lemma klein_sum l : forall k, efmt k -> Forall fmt l ->
  Rabs (e_real (e_sum emin prec choice k l) + e_err (e_sum emin prec choice k l) + e_eoe (e_sum emin prec choice k l)
        - (e_real k + e_err k + e_eoe k + rsuml l)) <= e_losses k l.
Proof.
  induction l as [|x l IH]; simpl; intros k (F1 & F2 & F3) Fl.
  - match goal with |- Rabs ?e <= _ => replace e with 0 by ring end. rewrite Rabs_R0. lra.
  - inversion Fl; subst. specialize (IH (e_add k x) (e_add_fmt k x) H2).
    unfold e_sum in *. pose proof (klein_exact k x F1 H1) as E.
    pose proof (rnd_add_err (e_err k) (e_eoe k) F2 F3) as B.
    match goal with |- Rabs ?e <= _ => match type of IH with Rabs ?f <= _ =>
      replace e with (f + (rnd choice (e_err k + e_eoe k) - (e_err k + e_eoe k))) by lra end end.
    eapply Rle_trans; [apply Rabs_triang|]. lra.
Qed.

(** The compensation is at most u times the sum, so the addends are perturbed at relative size u
    only: the classical first-order bound. *)
Lemma n_err_small k x : fmt (k_real k) ->
  Rabs (k_err (n_add k x)) <= u * Rabs (k_real (n_add k x)).
Proof.
  intros F. pose proof (neumaier_exact k x F) as E.
  pose proof (rnd_add_err' (k_real k) (rnd choice (x + k_err k)) F (rnd_fmt emin prec choice _)) as B.
  simpl in E |- *. fold (Kahan_Model.fadd emin prec choice x (k_err k)) in *.
  set (e := if Rlt_dec _ _ then _ else _) in *.
  change (rnd choice (x + k_err k)) with (fadd x (k_err k)) in *.
  change (rnd choice (k_real k + fadd x (k_err k))) with (fadd (k_real k) (fadd x (k_err k))) in *.
  replace e with (- (fadd (k_real k) (fadd x (k_err k)) - (k_real k + fadd x (k_err k)))) by lra.
  rewrite Rabs_Ropp. exact B.
Qed.

(** Sums after each addition. *)
Fixpoint n_partial (k : kahan) (l : list R) : R :=
  match l with [] => 0 | x :: l' => Rabs (k_real k) + n_partial (n_add k x) l' end.
Definition abssum (l : list R) : R := rsuml (map Rabs l).
Lemma n_losses_bound l : forall k, fmt (k_real k) -> Rabs (k_err k) <= u * Rabs (k_real k) ->
  n_losses k l <= u * abssum l + u * u * n_partial k l.
Proof.
  induction l as [|x l IH]; simpl; intros k F H.
  - unfold abssum; simpl. lra.
  - assert (F' : fmt (k_real (n_add k x))) by apply n_add_fmt.
    specialize (IH _ F' (n_err_small k x F)).
    unfold abssum in *; simpl.
    assert (Rabs (x + k_err k) <= Rabs x + u * Rabs (k_real k)).
    { eapply Rle_trans; [apply Rabs_triang|]. lra. }
    pose proof u_pos.
    assert (u * Rabs (x + k_err k) <= u * (Rabs x + u * Rabs (k_real k))) by (apply Rmult_le_compat_l; lra).
    lra.
Qed.
End Q.
