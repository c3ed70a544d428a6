(** Property C66 for the chain systems: the derivative of the chain coordinates is that of the motion they describe. *)
From Verif Require Import Vec Force_Model Force_Spec Force_Proofs Diag_Spec Diag_Proofs Ias_Proofs2 System_Model System_Proofs System_Proofs2 System_Proofs3 System_Proofs4
  Chain_Spec Chain_Proofs Meth_Spec Meth_Proofs2 BS_Proofs3 Ias_Model Radau_Proofs5 Reg_Spec Reg_Proofs Reg_Props.
Import System_Spec.
From Coq Require Import List Lia Lra Reals Permutation.
Import ListNotations.
Open Scope R_scope.

Lemma vderiv_ext f g t d : (forall x, f x = g x) -> vderiv f t d -> vderiv g t d.
Proof.
  intros E (A & B & C). repeat split; intros eps He; [destruct (A eps He) as (del & H)|destruct (B eps He) as (del & H)|destruct (C eps He) as (del & H)]; exists del; intros h Hh Hl; rewrite <- !E; auto.
Qed.
(** A list of vectors has derivative d exactly when its chain form has the chain form of d as derivative. *)
Lemma chain_form_deriv (P : R -> list vec) d t n idx : (1 <= n)%nat -> is_index n idx -> (forall x, length (P x) = n) -> length d = n ->
  (entries_deriv (fun x => coords (chain_form idx (P x))) t (coords (chain_form idx d)) <-> entries_deriv (fun x => coords (P x)) t (coords d)).
Proof.
  intros Hn Hi LP Ld. assert (LF : length (chain_form idx d) = n) by (rewrite chain_form_length; auto).
  assert (N : forall x l, (l < n)%nat -> nth l (chain_form idx (P x)) vzero = chain_at (P x) idx n l) by (intros x l Hl; rewrite chain_form_nth, LP by (rewrite LP; auto); reflexivity).
  assert (Nd : forall l, (l < n)%nat -> nth l (chain_form idx d) vzero = chain_at d idx n l) by (intros l Hl; rewrite chain_form_nth, Ld by lia; reflexivity).
  split; intros H.
  - pose proof (deriv_coords (fun x => chain_form idx (P x)) (chain_form idx d) t n LF H) as G. cbv beta in G.
    assert (A : forall l, (l < n)%nat -> vderiv (fun x => nth (nth l idx 0%nat) (P x) vzero) t (nth (nth l idx 0%nat) d vzero)).
    { induction l as [|l IH]; intros Hl.
      - specialize (G (n - 1)%nat ltac:(lia)). rewrite Nd in G by lia. assert (X : forall a, chain_at a idx n (n - 1) = nth (nth 0 idx 0%nat) a vzero) by (intros a; unfold chain_at; rewrite Nat.eqb_refl; reflexivity).
        rewrite X in G. refine (vderiv_ext _ _ _ _ _ G). intros x. cbv beta. rewrite N by lia. apply X.
      - specialize (IH ltac:(lia)). specialize (G l ltac:(lia)). rewrite Nd in G by lia.
        assert (X : forall a, chain_at a idx n l = vsub (nth (nth (S l) idx 0%nat) a vzero) (nth (nth l idx 0%nat) a vzero)) by (intros a; unfold chain_at; destruct (Nat.eqb_spec l (n - 1)); [lia|]; rewrite Nat.add_1_r; reflexivity).
        rewrite X in G. pose proof (vd_add _ _ _ _ _ G IH) as Q.
        replace (vadd (vsub (nth (nth (S l) idx 0%nat) d vzero) (nth (nth l idx 0%nat) d vzero)) (nth (nth l idx 0%nat) d vzero)) with (nth (nth (S l) idx 0%nat) d vzero) in Q by (generalize (nth (nth (S l) idx 0%nat) d vzero) (nth (nth l idx 0%nat) d vzero); clear; intros; vring).
        refine (vderiv_ext _ _ _ _ _ Q). intros x. cbv beta. rewrite N by lia. rewrite X. generalize (nth (nth (S l) idx 0%nat) (P x) vzero) (nth (nth l idx 0%nat) (P x) vzero); clear; intros; vring. }
    refine (coords_deriv P d t n Ld _). intros i Hi'.
    assert (In i idx) as Hin by (apply Permutation_in with (seq 0 n); [symmetry; exact Hi|apply in_seq; lia]).
    destruct (In_nth idx i 0%nat Hin) as (l & Hl & E). assert (length idx = n) by (rewrite (Permutation_length Hi), seq_length; auto). rewrite <- E. apply A. lia.
  - pose proof (deriv_coords P d t n Ld H) as G. refine (coords_deriv (fun x => chain_form idx (P x)) (chain_form idx d) t n LF _). intros l Hl. rewrite Nd by auto.
    assert (IL : forall j, (j < n)%nat -> (nth j idx 0%nat < n)%nat).
    { intros j Hj. assert (In (nth j idx 0%nat) (seq 0 n)) as Q by (apply Permutation_in with idx; [exact Hi|]; apply nth_In; rewrite (Permutation_length Hi), seq_length; auto). apply in_seq in Q. lia. }
    apply vderiv_ext with (fun x => chain_at (P x) idx n l); [intros x; symmetry; apply N; auto|]. unfold chain_at. destruct (Nat.eqb_spec l (n - 1)).
    + apply G, IL. lia.
    + apply vd_sub; apply G, IL; lia.
Qed.
Lemma pack_deriv (t : R -> R) (a b c : R -> list vec) (tl : R -> list R) u t' a' b' c' tl' :
  (forall x, length (a x) = length a' /\ length (b x) = length b' /\ length (c x) = length c') ->
  (entries_deriv (fun x => pack (t x) (a x) (b x) (c x) (tl x)) u (pack t' a' b' c' tl') <->
   derivable_pt_lim t u t' /\ entries_deriv (fun x => coords (a x)) u (coords a') /\ entries_deriv (fun x => coords (b x)) u (coords b') /\
   entries_deriv (fun x => coords (c x)) u (coords c') /\ entries_deriv tl u tl').
Proof.
  intros L. assert (X1 : forall x, length (coords (a x)) = length (coords a')) by (intros x; rewrite !coords_len; destruct (L x) as (-> & _); auto).
  assert (X2 : forall x, length (coords (b x)) = length (coords b')) by (intros x; rewrite !coords_len; destruct (L x) as (_ & -> & _); auto).
  assert (X3 : forall x, length (coords (c x)) = length (coords c')) by (intros x; rewrite !coords_len; destruct (L x) as (_ & _ & ->); auto).
  unfold pack. split.
  - intros H. apply deriv_head in H as (A & H). apply deriv_app in H as (B & H); [|auto]. apply deriv_app in H as (C' & H); [|auto]. apply deriv_app in H as (D & H); [|auto]. auto.
  - intros (A & B & C' & D & E). apply cons_deriv; auto. apply app_deriv; auto. apply app_deriv; auto. apply app_deriv; auto.
Qed.
Lemma chain_form_scal idx k a : chain_form idx (map (vscal k) a) = map (vscal k) (chain_form idx a).
Proof.
  assert (MN : forall l i, nth i (map (vscal k) l) vzero = vscal k (nth i l vzero)) by (intros l i; replace vzero with (vscal k vzero) at 1 by (vunf; f_equal; ring); apply map_nth).
  unfold chain_form. rewrite map_length, map_map. apply map_ext. intros i. destruct (i + 1 <? length a)%nat; rewrite !MN; auto.
  generalize (nth (nth (i + 1) idx 0%nat) a vzero) (nth (nth i idx 0%nat) a vzero). clear. intros. vring.
Qed.
Lemma archain_value I m idx CI r c : sized I -> agree I CI (length m) -> (2 <= length m)%nat -> cgood I m idx c ->
  let s := c_st c in let pr := fst (pos_phy r s 1) in let vr := fst (vel_phy r s 1) in let a := racc I s in
  length a = length m /\
  archain_deriv I CI r c = Ok (pack pr (chain_form idx (map (vscal pr) (s_v s))) (chain_form idx (map (vscal vr) a)) (auxl I (chain_form idx (map (vscal vr) a)))
      [calc_domega_dt r (s_m s) (s_v s) (I_newt I (s_m s) (s_p s)) * vr; calc_dbindE_dt I r (s_m s) (s_v s) a * vr], cset_st c (set_sc s (snd (vel_phy r s 1)))) /\
  rderivative I r s = pack pr (map (vscal pr) (s_v s)) (map (vscal vr) a) (auxl I (map (vscal vr) a))
      [calc_domega_dt r (s_m s) (s_v s) (I_newt I (s_m s) (s_p s)) * vr; calc_dbindE_dt I r (s_m s) (s_v s) a * vr].
Proof.
  intros HI Ag Hn G s pr vr a. pose proof G as (C & Ei & Em). pose proof C as (H1 & H2 & Hp & Hv & Ep & Ev & Hw).
  assert (N : npart (c_st c) = length m) by (unfold npart; rewrite Em; auto).
  assert (La : length a = length m).
  { rewrite N in *. destruct (HI (s_m (c_st c)) (s_p (c_st c)) (s_v (c_st c))) as (A & B & D); [congruence|congruence|]. unfold a, racc, eval_extra, s.
    destruct (I_ind I), (I_dep I); cbn [orb]; rewrite ?vladd_length; rewrite ?vladd_length; congruence. }
  split; [exact La|]. split.
  - unfold archain_deriv. cbv zeta. rewrite (cvel_phy_ok I) by (auto; lia). cbn [obind]. fold s. destruct (vel_phy r s 1) as [vr' sc] eqn:EV. subst vr. cbn [fst snd].
    assert (EN : c_newt CI c = Ok (I_newt I (s_m s) (s_p s))).
    { unfold c_newt. rewrite N in *. unfold s. rewrite Em. destruct (Ag m (s_p (c_st c)) (s_v (c_st c)) (c_idx c) (c_cp c) (c_cv c) eq_refl Hp Hv H2 Ep Ev) as (A & _). auto. }
    rewrite EN. cbn [obind].
    assert (EA : (if I_ind I || I_dep I then obind (c_extra I CI c) (fun x => Ok (vladd x (I_newt I (s_m s) (s_p s)))) else Ok (I_newt I (s_m s) (s_p s))) = Ok a).
    { unfold a, racc, s. destruct (I_ind I || I_dep I) eqn:B; auto. apply orb_prop in B. rewrite (c_extra_ok I m idx) by auto. reflexivity. }
    rewrite EA. cbn [obind]. fold s in N. rewrite N. rewrite Ei in *. unfold s in *. rewrite N in *. rewrite chain_of_form in Ev |- * by auto. cbn [obind].
    assert (EC : c_cv c = chain_form idx (s_v (c_st c))) by congruence. rewrite EC, !chain_form_scal. fold pr.
    unfold pack, auxl, scaled. destruct (I_dep I); cbn [coords flat_map app]; reflexivity.
  - unfold rderivative. fold s. cbv zeta. fold pr vr. unfold pack, auxl, scaled. fold (racc I s). fold a. destruct (I_dep I); cbn [coords flat_map app]; reflexivity.
Qed.

(** A curve of chain systems with fixed masses and index, whose chain coordinates describe its bodies. *)
Definition chain_curve (I : inter) (C : R -> cst) (m : list R) (idx : list nat) : Prop :=
  forall x, consistent I (C x) /\ c_idx (C x) = idx /\ s_m (c_st (C x)) = m.
Lemma curve_bodies I C m idx : chain_curve I C m idx -> same_bodies I (fun x => c_st (C x)) m.
Proof. intros H x. destruct (H x) as ((_ & _ & Hp & Hv & _ & _ & Hw) & _ & Em). unfold npart in *. rewrite Em in *. repeat split; auto. intros D. apply Hw; auto. Qed.
Lemma curve_forms I C m idx : chain_curve I C m idx -> (1 <= length m)%nat /\ is_index (length m) idx /\ forall x,
  c_cp (C x) = chain_form idx (s_p (c_st (C x))) /\ c_cv (C x) = chain_form idx (s_v (c_st (C x))) /\ auxl I (c_cw (C x)) = auxl I (chain_form idx (s_w (c_st (C x)))).
Proof.
  intros H. assert (P : (1 <= length m)%nat /\ is_index (length m) idx).
  { destruct (H 0) as ((H1 & H2 & _) & Ei & Em). unfold npart in *. rewrite Em, Ei in *. auto. }
  destruct P as (P1 & P2). split; auto. split; auto. intros x. destruct (H x) as ((H1 & H2 & Hp & Hv & Ep & Ev & Hw) & Ei & Em). unfold npart in *. rewrite Em, Ei in *.
  rewrite chain_of_form in Ep, Ev by auto. split; [congruence|]. split; [congruence|]. unfold auxl. destruct (I_dep I); auto. destruct (Hw eq_refl) as (Lw & E). rewrite chain_of_form in E by auto. congruence.
Qed.
Section Iff.
  Variables (I : inter) (C : R -> cst) (m : list R) (idx : list nat) (t : R).
  Hypothesis HC : chain_curve I C m idx.
  Lemma curve_iff pr (v a : list vec) (tl : R -> list R) tl' : length v = length m -> length a = length m ->
    (entries_deriv (fun x => pack (s_t (c_st (C x))) (c_cp (C x)) (c_cv (C x)) (auxl I (c_cw (C x))) (tl x)) t (pack pr (chain_form idx v) (chain_form idx a) (auxl I (chain_form idx a)) tl') <->
     entries_deriv (fun x => pack (s_t (c_st (C x))) (s_p (c_st (C x))) (s_v (c_st (C x))) (auxl I (s_w (c_st (C x)))) (tl x)) t (pack pr v a (auxl I a) tl')).
  Proof.
    intros Lv La. destruct (curve_forms I C m idx HC) as (P1 & P2 & P3). pose proof (curve_bodies I C m idx HC) as SB.
    assert (E : forall y d, entries_deriv (fun x => pack (s_t (c_st (C x))) (c_cp (C x)) (c_cv (C x)) (auxl I (c_cw (C x))) (tl x)) y d <->
                entries_deriv (fun x => pack (s_t (c_st (C x))) (chain_form idx (s_p (c_st (C x)))) (chain_form idx (s_v (c_st (C x)))) (auxl I (chain_form idx (s_w (c_st (C x))))) (tl x)) y d).
    { intros y d. assert (Q : forall x, pack (s_t (c_st (C x))) (c_cp (C x)) (c_cv (C x)) (auxl I (c_cw (C x))) (tl x) = pack (s_t (c_st (C x))) (chain_form idx (s_p (c_st (C x)))) (chain_form idx (s_v (c_st (C x)))) (auxl I (chain_form idx (s_w (c_st (C x))))) (tl x)).
      { intros x. destruct (P3 x) as (-> & -> & ->). reflexivity. }
      unfold entries_deriv. split; intros H k Hk eps He; destruct (H k Hk eps He) as (del & G); exists del; intros h Hh Hl; [rewrite <- !Q|rewrite !Q]; auto. }
    rewrite E. clear E.
    assert (LW : forall x, length (auxl I (s_w (c_st (C x)))) = length (auxl I a)). { intros x. destruct (SB x) as (_ & _ & _ & Q). unfold auxl. destruct (I_dep I); auto. rewrite Q; auto. }
    rewrite !pack_deriv.
    2:{ intros x. destruct (SB x) as (_ & Q1 & Q2 & Q3). cbv beta in *. split; [congruence|split; [congruence|]]; apply LW. }
    2:{ intros x. destruct (SB x) as (_ & Q1 & Q2 & Q3). cbv beta in *. rewrite !chain_form_length. split; [congruence|split; [congruence|]]. specialize (LW x). unfold auxl in *. destruct (I_dep I); auto. rewrite !chain_form_length. auto. }
    rewrite (chain_form_deriv (fun x => s_p (c_st (C x))) v t (length m) idx), (chain_form_deriv (fun x => s_v (c_st (C x))) a t (length m) idx); auto; try (intros x; destruct (SB x) as (_ & Q1 & Q2 & Q3); auto).
    assert (W : entries_deriv (fun x => coords (auxl I (chain_form idx (s_w (c_st (C x)))))) t (coords (auxl I (chain_form idx a))) <-> entries_deriv (fun x => coords (auxl I (s_w (c_st (C x))))) t (coords (auxl I a))).
    { unfold auxl. destruct (I_dep I) eqn:D; [|tauto]. apply chain_form_deriv with (length m); auto. intros x. destruct (SB x) as (_ & _ & _ & Q3). auto. }
    rewrite W. tauto.
  Qed.
End Iff.
(** ChainSystem: the array written has the derivative reported exactly when the bodies move by Newton's laws. *)
Theorem C66_chain_derivative I CI C m idx t : sized I -> agree I CI (length m) -> chain_curve I C m idx ->
  exists d, chain_deriv I CI (C t) = Ok (d, C t) /\
    (moves I (fun x => c_st (C x)) t <-> entries_deriv (fun x => cwrite I (C x)) t d).
Proof.
  intros SZ Ag HC. pose proof (curve_bodies I C m idx HC) as SB. destruct (curve_forms I C m idx HC) as (P1 & P2 & P3).
  destruct (HC t) as (Co & Ei & Em). destruct (chain_dt I m idx CI (C t) SZ Ag) as (a & ca & La & Ca & Lc & Ea & E); [split; [exact Co|split; assumption]|].
  eexists. split; [exact E|]. rewrite (C66_derivative I (fun x => c_st (C x)) m t SZ SB). cbv beta.
  rewrite chain_of_form in Ca by auto. injection Ca as <-. destruct (P3 t) as (_ & -> & _). destruct (SB t) as (_ & _ & Lv & _). cbv beta in Lv.
  pose proof (curve_iff I C m idx t HC 1 (s_v (c_st (C t))) a (fun _ => []) [] Lv La) as Q.
  assert (F1 : forall d, entries_deriv (fun x => cwrite I (C x)) t d <-> entries_deriv (fun x => pack (s_t (c_st (C x))) (c_cp (C x)) (c_cv (C x)) (auxl I (c_cw (C x))) []) t d).
  { intros d. unfold entries_deriv. split; intros H k Hk eps He; destruct (H k Hk eps He) as (del & G); exists del; intros h Hh Hl; [rewrite <- !cwrite_pack|rewrite !cwrite_pack]; auto. }
  assert (F2 : forall d, entries_deriv (fun x => write I (c_st (C x))) t d <-> entries_deriv (fun x => pack (s_t (c_st (C x))) (s_p (c_st (C x))) (s_v (c_st (C x))) (auxl I (s_w (c_st (C x)))) []) t d).
  { intros d. unfold entries_deriv. split; intros H k Hk eps He; destruct (H k Hk eps He) as (del & G); exists del; intros h Hh Hl; [rewrite <- !write_pack|rewrite !write_pack]; auto. }
  rewrite F1, F2, Q. assert (X : derivative I (c_st (C t)) = pack 1 (s_v (c_st (C t))) a (auxl I a) []) by (rewrite Ea; unfold derivative, pack, auxl; cbv zeta; destruct (I_dep I); cbn [coords flat_map app]; rewrite ?app_nil_r; reflexivity).
  rewrite X. tauto.
Qed.
(** ARchainSystem: the same in regularised time, with the rates of the clock, the positions and the velocities, and the rates of omega and of
    the binding energy, of the described Cartesian state. *)
Theorem C66_archain_derivative I CI r C m idx t : sized I -> agree I CI (length m) -> (2 <= length m)%nat -> chain_curve I C m idx ->
  let S := fun x => c_st (C x) in
  let dx := match r with LogH => / (Tkin (S t) + s_be (S t)) | TTL => / s_om (S t) | NoReg => 1 end in
  let dv := match r with NoReg => 1 | _ => / Upot (S t) end in
  exists d c', archain_deriv I CI r (C t) = Ok (d, c') /\
    (moves_regularised I r dx dv S t <-> entries_deriv (fun x => arwrite I (C x)) t d) /\
    c_cp c' = c_cp (C t) /\ c_cv c' = c_cv (C t) /\ s_p (c_st c') = s_p (S t) /\ s_v (c_st c') = s_v (S t) /\ s_t (c_st c') = s_t (S t) /\
    s_om (c_st c') = s_om (S t) /\ s_be (c_st c') = s_be (S t) /\ s_sc (c_st c') = match r with NoReg => s_sc (S t) | _ => Upot (S t) end.
Proof.
  intros SZ Ag Hn HC S dx dv. pose proof (curve_bodies I C m idx HC) as SB. fold S in SB.
  destruct (HC t) as (Co & Ei & Em). destruct (archain_value I m idx CI r (C t) SZ Ag Hn) as (La & E & Er); [split; [exact Co|split; assumption]|].
  eexists. eexists. split; [exact E|].
  split; [|cbn; repeat split; unfold vel_phy; destruct r; cbn [snd]; auto; apply pot_U].
  pose proof (C66_regularised_derivative I r S m t SZ SB) as Q. cbv zeta in Q. fold dx dv in Q. rewrite Q. clear Q. unfold S at 2. rewrite Er.
  destruct (SB t) as (_ & _ & Lv & _).
  set (pr := fst (pos_phy r (c_st (C t)) 1)) in *. set (vr := fst (vel_phy r (c_st (C t)) 1)) in *.
  pose proof (curve_iff I C m idx t HC pr (map (vscal pr) (s_v (c_st (C t)))) (map (vscal vr) (racc I (c_st (C t)))) (fun x => [s_om (c_st (C x)); s_be (c_st (C x))])
    [calc_domega_dt r (s_m (c_st (C t))) (s_v (c_st (C t))) (I_newt I (s_m (c_st (C t))) (s_p (c_st (C t)))) * vr; calc_dbindE_dt I r (s_m (c_st (C t))) (s_v (c_st (C t))) (racc I (c_st (C t))) * vr]) as Q.
  rewrite !map_length in Q. specialize (Q Lv La).
  assert (F1 : forall d, entries_deriv (fun x => arwrite I (C x)) t d <-> entries_deriv (fun x => pack (s_t (c_st (C x))) (c_cp (C x)) (c_cv (C x)) (auxl I (c_cw (C x))) [s_om (c_st (C x)); s_be (c_st (C x))]) t d).
  { intros d. unfold entries_deriv. split; intros H k Hk eps He; destruct (H k Hk eps He) as (del & G); exists del; intros h Hh Hl; [rewrite <- !arwrite_pack|rewrite !arwrite_pack]; auto. }
  assert (F2 : forall d, entries_deriv (fun x => rwrite I (S x)) t d <-> entries_deriv (fun x => pack (s_t (c_st (C x))) (s_p (c_st (C x))) (s_v (c_st (C x))) (auxl I (s_w (c_st (C x)))) [s_om (c_st (C x)); s_be (c_st (C x))]) t d).
  { intros d. unfold entries_deriv, S. split; intros H k Hk eps He; destruct (H k Hk eps He) as (del & G); exists del; intros h Hh Hl; [rewrite <- !rwrite_pack|rewrite !rwrite_pack]; auto. }
  rewrite F1, F2, Q. tauto.
Qed.
(** Two free bodies (no masses) in the chain of the order 1, 0: a curve meeting the hypotheses. *)
Example C66_chain_case : chain_curve newton_only (fun x => mkCst (mkSt [0; 0] x [mkV x 0 0; mkV 0 1 0] [mkV 1 0 0; mkV 0 0 0] [] 0 0 0 [] false)
    [mkV x (-1) 0; mkV 0 1 0] [mkV 1 0 0; mkV 0 0 0] [] [1; 0]%nat) [0; 0] [1; 0]%nat.
Proof.
  intros x. split; [|split; reflexivity]. unfold consistent, npart. cbn [c_st s_m s_p s_v s_w c_idx c_cp c_cv c_cw length]. split; [lia|]. split; [apply perm_swap|]. split; [reflexivity|]. split; [reflexivity|].
  split; [|split; [|discriminate]]; (rewrite chain_of_form; [|lia|apply perm_swap|reflexivity]); cbn; unfold vsub; cbn; do 2 f_equal; f_equal; ring.
Qed.
Print Assumptions C66_chain_derivative. Print Assumptions C66_archain_derivative.
