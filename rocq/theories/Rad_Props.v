(** Property C75: the Gauss-Radau methods (adaptive and constant-step) on the four particle systems. *)
From Verif Require Import Force_Proofs Rad_Spec Ctrl_Spec Ctrl_Proofs Chain_Spec Chain_Proofs System_Proofs System_Proofs2 System_Proofs3 System_Proofs4 BS_Proofs3 Radau_Spec Radau_Proofs Radau_Proofs2 Radau_Proofs4 Radau_Proofs5 Radau_Props Ias_Spec Ias_Props Build_Proofs Rad_Proofs Meth_Proofs2 System_Props.
Import System_Spec Radau_Spec Radau_Proofs4.
Open Scope R_scope.

(** * Facts about the systems, collected *)
Section Plain.
  Context (I : inter) (HI : sized I) (s0 : st).
  Notation N := (variable_number I 1 (length (s_m s0))).
  Lemma p_rd p y q : good I 1 s0 p -> length y = N -> read I p y = Ok q -> good I 1 s0 q /\ write I q = y. Proof. intros Gp _ E. apply (good_simple I s0 p y q Gp E). Qed.
  Lemma p_dv p d q : good I 1 s0 p -> simple_deriv I p = Ok (d, q) -> good I 1 s0 q /\ length d = N.
  Proof. intros Gp E. unfold simple_deriv in E. assert (X : d = derivative I p) by congruence. assert (q = p) by congruence. subst d q. split; auto. apply (simple_dt I s0 p HI Gp). Qed.
  Lemma p_ol p : good I 1 s0 p -> length (write I p) = N. Proof. intros Gp. destruct (good_write I 1 s0 (or_introl eq_refl) p Gp) as (L & _). rewrite gwrite1 in L. auto. Qed.
  Lemma p_dt p : good I 1 s0 p -> exists d q, simple_deriv I p = Ok (d, q). Proof. intros _. unfold simple_deriv. eauto. Qed.
  Lemma p_wt p : good I 1 s0 p -> lin N (unitc 0) (write I p) = s_t p. Proof. intros Gp. destruct (good_write I 1 s0 (or_introl eq_refl) p Gp) as (_ & X). rewrite gwrite1 in X. apply (X 0%nat). lia. Qed.
  Lemma p_d1 p d q : good I 1 s0 p -> simple_deriv I p = Ok (d, q) -> lin N (unitc 0) d = 1.
  Proof. intros Gp E. unfold simple_deriv in E. assert (X : d = derivative I p) by congruence. subst d. rewrite lin_unit by (unfold variable_number; lia). apply (simple_dt I s0 p HI Gp). Qed.
  Lemma p_wo p : good I 1 s0 p -> forall a, (a < 3)%nat -> lin N (cf (s_m s0) (vel_offset (length (s_m s0)) + a)) (write I p) = ax a (momentum p) /\ lin N (cf (s_m s0) (pos_offset + a)) (write I p) = ax a (moment p).
  Proof. intros Gp a Ha. destruct (good_write I 1 s0 (or_introl eq_refl) p Gp) as (_ & X). rewrite gwrite1 in X. destruct (X a Ha) as (X1 & X2 & _). auto. Qed.
  Lemma p_do (HB : balanced I) p d q : good I 1 s0 p -> simple_deriv I p = Ok (d, q) -> exists k, forall a, (a < 3)%nat -> lin N (cf (s_m s0) (vel_offset (length (s_m s0)) + a)) d = 0 /\
      lin N (cf (s_m s0) (pos_offset + a)) d = k * ax a (momentum p) /\ lin N (unitc 0) d = k.
  Proof. intros Gp E. exists 1. unfold simple_deriv in E. assert (X : d = derivative I p) by congruence. subst d. apply simple_dv; auto. Qed.
End Plain.
Section Regu.
  Context (I : inter) (r : regu) (HI : sized I) (s0 : st).
  Notation N := (variable_number I 3 (length (s_m s0))).
  Lemma r_rd p y q : good I 3 s0 p -> length y = N -> rread I p y = Ok q -> good I 3 s0 q /\ rwrite I q = y. Proof. intros Gp _ E. apply (good_regu I s0 p y q Gp E). Qed.
  Lemma r_dv p d q : good I 3 s0 p -> regu_deriv I r p = Ok (d, q) -> good I 3 s0 q /\ length d = N.
  Proof. intros Gp E. unfold regu_deriv in E. assert (X : d = rderivative I r p) by congruence. assert (Y : q = set_sc p (snd (vel_phy r p 1))) by congruence. rewrite X, Y. split; [apply good_sc; auto|]. apply (regu_dt I r s0 p HI Gp). Qed.
  Lemma r_ol p : good I 3 s0 p -> length (rwrite I p) = N. Proof. intros Gp. destruct (good_write I 3 s0 (or_intror eq_refl) p Gp) as (L & _). rewrite gwrite3 in L. auto. Qed.
  Lemma r_dt p : good I 3 s0 p -> exists d q, regu_deriv I r p = Ok (d, q). Proof. intros _. unfold regu_deriv. eauto. Qed.
  Lemma r_wt p : good I 3 s0 p -> lin N (unitc 0) (rwrite I p) = s_t p. Proof. intros Gp. destruct (good_write I 3 s0 (or_intror eq_refl) p Gp) as (_ & X). rewrite gwrite3 in X. apply (X 0%nat). lia. Qed.
  Lemma r_wo p : good I 3 s0 p -> forall a, (a < 3)%nat -> lin N (cf (s_m s0) (vel_offset (length (s_m s0)) + a)) (rwrite I p) = ax a (momentum p) /\ lin N (cf (s_m s0) (pos_offset + a)) (rwrite I p) = ax a (moment p).
  Proof. intros Gp a Ha. destruct (good_write I 3 s0 (or_intror eq_refl) p Gp) as (_ & X). rewrite gwrite3 in X. destruct (X a Ha) as (X1 & X2 & _). auto. Qed.
  Lemma r_do (HB : balanced I) p d q : good I 3 s0 p -> regu_deriv I r p = Ok (d, q) -> exists k, forall a, (a < 3)%nat -> lin N (cf (s_m s0) (vel_offset (length (s_m s0)) + a)) d = 0 /\
      lin N (cf (s_m s0) (pos_offset + a)) d = k * ax a (momentum p) /\ lin N (unitc 0) d = k.
  Proof. intros Gp E. unfold regu_deriv in E. assert (X : d = rderivative I r p) by congruence. subst d. apply regu_dv; auto. Qed.
End Regu.
Section Chain.
  Context (I : inter) (CI : cinter) (HI : sized I) (m : list R) (Ag : agree I CI (length m)) (Hn : (2 <= length m)%nat) (idx : list nat).
  Notation N := (variable_number I 1 (length m)).
  Lemma c_rd p y q : cgood I m idx p -> length y = N -> cread I p y = Ok q -> cgood I m idx q /\ cwrite I q = y.
  Proof. intros G L E. destruct (chain_rd I m idx 1 p y q (or_introl eq_refl) G L E) as (X & Y & _). rewrite gc1 in Y. auto. Qed.
  Lemma c_rt p y : cgood I m idx p -> length y = N -> exists q, cread I p y = Ok q. Proof. intros G L. destruct (chain_rt I m idx 1 p y (or_introl eq_refl) G L) as (q & E & _). eauto. Qed.
  Lemma c_dv p d q : cgood I m idx p -> chain_deriv I CI p = Ok (d, q) -> cgood I m idx q /\ length d = N.
  Proof.
    intros G E. destruct (chain_dt I m idx CI p HI Ag G) as (a & ca & La & Ec & Lc & Ea & Ed). rewrite Ed in E. assert (X : d = pack 1 (c_cv p) ca (auxl I ca) []) by congruence. assert (Y : q = p) by congruence. rewrite X, Y. split; auto.
    apply pack_varnum; auto. destruct G as (C & _ & Em). destruct (consistent_chain_len I p C) as (_ & B & _). unfold npart in B. rewrite Em in B. auto.
  Qed.
  Lemma c_dt p : cgood I m idx p -> exists d q, chain_deriv I CI p = Ok (d, q). Proof. intros G. destruct (chain_dt I m idx CI p HI Ag G) as (a & ca & _ & _ & _ & _ & Ed). eauto. Qed.
  Lemma c_ol p : cgood I m idx p -> length (cwrite I p) = N. Proof. intros G. rewrite <- gc1. apply (cgood_len I m idx); auto. Qed.
  Lemma c_wt p : cgood I m idx p -> lin N (unitc 0) (cwrite I p) = s_t (c_st p). Proof. intros G. rewrite <- gc1. apply (chain_obs I m idx 1 p (or_introl eq_refl) G). Qed.
  Lemma c_d1 p d q : cgood I m idx p -> chain_deriv I CI p = Ok (d, q) -> lin N (unitc 0) d = 1.
  Proof. intros G E. destruct (chain_dt I m idx CI p HI Ag G) as (a & ca & La & Ec & Lc & Ea & Ed). rewrite Ed in E. assert (X : d = pack 1 (c_cv p) ca (auxl I ca) []) by congruence. rewrite X. rewrite lin_unit by (unfold variable_number; lia). reflexivity. Qed.
  Lemma c_wo p : cgood I m idx p -> forall a, (a < 3)%nat -> lin N (cf (chain_masses idx m) (vel_offset (length (chain_masses idx m)) + a)) (cwrite I p) = ax a (momentum (c_st p)) /\ lin N (cf (chain_masses idx m) (pos_offset + a)) (cwrite I p) = ax a (moment (c_st p)).
  Proof. intros G. rewrite <- gc1. apply (chain_obs I m idx 1 p (or_introl eq_refl) G). Qed.
  Lemma c_do (HB : balanced I) p d q : cgood I m idx p -> chain_deriv I CI p = Ok (d, q) -> exists k, forall a, (a < 3)%nat -> lin N (cf (chain_masses idx m) (vel_offset (length (chain_masses idx m)) + a)) d = 0 /\
      lin N (cf (chain_masses idx m) (pos_offset + a)) d = k * ax a (momentum (c_st p)) /\ lin N (unitc 0) d = k.
  Proof.
    intros G E. exists 1. destruct (chain_dt I m idx CI p HI Ag G) as (a & ca & La & Ec & Lc & Ea & Ed). rewrite Ed in E. assert (X : d = pack 1 (c_cv p) ca (auxl I ca) []) by congruence. rewrite X.
    replace (pack 1 (c_cv p)) with (pack 1 (map (vscal 1) (c_cv p))) by (f_equal; rewrite (map_ext _ (fun v => v)); [apply map_id|intros v; vring]).
    intros x Hx. apply chain_pack_obs; auto. apply (chain_acc_net I m idx 1 p a ca); auto.
  Qed.
End Chain.
Section Archain.
  Context (I : inter) (CI : cinter) (r : regu) (HI : sized I) (m : list R) (Ag : agree I CI (length m)) (Hn : (2 <= length m)%nat) (idx : list nat).
  Notation N := (variable_number I 3 (length m)).
  Lemma a_rd p y q : cgood I m idx p -> length y = N -> arread I p y = Ok q -> cgood I m idx q /\ arwrite I q = y.
  Proof. intros G L E. destruct (chain_rd I m idx 3 p y q (or_intror eq_refl) G L E) as (X & Y & _). rewrite gc3 in Y. auto. Qed.
  Lemma a_rt p y : cgood I m idx p -> length y = N -> exists q, arread I p y = Ok q. Proof. intros G L. destruct (chain_rt I m idx 3 p y (or_intror eq_refl) G L) as (q & E & _). eauto. Qed.
  Lemma a_dt p : cgood I m idx p -> exists d q, archain_deriv I CI r p = Ok (d, q). Proof. intros G. destruct (archain_dt I m idx CI r p HI Ag Hn G) as (a & ca & x & y & _ & _ & _ & _ & Ed). eauto. Qed.
  Lemma a_dv p d q : cgood I m idx p -> archain_deriv I CI r p = Ok (d, q) -> cgood I m idx q /\ length d = N.
  Proof.
    intros G E. destruct (archain_dt I m idx CI r p HI Ag Hn G) as (a & ca & x & y & La & Ec & Lc & Ea & Ed). rewrite Ed in E. match type of E with Ok (?A, ?B) = _ => assert (X : d = A) by congruence; assert (Y : q = B) by congruence end. rewrite X, Y. split; [exact G|].
    apply pack_varnum; rewrite ?map_length; auto. destruct G as (C & _ & Em). destruct (consistent_chain_len I p C) as (_ & B & _). unfold npart in B. rewrite Em in B. auto.
  Qed.
  Lemma a_ol p : cgood I m idx p -> length (arwrite I p) = N. Proof. intros G. rewrite <- gc3. apply (cgood_len I m idx); auto. Qed.
  Lemma a_wt p : cgood I m idx p -> lin N (unitc 0) (arwrite I p) = s_t (c_st p). Proof. intros G. rewrite <- gc3. apply (chain_obs I m idx 3 p (or_intror eq_refl) G). Qed.
  Lemma a_wo p : cgood I m idx p -> forall a, (a < 3)%nat -> lin N (cf (chain_masses idx m) (vel_offset (length (chain_masses idx m)) + a)) (arwrite I p) = ax a (momentum (c_st p)) /\ lin N (cf (chain_masses idx m) (pos_offset + a)) (arwrite I p) = ax a (moment (c_st p)).
  Proof. intros G. rewrite <- gc3. apply (chain_obs I m idx 3 p (or_intror eq_refl) G). Qed.
  Lemma a_do (HB : balanced I) p d q : cgood I m idx p -> archain_deriv I CI r p = Ok (d, q) -> exists k, forall a, (a < 3)%nat -> lin N (cf (chain_masses idx m) (vel_offset (length (chain_masses idx m)) + a)) d = 0 /\
      lin N (cf (chain_masses idx m) (pos_offset + a)) d = k * ax a (momentum (c_st p)) /\ lin N (unitc 0) d = k.
  Proof.
    intros G E. destruct (archain_dt I m idx CI r p HI Ag Hn G) as (a & ca & x & y & La & Ec & Lc & Ea & Ed). rewrite Ed in E. match type of E with Ok (?A, ?B) = _ => assert (X : d = A) by congruence end. rewrite X.
    exists (fst (pos_phy r (c_st p) 1)). intros z Hz. apply chain_pack_obs; auto; [rewrite map_length; auto|]. rewrite net_scaled by (rewrite chain_masses_len; auto).
    rewrite (chain_acc_net I m idx 3 p a ca) by auto. vring.
  Qed.
End Archain.

(** * Histories *)
Lemma after_iter A c1 h1 o (x : option (outcome (ias * cst * R))) I m idx : (2 <= length m)%nat -> x = Some (Ok (A, c1, h1)) -> cgood I m idx c1 -> radau_then_reindex x o ->
  exists c', o = Some (Ok (A, c', h1)) /\ consistent newton_only c' /\ s_m (c_st c') = m /\ c_st c' = c_st c1.
Proof.
  intros Hn -> (C & Ei & Em) (o1 & Ho & ->). destruct (reindex_ok c1 o1 (cart_ok_of I c1 C)) as (c' & -> & C' & E'); [unfold npart; rewrite Em; auto|auto|].
  cbn [obind]. exists c'. rewrite E'. auto.
Qed.
Section H.
  Context (I : inter) (CI : cinter) (r : regu) (md : rmode) (HI : sized I).
  Definition csteps (regularised : bool) := if regularised then radau_archain I CI r md else radau_chain I CI md.
  Context (m : list R) (Ag : agree I CI (length m)) (Hn : (2 <= length m)%nat).
  (** One call on a chain system: its outcomes, and what a returning one leaves. *)
  Lemma chain_one reg A c h o : gr_sized (g_n (i_gr A)) (i_gr A) -> consistent newton_only c -> s_m (c_st c) = m -> csteps reg A c h o ->
    o <> Some UB /\ (md = Constant -> exists A' c', o = Some (Ok (A', c', h))) /\
    forall A' c' h', o = Some (Ok (A', c', h')) -> gr_sized (g_n (i_gr A')) (i_gr A') /\ consistent newton_only c' /\ s_m (c_st c') = m.
  Proof.
    intros HG C Em H. pose proof (cgood_pre I m (c_idx c) c C eq_refl Em) as G.
    destruct reg; cbn [csteps] in H; [unfold radau_archain in H|unfold radau_chain in H].
    - pose proof (radau_defined (arwrite I) (arread I) (archain_deriv I CI r) (variable_number I 3 (length m)) (cgood I m (c_idx c)) (view_archain I) (a_rd I m _) (a_dv I CI r HI m Ag Hn _) (a_ol I m _) (fits_archain I m _) (a_rt I m _) (a_dt I CI r HI m Ag Hn _) md A _ h HG G) as (U & K).
      pose proof (radau_keeps (arwrite I) (arread I) (archain_deriv I CI r) (variable_number I 3 (length m)) (cgood I m (c_idx c)) (view_archain I) (a_rd I m _) (a_dv I CI r HI m Ag Hn _) (a_ol I m _) md A (cpre_iter I c) h) as KP.
      set (x := radau_iter _ _ _ _ _ _ _ _) in *. clearbody x. destruct x as [[[[A1 c1] h1]| |]|] eqn:E; cbn [radau_then_reindex] in H; try contradiction.
      + destruct (KP A1 c1 h1 HG G eq_refl) as (S1 & G1). destruct (after_iter A1 c1 h1 o (Some (Ok (A1, c1, h1))) I m (c_idx c) Hn eq_refl G1 H) as (c' & -> & C' & M' & E').
        split; [discriminate|]. split; [intros X; destruct (K X) as (? & ? & Y); assert (h1 = h) by congruence; subst; eauto|]. intros A' c2 h' Y. assert (A' = A1) by congruence. assert (c2 = c') by congruence. subst. auto.
      + rewrite H. split; [discriminate|]. split; [intros X; destruct (K X) as (? & ? & Y); discriminate|discriminate].
      + rewrite H. split; [discriminate|]. split; [intros X; destruct (K X) as (? & ? & Y); discriminate|discriminate].
    - pose proof (radau_defined (cwrite I) (cread I) (chain_deriv I CI) (variable_number I 1 (length m)) (cgood I m (c_idx c)) (view_chain I) (c_rd I m _) (c_dv I CI HI m Ag _) (c_ol I m _) (fits_chain I m _) (c_rt I m _) (c_dt I CI HI m Ag _) md A _ h HG G) as (U & K).
      pose proof (radau_keeps (cwrite I) (cread I) (chain_deriv I CI) (variable_number I 1 (length m)) (cgood I m (c_idx c)) (view_chain I) (c_rd I m _) (c_dv I CI HI m Ag _) (c_ol I m _) md A (cpre_iter I c) h) as KP.
      set (x := radau_iter _ _ _ _ _ _ _ _) in *. clearbody x. destruct x as [[[[A1 c1] h1]| |]|] eqn:E; cbn [radau_then_reindex] in H; try contradiction.
      + destruct (KP A1 c1 h1 HG G eq_refl) as (S1 & G1). destruct (after_iter A1 c1 h1 o (Some (Ok (A1, c1, h1))) I m (c_idx c) Hn eq_refl G1 H) as (c' & -> & C' & M' & E').
        split; [discriminate|]. split; [intros X; destruct (K X) as (? & ? & Y); assert (h1 = h) by congruence; subst; eauto|]. intros A' c2 h' Y. assert (A' = A1) by congruence. assert (c2 = c') by congruence. subst. auto.
      + rewrite H. split; [discriminate|]. split; [intros X; destruct (K X) as (? & ? & Y); discriminate|discriminate].
      + rewrite H. split; [discriminate|]. split; [intros X; destruct (K X) as (? & ? & Y); discriminate|discriminate].
  Qed.
  Lemma chain_hist reg Q A c A' c' : chist (csteps reg) Q A c A' c' -> gr_sized (g_n (i_gr A)) (i_gr A) -> consistent newton_only c -> s_m (c_st c) = m ->
    gr_sized (g_n (i_gr A')) (i_gr A') /\ consistent newton_only c' /\ s_m (c_st c') = m.
  Proof.
    induction 1 as [A c|A c h A1 c1 h1 A' c' Hs _ _ IH]; intros HG C Em; [auto|]. destruct (chain_one reg A c h _ HG C Em Hs) as (_ & _ & X). destruct (X A1 c1 h1 eq_refl) as (X1 & X2 & X3). auto.
  Qed.
End H.

(** Plain and regularised systems. *)
Lemma simple_hist I md s A s1 : sized I -> good I 1 s s -> hist (radau_simple I md) fresh_ias s A s1 -> gr_sized (g_n (i_gr A)) (i_gr A) /\ good I 1 s s1.
Proof.
  intros HI G0 H. assert (Gen : forall A0 x A1 x1, hist (radau_simple I md) A0 x A1 x1 -> gr_sized (g_n (i_gr A0)) (i_gr A0) -> good I 1 s x -> gr_sized (g_n (i_gr A1)) (i_gr A1) /\ good I 1 s x1).
  { induction 1 as [A0 x|A0 x h A1 x1 h1 A2 x2 Hi _ IH]; intros S0 Gx; [auto|].
    destruct (radau_keeps (write I) (read I) (simple_deriv I) _ (good I 1 s) (view_simple I) (p_rd I s) (p_dv I HI s) (p_ol I s) md A0 _ h A1 x1 h1 S0 (good_pre I 1 s x Gx) Hi) as (S1 & G1). auto. }
  apply (Gen fresh_ias s A s1 H sized_init G0).
Qed.
Lemma regu_hist I r md s A s1 : sized I -> good I 3 s s -> hist (radau_regu I r md) fresh_ias s A s1 -> gr_sized (g_n (i_gr A)) (i_gr A) /\ good I 3 s s1.
Proof.
  intros HI G0 H. assert (Gen : forall A0 x A1 x1, hist (radau_regu I r md) A0 x A1 x1 -> gr_sized (g_n (i_gr A0)) (i_gr A0) -> good I 3 s x -> gr_sized (g_n (i_gr A1)) (i_gr A1) /\ good I 3 s x1).
  { induction 1 as [A0 x|A0 x h A1 x1 h1 A2 x2 Hi _ IH]; intros S0 Gx; [auto|].
    destruct (radau_keeps (rwrite I) (rread I) (regu_deriv I r) _ (good I 3 s) (view_regu I) (r_rd I s) (r_dv I r HI s) (r_ol I s) md A0 _ h A1 x1 h1 S0 (good_pre I 3 s x Gx) Hi) as (S1 & G1). auto. }
  apply (Gen fresh_ias s A s1 H sized_init G0).
Qed.
(** At any point of any history of any of the eight methods the next call has no undefined behaviour, and the constant-step
    methods return, with the same step; chain systems stay consistent through every re-indexing and keep their masses. *)
Theorem C75_no_undefined_behaviour I CI r md : sized I ->
  (forall s A s1 h, well_sized I 1 s -> hist (radau_simple I md) fresh_ias s A s1 ->
     radau_simple I md A s1 h <> Some UB /\ (md = Constant -> exists A' s', radau_simple I md A s1 h = Some (Ok (A', s', h)))) /\
  (forall s A s1 h, well_sized I 3 s -> hist (radau_regu I r md) fresh_ias s A s1 ->
     radau_regu I r md A s1 h <> Some UB /\ (md = Constant -> exists A' s', radau_regu I r md A s1 h = Some (Ok (A', s', h)))) /\
  (forall c A c1 h o, consistent newton_only c -> (2 <= npart (c_st c))%nat -> agree I CI (npart (c_st c)) -> chist (radau_chain I CI md) any_order fresh_ias c A c1 -> radau_chain I CI md A c1 h o ->
     consistent newton_only c1 /\ s_m (c_st c1) = s_m (c_st c) /\ o <> Some UB /\ (md = Constant -> exists A' c', o = Some (Ok (A', c', h)))) /\
  (forall c A c1 h o, consistent newton_only c -> (2 <= npart (c_st c))%nat -> agree I CI (npart (c_st c)) -> chist (radau_archain I CI r md) any_order fresh_ias c A c1 -> radau_archain I CI r md A c1 h o ->
     consistent newton_only c1 /\ s_m (c_st c1) = s_m (c_st c) /\ o <> Some UB /\ (md = Constant -> exists A' c', o = Some (Ok (A', c', h)))).
Proof.
  intros HI. split; [|split; [|split]].
  - intros s A s1 h W H. destruct (simple_hist I md s A s1 HI (conj W eq_refl) H) as (S1 & G1).
    apply (radau_defined (write I) (read I) (simple_deriv I) _ (good I 1 s) (view_simple I) (p_rd I s) (p_dv I HI s) (p_ol I s) (fits_simple I s) (simple_rt I s) (p_dt I s)); auto. apply good_pre; auto.
  - intros s A s1 h W H. destruct (regu_hist I r md s A s1 HI (conj W eq_refl) H) as (S1 & G1).
    apply (radau_defined (rwrite I) (rread I) (regu_deriv I r) _ (good I 3 s) (view_regu I) (r_rd I s) (r_dv I r HI s) (r_ol I s) (fits_regu I s) (regu_rt I s) (r_dt I r s)); auto. apply good_pre; auto.
  - intros c A c1 h o C Hn Ag H Ho. destruct (chain_hist I CI r md HI (s_m (c_st c)) Ag Hn false any_order _ _ _ _ H sized_init C eq_refl) as (S1 & C1 & M1).
    destruct (chain_one I CI r md HI (s_m (c_st c)) Ag Hn false A c1 h o S1 C1 M1 Ho) as (X & Y & _). auto.
  - intros c A c1 h o C Hn Ag H Ho. destruct (chain_hist I CI r md HI (s_m (c_st c)) Ag Hn true any_order _ _ _ _ H sized_init C eq_refl) as (S1 & C1 & M1).
    destruct (chain_one I CI r md HI (s_m (c_st c)) Ag Hn true A c1 h o S1 C1 M1 Ho) as (X & Y & _). auto.
Qed.
(** Plain and chain system: every returning call, at any point of a history, moves the time by exactly the accepted step,
    which is the requested one for the constant-step methods and at most the requested one otherwise. *)
Theorem C75_time I CI md : sized I ->
  (forall s A s1 h A' s2 h2, well_sized I 1 s -> hist (radau_simple I md) fresh_ias s A s1 -> radau_simple I md A s1 h = Some (Ok (A', s2, h2)) ->
     exists hacc, (0 < h -> 0 < hacc <= h) /\ (md = Constant -> hacc = h /\ h2 = h) /\ s_t s2 = s_t s1 + hacc) /\
  (forall c A c1 h A' c2 h2, consistent newton_only c -> (2 <= npart (c_st c))%nat -> agree I CI (npart (c_st c)) -> chist (radau_chain I CI md) any_order fresh_ias c A c1 ->
     radau_chain I CI md A c1 h (Some (Ok (A', c2, h2))) ->
     exists hacc, (0 < h -> 0 < hacc <= h) /\ (md = Constant -> hacc = h /\ h2 = h) /\ s_t (c_st c2) = s_t (c_st c1) + hacc).
Proof.
  intros HI. split.
  - intros s A s1 h A' s2 h2 W H Ho. assert (G0 : good I 1 s s) by (split; auto).
    assert (ONE : forall A0 x k A1 x1 k1, tidy (variable_number I 1 (length (s_m s))) (unitc 0) (i_gr A0) -> good I 1 s x -> radau_simple I md A0 x k = Some (Ok (A1, x1, k1)) ->
      tidy (variable_number I 1 (length (s_m s))) (unitc 0) (i_gr A1) /\ good I 1 s x1 /\ exists hacc, (0 < k -> 0 < hacc <= k) /\ (md = Constant -> hacc = k /\ k1 = k) /\ s_t x1 = s_t x + hacc).
    { intros A0 x k A1 x1 k1 T G E. assert (Pt : s_t (pre_iter I x) = s_t x) by (unfold pre_iter; destruct (I_dep I); auto). rewrite <- Pt.
      apply (radau_time (write I) (read I) (simple_deriv I) _ (good I 1 s) (view_simple I) (p_rd I s) (p_dv I HI s) (p_ol I s) s_t (p_wt I s) (p_d1 I HI s) md A0 (pre_iter I x) k A1 x1 k1 T (good_pre I 1 s x G) E). }
    assert (Gen : forall A0 x A1 x1, hist (radau_simple I md) A0 x A1 x1 -> tidy (variable_number I 1 (length (s_m s))) (unitc 0) (i_gr A0) -> good I 1 s x -> tidy (variable_number I 1 (length (s_m s))) (unitc 0) (i_gr A1) /\ good I 1 s x1).
    { induction 1 as [A0 x|A0 x k A1 x1 h1 A2 x2 Hi _ IH]; intros S0 Gx; [auto|]. destruct (ONE A0 x k A1 x1 h1 S0 Gx Hi) as (X & Y & _). auto. }
    destruct (Gen _ _ _ _ H (tidy_init _ _) G0) as (T1 & G1). apply (ONE A s1 h A' s2 h2 T1 G1 Ho).
  - intros c A c1 h A' c2 h2 C Hn Ag H Ho. set (m := s_m (c_st c)) in *. change (npart (c_st c)) with (length m) in *.
    assert (ONE : forall A0 x k A1 x1 k1, tidy (variable_number I 1 (length m)) (unitc 0) (i_gr A0) -> consistent newton_only x -> s_m (c_st x) = m -> radau_chain I CI md A0 x k (Some (Ok (A1, x1, k1))) ->
      tidy (variable_number I 1 (length m)) (unitc 0) (i_gr A1) /\ consistent newton_only x1 /\ s_m (c_st x1) = m /\ exists hacc, (0 < k -> 0 < hacc <= k) /\ (md = Constant -> hacc = k /\ k1 = k) /\ s_t (c_st x1) = s_t (c_st x) + hacc).
    { intros A0 x k A1 x1 k1 T Cx Mx E. pose proof (cgood_pre I m (c_idx x) x Cx eq_refl Mx) as G. assert (Pt : s_t (c_st (cpre_iter I x)) = s_t (c_st x)) by (unfold cpre_iter, pre_iter; destruct (I_dep I); auto). unfold radau_chain in E.
      destruct (radau_iter (cwrite I) (cread I) (chain_deriv I CI) (view_chain I) md A0 (cpre_iter I x) k) as [[[[A2 x2] k2]| |]|] eqn:Ei; try discriminate E.
      destruct (radau_time (cwrite I) (cread I) (chain_deriv I CI) _ (cgood I m (c_idx x)) (view_chain I) (c_rd I m _) (c_dv I CI HI m Ag _) (c_ol I m _) (fun c => s_t (c_st c)) (c_wt I m _) (c_d1 I CI HI m Ag Hn _) md A0 _ k A2 x2 k2 T G Ei) as (T2 & G2 & hacc & X1 & X2 & X3).
      destruct (after_iter A2 x2 k2 _ _ I m (c_idx x) Hn eq_refl G2 E) as (x' & E' & C' & M' & S'). assert (A1 = A2) by congruence. assert (x1 = x') by congruence. assert (k1 = k2) by congruence. subst A1 x1 k1.
      split; auto. split; auto. split; auto. exists hacc. split; auto. split; auto. rewrite S', X3, Pt. reflexivity. }
    assert (Gen : forall A0 x A1 x1, chist (radau_chain I CI md) any_order A0 x A1 x1 -> tidy (variable_number I 1 (length m)) (unitc 0) (i_gr A0) -> consistent newton_only x -> s_m (c_st x) = m ->
      tidy (variable_number I 1 (length m)) (unitc 0) (i_gr A1) /\ consistent newton_only x1 /\ s_m (c_st x1) = m).
    { induction 1 as [A0 x|A0 x k A1 x1 h1 A2 x2 Hi _ _ IH]; intros S0 Cx Mx; [auto|]. destruct (ONE A0 x k A1 x1 h1 S0 Cx Mx Hi) as (X & Y & Z & _). auto. }
    destruct (Gen _ _ _ _ H (tidy_init _ _) C eq_refl) as (T1 & C1 & M1). apply (ONE A c1 h A' c2 h2 T1 C1 M1 Ho).
Qed.

(** Total momentum and the uniform motion of the centre of mass, in physical time: exact over every history on the plain and
    regularised systems, and on the chain systems while the order of the chain does not change. *)
Theorem C75_momentum I CI r md : sized I -> balanced I ->
  (forall s A s1, well_sized I 1 s -> hist (radau_simple I md) fresh_ias s A s1 -> momentum s1 = momentum s /\ moment s1 = vadd (moment s) (vscal (s_t s1 - s_t s) (momentum s))) /\
  (forall s A s1, well_sized I 3 s -> hist (radau_regu I r md) fresh_ias s A s1 -> momentum s1 = momentum s /\ moment s1 = vadd (moment s) (vscal (s_t s1 - s_t s) (momentum s))) /\
  (forall c A c1, consistent newton_only c -> (2 <= npart (c_st c))%nat -> agree I CI (npart (c_st c)) -> chist (radau_chain I CI md) same_order fresh_ias c A c1 ->
     momentum (c_st c1) = momentum (c_st c) /\ moment (c_st c1) = vadd (moment (c_st c)) (vscal (s_t (c_st c1) - s_t (c_st c)) (momentum (c_st c)))) /\
  (forall c A c1, consistent newton_only c -> (2 <= npart (c_st c))%nat -> agree I CI (npart (c_st c)) -> chist (radau_archain I CI r md) same_order fresh_ias c A c1 ->
     momentum (c_st c1) = momentum (c_st c) /\ moment (c_st c1) = vadd (moment (c_st c)) (vscal (s_t (c_st c1) - s_t (c_st c)) (momentum (c_st c)))).
Proof.
  intros HI HB. assert (TR : forall a b c t0 t1 t2 P, b = vadd a (vscal (t1 - t0) P) -> c = vadd b (vscal (t2 - t1) P) -> c = vadd a (vscal (t2 - t0) P)) by (intros; subst; vring).
  assert (T0 : forall a t P, a = vadd a (vscal (t - t) P)) by (intros; vring). split; [|split; [|split]].
  - intros s A s1 W H. set (N := variable_number I 1 (length (s_m s))).
    assert (Gen : forall A0 x A1 x1, hist (radau_simple I md) A0 x A1 x1 -> still N (s_m s) (momentum x) (i_gr A0) -> good I 1 s x -> momentum x1 = momentum x /\ moment x1 = vadd (moment x) (vscal (s_t x1 - s_t x) (momentum x))).
    { induction 1 as [A0 x|A0 x k A1 x1 h1 A2 x2 Hi _ IH]; intros S0 Gx; [auto|].
      assert (Pp : momentum (pre_iter I x) = momentum x /\ moment (pre_iter I x) = moment x /\ s_t (pre_iter I x) = s_t x) by (unfold pre_iter; destruct (I_dep I); auto). destruct Pp as (P1 & P2 & P3). rewrite <- P1 in S0.
      destruct (radau_momentum (write I) (read I) (simple_deriv I) N (good I 1 s) (view_simple I) (p_rd I s) (p_dv I HI s) (p_ol I s) s_t (p_wt I s) (s_m s) momentum moment (p_wo I s) (p_do I HI s HB) md A0 _ k A1 x1 h1 S0 (good_pre I 1 s x Gx) Hi) as (S1 & G1 & E1 & E2).
      rewrite <- E1 in S1. destruct (IH S1 G1) as (F1 & F2). rewrite P1, P2, P3 in *. split; [congruence|]. rewrite E1 in F2. eapply TR; eauto. }
    apply (Gen _ _ _ _ H); [intros a Ha; split; apply tidy_init|split; auto].
  - intros s A s1 W H. set (N := variable_number I 3 (length (s_m s))).
    assert (Gen : forall A0 x A1 x1, hist (radau_regu I r md) A0 x A1 x1 -> still N (s_m s) (momentum x) (i_gr A0) -> good I 3 s x -> momentum x1 = momentum x /\ moment x1 = vadd (moment x) (vscal (s_t x1 - s_t x) (momentum x))).
    { induction 1 as [A0 x|A0 x k A1 x1 h1 A2 x2 Hi _ IH]; intros S0 Gx; [auto|].
      assert (Pp : momentum (pre_iter I x) = momentum x /\ moment (pre_iter I x) = moment x /\ s_t (pre_iter I x) = s_t x) by (unfold pre_iter; destruct (I_dep I); auto). destruct Pp as (P1 & P2 & P3). rewrite <- P1 in S0.
      destruct (radau_momentum (rwrite I) (rread I) (regu_deriv I r) N (good I 3 s) (view_regu I) (r_rd I s) (r_dv I r HI s) (r_ol I s) s_t (r_wt I s) (s_m s) momentum moment (r_wo I s) (r_do I r HI s HB) md A0 _ k A1 x1 h1 S0 (good_pre I 3 s x Gx) Hi) as (S1 & G1 & E1 & E2).
      rewrite <- E1 in S1. destruct (IH S1 G1) as (F1 & F2). rewrite P1, P2, P3 in *. split; [congruence|]. rewrite E1 in F2. eapply TR; eauto. }
    apply (Gen _ _ _ _ H); [intros a Ha; split; apply tidy_init|split; auto].
  - intros c A c1 C Hn Ag H. set (m := s_m (c_st c)) in *. change (npart (c_st c)) with (length m) in *. set (N := variable_number I 1 (length m)).
    assert (Gen : forall A0 x A1 x1, chist (radau_chain I CI md) same_order A0 x A1 x1 -> still N (chain_masses (c_idx x) m) (momentum (c_st x)) (i_gr A0) -> consistent newton_only x -> s_m (c_st x) = m ->
      momentum (c_st x1) = momentum (c_st x) /\ moment (c_st x1) = vadd (moment (c_st x)) (vscal (s_t (c_st x1) - s_t (c_st x)) (momentum (c_st x)))).
    { induction 1 as [A0 x|A0 x k A1 x1 h1 A2 x2 Hi Hq _ IH]; intros S0 Cx Mx; [auto|]. pose proof (cgood_pre I m (c_idx x) x Cx eq_refl Mx) as G.
      assert (Pp : momentum (c_st (cpre_iter I x)) = momentum (c_st x) /\ moment (c_st (cpre_iter I x)) = moment (c_st x) /\ s_t (c_st (cpre_iter I x)) = s_t (c_st x)) by (unfold cpre_iter, pre_iter; destruct (I_dep I); auto). destruct Pp as (P1 & P2 & P3). rewrite <- P1 in S0.
      unfold radau_chain in Hi. destruct (radau_iter (cwrite I) (cread I) (chain_deriv I CI) (view_chain I) md A0 (cpre_iter I x) k) as [[[[A3 x3] k3]| |]|] eqn:Ei; try discriminate Hi.
      destruct (radau_momentum (cwrite I) (cread I) (chain_deriv I CI) N (cgood I m (c_idx x)) (view_chain I) (c_rd I m _) (c_dv I CI HI m Ag _) (c_ol I m _) (fun c => s_t (c_st c)) (c_wt I m _) (chain_masses (c_idx x) m) (fun c => momentum (c_st c)) (fun c => moment (c_st c))
        (c_wo I m _) (c_do I CI HI m Ag Hn _ HB) md A0 _ k A3 x3 k3 S0 G Ei) as (S1 & G1 & E1 & E2).
      destruct (after_iter A3 x3 k3 _ _ I m (c_idx x) Hn eq_refl G1 Hi) as (x' & E' & C' & M' & S'). assert (A1 = A3) by congruence. assert (x1 = x') by congruence. subst A1 x1.
      unfold same_order in Hq. rewrite S', Hq in *. rewrite <- E1 in S1. destruct (IH S1 C' M') as (F1 & F2). rewrite P1, P2, P3 in *. split; [congruence|]. rewrite E1 in F2. eapply TR; eauto. }
    apply (Gen _ _ _ _ H); [intros a Ha; split; apply tidy_init|auto|auto].
  - intros c A c1 C Hn Ag H. set (m := s_m (c_st c)) in *. change (npart (c_st c)) with (length m) in *. set (N := variable_number I 3 (length m)).
    assert (Gen : forall A0 x A1 x1, chist (radau_archain I CI r md) same_order A0 x A1 x1 -> still N (chain_masses (c_idx x) m) (momentum (c_st x)) (i_gr A0) -> consistent newton_only x -> s_m (c_st x) = m ->
      momentum (c_st x1) = momentum (c_st x) /\ moment (c_st x1) = vadd (moment (c_st x)) (vscal (s_t (c_st x1) - s_t (c_st x)) (momentum (c_st x)))).
    { induction 1 as [A0 x|A0 x k A1 x1 h1 A2 x2 Hi Hq _ IH]; intros S0 Cx Mx; [auto|]. pose proof (cgood_pre I m (c_idx x) x Cx eq_refl Mx) as G.
      assert (Pp : momentum (c_st (cpre_iter I x)) = momentum (c_st x) /\ moment (c_st (cpre_iter I x)) = moment (c_st x) /\ s_t (c_st (cpre_iter I x)) = s_t (c_st x)) by (unfold cpre_iter, pre_iter; destruct (I_dep I); auto). destruct Pp as (P1 & P2 & P3). rewrite <- P1 in S0.
      unfold radau_archain in Hi. destruct (radau_iter (arwrite I) (arread I) (archain_deriv I CI r) (view_archain I) md A0 (cpre_iter I x) k) as [[[[A3 x3] k3]| |]|] eqn:Ei; try discriminate Hi.
      destruct (radau_momentum (arwrite I) (arread I) (archain_deriv I CI r) N (cgood I m (c_idx x)) (view_archain I) (a_rd I m _) (a_dv I CI r HI m Ag Hn _) (a_ol I m _) (fun c => s_t (c_st c)) (a_wt I m _) (chain_masses (c_idx x) m) (fun c => momentum (c_st c)) (fun c => moment (c_st c))
        (a_wo I m _) (a_do I CI r HI m Ag Hn _ HB) md A0 _ k A3 x3 k3 S0 G Ei) as (S1 & G1 & E1 & E2).
      destruct (after_iter A3 x3 k3 _ _ I m (c_idx x) Hn eq_refl G1 Hi) as (x' & E' & C' & M' & S'). assert (A1 = A3) by congruence. assert (x1 = x') by congruence. subst A1 x1.
      unfold same_order in Hq. rewrite S', Hq in *. rewrite <- E1 in S1. destruct (IH S1 C' M') as (F1 & F2). rewrite P1, P2, P3 in *. split; [congruence|]. rewrite E1 in F2. eapply TR; eauto. }
    apply (Gen _ _ _ _ H); [intros a Ha; split; apply tidy_init|auto|auto].
Qed.
(** Constant steps on a chain system whose order changed: the coefficient tables still hold the chain of another order, and the
    next step changes the total momentum by at most 2/10^28 of the step times the tables' entries for the link velocities,
    weighted with the masses behind the links: rounding of the printed conversion constants, not a loss of the law. *)
Theorem C75_constant_step_after_reordering I CI r : sized I -> balanced I ->
  (forall c A c1 h A' c2 h2 a, consistent newton_only c -> (2 <= npart (c_st c))%nat -> agree I CI (npart (c_st c)) -> chist (radau_chain I CI Constant) any_order fresh_ias c A c1 ->
     radau_chain I CI Constant A c1 h (Some (Ok (A', c2, h2))) -> (a < 3)%nat -> let n := npart (c_st c1) in
     Rabs (ax a (momentum (c_st c2)) - ax a (momentum (c_st c1))) <= Rabs h * (2 / 10 ^ 28) *
       rsum (fun l => Rabs (behind (c_idx c1) (s_m (c_st c1)) l) * size7 (Radau_Spec.comp (g_b (i_gr A)) (vel_offset n + a + 3 * l))) n) /\
  (forall c A c1 h A' c2 h2 a, consistent newton_only c -> (2 <= npart (c_st c))%nat -> agree I CI (npart (c_st c)) -> chist (radau_archain I CI r Constant) any_order fresh_ias c A c1 ->
     radau_archain I CI r Constant A c1 h (Some (Ok (A', c2, h2))) -> (a < 3)%nat -> let n := npart (c_st c1) in
     Rabs (ax a (momentum (c_st c2)) - ax a (momentum (c_st c1))) <= Rabs h * (2 / 10 ^ 28) *
       rsum (fun l => Rabs (behind (c_idx c1) (s_m (c_st c1)) l) * size7 (Radau_Spec.comp (g_b (i_gr A)) (vel_offset n + a + 3 * l))) n).
Proof.
  intros HI HB.
  assert (FIN : forall N m idx h (G : gr) a D, (a < 3)%nat -> (vel_offset (length m) + 3 * length m <= N)%nat ->
    Rabs D <= Rabs h * (2 / 10 ^ 28) * rsum (fun x => Rabs (cf (chain_masses idx m) (vel_offset (length (chain_masses idx m)) + a) x) * size7 (Radau_Spec.comp (g_b G) x)) N ->
    Rabs D <= Rabs h * (2 / 10 ^ 28) * rsum (fun l => Rabs (behind idx m l) * size7 (Radau_Spec.comp (g_b G) (vel_offset (length m) + a + 3 * l))) (length m)).
  { intros N m idx h G a D Ha HN H. eapply Rle_trans; [exact H|]. apply Rmult_le_compat_l; [apply Rmult_le_pos; [apply Rabs_pos|]; lra|]. rewrite chain_masses_len. eapply Rle_trans.
    - apply (cf_bound N (chain_masses idx m) (vel_offset (length m) + a) (fun x => size7 (Radau_Spec.comp (g_b G) x))); [intros x; unfold size7; apply rsum_pos0; intros; apply Rabs_pos|]. rewrite chain_masses_len. intros l Hl. lia.
    - rewrite chain_masses_len. right. apply rsum_ext. intros l Hl. rewrite behind_nth by auto. reflexivity. }
  split.
  - intros c A c1 h A' c2 h2 a C Hn Ag H Ho Ha n. set (m := s_m (c_st c)) in *. change (npart (c_st c)) with (length m) in *. set (N := variable_number I 1 (length m)).
    assert (ONE : forall A0 x k A1 x1 k1, settled N (i_gr A0) -> consistent newton_only x -> s_m (c_st x) = m -> radau_chain I CI Constant A0 x k (Some (Ok (A1, x1, k1))) ->
      settled N (i_gr A1) /\ consistent newton_only x1 /\ s_m (c_st x1) = m /\ forall a, (a < 3)%nat -> Rabs (ax a (momentum (c_st x1)) - ax a (momentum (c_st x))) <=
        Rabs k * (2 / 10 ^ 28) * rsum (fun y => Rabs (cf (chain_masses (c_idx x) m) (vel_offset (length (chain_masses (c_idx x) m)) + a) y) * size7 (Radau_Spec.comp (g_b (i_gr A0)) y)) N).
    { intros A0 x k A1 x1 k1 T Cx Mx E. pose proof (cgood_pre I m (c_idx x) x Cx eq_refl Mx) as G. unfold radau_chain in E.
      assert (P1 : momentum (c_st (cpre_iter I x)) = momentum (c_st x)) by (unfold cpre_iter, pre_iter; destruct (I_dep I); auto).
      destruct (radau_iter (cwrite I) (cread I) (chain_deriv I CI) (view_chain I) Constant A0 (cpre_iter I x) k) as [[[[A2 x2] k2]| |]|] eqn:Ei; try discriminate E.
      assert (ST : forall a, (a < 3)%nat -> settled N (i_gr A2) /\ cgood I m (c_idx x) x2 /\ Rabs (ax a (momentum (c_st x2)) - ax a (momentum (c_st x))) <=
        Rabs k * (2 / 10 ^ 28) * rsum (fun y => Rabs (cf (chain_masses (c_idx x) m) (vel_offset (length (chain_masses (c_idx x) m)) + a) y) * size7 (Radau_Spec.comp (g_b (i_gr A0)) y)) N).
      { intros b Hb. destruct (constant_stale (cwrite I) (cread I) (chain_deriv I CI) N (cgood I m (c_idx x)) (view_chain I) (c_rd I m _) (c_dv I CI HI m Ag _) (c_ol I m _) (cf (chain_masses (c_idx x) m) (vel_offset (length (chain_masses (c_idx x) m)) + b)) A0 (cpre_iter I x) k A2 x2 k2) as (Y1 & Y2 & Y3); auto.
        - intros p d q Gp Ed. destruct (c_do I CI HI m Ag Hn _ HB p d q Gp Ed) as (kk & Y). apply (Y b Hb).
        - unfold N in Y3 at 1 2. destruct (c_wo I m (c_idx x) x2 Y2 b Hb) as (E1 & _). destruct (c_wo I m (c_idx x) _ G b Hb) as (E2 & _). rewrite E1, E2, P1 in Y3. auto. }
      destruct (ST 0%nat ltac:(lia)) as (T2 & G2 & _). destruct (after_iter A2 x2 k2 _ _ I m (c_idx x) Hn eq_refl G2 E) as (x' & E' & C' & M' & S'). assert (A1 = A2) by congruence. assert (x1 = x') by congruence. subst A1 x1.
      split; auto. split; auto. split; auto. rewrite S'. intros b Hb. apply (ST b Hb). }
    assert (Gen : forall A0 x A1 x1, chist (radau_chain I CI Constant) any_order A0 x A1 x1 -> settled N (i_gr A0) -> consistent newton_only x -> s_m (c_st x) = m -> settled N (i_gr A1) /\ consistent newton_only x1 /\ s_m (c_st x1) = m).
    { induction 1 as [A0 x|A0 x k A1 x1 h1 A2 x2 Hi _ _ IH]; intros S0 Cx Mx; [auto|]. destruct (ONE A0 x k A1 x1 h1 S0 Cx Mx Hi) as (X & Y & Z & _). auto. }
    destruct (Gen _ _ _ _ H (or_introl eq_refl) C eq_refl) as (T1 & C1 & M1). destruct (ONE A c1 h A' c2 h2 T1 C1 M1 Ho) as (_ & _ & _ & B). unfold n, npart. rewrite M1. apply (FIN N); auto.
    unfold N, variable_number, vel_offset. destruct (I_dep I); lia.
  - intros c A c1 h A' c2 h2 a C Hn Ag H Ho Ha n. set (m := s_m (c_st c)) in *. change (npart (c_st c)) with (length m) in *. set (N := variable_number I 3 (length m)).
    assert (ONE : forall A0 x k A1 x1 k1, settled N (i_gr A0) -> consistent newton_only x -> s_m (c_st x) = m -> radau_archain I CI r Constant A0 x k (Some (Ok (A1, x1, k1))) ->
      settled N (i_gr A1) /\ consistent newton_only x1 /\ s_m (c_st x1) = m /\ forall a, (a < 3)%nat -> Rabs (ax a (momentum (c_st x1)) - ax a (momentum (c_st x))) <=
        Rabs k * (2 / 10 ^ 28) * rsum (fun y => Rabs (cf (chain_masses (c_idx x) m) (vel_offset (length (chain_masses (c_idx x) m)) + a) y) * size7 (Radau_Spec.comp (g_b (i_gr A0)) y)) N).
    { intros A0 x k A1 x1 k1 T Cx Mx E. pose proof (cgood_pre I m (c_idx x) x Cx eq_refl Mx) as G. unfold radau_archain in E.
      assert (P1 : momentum (c_st (cpre_iter I x)) = momentum (c_st x)) by (unfold cpre_iter, pre_iter; destruct (I_dep I); auto).
      destruct (radau_iter (arwrite I) (arread I) (archain_deriv I CI r) (view_archain I) Constant A0 (cpre_iter I x) k) as [[[[A2 x2] k2]| |]|] eqn:Ei; try discriminate E.
      assert (ST : forall a, (a < 3)%nat -> settled N (i_gr A2) /\ cgood I m (c_idx x) x2 /\ Rabs (ax a (momentum (c_st x2)) - ax a (momentum (c_st x))) <=
        Rabs k * (2 / 10 ^ 28) * rsum (fun y => Rabs (cf (chain_masses (c_idx x) m) (vel_offset (length (chain_masses (c_idx x) m)) + a) y) * size7 (Radau_Spec.comp (g_b (i_gr A0)) y)) N).
      { intros b Hb. destruct (constant_stale (arwrite I) (arread I) (archain_deriv I CI r) N (cgood I m (c_idx x)) (view_archain I) (a_rd I m _) (a_dv I CI r HI m Ag Hn _) (a_ol I m _) (cf (chain_masses (c_idx x) m) (vel_offset (length (chain_masses (c_idx x) m)) + b)) A0 (cpre_iter I x) k A2 x2 k2) as (Y1 & Y2 & Y3); auto.
        - intros p d q Gp Ed. destruct (a_do I CI r HI m Ag Hn _ HB p d q Gp Ed) as (kk & Y). apply (Y b Hb).
        - unfold N in Y3 at 1 2. destruct (a_wo I m (c_idx x) x2 Y2 b Hb) as (E1 & _). destruct (a_wo I m (c_idx x) _ G b Hb) as (E2 & _). rewrite E1, E2, P1 in Y3. auto. }
      destruct (ST 0%nat ltac:(lia)) as (T2 & G2 & _). destruct (after_iter A2 x2 k2 _ _ I m (c_idx x) Hn eq_refl G2 E) as (x' & E' & C' & M' & S'). assert (A1 = A2) by congruence. assert (x1 = x') by congruence. subst A1 x1.
      split; auto. split; auto. split; auto. rewrite S'. intros b Hb. apply (ST b Hb). }
    assert (Gen : forall A0 x A1 x1, chist (radau_archain I CI r Constant) any_order A0 x A1 x1 -> settled N (i_gr A0) -> consistent newton_only x -> s_m (c_st x) = m -> settled N (i_gr A1) /\ consistent newton_only x1 /\ s_m (c_st x1) = m).
    { induction 1 as [A0 x|A0 x k A1 x1 h1 A2 x2 Hi _ _ IH]; intros S0 Cx Mx; [auto|]. destruct (ONE A0 x k A1 x1 h1 S0 Cx Mx Hi) as (X & Y & Z & _). auto. }
    destruct (Gen _ _ _ _ H (or_introl eq_refl) C eq_refl) as (T1 & C1 & M1). destruct (ONE A c1 h A' c2 h2 T1 C1 M1 Ho) as (_ & _ & _ & B). unfold n, npart. rewrite M1. apply (FIN N); auto.
    unfold N, variable_number, vel_offset. destruct (I_dep I); lia.
Qed.

Print Assumptions C75_no_undefined_behaviour. Print Assumptions C75_time. Print Assumptions C75_momentum. Print Assumptions C75_constant_step_after_reordering.
(** * Non-vacuity *)
(** C75.  One call of the constant-step method, for any system whose arrays can be read back: the step is kept; the state
    returned is the end of the path of one corrector pass over the force polynomial [b] it left, and the next call starts
    from that polynomial re-expanded about the end of the step, corrected by the error of the previous prediction. *)
Theorem C75_constant_step_call {P} (wr : P -> list R) rd deriv vw n A p h A' p' h' :
  (forall p y q, rd p y = Ok q -> wr q = y) -> gr_sized (g_n (i_gr A)) (i_gr A) -> length (wr p) = n ->
  radau_iter wr rd deriv vw Constant A p h = Some (Ok (A', p', h')) ->
  h' = h /\ i_last A' = i_last A /\ i_warm A' = i_warm A /\ gr_sized n (i_gr A') /\
  exists G p1 d0 p0, deriv p = Ok (d0, p0) /\ correct wr rd deriv (i_gr A) p h = Ok (G, p1) /\ gr_sized n G /\
    forall x, (x < n)%nat ->
      at_ (wr p') x = path (at_ (wr p) x) (at_ d0 x) (Radau_Spec.comp (g_b G) x) h 1 /\
      (forall s, force_poly (at_ d0 x) (Radau_Spec.comp (g_b G) x) 1 + rsum (fun i => Radau_Spec.comp (g_old (i_gr A')) x i * s ^ (i + 1)) 7
               = force_poly (at_ d0 x) (Radau_Spec.comp (g_b G) x) (1 + s)) /\
      forall i, (i < 7)%nat -> Radau_Spec.comp (g_b (i_gr A')) x i = Radau_Spec.comp (g_old (i_gr A')) x i + (Radau_Spec.comp (g_b G) x i - Radau_Spec.comp (g_old G) x i) /\
        Radau_Spec.comp (g_g (i_gr A')) x i = Radau_Spec.comp (transform_b2g n (g_b (i_gr A'))) x i.
Proof.
  intros RD HG L H. cbn [radau_iter] in H. unfold gr_integrate in H.
  destruct (correct wr rd deriv (i_gr A) p h) as [[G p1]| |] eqn:C; cbn [obind] in H; try discriminate.
  destruct (evaluate rd G p1 h) as [p2| |] eqn:E; cbn [obind] in H; try discriminate.
  assert (E1 : A' = mkIas (predict 1 G) (i_last A) (i_warm A)) by congruence. assert (E2 : p' = p2) by congruence. assert (E3 : h' = h) by congruence. subst A' p' h'. cbn [i_gr i_last i_warm].
  destruct (C53_pass_interpolates wr rd deriv n (i_gr A) p h G p1 RD HG L C) as (d0 & p0 & Ed & W1 & I1 & I2 & S & _).
  destruct (C53_states_on_path n G h S ltac:(rewrite I1; exact L)) as (_ & PE & _ & _).
  split; [reflexivity|]. split; [reflexivity|]. split; [reflexivity|]. assert (S1 : g_n G = n) by apply S.
  split. { apply (predict_spec 1 n G S1). }
  exists G, p1, d0, p0. split; [exact Ed|]. split; [reflexivity|]. split; [exact S|]. intros x Hx. unfold evaluate in E. split.
  - rewrite (RD _ _ _ E), (PE x Hx), I1, I2. reflexivity.
  - destruct (C53_predictor 1 G n x (at_ d0 x) 0 S1 Hx) as (_ & B & _). split; [|exact B].
    intros s. destruct (C53_predictor 1 G n x (at_ d0 x) s S1 Hx) as (A1 & _). rewrite A1, Rmult_1_l. reflexivity.
Qed.
Print Assumptions C75_constant_step_call.

(** Constant-step calls on the three-body chain: the first returns, keeps the momentum and moves the time by one; the
    second returns too, whatever chain order the first left. *)
Example C75_case : exists c A1 c1 A2 c2, consistent newton_only c /\ agree newton_only chain_newton_only (npart (c_st c)) /\ c_st c = three_st 1 /\ c_idx c = [2; 0; 1]%nat /\
  radau_chain newton_only chain_newton_only Constant fresh_ias c 1 (Some (Ok (A1, c1, 1))) /\ radau_chain newton_only chain_newton_only Constant A1 c1 1 (Some (Ok (A2, c2, 1))) /\
  s_t (c_st c2) = 2 /\ momentum (c_st c1) = momentum (three_st 1).
Proof.
  destruct C25_ex_chain as (c & C & Es & Ei & Hn & Ag & W).
  assert (EX : forall A x h, gr_sized (g_n (i_gr A)) (i_gr A) -> consistent newton_only x -> s_m (c_st x) = s_m (c_st c) -> exists A' x', radau_chain newton_only chain_newton_only Constant A x h (Some (Ok (A', x', h)))).
  { intros A x h HG Cx Mx. pose proof (cgood_pre newton_only _ (c_idx x) x Cx eq_refl Mx) as G.
    pose proof (radau_defined (cwrite newton_only) (cread newton_only) (chain_deriv newton_only chain_newton_only) _ (cgood newton_only (s_m (c_st c)) (c_idx x)) (view_chain newton_only) (c_rd newton_only _ _) (c_dv newton_only chain_newton_only newton_sized _ Ag _) (c_ol newton_only _ _) (fits_chain newton_only _ _)
      (c_rt newton_only _ _) (c_dt newton_only chain_newton_only newton_sized _ Ag _) Constant A _ h HG G) as (_ & K). destruct (K eq_refl) as (A1 & x1 & E).
    destruct (radau_keeps (cwrite newton_only) (cread newton_only) (chain_deriv newton_only chain_newton_only) _ (cgood newton_only (s_m (c_st c)) (c_idx x)) (view_chain newton_only) (c_rd newton_only _ _) (c_dv newton_only chain_newton_only newton_sized _ Ag _) (c_ol newton_only _ _) Constant A _ h A1 x1 h HG G E) as (_ & G1).
    destruct (reindex_exists x1) as (o1 & Ho1); [eapply cart_ok_of; apply G1|destruct G1 as (_ & _ & M1); unfold npart in *; rewrite M1; auto|].
    destruct (after_iter A1 x1 h (Some (obind o1 (fun c2 => Ok (A1, c2, h)))) (Some (Ok (A1, x1, h))) newton_only _ (c_idx x) Hn eq_refl G1) as (x' & Ex & _); [exists o1; auto|].
    exists A1, x'. unfold radau_chain. rewrite E. rewrite <- Ex. exists o1. auto. }
  destruct (EX fresh_ias c 1 sized_init C eq_refl) as (A1 & c1 & E1).
  destruct (chain_one newton_only chain_newton_only NoReg Constant newton_sized _ Ag Hn false fresh_ias c 1 _ sized_init C eq_refl E1) as (_ & _ & X). destruct (X A1 c1 1 eq_refl) as (S1 & C1 & M1).
  destruct (EX A1 c1 1 S1 C1 M1) as (A2 & c2 & E2). exists c, A1, c1, A2, c2. do 6 (split; auto). split.
  - destruct (proj2 (C75_time newton_only chain_newton_only Constant newton_sized) c fresh_ias c 1 A1 c1 1 C Hn Ag (chist_none _ _ _ _) E1) as (h1 & _ & T1 & T1'). destruct (T1 eq_refl) as (T1a & _).
    destruct (proj2 (C75_time newton_only chain_newton_only Constant newton_sized) c A1 c1 1 A2 c2 1 C Hn Ag (chist_more _ _ _ _ _ _ _ _ _ _ E1 Logic.I (chist_none _ _ _ _)) E2) as (h2 & _ & T2 & T2'). destruct (T2 eq_refl) as (T2a & _).
    rewrite T2', T1', T1a, T2a, Es. cbn [three_st s_t]. lra.
  - destruct (C75_constant_step_after_reordering newton_only chain_newton_only NoReg newton_sized newton_balanced) as (Y & _). rewrite <- Es. apply ax_ext. intros a Ha.
    specialize (Y c fresh_ias c 1 A1 c1 1 a C Hn Ag (chist_none _ _ _ _) E1 Ha). cbv zeta in Y.
    match type of Y with _ <= _ * rsum ?f ?n => replace (rsum f n) with 0 in Y end; [apply Rminus_diag_uniq; destruct (Req_dec (ax a (momentum (c_st c1)) - ax a (momentum (c_st c))) 0) as [Z|Z]; [auto|]; apply Rabs_pos_lt in Z; lra|].
    symmetry. rewrite (rsum_ext _ (fun _ => 0)); [apply rsum_zero|]. intros l _. replace (size7 _) with 0; [ring|]. unfold size7. symmetry. rewrite (rsum_ext _ (fun _ => 0)); [apply rsum_zero|].
    intros i _. unfold Radau_Spec.comp, fresh_ias, gr_init. cbn [i_gr g_b]. destruct (vel_offset (npart (c_st c)) + a + 3 * l)%nat; apply Rabs_R0.
Qed.
