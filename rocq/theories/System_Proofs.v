From Verif Require Import System_Model System_Spec Force_Spec Force_Proofs Chain_Proofs.
Open Scope R_scope.

(** * lists *)
Lemma advance_length a b h : length b = length a -> length (advance a b h) = length a.
Proof. intros H. unfold advance. rewrite map_length, combine_length. lia. Qed.
Lemma vladd_length a b : length b = length a -> length (vladd a b) = length a.
Proof. intros H. unfold vladd. rewrite map_length, combine_length. lia. Qed.
Lemma nth_combine {A B} (a : list A) (b : list B) i x y : length b = length a -> nth i (combine a b) (x, y) = (nth i a x, nth i b y).
Proof. intros; apply combine_nth; auto. Qed.
Lemma advance_nth a b h i : length b = length a -> nth i (advance a b h) vzero = vadd (nth i a vzero) (vscal h (nth i b vzero)).
Proof.
  intros H. unfold advance. set (f := fun xy : vec * vec => vadd (fst xy) (vscal h (snd xy))).
  transitivity (nth i (map f (combine a b)) (f (vzero, vzero))); [f_equal; unfold f; simpl; vring|].
  rewrite map_nth, nth_combine; auto.
Qed.
Lemma vladd_nth a b i : length b = length a -> nth i (vladd a b) vzero = vadd (nth i a vzero) (nth i b vzero).
Proof.
  intros H. unfold vladd. set (f := fun xy : vec * vec => vadd (fst xy) (snd xy)).
  transitivity (nth i (map f (combine a b)) (f (vzero, vzero))); [f_equal; unfold f; simpl; vring|].
  rewrite map_nth, nth_combine; auto.
Qed.
Lemma vlist_ext (a b : list vec) : length a = length b -> (forall i, (i < length a)%nat -> nth i a vzero = nth i b vzero) -> a = b.
Proof. intros. apply (nth_ext a b vzero vzero); auto. Qed.
Lemma advance_inv a b h : length b = length a -> advance (advance a b h) b (- h) = a.
Proof.
  intros H. assert (L := advance_length a b h H). apply vlist_ext.
  - rewrite advance_length; congruence.
  - intros i _. rewrite !advance_nth; try congruence. generalize (nth i a vzero), (nth i b vzero). intros; vring.
Qed.

Lemma coords_length l : length (coords l) = (3 * length l)%nat.
Proof. induction l; simpl in *; lia. Qed.
Lemma scaled_length l h : length (scaled l h) = (3 * length l)%nat.
Proof. unfold scaled. rewrite coords_length, map_length. auto. Qed.
Lemma scaled_neg l h : scaled l (- h) = map Ropp (scaled l h).
Proof.
  unfold scaled. induction l as [|v l IH]; simpl; auto. rewrite IH. unfold vscal; simpl. repeat f_equal; ring.
Qed.

Lemma add_at_length off ds inc : length (add_at off ds inc) = length inc.
Proof. revert off ds. induction inc as [|x t IH]; intros [|o] [|d ds]; simpl; auto. Qed.
Lemma add_at_nth off ds inc i : (i < length inc)%nat ->
  nth i (add_at off ds inc) 0 = nth i inc 0 + (if (off <=? i)%nat then nth (i - off) ds 0 else 0).
Proof.
  revert off ds i. induction inc as [|x t IH]; intros off ds i Hi; simpl in Hi; [lia|].
  destruct off as [|o].
  - destruct ds as [|d ds]; simpl.
    + destruct i; simpl; ring.
    + destruct i; simpl; [ring|]. rewrite IH by lia. simpl. rewrite Nat.sub_0_r. reflexivity.
  - destruct i; simpl; [ring|]. rewrite IH by lia. reflexivity.
Qed.
Lemma rlist_ext (a b : list R) : length a = length b -> (forall i, (i < length a)%nat -> nth i a 0 = nth i b 0) -> a = b.
Proof. intros. apply (nth_ext a b 0 0); auto. Qed.
Lemma add_at_comm a x b y inc : add_at a x (add_at b y inc) = add_at b y (add_at a x inc).
Proof.
  apply rlist_ext; [rewrite !add_at_length; auto|]. intros i Hi. rewrite !add_at_length in Hi.
  rewrite !add_at_nth by (rewrite ?add_at_length; auto). ring.
Qed.
Lemma add_at_cancel off ds inc : add_at off (map Ropp ds) (add_at off ds inc) = inc.
Proof.
  apply rlist_ext; [rewrite !add_at_length; auto|]. intros i Hi. rewrite !add_at_length in Hi.
  rewrite !add_at_nth by (rewrite ?add_at_length; auto). destruct (off <=? i)%nat; [|ring].
  assert (E : forall k, nth k (map Ropp ds) 0 = - nth k ds 0).
  { intros k. transitivity (nth k (map Ropp ds) (- 0)); [f_equal; ring|apply (map_nth Ropp)]. }
  rewrite E. ring.
Qed.
Lemma sync_length s off ds inc : length (sync s off ds inc) = length inc.
Proof. unfold sync. destruct (s_sync s); auto. apply add_at_length. Qed.

(** * sums *)
Lemma vsum_swap_cross m p v h n : (* sum of m x (p + h v) cross v *)
  vsum (fun i => vscal (m i) (cross (vadd (p i) (vscal h (v i))) (v i))) n = vsum (fun i => vscal (m i) (cross (p i) (v i))) n.
Proof.
  apply vsum_ext. intros i _. generalize (m i : R), (p i : vec), (v i : vec). intros; vring.
Qed.

(** * Cartesian drift and kick *)
Lemma drift_inv s h : length (s_v s) = length (s_p s) -> drift (drift s h) (- h) = s.
Proof.
  intros H. unfold drift. cbn [s_m s_t s_p s_v s_w s_om s_be s_sc s_inc s_sync].
  rewrite advance_inv by auto. destruct s as [m t p v w om be sc inc sy]. cbn [s_m s_t s_p s_v s_w s_om s_be s_sc s_inc s_sync] in *.
  f_equal; [ring|]. unfold sync. cbn [s_sync]. destruct sy; auto.
  rewrite scaled_neg. replace [- h] with (map Ropp [h]) by reflexivity.
  rewrite (add_at_comm time_offset (map Ropp [h])). rewrite add_at_cancel. apply add_at_cancel.
Qed.
Lemma kick_vel_inv s a h : length a = length (s_v s) -> kick_vel (kick_vel s a h) a (- h) = s.
Proof.
  intros H. unfold kick_vel. cbn [s_m s_t s_p s_v s_w s_om s_be s_sc s_inc s_sync npart].
  rewrite advance_inv by auto. destruct s as [m t p v w om be sc inc sy]. f_equal.
  unfold sync, npart. cbn [s_m s_t s_p s_v s_w s_om s_be s_sc s_inc s_sync].
  destruct sy; auto. rewrite scaled_neg, add_at_cancel; auto.
Qed.
Lemma kick_aux_inv s a h : length a = length (s_w s) -> kick_aux (kick_aux s a h) a (- h) = s.
Proof.
  intros H. unfold kick_aux. cbn [s_m s_t s_p s_v s_w s_om s_be s_sc s_inc s_sync npart].
  rewrite advance_inv by auto. destruct s as [m t p v w om be sc inc sy]. f_equal.
  unfold sync, npart. cbn [s_m s_t s_p s_v s_w s_om s_be s_sc s_inc s_sync].
  destruct sy; auto. rewrite scaled_neg, add_at_cancel; auto.
Qed.
Lemma tot_vi_length I s : sized I -> length (s_p s) = npart s -> length (tot_vi I (s_m s) (s_p s)) = npart s.
Proof.
  intros HI Hp. unfold tot_vi. destruct (HI (s_m s) (s_p s) (s_p s) Hp Hp) as (H1 & H2 & _).
  destruct (I_ind I); auto. rewrite vladd_length; auto. congruence.
Qed.

(** General invariants of an operation: sizes are kept. *)
Ltac sd s := destruct s as [m t p v w om be sc inc sy];
  cbn [s_m s_t s_p s_v s_w s_om s_be s_sc s_inc s_sync] in *.
Lemma ws_drift I e s h : well_sized I e s -> well_sized I e (drift s h).
Proof.
  unfold well_sized, npart. intros (H1 & H2 & H3 & H4). unfold drift. cbn [s_m s_t s_p s_v s_w s_om s_be s_sc s_inc s_sync].
  rewrite advance_length by congruence. rewrite !sync_length. auto.
Qed.
Lemma ws_kick_vel I e s a h : length a = npart s -> well_sized I e s -> well_sized I e (kick_vel s a h).
Proof.
  unfold well_sized, npart. intros Ha (H1 & H2 & H3 & H4). unfold kick_vel. cbn [s_m s_t s_p s_v s_w s_om s_be s_sc s_inc s_sync].
  rewrite advance_length by congruence. rewrite !sync_length. auto.
Qed.
Lemma ws_kick_aux I e s a h : length a = npart s -> well_sized I e s -> well_sized I e (kick_aux s a h).
Proof.
  unfold well_sized, npart. intros Ha (H1 & H2 & H3 & H4). unfold kick_aux. cbn [s_m s_t s_p s_v s_w s_om s_be s_sc s_inc s_sync].
  split; auto. split; auto. split; [|rewrite sync_length; auto].
  intros E. rewrite advance_length by (rewrite H3; auto). auto.
Qed.
Lemma vd_len I s vi u : sized I -> length (s_p s) = npart s -> length u = npart s -> length vi = npart s ->
  length (vladd vi (I_vd I (s_m s) (s_p s) u)) = npart s.
Proof.
  intros HI Hp Hu Hvi. destruct (HI (s_m s) (s_p s) u Hp Hu) as (_ & _ & H3).
  rewrite vladd_length; auto. rewrite H3. auto.
Qed.
Lemma ws_real I e vi s h : sized I -> I_dep I = true -> length vi = npart s -> well_sized I e s -> well_sized I e (kick_real_vel I vi s h).
Proof. intros HI Hd Hvi W. apply ws_kick_vel; auto. destruct W as (? & ? & ? & ?). apply vd_len; auto. Qed.
Lemma ws_pseu I e vi s h : sized I -> I_dep I = true -> length vi = npart s -> well_sized I e s -> well_sized I e (kick_pseu_vel I vi s h).
Proof. intros HI Hd Hvi W. apply ws_kick_aux; auto. destruct W as (? & ? & ? & ?). apply vd_len; auto. Qed.
Lemma ws_kick I e s h : sized I -> well_sized I e s -> well_sized I e (kick I s h).
Proof.
  intros HI W. assert (HV : length (tot_vi I (s_m s) (s_p s)) = npart s) by (apply tot_vi_length; auto; apply W).
  unfold kick, eval_total. destruct (I_dep I) eqn:Hd.
  - cbv zeta. apply ws_real; auto. apply ws_pseu; auto. apply ws_real; auto.
  - apply ws_kick_vel; auto.
Qed.

(** Reversal of the plain kick. *)
Lemma real_real I e vi s h : sized I -> I_dep I = true -> length vi = npart s -> well_sized I e s ->
  kick_real_vel I vi (kick_real_vel I vi s h) (- h) = s.
Proof.
  intros HI Hd Hvi W. unfold kick_real_vel at 1.
  change (s_m (kick_real_vel I vi s h)) with (s_m s). change (s_p (kick_real_vel I vi s h)) with (s_p s).
  change (s_w (kick_real_vel I vi s h)) with (s_w s).
  apply kick_vel_inv. destruct W as (? & ? & ? & ?). rewrite vd_len; auto.
Qed.
Lemma pseu_pseu I e vi s h : sized I -> I_dep I = true -> length vi = npart s -> well_sized I e s ->
  kick_pseu_vel I vi (kick_pseu_vel I vi s h) (- h) = s.
Proof.
  intros HI Hd Hvi W. unfold kick_pseu_vel at 1.
  change (s_m (kick_pseu_vel I vi s h)) with (s_m s). change (s_p (kick_pseu_vel I vi s h)) with (s_p s).
  change (s_v (kick_pseu_vel I vi s h)) with (s_v s).
  apply kick_aux_inv. destruct W as (? & ? & ? & ?). rewrite vd_len; auto. symmetry; auto.
Qed.
Lemma kick_inv I e s h : sized I -> well_sized I e s -> kick I (kick I s h) (- h) = s.
Proof.
  intros HI W. assert (HV : length (tot_vi I (s_m s) (s_p s)) = npart s) by (apply tot_vi_length; auto; apply W).
  unfold kick, eval_total. destruct (I_dep I) eqn:Hd.
  - cbv zeta. set (vi := tot_vi I (s_m s) (s_p s)) in *. set (q := 0.5 * h).
    replace (0.5 * - h) with (- q) by (unfold q; ring).
    set (s1 := kick_real_vel I vi s q). set (s2 := kick_pseu_vel I vi s1 h). set (s3 := kick_real_vel I vi s2 q).
    change (tot_vi I (s_m s3) (s_p s3)) with vi.
    assert (W1 : well_sized I e s1) by (apply ws_real; auto).
    assert (W2 : well_sized I e s2) by (apply ws_pseu; auto).
    unfold s3 at 1. rewrite (real_real I e) by auto. unfold s2 at 1. rewrite (pseu_pseu I e) by auto.
    apply (real_real I e); auto.
  - change (tot_vi I (s_m (kick_vel s (tot_vi I (s_m s) (s_p s)) h)) (s_p (kick_vel s (tot_vi I (s_m s) (s_p s)) h)))
      with (tot_vi I (s_m s) (s_p s)).
    apply kick_vel_inv. rewrite HV. symmetry; apply W.
Qed.

(** * generic reversal *)
Section Reversal.
  Context {S : Type} (dr ki : S -> R -> S) (P : S -> Prop) (E : S -> S -> Prop).
  Hypothesis Erefl : forall s, E s s.
  Hypothesis Etrans : forall a b c, E a b -> E b c -> E a c.
  Hypothesis Pdr : forall s h, P s -> P (dr s h).
  Hypothesis Pki : forall s h, P s -> P (ki s h).
  Hypothesis Edr : forall s s' h, E s s' -> E (dr s h) (dr s' h).
  Hypothesis Eki : forall s s' h, E s s' -> E (ki s h) (ki s' h).
  Hypothesis Idr : forall s h, P s -> E (dr (dr s h) (- h)) s.
  Hypothesis Iki : forall s h, P s -> E (ki (ki s h) (- h)) s.
  Lemma integrate_P l s h : P s -> P (integrate dr ki l s h).
  Proof.
    unfold integrate. revert s. induction l as [|[c|c] l IH]; simpl; intros s H; auto; apply IH; unfold run_op; auto.
  Qed.
  Lemma integrate_E l s s' h : E s s' -> E (integrate dr ki l s h) (integrate dr ki l s' h).
  Proof.
    unfold integrate. revert s s'. induction l as [|[c|c] l IH]; simpl; intros s s' H; auto; apply IH; unfold run_op; auto.
  Qed.
  Lemma integrate_rev l s h : P s -> E (integrate dr ki (rev l) (integrate dr ki l s h) (- h)) s.
  Proof.
    revert s. induction l as [|o l IH]; intros s H; [apply Erefl|].
    simpl rev. unfold integrate at 1. rewrite fold_left_app. simpl.
    change (integrate dr ki (o :: l) s h) with (integrate dr ki l (run_op dr ki h s o) h).
    fold (integrate dr ki (rev l) (integrate dr ki l (run_op dr ki h s o) h) (- h)).
    destruct o as [c|c]; cbn [run_op] in *; replace (c * - h) with (- (c * h)) by ring; eapply Etrans.
    - apply Edr. apply IH. auto.
    - apply Idr. auto.
    - apply Eki. apply IH. auto.
    - apply Iki. auto.
  Qed.
End Reversal.

Lemma simple_reversible I l s h : sized I -> well_sized I 1 s ->
  integrate drift (kick I) (rev l) (integrate drift (kick I) l s h) (- h) = s.
Proof.
  intros HI W. apply (integrate_rev drift (kick I) (well_sized I 1) eq); auto; try congruence.
  - intros; apply ws_drift; auto.
  - intros; apply ws_kick; auto.
  - intros s0 h0 W0. apply drift_inv. destruct W0 as (? & ? & _); congruence.
  - intros; eapply kick_inv; eauto.
Qed.

(** * regularised systems *)
Lemma omega_inv I r s a h : advance_omega I r (advance_omega I r s a h) a (- h) = s.
Proof.
  unfold advance_omega. sd s. f_equal; [ring|]. unfold sync, npart. cbn [s_sync s_m]. destruct sy; auto.
  set (d := calc_domega_dt r m v a).
  replace [d * - h] with (map Ropp [d * h]) by (simpl; f_equal; ring).
  apply add_at_cancel.
Qed.
Lemma bindE_inv I r s a h : advance_bindE I r (advance_bindE I r s a h) a (- h) = s.
Proof.
  unfold advance_bindE. sd s. f_equal; [ring|]. unfold sync, npart. cbn [s_sync s_m]. destruct sy; auto.
  set (d := calc_dbindE_dt I r m v a).
  replace [d * - h] with (map Ropp [d * h]) by (simpl; f_equal; ring).
  apply add_at_cancel.
Qed.
Lemma ws_omega I e r s a h : well_sized I e s -> well_sized I e (advance_omega I r s a h).
Proof. unfold well_sized, npart, advance_omega; cbn [s_m s_t s_p s_v s_w s_om s_be s_sc s_inc s_sync]. rewrite sync_length. auto. Qed.
Lemma ws_bindE I e r s a h : well_sized I e s -> well_sized I e (advance_bindE I r s a h).
Proof. unfold well_sized, npart, advance_bindE; cbn [s_m s_t s_p s_v s_w s_om s_be s_sc s_inc s_sync]. rewrite sync_length. auto. Qed.

(** scale_ is irrelevant up to itself. *)
Lemma sbs_refl s : same_but_scale s s. Proof. reflexivity. Qed.
Lemma sbs_trans a b c : same_but_scale a b -> same_but_scale b c -> same_but_scale a c.
Proof. unfold same_but_scale; congruence. Qed.
Lemma sbs_form s s' : same_but_scale s s' -> exists k, s' = set_sc s k.
Proof.
  intros H. exists (s_sc s'). sd s. destruct s' as [m' t' p' v' w' om' be' sc' inc' sy']. unfold same_but_scale, set_sc in *.
  cbn [s_m s_t s_p s_v s_w s_om s_be s_sc s_inc s_sync] in *. congruence.
Qed.
Lemma sbs_set s k : same_but_scale s (set_sc s k). Proof. reflexivity. Qed.
Lemma sbs_sym s s' : same_but_scale s s' -> same_but_scale s' s. Proof. unfold same_but_scale; auto. Qed.

Lemma rdrift_form r s h : exists dt k, rdrift r s h = set_sc (drift s dt) k /\
   forall k', fst (pos_phy r (set_sc s k') h) = dt.
Proof.
  unfold rdrift. destruct r; simpl; do 2 eexists; (split; [reflexivity|]); intros; reflexivity.
Qed.
(** The physical steps as functions. *)
Definition pdt (r : regu) (s : st) (h : R) : R := fst (pos_phy r s h).
Definition vdt (r : regu) (s : st) (h : R) : R := fst (vel_phy r s h).
Lemma rdrift_eq r s h : rdrift r s h = set_sc (drift s (pdt r s h)) (snd (pos_phy r s h)).
Proof. unfold rdrift, pdt. destruct (pos_phy r s h); reflexivity. Qed.
Lemma pdt_neg r s h : pdt r s (- h) = - pdt r s h.
Proof. unfold pdt; destruct r; simpl; auto; unfold Rdiv; ring. Qed.
Lemma vdt_neg r s h : vdt r s (- h) = - vdt r s h.
Proof. unfold vdt; destruct r; simpl; auto; unfold Rdiv; ring. Qed.
Lemma kin_drift s h : kin (drift s h) = kin s. Proof. reflexivity. Qed.
Lemma pdt_drift r s h k d : pdt r (set_sc (drift s d) k) h = pdt r s h.
Proof. unfold pdt; destruct r; simpl; auto. Qed.
Lemma rdrift_inv r s h : length (s_v s) = length (s_p s) -> same_but_scale (rdrift r (rdrift r s h) (- h)) s.
Proof.
  intros H. rewrite (rdrift_eq r s h), rdrift_eq, pdt_drift, pdt_neg. apply sbs_sym. eapply sbs_trans; [|apply sbs_set].
  unfold same_but_scale. change (drift (set_sc (drift s (pdt r s h)) (snd (pos_phy r s h))) (- pdt r s h)) with
    (set_sc (drift (drift s (pdt r s h)) (- pdt r s h)) (snd (pos_phy r s h))).
  rewrite drift_inv by auto. reflexivity.
Qed.

(** The kick as a function of the physical step. *)
Definition rkick_body (I : inter) (r : regu) (s : st) (dt : R) : st :=
  let half := 0.5 * dt in
  let newt := I_newt I (s_m s) (s_p s) in
  let ext := I_vi I (s_m s) (s_p s) in
  let vi := if I_ind I then vladd ext newt else newt in
  if I_dep I then
    let s1 := kick_real_vel I vi s half in
    let s2 := rkick_pseu I r vi newt ext s1 dt in
    kick_real_vel I vi s2 half
  else
    let s1 := advance_omega I r s newt half in
    let s2 := if I_ind I then advance_bindE I r s1 ext half else s1 in
    let s3 := kick_vel s2 vi dt in
    let s4 := if I_ind I then advance_bindE I r s3 ext half else s3 in
    advance_omega I r s4 newt half.
Lemma rkick_eq I r s h : rkick I r s h = rkick_body I r (set_sc s (snd (vel_phy r s h))) (vdt r s h).
Proof. unfold rkick, vdt. destruct (vel_phy r s h); reflexivity. Qed.
Lemma rkick_body_sc I r s dt k : rkick_body I r (set_sc s k) dt = set_sc (rkick_body I r s dt) k.
Proof.
  unfold rkick_body, rkick_pseu. cbv zeta. destruct (I_dep I); destruct (I_ind I); reflexivity.
Qed.
Lemma rkick_body_pm I r s dt : s_p (rkick_body I r s dt) = s_p s /\ s_m (rkick_body I r s dt) = s_m s /\ s_t (rkick_body I r s dt) = s_t s.
Proof. unfold rkick_body, rkick_pseu. cbv zeta. destruct (I_dep I); destruct (I_ind I); auto. Qed.
Lemma ws_sc I e s k : well_sized I e s -> well_sized I e (set_sc s k). Proof. auto. Qed.
Definition vi_of I (m : list R) (p : list vec) : list vec := if I_ind I then vladd (I_vi I m p) (I_newt I m p) else I_newt I m p.
Lemma vi_of_length I s : sized I -> length (s_p s) = npart s -> length (vi_of I (s_m s) (s_p s)) = npart s.
Proof.
  intros HI Hp. unfold vi_of. destruct (HI (s_m s) (s_p s) (s_p s) Hp Hp) as (H1 & H2 & _).
  destruct (I_ind I); auto. rewrite vladd_length; auto. congruence.
Qed.
Lemma ws_rpseu I e r vi newt ext s dt : sized I -> I_dep I = true -> length vi = npart s -> well_sized I e s ->
  well_sized I e (rkick_pseu I r vi newt ext s dt).
Proof.
  intros HI Hd Hvi W. unfold rkick_pseu. cbv zeta.
  assert (W1 : well_sized I e (kick_aux s (vladd vi (I_vd I (s_m s) (s_p s) (s_v s))) dt)).
  { apply ws_kick_aux; auto. destruct W as (? & ? & ? & ?). apply vd_len; auto. }
  destruct (I_ind I); apply ws_bindE, ws_omega; auto.
Qed.
Lemma ws_rkick_body I e r s dt : sized I -> well_sized I e s -> well_sized I e (rkick_body I r s dt).
Proof.
  intros HI W. pose proof (vi_of_length I s HI (proj1 W)) as HV. unfold rkick_body. cbv zeta. fold (vi_of I (s_m s) (s_p s)).
  destruct (I_dep I) eqn:Hd.
  - apply ws_real; auto.
    { unfold rkick_pseu. cbv zeta. destruct (I_ind I); auto. }
    apply ws_rpseu; auto. apply ws_real; auto.
  - apply ws_omega. destruct (I_ind I) eqn:Hi.
    + apply ws_bindE, ws_kick_vel; auto. apply ws_bindE, ws_omega; auto.
    + apply ws_kick_vel; auto. apply ws_omega; auto.
Qed.
Lemma rpseu_inv I e r vi newt ext s dt : sized I -> I_dep I = true -> length vi = npart s -> well_sized I e s ->
  rkick_pseu I r vi newt ext (rkick_pseu I r vi newt ext s dt) (- dt) = s.
Proof.
  intros HI Hd Hvi W.
  (* the three updates concern different fields and increment entries *)
  set (vd := I_vd I (s_m s) (s_p s) (s_v s)).
  assert (L : length (vladd vi vd) = length (s_w s)).
  { destruct W as (? & ? & ? & ?). unfold vd. rewrite vd_len; auto. symmetry; auto. }
  set (b := if I_ind I then vladd ext vd else vd).
  assert (F : forall s' d, s_m s' = s_m s -> s_p s' = s_p s -> s_v s' = s_v s ->
      rkick_pseu I r vi newt ext s' d = advance_bindE I r (advance_omega I r (kick_aux s' (vladd vi vd) d) newt d) b d).
  { intros s' d E1 E2 E3. unfold rkick_pseu. cbv zeta. rewrite E1, E2, E3. fold vd. unfold b. destruct (I_ind I); auto. }
  rewrite (F s dt) by auto. rewrite F by reflexivity.
  assert (C1 : forall s' d1 d2, kick_aux (advance_bindE I r s' b d1) (vladd vi vd) d2 = advance_bindE I r (kick_aux s' (vladd vi vd) d2) b d1).
  { intros s' d1 d2. unfold kick_aux, advance_bindE. cbn [s_m s_t s_p s_v s_w s_om s_be s_sc s_inc s_sync]. f_equal.
    unfold sync, npart. cbn [s_m s_sync]. destruct (s_sync s'); auto. apply add_at_comm. }
  assert (C2 : forall s' d1 d2, kick_aux (advance_omega I r s' newt d1) (vladd vi vd) d2 = advance_omega I r (kick_aux s' (vladd vi vd) d2) newt d1).
  { intros s' d1 d2. unfold kick_aux, advance_omega. cbn [s_m s_t s_p s_v s_w s_om s_be s_sc s_inc s_sync]. f_equal.
    unfold sync, npart. cbn [s_m s_sync]. destruct (s_sync s'); auto. apply add_at_comm. }
  assert (C3 : forall s' d1 d2, advance_omega I r (advance_bindE I r s' b d1) newt d2 = advance_bindE I r (advance_omega I r s' newt d2) b d1).
  { intros s' d1 d2. unfold advance_omega, advance_bindE. cbn [s_m s_t s_p s_v s_w s_om s_be s_sc s_inc s_sync]. f_equal.
    unfold sync, npart. cbn [s_m s_sync]. destruct (s_sync s'); auto. apply add_at_comm. }
  rewrite C1, C2, C3. rewrite bindE_inv, omega_inv. apply kick_aux_inv; auto.
Qed.
Lemma omega_bindE_comm I r s a b h k :
  advance_omega I r (advance_bindE I r s b h) a k = advance_bindE I r (advance_omega I r s a k) b h.
Proof.
  unfold advance_omega, advance_bindE. cbn [s_m s_t s_p s_v s_w s_om s_be s_sc s_inc s_sync]. f_equal.
  unfold sync, npart. cbn [s_m s_sync]. destruct (s_sync s); auto. apply add_at_comm.
Qed.
Lemma rkick_body_inv I e r s dt : sized I -> well_sized I e s -> rkick_body I r (rkick_body I r s dt) (- dt) = s.
Proof.
  intros HI W. destruct (rkick_body_pm I r s dt) as (Ep & Em & _).
  pose proof (vi_of_length I s HI (proj1 W)) as HV.
  unfold rkick_body at 1. cbv zeta. rewrite Ep, Em.
  set (newt := I_newt I (s_m s) (s_p s)). set (ext := I_vi I (s_m s) (s_p s)).
  change (if I_ind I then vladd ext newt else newt) with (vi_of I (s_m s) (s_p s)).
  unfold rkick_body. cbv zeta. fold newt ext. change (if I_ind I then vladd ext newt else newt) with (vi_of I (s_m s) (s_p s)).
  set (vi := vi_of I (s_m s) (s_p s)) in *.
  set (q := 0.5 * dt). replace (0.5 * - dt) with (- q) by (unfold q; ring).
  destruct (I_dep I) eqn:Hd.
  - set (s1 := kick_real_vel I vi s q).
    assert (W1 : well_sized I e s1) by (apply ws_real; auto).
    assert (N1 : npart (rkick_pseu I r vi newt ext s1 dt) = npart s).
    { unfold rkick_pseu. cbv zeta. destruct (I_ind I); reflexivity. }
    rewrite (real_real I e); auto; [|rewrite N1; auto|apply ws_rpseu; auto].
    rewrite (rpseu_inv I e); auto. apply (real_real I e); auto.
  - assert (KI : forall s' d, s_v s' = s_v s -> kick_vel (kick_vel s' vi d) vi (- d) = s').
    { intros s' d E. apply kick_vel_inv. rewrite E. rewrite HV. symmetry; apply W. }
    destruct (I_ind I) eqn:Hi.
    + rewrite omega_inv, bindE_inv, KI by reflexivity. rewrite bindE_inv, omega_inv; auto.
    + rewrite omega_inv, KI by reflexivity. apply omega_inv.
Qed.
Lemma vdt_same_p r s s' h : s_p s' = s_p s -> s_m s' = s_m s -> vdt r s' h = vdt r s h.
Proof.
  intros E1 E2. unfold vdt, vel_phy, pot. rewrite E1, E2. destruct r; reflexivity.
Qed.
Lemma ws_rdrift I e r s h : well_sized I e s -> well_sized I e (rdrift r s h).
Proof. intros W. rewrite rdrift_eq. apply ws_sc, ws_drift; auto. Qed.
Lemma ws_rkick I e r s h : sized I -> well_sized I e s -> well_sized I e (rkick I r s h).
Proof. intros HI W. rewrite rkick_eq. apply ws_rkick_body; auto. Qed.
Lemma rkick_inv I e r s h : sized I -> well_sized I e s -> same_but_scale (rkick I r (rkick I r s h) (- h)) s.
Proof.
  intros HI W. set (k := snd (vel_phy r s h)). set (dt := vdt r s h).
  assert (E0 : rkick I r s h = set_sc (rkick_body I r s dt) k) by (rewrite rkick_eq; apply rkick_body_sc).
  destruct (rkick_body_pm I r s dt) as (Ep & Em & _).
  assert (E : vdt r (set_sc (rkick_body I r s dt) k) (- h) = - dt).
  { rewrite (vdt_same_p r s) by auto. apply vdt_neg. }
  rewrite E0, rkick_eq, E, !rkick_body_sc, (rkick_body_inv I e) by auto. reflexivity.
Qed.
Lemma rdrift_cong r s s' h : same_but_scale s s' -> same_but_scale (rdrift r s h) (rdrift r s' h).
Proof. intros H. destruct (sbs_form _ _ H) as (k & ->). rewrite !rdrift_eq. destruct r; reflexivity. Qed.
Lemma rkick_cong I r s s' h : same_but_scale s s' -> same_but_scale (rkick I r s h) (rkick I r s' h).
Proof.
  intros H. destruct (sbs_form _ _ H) as (k & ->). rewrite !rkick_eq, !rkick_body_sc. destruct r; reflexivity.
Qed.
Lemma regu_reversible I r l s h : sized I -> well_sized I 3 s ->
  same_but_scale (integrate (rdrift r) (rkick I r) (rev l) (integrate (rdrift r) (rkick I r) l s h) (- h)) s.
Proof.
  intros HI W. apply (integrate_rev (rdrift r) (rkick I r) (well_sized I 3) same_but_scale); auto.
  - intros; apply sbs_refl.
  - intros a b c; apply sbs_trans.
  - intros; apply ws_rdrift; auto.
  - intros; apply ws_rkick; auto.
  - intros; apply rdrift_cong; auto.
  - intros; apply rkick_cong; auto.
  - intros s0 h0 W0. apply rdrift_inv. destruct W0 as (? & ? & _); congruence.
  - intros; eapply rkick_inv; eauto.
Qed.

(** * External and total accelerations *)
Lemma nth_map_seq (f : nat -> vec) n i : (i < n)%nat -> nth i (map f (seq 0 n)) vzero = f i.
Proof. intros Hi. rewrite (nth_indep _ vzero (f 0%nat)) by (rewrite map_length, seq_length; auto). rewrite map_nth, seq_nth by auto. reflexivity. Qed.
Lemma external_nth I m p v i : (i < length m)%nat -> nth i (external_acc I m p v) vzero =
  vadd (if I_ind I then nth i (I_vi I m p) vzero else vzero) (if I_dep I then nth i (I_vd I m p v) vzero else vzero).
Proof. intros Hi. unfold external_acc. rewrite nth_map_seq by auto. reflexivity. Qed.
Lemma total_nth I m p v i : (i < length m)%nat -> nth i (total_acc I m p v) vzero = vadd (nth i (I_newt I m p) vzero) (nth i (external_acc I m p v) vzero).
Proof. intros Hi. unfold total_acc. rewrite nth_map_seq by auto. reflexivity. Qed.
Lemma extra_external I m p v i : sized I -> length p = length m -> length v = length m -> I_ind I || I_dep I = true -> (i < length m)%nat ->
  nth i (eval_extra I m p v) vzero = nth i (external_acc I m p v) vzero.
Proof.
  intros HI Lp Lv Hx Hi. destruct (HI m p v Lp Lv) as (_ & L2 & L3). rewrite external_nth by auto. unfold eval_extra.
  destruct (I_dep I), (I_ind I); try discriminate; [rewrite vladd_nth by congruence; apply vadd_comm| |]; unfold vadd, vzero; destruct (nth i _ _); cbn; f_equal; ring.
Qed.
Lemma total_total I m p v i : sized I -> length p = length m -> length v = length m -> (i < length m)%nat ->
  nth i (eval_total I m p v) vzero = nth i (total_acc I m p v) vzero.
Proof.
  intros HI Lp Lv Hi. destruct (HI m p v Lp Lv) as (L1 & L2 & L3). rewrite total_nth, external_nth by auto. unfold eval_total, tot_vi.
  destruct (I_dep I), (I_ind I); repeat (rewrite vladd_nth by (rewrite ?vladd_length; congruence)); unfold vadd, vzero;
    destruct (nth i (I_newt I m p) _); try destruct (nth i (I_vi I m p) _); try destruct (nth i (I_vd I m p v) _); cbn; f_equal; ring.
Qed.
