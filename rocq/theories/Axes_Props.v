(** C87: adaptive runs (Bulirsch-Stoer and sequent iterators) do not depend on the order of the particle list nor on naming and
    direction of the coordinate axes; they do depend on how the axes are turned and where the origin is. *)
From Coq Require Import Permutation.
From Verif Require Import Force_Proofs Chain_Proofs Axes_Spec Axes_Proofs Axes_Proofs2 Inv_Proofs Inv_Props Meth_Proofs Meth_Proofs2 System_Proofs System_Proofs2 Build_Proofs Build_Props Ctrl_Model Ctrl_Spec Ctrl_Props.
Import System_Spec.
Open Scope R_scope.

(** ** The error estimates *)
(** WorstOffender, MaxRatioError and RMS give the same error for the renumbered system seen from exchanged or flipped axes. *)
Theorem C87_checkers_blind I e n pi A atol rtol : (1 <= e)%nat -> renumbering n pi -> axis_change A ->
  blind I e n pi A (wo_error Rabs Rminus atol rtol) /\ blind I e n pi A (mr_error Rabs Rminus atol rtol) /\ blind I e n pi A (rms_error atol rtol).
Proof.
  intros He P H. split; [|split]; intros a b c La Lb Lc.
  - apply wo_multiset. apply (array_multiset n pi A I P H e); auto.
  - apply mr_multiset. apply (array_multiset n pi A I P H e); auto.
  - apply rms_multiset; [rewrite (frame_length n pi A I e); auto|]. apply (array_multiset n pi A I P H e); auto.
Qed.
(** Axis changes keep lengths and angles. *)
Theorem C87_axis_change_isometry A : axis_change A -> isometry A.
Proof. apply axis_isometry. Qed.

(** ** Runs *)
Lemma fr_motion n pi A I e p q : isometry A -> Fr n pi A I e p q -> same_motion pi A vzero vzero 0 q p.
Proof.
  intros H (_ & _ & HG & _). apply (G_motion n pi A vzero I); auto. replace (vadd vzero (vscal (- 0) vzero)) with vzero by vring. exact HG.
Qed.
Lemma fr_simple_new pi A I t set set' : renumbering (length set) pi -> isometry A -> reframed pi A vzero vzero set set' ->
  Fr (length set) pi A I 1 (simple_new I t set') (simple_new I t set).
Proof.
  intros P H RF. destruct (reframed_lists _ pi A vzero vzero set set' P eq_refl RF) as (Em & Ep & Ev).
  split; [apply C72_simple_new|]. split; [apply C72_simple_new|]. split; [|discriminate].
  apply G_views. unfold simple_new, npart. cbv zeta. cbn [s_m s_t s_p s_v s_w]. rewrite Em, Ep, Ev, map_length. auto 10.
Qed.
Lemma fr_regu_new pi A I r t set set' : renumbering (length set) pi -> isometry A -> reframed pi A vzero vzero set set' ->
  Fr (length set) pi A I 3 (regu_new I r t set') (regu_new I r t set).
Proof.
  intros P H RF. destruct (reframed_lists _ pi A vzero vzero set set' P eq_refl RF) as (Em & Ep & Ev).
  assert (Lm : length (map b_m set) = length set) by apply map_length.
  split; [apply C72_regularised_new|]. split; [apply C72_regularised_new|]. split.
  - apply G_views. unfold regu_new, rnew, npart. cbv zeta. cbn [s_m s_t s_p s_v s_w]. rewrite Em, Ep, Ev, map_length. auto 10.
  - intros _. unfold regu_new, rnew. cbv zeta. cbn [s_om s_be s_sc]. unfold total_energy.
    rewrite Em, Ep, Ev, (view_pot _ pi A P H), (view_kin _ pi A P H), !dot_zero_l by auto. split; auto. split; auto. ring.
Qed.
Lemma adaptive_sim {Y} (Ry : Y -> Y -> Prop) (F : st -> st -> Prop) (call : Y -> st -> R -> outcome (Y * st * R)) pick :
  (forall p q, F p q -> s_t p = s_t q) ->
  (forall y y' p q h, Ry y y' -> F p q -> orel (fun a b => snd a = snd b /\ Ry (fst (fst a)) (fst (fst b)) /\ F (snd (fst a)) (snd (fst b))) (call y p h) (call y' q h)) ->
  forall k y y' p q h, Ry y y' -> F p q ->
  orel (fun a b => snd a = snd b /\ Ry (fst (fst a)) (fst (fst b)) /\ F (snd (fst a)) (snd (fst b))) (adaptive call pick k y p h) (adaptive call pick k y' q h).
Proof.
  intros HT HC. induction k as [|k IH]; intros y y' p q h HY HF; cbn [adaptive]; [cbn; auto|].
  eapply orel_bind; [rewrite (HT p q HF); apply HC; auto|]. intros [[b1 p1] h1] [[b2 q1] h2] (E & B & F1). cbn [fst snd] in *. subst h2. apply IH; auto.
Qed.
Lemma brel_same T n (b : bs) : Brel T n 0 b b.
Proof. exists (b_ext b). split; [destruct b; reflexivity|]. split; auto. intros; lia. Qed.
Lemma fr_time n pi A I e p q : Fr n pi A I e p q -> s_t p = s_t q.
Proof. intros (_ & _ & HG & _). apply G_views in HG. apply HG. Qed.
Lemma alike_of {Y} n pi A I e (Ry : Y -> Y -> Prop) o o' : isometry A ->
  orel (fun a b : Y * st * R => snd a = snd b /\ Ry (fst (fst a)) (fst (fst b)) /\ Fr n pi A I e (snd (fst a)) (snd (fst b))) o' o -> alike pi A o o'.
Proof.
  intros H. destruct o as [[[y s] h]| |], o' as [[[y' s'] h']| |]; cbn [orel alike fst snd]; auto; try contradiction.
  intros (E & _ & F). split; auto. apply (fr_motion n pi A I e); auto.
Qed.

(** Bulirsch-Stoer on SimpleSystem: any number of calls from the same iterator, with any rule that picks the next step from the time and
    the step the last call returned, any error estimate blind to numbering and axes, any other parameters.  The run of the
    renumbered list seen from the other axes aborts (is undefined) iff the original does, else shows the same motion with the same steps. *)
Theorem C87_bs_simple pi A I t set set' tries M kdk err next lim pick k b h : renumbering (length set) pi -> axis_change A -> sized I ->
  covariant (length set) pi A vzero I -> blind I 1 (length set) pi A err -> reframed pi A vzero vzero set set' ->
  let run s := adaptive (bs_simple I tries M kdk err next lim) pick k b s h in alike pi A (run (simple_new I t set)) (run (simple_new I t set')).
Proof.
  intros P H SZ CO HB RF run. apply axis_isometry in H. apply (alike_of (length set) pi A I 1 (Brel (frame_array I (length set) pi A) (variable_number I 1 (length set)) 0)); auto.
  apply adaptive_sim; [apply fr_time| |apply brel_same|apply fr_simple_new; auto].
  intros y y' p q h0 HY HF. eapply orel_mono; [|apply (simple_call (length set) pi A I P H SZ CO); eauto]. intros a b0 (E & B & F). auto.
Qed.
Theorem C87_bs_regularised pi A I r t set set' tries M kdk err next lim pick k b h : renumbering (length set) pi -> axis_change A -> sized I ->
  covariant (length set) pi A vzero I -> blind I 3 (length set) pi A err -> reframed pi A vzero vzero set set' ->
  let run s := adaptive (bs_regu I r tries M kdk err next lim) pick k b s h in alike pi A (run (regu_new I r t set)) (run (regu_new I r t set')).
Proof.
  intros P H SZ CO HB RF run. apply axis_isometry in H. apply (alike_of (length set) pi A I 3 (Brel (frame_array I (length set) pi A) (variable_number I 3 (length set)) 0)); auto.
  apply adaptive_sim; [apply fr_time| |apply brel_same|apply fr_regu_new; auto].
  intros y y' p q h0 HY HF. eapply orel_mono; [|apply (regu_call (length set) pi A I P H SZ CO); eauto]. intros a b0 (E & B & F). auto.
Qed.
(** The sequent iterator over any list of drifts and kicks; [finite] reads the returned step as a number; the buffers left from
    earlier calls ([d]) do not matter. *)
Definition seq_call (f : st -> R -> outcome (st * ext)) (finite : ext -> R) (_ : unit) (s : st) (h : R) : outcome (unit * st * R) :=
  obind (f s h) (fun '(s', e) => Ok (tt, s', finite e)).
Theorem C87_sequent pi A I r l t set set' err nxt order mi d finite pick k h : renumbering (length set) pi -> axis_change A -> sized I ->
  covariant (length set) pi A vzero I -> (1 <= mi)%nat -> reframed pi A vzero vzero set set' ->
  (blind I 1 (length set) pi A err ->
   let run s := adaptive (seq_call (seq_simple I l err nxt order mi d) finite) pick k tt s h in alike pi A (run (simple_new I t set)) (run (simple_new I t set'))) /\
  (blind I 3 (length set) pi A err ->
   let run s := adaptive (seq_call (seq_regu I r l err nxt order mi d) finite) pick k tt s h in alike pi A (run (regu_new I r t set)) (run (regu_new I r t set'))).
Proof.
  intros P H SZ CO Hm RF. apply axis_isometry in H. split; intros HB run.
  - apply (alike_of (length set) pi A I 1 eq); auto. apply adaptive_sim; [apply fr_time| |auto|apply fr_simple_new; auto].
    intros y y' p q h0 <- HF. eapply orel_bind; [apply (seq_simple_call (length set) pi A I H SZ CO l err nxt order mi d d p q h0); auto|].
    intros [s1 e1] [s2 e2] (F & E). cbn [fst snd orel] in *. subst e2. auto.
  - apply (alike_of (length set) pi A I 3 eq); auto. apply adaptive_sim; [apply fr_time| |auto|apply fr_regu_new; auto].
    intros y y' p q h0 <- HF. eapply orel_bind; [apply (seq_regu_call (length set) pi A I P H SZ CO r l err nxt order mi d d p q h0); auto|].
    intros [s1 e1] [s2 e2] (F & E). cbn [fst snd orel] in *. subst e2. auto.
Qed.
(** For Newtonian gravity and the library's checkers nothing remains to be assumed. *)
Theorem C87_newton pi A r t set set' tries M kdk atol rtol finite next lim pick k b h : renumbering (length set) pi -> axis_change A ->
  reframed pi A vzero vzero set set' ->
  forall err, In err [wo_error Rabs Rminus atol rtol; mr_error Rabs Rminus atol rtol; rms_error atol rtol] ->
  let e x y z := finite (err x y z) in let I := newton_only in
  let run s := adaptive (bs_simple I tries M kdk e next lim) pick k b s h in let rrun s := adaptive (bs_regu I r tries M kdk e next lim) pick k b s h in
  alike pi A (run (simple_new I t set)) (run (simple_new I t set')) /\ alike pi A (rrun (regu_new I r t set)) (rrun (regu_new I r t set')).
Proof.
  intros P H RF err Hin e I run rrun.
  assert (HB : forall n, (1 <= n)%nat -> blind I n (length set) pi A e).
  { intros n Hn a b0 c La Lb Lc. unfold e. f_equal. destruct (C87_checkers_blind I n (length set) pi A atol rtol Hn P H) as (B1 & B2 & B3).
    cbn in Hin. destruct Hin as [<-|[<-|[<-|[]]]]; [apply B1|apply B2|apply B3]; auto. }
  assert (CO := C82_newton_covariant (length set) pi A vzero P (axis_isometry A H)).
  split; [apply C87_bs_simple; auto; apply newton_sized|apply C87_bs_regularised; auto; apply newton_sized].
Qed.

(** ** What does not hold *)
(** Turning the axes by an angle whose tangent is 4/3: a position difference that is rejected (error above 1) before is accepted after. *)
Definition turn (v : vec) : vec := mkV (3 / 5 * vx v - 4 / 5 * vy v) (4 / 5 * vx v + 3 / 5 * vy v) (vz v).
(** A state array of one particle at x with velocity 0 at time 0, without extra variables. *)
Definition at_x (x : vec) : list R := [0; vx x; vy x; vz x; 0; 0; 0].
Lemma at_x_frame A x : isometry A -> frame_array newton_only 1 (fun k => k) A (at_x x) = at_x (A x).
Proof.
  intros H. assert (E : at_x x = pack 0 [x] [vzero] (auxl newton_only []) []) by reflexivity. rewrite E, frame_pack by (auto; discriminate).
  unfold view, pack, auxl. cbn [seq map nth coords flat_map app newton_only I_dep]. rewrite !vadd_0_r, (A_zero A H). reflexivity.
Qed.
Lemma at_x_accept atol rtol a b c : 0 <= atol -> 0 <= rtol -> ele (wo_error Rabs Rminus atol rtol (at_x a) (at_x b) (at_x c)) (Fin 1) = true <->
  (Rabs (vx c - vx b) <= atol + rtol * Rmax (Rabs (vx a)) (Rabs (vx b)) /\ Rabs (vy c - vy b) <= atol + rtol * Rmax (Rabs (vy a)) (Rabs (vy b)) /\
   Rabs (vz c - vz b) <= atol + rtol * Rmax (Rabs (vz a)) (Rabs (vz b))).
Proof.
  intros H1 H2. rewrite C36_worst_offender by (auto; reflexivity). split.
  - intros H. split; [apply (H 1%nat)|split; [apply (H 2%nat)|apply (H 3%nat)]]; cbn; lia.
  - intros (Hx & Hy & Hz) i Hi. assert (Z : Rabs (0 - 0) <= atol + rtol * Rmax (Rabs 0) (Rabs 0)).
    { rewrite Rminus_0_r, Rabs_R0, Rmax_left by lra. lra. }
    destruct i as [|[|[|[|[|[|[|i]]]]]]]; cbn [at_x nth]; auto. cbn in Hi; lia.
Qed.
Theorem C87_turned_axes_refuted : isometry turn /\ exists a b c, let T := frame_array newton_only 1 (fun k => k) turn in let err := wo_error Rabs Rminus 1 0 in
  let accepted a b c := ele (err (at_x a) (at_x b) (at_x c)) (Fin 1) in
  accepted a b c = false /\ accepted (turn a) (turn b) (turn c) = true /\ T (at_x a) = at_x (turn a) /\ T (at_x b) = at_x (turn b) /\ T (at_x c) = at_x (turn c).
Proof.
  assert (H : isometry turn).
  { unfold turn. split; [|split]; intros; [vring|vring|]. destruct a as [a1 a2 a3], b as [b1 b2 b3]. unfold dot. cbn [vx vy vz]. field. }
  split; [exact H|]. exists vzero, vzero, (mkV (6 / 5) 0 0). cbv zeta. split; [|split; [|rewrite !at_x_frame by exact H; auto]].
  - apply Bool.not_true_is_false. rewrite at_x_accept by lra. cbn [vx vy vz vzero]. rewrite Rminus_0_r, Rabs_right by lra. lra.
  - rewrite at_x_accept by lra. unfold turn. cbn [vx vy vz vzero]. rewrite !Rmult_0_l. rewrite !(Rabs_right (_ - _)) by lra. lra.
Qed.
(** Moving the origin: tolerances are relative to the coordinates, so a difference rejected in one description is accepted in the other. *)
Theorem C87_origin_refuted : exists a b c d, let accepted a b c := ele (wo_error Rabs Rminus 1 1 (at_x a) (at_x b) (at_x c)) (Fin 1) in
  accepted a b c = false /\ accepted (vadd a d) (vadd b d) (vadd c d) = true.
Proof.
  exists vzero, vzero, (mkV (3 / 2) 0 0), (mkV 1 0 0). cbv zeta. split.
  - apply Bool.not_true_is_false. rewrite at_x_accept by lra. cbn [vx vy vz vzero]. rewrite Rminus_0_r, Rabs_right, Rabs_R0, Rmax_left by lra. lra.
  - rewrite at_x_accept by lra. cbn [vx vy vz vzero vadd]. rewrite !(Rabs_right (_ - _)), !(Rabs_right (_ + _)), !Rmax_left by lra. lra.
Qed.

(** Non-vacuity: the cyclic exchange of axes with one flip is an axis change; a list and its reframed list; one call of the Bulirsch-Stoer
    iterator on them succeeds (error estimate 0). *)
Definition cyclic (v : vec) : vec := mkV (vy v) (- vz v) (vx v).
Example C87_case : let set := [Build_Model.mkB 1 (mkV 0 0 0) (mkV 0 0 0); Build_Model.mkB 2 (mkV 1 0 0) (mkV 0 1 0)] in let pi := fun k => match k with 0 => 1 | 1 => 0 | k => k end%nat in
  axis_change cyclic /\ renumbering (length set) pi /\
  reframed pi cyclic vzero vzero set [Build_Model.mkB 2 (mkV 0 0 1) (mkV 1 0 0); Build_Model.mkB 1 (mkV 0 0 0) (mkV 0 0 0)] /\ blind newton_only 1 (length set) pi cyclic (fun _ _ _ => 0).
Proof.
  cbv zeta. split; [|split; [|split]].
  - exists (fun i => match i with 0 => 1 | 1 => 2 | _ => 0 end%nat), (fun i => match i with 1%nat => -1 | _ => 1 end). split; [|split].
    + cbn [map]. eapply perm_trans; [apply perm_skip, perm_swap|apply perm_swap].
    + intros [|[|i]]; auto.
    + intros v. cbn [coordinate]. unfold cyclic. f_equal; ring.
  - apply perm_swap.
  - split; [reflexivity|]. intros k b Hk. destruct k as [|[|k]]; [| |cbn [length] in Hk; lia]; cbn [nth_error]; intros E; injection E as <-;
    cbn [Build_Model.b_m Build_Model.b_p Build_Model.b_v cyclic vx vy vz]; unfold cyclic; vunf; do 2 f_equal; f_equal; ring.
  - intros a b c _ _ _. reflexivity.
Qed.

Print Assumptions C87_checkers_blind.
Print Assumptions C87_axis_change_isometry.
Print Assumptions C87_bs_simple.
Print Assumptions C87_bs_regularised.
Print Assumptions C87_sequent.
Print Assumptions C87_newton.
Print Assumptions C87_turned_axes_refuted.
Print Assumptions C87_origin_refuted.
