(** C73: the methods the library offers on chain and plain systems, driven by the Bulirsch-Stoer and sequent iterators. *)
From Verif Require Import Meth_Spec Meth_Proofs Meth_Proofs2 Meth_Proofs3 Meth_Proofs4 System_Proofs System_Proofs2 System_Proofs3 System_Props
  Build_Spec Build_Proofs Build_Props BS_Proofs4 BS_Props Ctrl_Props Sim_Props Chain_Spec.
From Verif Require Import Sim_Model.
Import Build_Model System_Spec Meth_Model Meth_Spec Meth_Proofs Meth_Proofs2 Meth_Proofs3 Meth_Proofs4.
Open Scope R_scope.

(** ** Chain_BS and AR_Chain: one call *)
(** An accepted Bulirsch-Stoer call on a ChainSystem (pre-processing, rows, acceptance, re-indexing) is an accepted call of the plain
    system with the same positions and velocities, its rows and extrapolation in Cartesian coordinates; only the error test
    is made on the chain coordinates ([chain_array]).  Afterwards the system is ready for the next call. *)
Theorem C73_chain_bs_call I CI n tries M kdk err next lim b c h b' c' h1 : sized I -> agree I CI n -> (2 <= n)%nat -> (1 <= M)%nat ->
  chain_ready I 1 n c -> sizes M b -> bs_chain I CI tries M kdk err next lim b c h (Ok (b', c', h1)) ->
  let chain := chain_array I n (c_idx c) in
  sizes M b' /\ chain_ready I 1 n c' /\ exists s' y hk k,
    accepted_step M kdk (write I) drift (kick I) (fun y0 y1 y2 => err (chain y0) (chain y1) (chain y2)) lim (System_Model.pre_iter I (c_st c)) h s' h1 y hk k /\
    same_physics (c_st c') s' /\ s_t (c_st c') = s_t (c_st c) + hk /\ (balanced I -> drifts (c_st c) (c_st c')).
Proof.
  intros HI A Hn HM F S H chain. pose proof (chain_call I CI HI n A Hn tries M kdk err next lim b c h _ HM F S H) as (X1 & X2 & s' & y & hk & k & X3 & X4 & X5 & _ & X6).
  split; auto. split; auto. exists s', y, hk, k. auto.
Qed.
Theorem C73_archain_bs_call I CI r n tries M kdk err next lim b c h b' c' h1 : sized I -> agree I CI n -> (2 <= n)%nat -> (1 <= M)%nat ->
  chain_ready I 3 n c -> sizes M b -> bs_archain I CI r tries M kdk err next lim b c h (Ok (b', c', h1)) ->
  let chain := chain_array I n (c_idx c) in
  sizes M b' /\ chain_ready I 3 n c' /\ exists s' y hk k,
    accepted_step M kdk (rwrite I) (rdrift r) (rkick I r) (fun y0 y1 y2 => err (chain y0) (chain y1) (chain y2)) lim (System_Model.pre_iter I (c_st c)) h s' h1 y hk k /\
    same_physics (c_st c') s' /\ s_om (c_st c') = s_om s' /\ s_be (c_st c') = s_be s' /\ (balanced I -> drifts (c_st c) (c_st c')).
Proof.
  intros HI A Hn HM F S H chain. pose proof (archain_call I CI HI n A Hn r tries M kdk err next lim b c h _ HM F S H) as (X1 & X2 & s' & y & hk & k & X3 & X4 & X5 & X6 & _ & X7).
  split; auto. split; auto. exists s', y, hk, k. auto.
Qed.
(** From an iterator with a rank in range (not its first call) a call on a chain system never reaches undefined behaviour: it succeeds, or the
    iterator gives up and aborts; and the rank stays in range. *)
Theorem C73_chain_bs_defined I CI n tries M kdk err next lim b c h o : sized I -> agree I CI n -> (2 <= n)%nat -> (3 <= M)%nat ->
  chain_ready I 1 n c -> safe M b -> b_first b = false -> bs_chain I CI tries M kdk err next lim b c h o ->
  match o with Ok (b', _, _) => safe M b' /\ b_first b' = false | Abort => True | UB => False end.
Proof. intros HI A Hn HM F S Fb H. exact (chain_defined I CI HI n A Hn tries M kdk err next lim b c h o HM F S Fb H). Qed.
Theorem C73_archain_bs_defined I CI r n tries M kdk err next lim b c h o : sized I -> agree I CI n -> (2 <= n)%nat -> (3 <= M)%nat ->
  chain_ready I 3 n c -> safe M b -> b_first b = false -> bs_archain I CI r tries M kdk err next lim b c h o ->
  match o with Ok (b', _, _) => safe M b' /\ b_first b' = false | Abort => True | UB => False end.
Proof. intros HI A Hn HM F S Fb H. exact (archain_defined I CI HI n A Hn r tries M kdk err next lim b c h o HM F S Fb H). Qed.
(** Systems built by the constructors are ready, and a fresh iterator has its tables. *)
Theorem C73_built_ready I r t set o : (2 <= length set)%nat ->
  (chain_new I t set o -> exists c, o = Ok c /\ chain_ready I 1 (length set) c) /\
  (archain_new I r t set o -> exists c, o = Ok c /\ chain_ready I 3 (length set) c).
Proof.
  intros Hn. split; intros H.
  - destruct (proj2 (C72_chain_new I t set Hn) o H) as (c & -> & (_ & Sm & _) & _ & _ & _ & C & W & _). exists c. split; auto.
    assert (N : npart (c_st c) = length set) by (unfold npart; rewrite Sm, map_length; auto).
    split; [eapply cart_ok_of; eauto|]. split; auto. destruct W as (_ & _ & _ & L). rewrite N in L. exact L.
  - destruct (proj2 (C72_archain_new I r t set Hn) o H) as (c & -> & (_ & Sm & _) & _ & _ & _ & C & W & _). exists c. split; auto.
    assert (N : npart (c_st c) = length set) by (unfold npart; rewrite Sm, map_length; auto).
    split; [eapply cart_ok_of; eauto|]. split; auto. destruct W as (_ & _ & _ & L). rewrite N in L. exact L.
Qed.
Theorem C73_fresh_iterator M : sizes M (bs_init M).
Proof. unfold sizes, bs_init. cbn. rewrite !repeat_length. auto. Qed.

(** ** Any number of calls *)
(** BS, AR_BS, Chain_BS, AR_Chain with balanced forces (Newtonian gravity is one): after any number of calls with any requested
    step sizes and whatever the error estimates, masses and total momentum are those of the start and the centre of mass has moved uniformly. *)
Theorem C73_bs_runs_conserve I CI r n tries M kdk err next lim b b' : sized I -> balanced I -> agree I CI n -> (2 <= n)%nat -> (1 <= M)%nat -> sizes M b ->
  (forall s s', well_sized I 1 s -> calls (fun b s h b1 s1 => exists h1, bs_simple I tries M kdk err next lim b s h = Ok (b1, s1, h1)) b s b' s' -> drifts s s') /\
  (forall s s', well_sized I 3 s -> calls (fun b s h b1 s1 => exists h1, bs_regu I r tries M kdk err next lim b s h = Ok (b1, s1, h1)) b s b' s' -> drifts s s') /\
  (forall c c', chain_ready I 1 n c -> calls (fun b c h b1 c1 => exists h1, bs_chain I CI tries M kdk err next lim b c h (Ok (b1, c1, h1))) b c b' c' -> drifts (c_st c) (c_st c')) /\
  (forall c c', chain_ready I 3 n c -> calls (fun b c h b1 c1 => exists h1, bs_archain I CI r tries M kdk err next lim b c h (Ok (b1, c1, h1))) b c b' c' -> drifts (c_st c) (c_st c')).
Proof.
  intros HI HB A Hn HM S. split; [|split; [|split]].
  - intros s s' W C. refine (proj2 (calls_inv _ (fun b s => sizes M b /\ well_sized I 1 s) (fun s => s) drifts drifts_refl drifts_trans _ _ _ _ _ C (conj S W))).
    intros y x h y1 x1 (Sy & Wx) (h1 & E). unfold bs_simple in E.
    destruct (BS_Proofs3.simple_step I tries M kdk err next lim y _ h y1 x1 h1 HM HI (ws_pre I 1 x Wx) Sy E) as (S1 & _ & W1 & v & hk & k & AC & T & CO).
    split; auto. destruct (CO HB) as (C1 & C2). apply (drifts_eq (System_Model.pre_iter I x) _ x1); [apply same_pre|apply same_refl|].
    split; [apply AC|]. split; auto. rewrite C2, T. f_equal. f_equal. lra.
  - intros s s' W C. refine (proj2 (calls_inv _ (fun b s => sizes M b /\ well_sized I 3 s) (fun s => s) drifts drifts_refl drifts_trans _ _ _ _ _ C (conj S W))).
    intros y x h y1 x1 (Sy & Wx) (h1 & E). unfold bs_regu in E.
    destruct (BS_Proofs3.regu_step I r tries M kdk err next lim y _ h y1 x1 h1 HM HI (ws_pre I 3 x Wx) Sy E) as (S1 & _ & W1 & v & hk & k & AC & CO).
    split; auto. destruct (CO HB) as (C1 & C2). apply (drifts_eq (System_Model.pre_iter I x) _ x1); [apply same_pre|apply same_refl|].
    split; [apply AC|]. split; auto.
  - intros c c' F C. refine (proj2 (calls_inv _ (fun b c => sizes M b /\ chain_ready I 1 n c) c_st drifts drifts_refl drifts_trans _ _ _ _ _ C (conj S F))).
    intros y x h y1 x1 (Sy & Wx) (h1 & E).
    destruct (C73_chain_bs_call I CI n tries M kdk err next lim y x h y1 x1 h1 HI A Hn HM Wx Sy E) as (S1 & F1 & s1 & v & hk & k & AC & T & P & CO). auto.
  - intros c c' F C. refine (proj2 (calls_inv _ (fun b c => sizes M b /\ chain_ready I 3 n c) c_st drifts drifts_refl drifts_trans _ _ _ _ _ C (conj S F))).
    intros y x h y1 x1 (Sy & Wx) (h1 & E).
    destruct (C73_archain_bs_call I CI r n tries M kdk err next lim y x h y1 x1 h1 HI A Hn HM Wx Sy E) as (S1 & F1 & s1 & v & hk & k & AC & T & P & Q & CO). auto.
Qed.

(** ** Sequent (Sym2 ... Sym10 and their AR_ and Chain variants) *)
(** A call on a chain system shows the motion of the same call on the plain (regularised) system with the same positions and velocities,
    the error being measured on chain coordinates; it succeeds, aborts or is undefined exactly when that one does, and returns the same step.
    [dual] buffers left over from earlier calls do not matter. *)
Theorem C73_chain_sequent_call I CI n l err nxt order max_iter dual dual' c h o : sized I -> agree I CI n -> (2 <= n)%nat -> (1 <= max_iter)%nat ->
  consistent newton_only c -> npart (c_st c) = n -> seq_chain I CI l err nxt order max_iter dual c h o ->
  let chain := chain_array I n (c_idx c) in
  exists s, same_physics s (c_st c) /\ well_sized I 1 s /\
  match o, seq_simple I l (fun y0 y1 y2 => err (chain y0) (chain y1) (chain y2)) nxt order max_iter dual' s h with
  | Ok (c', e), Ok (s', e') => same_physics (c_st c') s' /\ e = e' /\ consistent newton_only c' /\ npart (c_st c') = n
  | Abort, Abort => True
  | UB, UB => True
  | _, _ => False
  end.
Proof.
  intros HI A Hn Hm C N H chain. exists (plain I 1 c). split; [apply plain_same|]. split; [apply (mate_start I n 1 c C N)|].
  pose proof (seq_chain_sim I CI HI n A Hn l err nxt order max_iter dual dual' c h C N Hm) as X. unfold seq_chain in H. unfold serrQ in X. fold chain in X.
  destruct (seq_iterate (cwrite I) (cread I) (ointegrate cdrift (ckick I CI) l) err nxt order max_iter dual (cpre_iter I c) h) as [[c1 e]| |];
  destruct (seq_simple I l _ nxt order max_iter dual' (plain I 1 c) h) as [[s' e']| |]; try contradiction; cbn [orel] in X.
  - destruct X as (MT & E). cbn [fst snd] in *. destruct (mate_reindex I n Hn 1 _ c1 s' o e MT H) as (c' & -> & C' & N' & Es).
    split; [apply same_strip; auto|]. auto.
  - cbn in H. subst o. exact Logic.I.
  - cbn in H. subst o. exact Logic.I.
Qed.
Theorem C73_archain_sequent_call I CI r n l err nxt order max_iter dual dual' c h o : sized I -> agree I CI n -> (2 <= n)%nat -> (1 <= max_iter)%nat ->
  consistent newton_only c -> npart (c_st c) = n -> seq_archain I CI r l err nxt order max_iter dual c h o ->
  let chain := chain_array I n (c_idx c) in
  exists s, same_physics s (c_st c) /\ s_om s = s_om (c_st c) /\ s_be s = s_be (c_st c) /\ well_sized I 3 s /\
  match o, seq_regu I r l (fun y0 y1 y2 => err (chain y0) (chain y1) (chain y2)) nxt order max_iter dual' s h with
  | Ok (c', e), Ok (s', e') => same_physics (c_st c') s' /\ s_om (c_st c') = s_om s' /\ s_be (c_st c') = s_be s' /\ e = e' /\ consistent newton_only c' /\ npart (c_st c') = n
  | Abort, Abort => True
  | UB, UB => True
  | _, _ => False
  end.
Proof.
  intros HI A Hn Hm C N H chain. exists (plain I 3 c). split; [apply plain_same|]. split; [unfold plain, System_Model.pre_iter; destruct (I_dep I); reflexivity|].
  split; [unfold plain, System_Model.pre_iter; destruct (I_dep I); reflexivity|]. split; [apply (mate_start I n 3 c C N)|].
  pose proof (seq_archain_sim I CI HI n A Hn l r err nxt order max_iter dual dual' c h C N Hm) as X. unfold seq_archain in H. unfold serrQ in X. fold chain in X.
  destruct (seq_iterate (arwrite I) (arread I) (ointegrate (ardrift r) (arkick I CI r) l) err nxt order max_iter dual (cpre_iter I c) h) as [[c1 e]| |];
  destruct (seq_regu I r l _ nxt order max_iter dual' (plain I 3 c) h) as [[s' e']| |]; try contradiction; cbn [orel] in X.
  - destruct X as (MT & E). cbn [fst snd] in *. destruct (mate_reindex I n Hn 3 _ c1 s' o e MT H) as (c' & -> & C' & N' & Es).
    split; [apply same_strip; auto|]. split; [exact (f_equal s_om Es)|]. split; [exact (f_equal s_be Es)|]. split; auto.
  - cbn in H. subst o. exact Logic.I.
  - cbn in H. subst o. exact Logic.I.
Qed.
(** After any number of sequent calls momentum, angular momentum and the uniform motion of the centre of mass hold exactly, on all four systems. *)
Theorem C73_sequent_runs_conserve I CI r l n err nxt order max_iter u u' : sized I -> balanced I -> agree I CI n -> (2 <= n)%nat -> (1 <= max_iter)%nat ->
  (forall s s', well_sized I 1 s -> calls (fun (_ : unit) s h _ s1 => exists dual e, seq_simple I l err nxt order max_iter dual s h = Ok (s1, e)) u s u' s' -> conserves s s') /\
  (forall s s', well_sized I 3 s -> calls (fun (_ : unit) s h _ s1 => exists dual e, seq_regu I r l err nxt order max_iter dual s h = Ok (s1, e)) u s u' s' -> conserves s s') /\
  (forall c c', consistent newton_only c -> npart (c_st c) = n ->
     calls (fun (_ : unit) c h _ c1 => exists dual e, seq_chain I CI l err nxt order max_iter dual c h (Ok (c1, e))) u c u' c' -> conserves (c_st c) (c_st c')) /\
  (forall c c', consistent newton_only c -> npart (c_st c) = n ->
     calls (fun (_ : unit) c h _ c1 => exists dual e, seq_archain I CI r l err nxt order max_iter dual c h (Ok (c1, e))) u c u' c' -> conserves (c_st c) (c_st c')).
Proof.
  intros HI HB A Hn Hm. split; [|split; [|split]].
  - intros s s' W C. refine (proj2 (calls_inv _ (fun _ s => well_sized I 1 s) (fun s => s) conserves conserves_refl (fun a b c => conserves_trans a b c) _ _ _ _ _ C W)).
    intros y x h y1 x1 Wx (dual & e & E). eapply seq_simple_conserves; eauto.
  - intros s s' W C. refine (proj2 (calls_inv _ (fun _ s => well_sized I 3 s) (fun s => s) conserves conserves_refl (fun a b c => conserves_trans a b c) _ _ _ _ _ C W)).
    intros y x h y1 x1 Wx (dual & e & E). eapply seq_regu_conserves; eauto.
  - intros c c' F N C. refine (proj2 (calls_inv _ (fun _ c => consistent newton_only c /\ npart (c_st c) = n) c_st conserves conserves_refl (fun a b c => conserves_trans a b c) _ _ _ _ _ C (conj F N))).
    intros y x h y1 x1 (Cx & Nx) (dual & e & E).
    destruct (C73_chain_sequent_call I CI n l err nxt order max_iter dual dual x h _ HI A Hn Hm Cx Nx E) as (s & Es & Ws & X).
    destruct (seq_simple I l _ nxt order max_iter dual s h) as [[s' e']| |] eqn:ES; try contradiction. destruct X as (X1 & _ & X3 & X4). split; auto.
    destruct (seq_simple_conserves _ _ _ _ _ _ _ _ _ _ _ HI HB Ws Hm ES) as (_ & CO). eapply same_conserves0; [exact Es|]. eapply same_conserves; [apply same_sym; exact X1|exact CO].
  - intros c c' F N C. refine (proj2 (calls_inv _ (fun _ c => consistent newton_only c /\ npart (c_st c) = n) c_st conserves conserves_refl (fun a b c => conserves_trans a b c) _ _ _ _ _ C (conj F N))).
    intros y x h y1 x1 (Cx & Nx) (dual & e & E).
    destruct (C73_archain_sequent_call I CI r n l err nxt order max_iter dual dual x h _ HI A Hn Hm Cx Nx E) as (s & Es & _ & _ & Ws & X).
    destruct (seq_regu I r l _ nxt order max_iter dual s h) as [[s' e']| |] eqn:ES; try contradiction. destruct X as (X1 & _ & _ & _ & X3 & X4). split; auto.
    destruct (seq_regu_conserves _ _ _ _ _ _ _ _ _ _ _ _ HI HB Ws Hm ES) as (_ & CO). eapply same_conserves0; [exact Es|]. eapply same_conserves; [apply same_sym; exact X1|exact CO].
Qed.

(** ** Whole simulations *)
(** Simulator::run over any system and iterator whose single call conserves ([G]: an invariant of calls and of set_atol/set_rtol), with callbacks and conditions
    that do not write to the particles: at every event of the run (before and after every callback, condition and step) the particles
    have the masses and momentum of the start, and their centre of mass has moved uniformly. *)
Theorem C73_simulation {Y X V : Type} (G : Y -> X -> Prop) (view : X -> st) scale dflt tols step args hubble fuel y0 x0 (v0 : V) tr w' :
  (forall y x h y1 x1 h1, G y x -> step y x h = Ok (y1, x1, h1) -> G y1 x1 /\ drifts (view x) (view x1)) ->
  (forall a rt y x, G y x -> G (tols a rt y) x) -> G y0 x0 ->
  (forall f, In f (start_opts args) \/ In f (opts args) \/ In f (stop_opts args) -> forall h w, fst (f h w) = fst w) ->
  (forall f, In f (stop_cond args) -> forall h w, fst (snd (f h w)) = fst w) ->
  run (hub_sys view scale dflt tols step) args hubble fuel (Ok (y0, x0), v0) = Returned tr w' ->
  forall e, In e tr -> (forall y x, fst (before e) = Ok (y, x) -> drifts (view x0) (view x)) /\ (forall y x, fst (after e) = Ok (y, x) -> drifts (view x0) (view x)).
Proof.
  intros HS HT G0 HO HC HR. set (sys := hub_sys view scale dflt tols step) in *.
  destruct (Req_EM_T (step_scale sys (Ok (y0, x0), v0)) 0) as [Z|Z].
  { unfold run in HR. destruct (stop_cond args), (end_set args); try discriminate; destruct (Req_EM_T (step_scale sys (Ok (y0, x0), v0)) 0); try contradiction;
      (assert (tr = []) as -> by congruence); intros ev []. }
  destruct (C07_callback_protocol _ sys args hubble fuel _ tr w' HR Z) as (L & F & _). clear HR.
  set (good := fun w : outcome (Y * X) * V => forall y x, fst w = Ok (y, x) -> G y x /\ drifts (view x0) (view x)).
  assert (Gs : good (set_tols sys (atol args) (rtol args) (Ok (y0, x0), v0))).
  { intros y x E. cbn in E. assert (y = tols (atol args) (rtol args) y0 /\ x = x0) as (-> & ->) by (split; congruence). split; auto. apply drifts_refl. }
  assert (ST : forall e, In e tr -> good (before e) -> good (after e)).
  { intros e He Gb y x E. specialize (F e He). unfold faithful in F. destruct (ek e) as [i|i|i|i bb|].
    - destruct F as (f & Hf & Ea). apply Gb with (y := y). rewrite <- E, Ea. symmetry. apply HO. left. eapply nth_error_In; eauto.
    - destruct F as (f & Hf & Ea). apply Gb with (y := y). rewrite <- E, Ea. symmetry. apply HO. right; left. eapply nth_error_In; eauto.
    - destruct F as (f & Hf & Ea). apply Gb with (y := y). rewrite <- E, Ea. symmetry. apply HO. right; right. eapply nth_error_In; eauto.
    - destruct F as (f & Hf & Ea). apply Gb with (y := y). rewrite <- E. replace (after e) with (snd (f (eh e) (before e))) by (rewrite Ea; reflexivity). symmetry. apply HC. eapply nth_error_In; eauto.
    - rewrite F in E. cbn in E. destruct (fst (before e)) as [[y1 x1]| |] eqn:Eb; try (cbn in E; discriminate).
      destruct (step y1 x1 (eh e)) as [[[y2 x2] h2]| |] eqn:Es; cbn in E; try discriminate.
      assert (y2 = y /\ x2 = x) as (-> & ->) by (split; congruence).
      destruct (Gb y1 x1 Eb) as (Gy & Dy). destruct (HS _ _ _ _ _ _ Gy Es) as (Gz & Dz). split; auto. eapply drifts_trans; eauto. }
  assert (ALL : forall tr0 w, linked w tr0 w' -> (forall e, In e tr0 -> In e tr) -> good w -> forall e, In e tr0 -> good (before e) /\ good (after e)).
  { induction tr0 as [|e0 tr0 IH]; intros w Lk Sub Gw e He; [contradiction|]. destruct Lk as (Eb & Lk). subst w.
    assert (G1 : good (after e0)) by (apply ST; auto; apply Sub; left; auto).
    destruct He as [<-|He]; [auto|]. eapply IH; eauto. intros e1 H1. apply Sub. right; auto. }
  intros e He. destruct (ALL tr _ L (fun e H => H) Gs e He) as (B1 & B2). split; intros y x E; [apply (B1 y x E)|apply (B2 y x E)].
Qed.
(** AR_Chain (ARchainSystem, Bulirsch-Stoer), with any error measure depending on the tolerances: every instant of every returning simulation
    conserves.  [pick] is any choice the re-indexing may make. *)
Theorem C73_AR_Chain_simulation {V : Type} I CI r n tries M kdk (err : R -> R -> list R -> list R -> list R -> R) next lim pick scale dflt args hubble fuel b0 at0 rt0 c0 (v0 : V) tr w' :
  sized I -> balanced I -> agree I CI n -> (2 <= n)%nat -> (1 <= M)%nat -> sizes M b0 -> chain_ready I 3 n c0 -> (forall c, cart_ok c -> npart (c_st c) = n -> reindex c (pick c)) ->
  (forall f, In f (start_opts args) \/ In f (opts args) \/ In f (stop_opts args) -> forall h w, fst (f h w) = fst w) ->
  (forall f, In f (stop_cond args) -> forall h w, fst (snd (f h w)) = fst w) ->
  let step := fun (y : bs * (R * R)) c h =>
    obind (BS_Model.iterate tries M kdk cst (arwrite I) (arread I) ccollect (archain_run I CI r kdk) (err (fst (snd y)) (snd (snd y))) next lim (fst y) (cpre_iter I c) h)
          (fun '(b', c1, h1) => obind (pick c1) (fun c2 => Ok ((b', snd y), c2, h1))) in
  run (hub_sys c_st scale dflt (fun a rt y => (fst y, (a, rt))) step) args hubble fuel (Ok ((b0, (at0, rt0)), c0), v0) = Returned tr w' ->
  forall e, In e tr -> (forall y c, fst (before e) = Ok (y, c) -> drifts (c_st c0) (c_st c)) /\ (forall y c, fst (after e) = Ok (y, c) -> drifts (c_st c0) (c_st c)).
Proof.
  intros HI HB A Hn HM S F HP HO HC step HR.
  refine (C73_simulation (fun y c => sizes M (fst y) /\ chain_ready I 3 n c) c_st scale dflt _ step args hubble fuel (b0, (at0, rt0)) c0 v0 tr w' _ _ (conj S F) HO HC HR).
  - intros y c h y1 c1 h1 (Sy & Fc) E. unfold step in E.
    assert (Q : bs_archain I CI r tries M kdk (err (fst (snd y)) (snd (snd y))) next lim (fst y) c h (Ok (fst y1, c1, h1)) /\ True).
    { split; auto. unfold bs_archain.
      pose proof (archain_iterate_sim I CI HI n A Hn r tries M kdk (err (fst (snd y)) (snd (snd y))) next lim (fst y) c h Fc) as X. cbv zeta in X.
      destruct (BS_Model.iterate tries M kdk cst (arwrite I) (arread I) ccollect (archain_run I CI r kdk) (err (fst (snd y)) (snd (snd y))) next lim (fst y) (cpre_iter I c) h) as [[[b' c2] h2]| |]; cbn [obind] in E; try discriminate.
      destruct (BS_Model.iterate tries M kdk st (rwrite I) (rread I) set_sync (regu_run I r kdk) _ next lim (fst y) (c_st (cpre_iter I c)) h) as [[[b2 s2] h2']| |]; try contradiction.
      destruct X as (_ & _ & (C2 & _ & Es & Ns & _)). cbn [fst snd] in *.
      assert (N2 : npart (c_st c2) = n) by (rewrite <- npart_strip, Es, npart_strip; auto).
      exists (pick c2). split; [apply HP; [eapply cart_ok_of; eauto|auto]|].
      destruct (pick c2) as [c3| |]; cbn [obind] in *; try discriminate. assert (y1 = (b', snd y) /\ c3 = c1 /\ h2 = h1) as (-> & -> & ->) by (repeat split; congruence). reflexivity. }
    destruct Q as (Q & _). destruct (C73_archain_bs_call I CI r n _ _ _ _ _ _ _ _ _ _ _ _ HI A Hn HM Fc Sy Q) as (S1 & F1 & s1 & v & hk & k & _ & _ & _ & _ & D). auto.
  - intros a rt y c (Sy & Fc). auto.
Qed.
(** Calls exist: on any chain system built from two or more particles with Newtonian gravity and an error estimate of zero, the first call of a fresh
    iterator succeeds. *)
Example C73_case tries M kdk next lim t set h : (3 <= M)%nat -> (1 <= tries)%nat -> (2 <= length set)%nat ->
  sized newton_only /\ balanced newton_only /\ agree newton_only chain_newton_only (length set) /\
  exists c b' c' h1, chain_new newton_only t set (Ok c) /\ chain_ready newton_only 1 (length set) c /\
    bs_chain newton_only chain_newton_only tries M kdk (fun _ _ _ => 0) next lim (bs_init M) c h (Ok (b', c', h1)).
Proof.
  intros HM Ht Hn. split; [apply newton_sized|]. split; [apply newton_balanced|]. split; [apply newton_agree; auto|].
  destruct (C72_chain_new newton_only t set Hn) as [[o Ho] _].
  destruct (proj1 (C73_built_ready newton_only LogH t set o Hn) Ho) as (c & -> & F).
  set (n := length set) in *. pose proof (newton_agree n Hn) as A.
  pose proof (chain_iterate_sim newton_only chain_newton_only newton_sized n A Hn tries M kdk (fun _ _ _ => 0) next lim (bs_init M) c h F) as X. cbv zeta in X.
  destruct (fit_start newton_only 1 n c (or_introl eq_refl) Hn F) as (_ & W & N0 & _ & _).
  set (s := c_st (cpre_iter newton_only c)) in *.
  assert (E : exists b' s' h1, BS_Model.iterate tries M kdk st (write newton_only) (read newton_only) set_sync (simple_run newton_only kdk)
     (errQ (fun _ _ _ => 0) (chain_array newton_only n (c_idx (cpre_iter newton_only c)))) next lim (bs_init M) s h = Ok (b', s', h1)).
  { unfold errQ. destruct (BS_Proofs4.simple_replays newton_only kdk s newton_sized W) as (Inv & row & RP & Hi & Hr).
    pose proof (BS_Props.C32_first_call tries M kdk st (write newton_only) (read newton_only) set_sync (simple_run newton_only kdk) (fun _ _ _ => 0) next lim Inv row s h HM Ht RP Hi Hr) as Y.
    cbv zeta in Y. destruct (BS_Model.iterate tries M kdk st _ _ _ _ _ next lim (bs_init M) s h) as [[[b' s'] h1]| |]; [eauto| |contradiction].
    exfalso. apply (Y 1%nat ltac:(lia)). exists (tabv (M + 1) (length (write newton_only s)) (fun j => row h (h_at (M + 1) j)) 0 1), (tabv (M + 1) (length (write newton_only s)) (fun j => row h (h_at (M + 1) j)) 1 1).
    split; [apply tabv_extrapolant; lia|]. split; [apply tabv_extrapolant; lia|]. lra. }
  destruct E as (b' & s' & h1 & E). rewrite E in X. clear E.
  exists c. unfold bs_chain. destruct (BS_Model.iterate tries M kdk cst _ _ _ _ _ next lim (bs_init M) (cpre_iter newton_only c) h) as [[[b2 c2] h2]| |]; cbn [orel] in X; try contradiction.
  destruct X as (_ & _ & Mt). cbn [fst snd] in Mt. destruct Mt as (C2 & Ei & Es & Ns & Wm & L).
  assert (N1 : npart (c_st c2) = n) by (rewrite <- npart_strip, Es, npart_strip; auto).
  destruct (reindex_exists c2 (cart_ok_of _ c2 C2) ltac:(lia)) as (o1 & Ho1).
  destruct (reindex_ok c2 o1 (cart_ok_of _ c2 C2)) as (c' & -> & _); [lia|auto|].
  exists b2, c', h2. split; auto. split; auto. cbn [then_reindex]. exists (Ok c'). auto.
Qed.
Print Assumptions C73_chain_bs_call. Print Assumptions C73_archain_bs_call. Print Assumptions C73_chain_bs_defined. Print Assumptions C73_archain_bs_defined.
Print Assumptions C73_built_ready. Print Assumptions C73_bs_runs_conserve. Print Assumptions C73_chain_sequent_call. Print Assumptions C73_archain_sequent_call.
Print Assumptions C73_sequent_runs_conserve. Print Assumptions C73_simulation. Print Assumptions C73_AR_Chain_simulation.
