(** Sequent iterator: lock-step under a change of coordinates, and what it conserves. *)
From Verif Require Export Meth_Proofs3 Ctrl_Proofs Ctrl_Proofs2.
From Verif Require Import System_Proofs System_Proofs2 System_Proofs3 System_Proofs4 System_Props Build_Props Meth_Spec Ctrl_Model.
Import System_Spec.
Open Scope R_scope.

Definition serrQ (err : list R -> list R -> list R -> ext) (T : list R -> list R) (a b c : list R) : ext := err (T a) (T b) (T c).
Section SeqSim.
  Context (P Q : Type) (wrP : P -> list R) (wrQ : Q -> list R) (rdP : P -> list R -> outcome P) (rdQ : Q -> list R -> outcome Q)
          (inP : P -> R -> outcome P) (inQ : Q -> R -> outcome Q) (err errq : list R -> list R -> list R -> ext) (nxt : nat -> ext -> outcome ext) (order : nat)
          (T : list R -> list R) (n : nat) (Rl : P -> Q -> Prop).
  Context (Hwr : forall p q, Rl p q -> wrP p = T (wrQ q) /\ length (wrQ q) = n)
          (Hrd : forall p q y, Rl p q -> length y = n -> exists p' q', rdP p (T y) = Ok p' /\ rdQ q y = Ok q' /\ Rl p' q')
          (Hin : forall p q h, Rl p q -> exists p' q', inP p h = Ok p' /\ inQ q h = Ok q' /\ Rl p' q')
          (Herr : forall a b c, length a = n -> length b = n -> length c = n -> err (T a) (T b) (T c) = errq a b c).
  Lemma steps_sim h : forall k p q, Rl p q -> exists p' q', steps inP k p h = Ok p' /\ steps inQ k q h = Ok q' /\ Rl p' q'.
  Proof.
    induction k as [|k IH]; intros p q H; cbn [steps]; [eauto|].
    destruct (Hin p q h H) as (p' & q' & -> & -> & H'). cbn [obind]. apply IH; auto.
  Qed.
  Definition Rs (x : P * ext * list R) (y : Q * ext * list R) : Prop :=
    Rl (fst (fst x)) (fst (fst y)) /\ snd (fst x) = snd (fst y) /\ snd x = T (snd y) /\ length (snd y) = n.
  Lemma seq_loop_sim input macro : length input = n -> forall f i p q out dual dualP e, Rl p q -> length out = n -> (f = O -> dualP = T dual /\ length dual = n) ->
    orel Rs (seq_loop wrP rdP inP err order f i p (T input) (T out) dualP e macro) (seq_loop wrQ rdQ inQ errq order f i q input out dual e macro).
  Proof.
    intros Li. induction f as [|f IH]; intros i p q out dual dualP e H Lo Hd; cbn [seq_loop].
    - destruct (Hd eq_refl) as (-> & L). split; auto.
    - apply orel_eq. intros m. apply orel_eq. intros m'.
      destruct (Hrd p q input H Li) as (p1 & q1 & -> & -> & H1). cbn [obind].
      destruct (steps_sim (macro / INR m) m p1 q1 H1) as (p2 & q2 & -> & -> & H2). cbn [obind].
      destruct (Hwr p2 q2 H2) as (-> & L2). rewrite (Herr input out (wrQ q2)) by auto.
      destruct (ele (scaled_error order m m' (errq input out (wrQ q2))) (Fin 1)).
      + split; auto.
      + apply IH; auto.
  Qed.
  Lemma seq_sim max_iter dual0 dual0' p q macro : (1 <= max_iter)%nat -> Rl p q ->
    orel (fun x y => Rl (fst x) (fst y) /\ snd x = snd y) (seq_iterate wrP rdP inP err nxt order max_iter dual0 p macro)
         (seq_iterate wrQ rdQ inQ errq nxt order max_iter dual0' q macro).
  Proof.
    intros Hm H. unfold seq_iterate. destruct (Hwr p q H) as (-> & L). destruct (Hin p q macro H) as (p1 & q1 & -> & -> & H1). cbn [obind].
    destruct (Hwr p1 q1 H1) as (-> & L1).
    eapply orel_bind; [apply seq_loop_sim; auto; intros; lia|]. intros [[p2 e] dual] [[q2 e'] dual'] (X1 & X2 & X3 & X4). cbn [fst snd] in *. subst e' dual.
    destruct (Hrd p2 q2 dual' X1 X4) as (p3 & q3 & -> & -> & H3). cbn [obind]. apply orel_eq. intros r. cbn. auto.
  Qed.
End SeqSim.

(** Invariants of the sequent iterator. *)
Section SeqInv.
  Context (P : Type) (wr : P -> list R) (rd : P -> list R -> outcome P) (integ : P -> R -> outcome P) (err : list R -> list R -> list R -> ext)
          (nxt : nat -> ext -> outcome ext) (order : nat) (G : P -> Prop).
  Context (Hin : forall p h p', G p -> integ p h = Ok p' -> G p') (Hrd : forall p q p', G p -> G q -> rd p (wr q) = Ok p' -> G p').
  Lemma steps_inv h : forall k p p', G p -> steps integ k p h = Ok p' -> G p'.
  Proof.
    induction k as [|k IH]; intros p p' H E; cbn [steps] in E; [congruence|]. destruct (integ p h) as [p1| |] eqn:E1; try discriminate. cbn [obind] in E. exact (IH p1 p' (Hin p h p1 H E1) E).
  Qed.
  Definition good (y : list R) : Prop := exists q, G q /\ y = wr q.
  Lemma seq_loop_inv input macro : good input -> forall f i p out dual e p' e' d, G p -> good out -> (f = O -> good dual) ->
    seq_loop wr rd integ err order f i p input out dual e macro = Ok (p', e', d) -> G p' /\ good d.
  Proof.
    intros (q0 & G0 & ->). induction f as [|f IH]; intros i p out dual e p' e' d Hp Ho Hd E; cbn [seq_loop] in E.
    - assert (p = p' /\ dual = d) as (<- & <-) by (split; congruence). auto.
    - destruct (aget ns i) as [m| |]; try discriminate. destruct (aget ns (i - 1)) as [m'| |]; try discriminate. cbn [obind] in E.
      destruct (rd p (wr q0)) as [q| |] eqn:E1; try discriminate. cbn [obind] in E.
      destruct (steps integ m q (macro / INR m)) as [p1| |] eqn:E2; try discriminate. cbn [obind] in E.
      assert (Gq : G q) by exact (Hrd p q0 q Hp G0 E1). assert (G1 : G p1) by (eapply steps_inv; eauto).
      destruct (ele _ _).
      + assert (p1 = p' /\ wr p1 = d) as (<- & <-) by (split; congruence). split; auto. exists p1; auto.
      + eapply IH; [..|exact E]; auto. exists p1; auto.
  Qed.
  Lemma seq_inv max_iter dual0 p macro p' e : (1 <= max_iter)%nat -> G p -> seq_iterate wr rd integ err nxt order max_iter dual0 p macro = Ok (p', e) -> G p'.
  Proof.
    intros Hm Hp E. unfold seq_iterate in E. destruct (integ p macro) as [p1| |] eqn:E1; try discriminate. cbn [obind] in E.
    assert (G1 : G p1) by exact (Hin p macro p1 Hp E1).
    destruct (seq_loop wr rd integ err order max_iter 1 p1 (wr p) (wr p1) dual0 (Fin 0) macro) as [[[p2 e2] d]| |] eqn:E2; try discriminate. cbn [obind] in E.
    destruct (seq_loop_inv (wr p) macro) with (f := max_iter) (i := 1%nat) (p := p1) (out := wr p1) (dual := dual0) (e := Fin 0) (p' := p2) (e' := e2) (d := d) as (G2 & q & Gq & ->); auto.
    - exists p; auto.
    - exists p1; auto.
    - intros; lia.
    - destruct (rd p2 (wr q)) as [p3| |] eqn:E3; try discriminate. cbn [obind] in E. destruct (nxt order e2) as [r| |]; try discriminate. cbn [obind] in E.
      assert (p3 = p') as <- by congruence. exact (Hrd p2 q p3 G2 Gq E3).
  Qed.
End SeqInv.

(** * plain and regularised systems *)
Lemma same_conserves s0 s s' : same_physics s s' -> conserves s0 s -> conserves s0 s'.
Proof. intros (A & B & D & F). unfold conserves, momentum, angular, moment, npart. rewrite A, B, D, F. auto. Qed.
Lemma same_conserves0 s s' s1 : same_physics s s' -> conserves s s1 -> conserves s' s1.
Proof. intros (A & B & D & F). unfold conserves, momentum, angular, moment, npart. rewrite A, B, D, F. auto. Qed.
Lemma conserves_drifts s s' : conserves s s' -> drifts s s'.
Proof. intros (A & B & D & F). repeat split; auto. Qed.
Lemma seq_simple_conserves I l err nxt order mi dual0 s h s' e : sized I -> balanced I -> well_sized I 1 s -> (1 <= mi)%nat ->
  seq_simple I l err nxt order mi dual0 s h = Ok (s', e) -> well_sized I 1 s' /\ conserves s s'.
Proof.
  intros HI HB W Hm E. unfold seq_simple in E.
  assert (W0 : well_sized I 1 (pre_iter I s)).
  { apply ws_pre; auto. }
  assert (X : well_sized I 1 s' /\ conserves (pre_iter I s) s').
  { refine (seq_inv st (write I) (read I) _ err nxt order (fun z => well_sized I 1 z /\ conserves (pre_iter I s) z) _ _ mi dual0 (pre_iter I s) h s' e Hm _ E).
    - intros p k p' (Wp & Cp) Ep. assert (integrate drift (kick I) l p k = p') as <- by congruence. split.
      + apply (integrate_P drift (kick I) (well_sized I 1)); auto; intros; [apply ws_drift|apply ws_kick]; auto.
      + eapply conserves_trans; [exact Cp|]. apply simple_conserves; auto.
    - intros p q p' (Wp & Cp) (Wq & Cq) Ep.
      assert (Em : s_m p = s_m q) by (destruct Cp as (_ & _ & -> & _), Cq as (_ & _ & -> & _); auto).
      rewrite (read_write I q p Wq Em) in Ep. assert (Z := f_equal (fun o => match o with Ok x => x | _ => p end) Ep). cbn in Z. subst p'. split.
      + destruct Wp as (A & B & D & F), Wq as (A' & B' & D' & F'). unfold well_sized, npart in *. cbn. rewrite Em in *. repeat split; auto. intros Hd; rewrite Hd; auto.
      + apply (same_conserves _ q); auto. repeat split; auto.
    - split; auto. apply conserves_refl. }
  destruct X as (X1 & X2). split; auto. eapply same_conserves0; [apply same_pre|exact X2].
Qed.
Lemma seq_regu_conserves I r l err nxt order mi dual0 s h s' e : sized I -> balanced I -> well_sized I 3 s -> (1 <= mi)%nat ->
  seq_regu I r l err nxt order mi dual0 s h = Ok (s', e) -> well_sized I 3 s' /\ conserves s s'.
Proof.
  intros HI HB W Hm E. unfold seq_regu in E.
  assert (W0 : well_sized I 3 (pre_iter I s)).
  { apply ws_pre; auto. }
  assert (X : well_sized I 3 s' /\ conserves (pre_iter I s) s').
  { refine (seq_inv st (rwrite I) (rread I) _ err nxt order (fun z => well_sized I 3 z /\ conserves (pre_iter I s) z) _ _ mi dual0 (pre_iter I s) h s' e Hm _ E).
    - intros p k p' (Wp & Cp) Ep. assert (integrate (rdrift r) (rkick I r) l p k = p') as <- by congruence. split.
      + apply (integrate_P (rdrift r) (rkick I r) (well_sized I 3)); auto; intros; [apply ws_rdrift|apply ws_rkick]; auto.
      + eapply conserves_trans; [exact Cp|]. apply regu_conserves; auto.
    - intros p q p' (Wp & Cp) (Wq & Cq) Ep.
      assert (Em : s_m p = s_m q) by (destruct Cp as (_ & _ & -> & _), Cq as (_ & _ & -> & _); auto).
      rewrite (rread_rwrite I q p Wq Em) in Ep. assert (Z := f_equal (fun o => match o with Ok x => x | _ => p end) Ep). cbn in Z. subst p'. split.
      + destruct Wp as (A & B & D & F), Wq as (A' & B' & D' & F'). unfold well_sized, npart in *. cbn. rewrite Em in *. repeat split; auto. intros Hd; rewrite Hd; auto.
      + apply (same_conserves _ q); auto. repeat split; auto.
    - split; auto. apply conserves_refl. }
  destruct X as (X1 & X2). split; auto. eapply same_conserves0; [apply same_pre|exact X2].
Qed.
(** * chain systems *)
Section SeqChain.
  Context (I : inter) (CI : cinter) (HI : sized I) (n : nat) (A : agree I CI n) (Hn : (2 <= n)%nat) (l : list op).
  Lemma mate_ointegrate e idx (dr ki : st -> R -> st) (cdr cki : cst -> R -> outcome cst)
    (SIM : forall c h, consistent I c -> npart (c_st c) = n -> simulates I (ointegrate cdr cki l c h) (strip (integrate dr ki l (c_st c) h)) (c_idx c))
    (Sdr : forall s h, strip (dr s h) = dr (strip s) h) (Ski : forall s h, strip (ki s h) = ki (strip s) h)
    (Ndr : forall s h, npart (dr s h) = npart s) (Nki : forall s h, npart (ki s h) = npart s)
    (Wdr : forall s h, well_sized I e s -> well_sized I e (dr s h)) (Wki : forall s h, well_sized I e s -> well_sized I e (ki s h)) :
    forall c s h, Mate0 I n e idx c s -> exists c' s', ointegrate cdr cki l c h = Ok c' /\ Ok (integrate dr ki l s h) = Ok s' /\ Mate0 I n e idx c' s'.
  Proof.
    intros c s h (C & Ei & Es & Ns & W). assert (Nc : npart (c_st c) = n) by (rewrite <- npart_strip, Es, npart_strip; auto).
    destruct (SIM c h C Nc) as (c' & E & (C' & S') & X'). exists c', (integrate dr ki l s h). split; auto. split; auto.
    split; auto. split; [congruence|]. split; [rewrite S', !strip_integrate by auto; congruence|].
    split; [apply (integrate_P dr ki (fun z => npart z = n)); auto; intros; [rewrite Ndr|rewrite Nki]; auto|].
    apply (integrate_P dr ki (well_sized I e)); auto.
  Qed.
  Lemma mate_write e idx c s : (e = 1 \/ e = 3)%nat -> Mate0 I n e idx c s ->
    gcwrite I e c = chain_array I n idx (gwrite I e s) /\ length (gwrite I e s) = variable_number I e n.
  Proof.
    intros He (C & Ei & Es & Ns & W). assert (Nc : npart (c_st c) = n) by (rewrite <- npart_strip, Es, npart_strip; auto).
    split; [rewrite (gcwrite_form I e c C), Nc, Ei, (strip_gwrite I e _ s Es); reflexivity|]. rewrite (gw_length I e He s W), Ns. reflexivity.
  Qed.
  (** the Cartesian state with a fresh increment array *)
  Definition plain (e : nat) (c : cst) : st := let s := pre_iter I (c_st c) in
    mkSt (s_m s) (s_t s) (s_p s) (s_v s) (s_w s) (s_om s) (s_be s) (s_sc s) (repeat 0 (variable_number I e (npart s))) (s_sync s).
  Lemma plain_same e c : same_physics (plain e c) (c_st c).
  Proof. unfold plain, pre_iter. destruct (I_dep I); repeat split. Qed.
  Lemma plain_pre e c : pre_iter I (plain e c) = plain e c.
  Proof. unfold plain, pre_iter, npart. destruct (I_dep I); reflexivity. Qed.
  Lemma mate_start e c : cart_ok c -> npart (c_st c) = n -> Mate0 I n e (c_idx c) (cpre_iter I c) (plain e c).
  Proof.
    intros C N. assert (C0 := cart_ok_pre I c C). split; auto. split; [unfold cpre_iter; destruct (I_dep I); reflexivity|].
    split; [rewrite st_pre; reflexivity|]. split; [unfold plain, pre_iter, npart in *; destruct (I_dep I); exact N|].
    destruct (consistent_sized I _ C0) as (X & Y & Z). rewrite st_pre in X, Y, Z. unfold well_sized, plain, npart in *. cbn. rewrite repeat_length. auto.
  Qed.
  Lemma mate_reindex e idx c1 s' o x : Mate0 I n e idx c1 s' -> seq_then_reindex (Ok (c1, x)) o ->
    exists c', o = Ok (c', x) /\ cart_ok c' /\ npart (c_st c') = n /\ strip (c_st c') = strip s'.
  Proof.
    intros (C1 & Ei & Es & Ns & W) (o1 & Ho & ->).
    assert (N1 : npart (c_st c1) = n) by (rewrite <- npart_strip, Es, npart_strip; auto).
    destruct (reindex_ok c1 o1 (cart_ok_of I c1 C1)) as (c' & -> & C' & E'); [lia|auto|]. cbn [obind]. exists c'. split; auto.
    rewrite E'. auto.
  Qed.
  Lemma seq_chain_sim err nxt order mi dual0 dual1 c h : cart_ok c -> npart (c_st c) = n -> (1 <= mi)%nat ->
    orel (fun x y => Mate0 I n 1 (c_idx c) (fst x) (fst y) /\ snd x = snd y)
      (seq_iterate (cwrite I) (cread I) (ointegrate cdrift (ckick I CI) l) err nxt order mi dual0 (cpre_iter I c) h)
      (seq_simple I l (serrQ err (chain_array I n (c_idx c))) nxt order mi dual1 (plain 1 c) h).
  Proof.
    intros C N Hm. unfold seq_simple. rewrite plain_pre.
    apply (seq_sim cst st (cwrite I) (write I) (cread I) (read I) (ointegrate cdrift (ckick I CI) l) _ err (serrQ err (chain_array I n (c_idx c))) nxt order (chain_array I n (c_idx c))
             (variable_number I 1 n) (Mate0 I n 1 (c_idx c))); auto.
    - intros p q M. destruct (mate_write 1 _ p q (or_introl eq_refl) M) as (X & Y). rewrite <- gwrite1, <- X. split; auto. rewrite cwrite_pack. reflexivity.
    - intros p q y M L. destruct (fin_read I 1 n (c_idx c) p q y) as (p' & q' & X1 & X2 & X3 & _); auto; [lia|]. exists p', q'. auto.
    - apply (mate_ointegrate 1 (c_idx c) drift (kick I) cdrift (ckick I CI)).
      + intros c0 h0 C0 N0. apply chain_sim; auto. rewrite N0; auto.
      + reflexivity.
      + intros; apply strip_kick.
      + reflexivity.
      + intros; apply npart_kick.
      + intros; apply ws_drift; auto.
      + intros; apply ws_kick; auto.
    - apply mate_start; auto.
  Qed.
  Lemma seq_archain_sim r err nxt order mi dual0 dual1 c h : cart_ok c -> npart (c_st c) = n -> (1 <= mi)%nat ->
    orel (fun x y => Mate0 I n 3 (c_idx c) (fst x) (fst y) /\ snd x = snd y)
      (seq_iterate (arwrite I) (arread I) (ointegrate (ardrift r) (arkick I CI r) l) err nxt order mi dual0 (cpre_iter I c) h)
      (seq_regu I r l (serrQ err (chain_array I n (c_idx c))) nxt order mi dual1 (plain 3 c) h).
  Proof.
    intros C N Hm. unfold seq_regu. rewrite plain_pre.
    apply (seq_sim cst st (arwrite I) (rwrite I) (arread I) (rread I) (ointegrate (ardrift r) (arkick I CI r) l) _ err (serrQ err (chain_array I n (c_idx c))) nxt order (chain_array I n (c_idx c))
             (variable_number I 3 n) (Mate0 I n 3 (c_idx c))); auto.
    - intros p q M. destruct (mate_write 3 _ p q (or_intror eq_refl) M) as (X & Y). rewrite <- gwrite3, <- X. split; auto. rewrite arwrite_pack. reflexivity.
    - intros p q y M L. destruct (fin_read I 3 n (c_idx c) p q y) as (p' & q' & X1 & X2 & X3 & _); auto; [lia|]. exists p', q'. auto.
    - apply (mate_ointegrate 3 (c_idx c) (rdrift r) (rkick I r) (ardrift r) (arkick I CI r)).
      + intros c0 h0 C0 N0. apply archain_sim; auto; rewrite N0; auto.
      + intros; apply strip_rdrift.
      + intros; apply strip_rkick.
      + intros; apply npart_rdrift.
      + intros; apply npart_rkick.
      + intros; apply ws_rdrift; auto.
      + intros; apply ws_rkick; auto.
    - apply mate_start; auto.
  Qed.
End SeqChain.
