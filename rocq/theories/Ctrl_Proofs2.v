(** The Cartesian systems restart as the sequent iterator needs. *)
From Verif Require Import System_Spec System_Proofs System_Proofs2 Ctrl_Model Ctrl_Spec Ctrl_Proofs.
Open Scope R_scope.

Section Inst.
  Variable I : inter. Variable e : nat. Hypothesis HI : sized I.
  Variables (dr ki : st -> R -> st) (wr : st -> list R) (rd : st -> list R -> outcome st) (E : st -> st -> Prop).
  Variable l : list op.
  Hypothesis ws_dr : forall s h, well_sized I e s -> well_sized I e (dr s h).
  Hypothesis ws_ki : forall s h, well_sized I e s -> well_sized I e (ki s h).
  Hypothesis m_dr : forall s h, s_m (dr s h) = s_m s.
  Hypothesis m_ki : forall s h, s_m (ki s h) = s_m s.
  Hypothesis E_dr : forall s s' h, E s s' -> E (dr s h) (dr s' h).
  Hypothesis E_ki : forall s s' h, E s s' -> E (ki s h) (ki s' h).
  Hypothesis E_wr : forall s s', E s s' -> wr s = wr s'.
  Hypothesis rd_ok : forall p s, well_sized I e p -> well_sized I e s -> s_m p = s_m s -> exists q, rd p (wr s) = Ok q /\ E q s /\ well_sized I e q /\ s_m q = s_m s.
  Definition ginteg (s : st) (h : R) : outcome st := Ok (integrate dr ki l s h).
  Lemma run_inv s h : well_sized I e s -> well_sized I e (integrate dr ki l s h) /\ s_m (integrate dr ki l s h) = s_m s.
  Proof.
    unfold integrate. revert s. induction l as [|[c|c] t IH]; intros s W; cbn [fold_left]; auto; cbn [run_op].
    - destruct (IH (dr s (c * h)) (ws_dr _ _ W)) as [A B]. rewrite m_dr in B. auto.
    - destruct (IH (ki s (c * h)) (ws_ki _ _ W)) as [A B]. rewrite m_ki in B. auto.
  Qed.
  Lemma run_E s s' h : E s s' -> E (integrate dr ki l s h) (integrate dr ki l s' h).
  Proof. unfold integrate. revert s s'. induction l as [|[c|c] t IH]; intros s s' H; cbn [fold_left]; auto; apply IH; cbn [run_op]; auto. Qed.
  Fixpoint nrun (n : nat) (s : st) (h : R) : st := match n with O => s | S n' => nrun n' (integrate dr ki l s h) h end.
  Lemma steps_nrun n s h : steps ginteg n s h = Ok (nrun n s h).
  Proof. revert s. induction n; intros s; cbn; auto. Qed.
  Lemma nrun_inv n s h : well_sized I e s -> well_sized I e (nrun n s h) /\ s_m (nrun n s h) = s_m s.
  Proof.
    revert s. induction n; intros s W; cbn [nrun]; auto. destruct (run_inv s h W) as [A B]. destruct (IHn _ A) as [A' B']. rewrite B in B'. auto.
  Qed.
  Lemma nrun_E n s s' h : E s s' -> E (nrun n s h) (nrun n s' h).
  Proof. revert s s'. induction n; intros s s' H; cbn [nrun]; auto. apply IHn, run_E; auto. Qed.
  Lemma inst_restarts s0 macro : well_sized I e s0 ->
    restarts wr rd ginteg (fun p => well_sized I e p /\ s_m p = s_m s0) (wr s0) macro (fun n => wr (nrun n s0 (macro / INR n))).
  Proof.
    intros W0. split.
    - intros p n Hn [Wp Mp]. destruct (rd_ok p s0 Wp W0 Mp) as (q & Hq & Eq & Wq & Mq). exists q, (nrun n q (macro / INR n)).
      split; auto. rewrite steps_nrun. split; auto. destruct (nrun_inv n q (macro / INR n) Wq) as [A B].
      split; [apply E_wr, nrun_E; auto|]. split; auto. congruence.
    - intros p n Hn [Wp Mp]. destruct (nrun_inv n s0 (macro / INR n) W0) as [A B].
      destruct (rd_ok p (nrun n s0 (macro / INR n)) Wp A) as (q & Hq & Eq & Wq & Mq); [congruence|]. exists q. split; auto.
  Qed.
End Inst.

(** Equality of what drifts and kicks of the plain system read. *)
Definition seqv (I : inter) (s s' : st) : Prop :=
  s_m s = s_m s' /\ s_t s = s_t s' /\ s_p s = s_p s' /\ s_v s = s_v s' /\ (I_dep I = true -> s_w s = s_w s').
Lemma seqv_drift I s s' h : seqv I s s' -> seqv I (drift s h) (drift s' h).
Proof. intros (A & B & C & D & F). repeat split; cbn; auto; congruence. Qed.
Lemma seqv_kick I s s' h : seqv I s s' -> seqv I (kick I s h) (kick I s' h).
Proof.
  intros (A & B & C & D & F). unfold kick. destruct (I_dep I) eqn:ID.
  - specialize (F eq_refl). repeat split; cbn; intros; auto; rewrite ?A, ?C, ?D, ?F; reflexivity.
  - unfold eval_total. rewrite ID. repeat split; cbn; intros; auto; try congruence; rewrite ?A, ?C, ?D; reflexivity.
Qed.
Lemma seqv_write I s s' : seqv I s s' -> write I s = write I s'.
Proof. intros (A & B & C & D & F). unfold write. rewrite B, C, D. destruct (I_dep I); [rewrite F; auto|auto]. Qed.
Lemma kick_mass I s h : s_m (kick I s h) = s_m s.
Proof. unfold kick. destruct (I_dep I); reflexivity. Qed.
Lemma simple_restarts I l s0 macro : sized I -> well_sized I 1 s0 ->
  restarts (write I) (read I) (ginteg drift (kick I) l) (fun p => well_sized I 1 p /\ s_m p = s_m s0) (write I s0) macro
           (fun n => write I (nrun drift (kick I) l n s0 (macro / INR n))).
Proof.
  intros HI W. apply (inst_restarts I 1 drift (kick I) (write I) (read I) (seqv I)); auto.
  - intros; apply ws_drift; auto.
  - intros; apply ws_kick; auto.
  - intros; apply kick_mass.
  - intros; apply seqv_drift; auto.
  - intros; apply seqv_kick; auto.
  - intros; apply seqv_write; auto.
  - intros p s Wp Ws M. rewrite (read_write I s p Ws M). eexists. split; [reflexivity|].
    destruct Ws as (A & B & C & D). destruct Wp as (A' & B' & C' & D'). unfold npart in *.
    split; [repeat split; cbn; auto; intros H; rewrite H; auto|]. split; [|auto].
    repeat split; unfold npart in *; cbn; auto; try congruence. intros H; rewrite H. rewrite M. auto.
Qed.
Lemma read_self I s : well_sized I 1 s -> read I s (write I s) = Ok s.
Proof. intros W. rewrite (read_write I s s W eq_refl). destruct s; cbn. destruct (I_dep I); reflexivity. Qed.
