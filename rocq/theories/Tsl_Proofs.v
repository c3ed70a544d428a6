(** Lemmas for C102. *)
From Verif Require Import Tsl_Model Tsl_Spec.
From Coq Require Import List Arith Lia Bool.
Import ListNotations.
Lemma set_same A (f : nat -> A) i x : set f i x i = x.
Proof. unfold set. now rewrite Nat.eqb_refl. Qed.
Lemma set_other A (f : nat -> A) i x j : j <> i -> set f i x j = f j.
Proof. intros N. unfold set. destruct (Nat.eqb_spec j i); congruence. Qed.
(** How many of the first N are so. *)
Fixpoint cnt (N : nat) (f : pc -> bool) (k : nat -> pc) : nat := match N with 0 => 0 | S n => Nat.b2n (f (k n)) + cnt n f k end.
Lemma cnt_high n f k w p : n <= w -> cnt n f (set k w p) = cnt n f k.
Proof. induction n as [|n IH]; intros H; cbn [cnt]; auto. rewrite set_other, IH by lia. auto. Qed.
Lemma cnt_set N f k w p : w < N -> cnt N f (set k w p) + Nat.b2n (f (k w)) = cnt N f k + Nat.b2n (f p).
Proof.
  induction N as [|n IH]; intros H; [lia|]. cbn [cnt]. destruct (Nat.eq_dec w n) as [->|Q]; [rewrite set_same, cnt_high by lia; lia|]. rewrite set_other by auto. specialize (IH ltac:(lia)). lia.
Qed.
Lemma cnt_pos N f k w : w < N -> f (k w) = true -> 0 < cnt N f k.
Proof. induction N as [|n IH]; intros H E; [lia|]. cbn [cnt]. destruct (Nat.eq_dec w n) as [->|Q]; [rewrite E; cbn; lia|]. specialize (IH ltac:(lia) E). lia. Qed.
Lemma cnt_ex N f k : cnt N f k <> 0 -> exists w, w < N /\ f (k w) = true.
Proof. induction N as [|n IH]; cbn [cnt]; [lia|]. intros H. destruct (f (k n)) eqn:E; [exists n; auto|]. destruct IH as (w & L & Ew); [cbn in H; lia|]. exists w. split; auto. Qed.
Lemma cnt_none N f k : (forall w, w < N -> f (k w) = false) -> cnt N f k = 0.
Proof. intros H. destruct (Nat.eq_dec (cnt N f k) 0) as [|Q]; auto. apply cnt_ex in Q as (w & L & E). rewrite H in E by auto. discriminate. Qed.
Definition tc (p : pc) : bool := match p with Th | Got | Prep | Canc1 | Steal | Chk | Chk2 | DCanc | DNtf | DDec => true | _ => false end.
Definition ac (p : pc) : bool := match p with Act1 | Ntf2 | Run | Leave => true | _ => false end.
Definition ended (p : pc) : bool := match p with DCanc | DNtf | DDec | Exit => true | _ => false end.
(** Past the check of the shared queue. *)
Definition past (p : pc) : bool := match p with Chk | Chk2 | Last | LastQ | Com | Sleep => true | _ => false end.
(** Past the check of _done. *)
Definition past2 (p : pc) : bool := match p with Chk2 | Last | LastQ | Com | Sleep => true | _ => false end.
Definition idle (p : pc) : bool := match p with LastQ | Com | Sleep => true | _ => false end.
Definition helps (p : pc) : bool := match p with Start | Last | Ntf1 | Act1 | Ntf2 | Canc0 => true | _ => false end.
Definition alive (s : st) (w : nat) : Prop := past (wk s w) = true -> tok s w = true.
Definition help (s : st) (w : nat) : Prop := helps (wk s w) = true \/ idle (wk s w) = true /\ tok s w = true.
Definition dorm (s : st) (w : nat) : Prop := idle (wk s w) = true /\ tok s w = false.
Definition busy (x : ext) : Prop := x <> Idle /\ x <> Nt 0.
(** The counters, and what the queues and _done say. *)
Record inv (N : nat) (s : st) : Prop := mkI {
  i_th : thieves s = cnt N tc (wk s);
  i_ac : actives s = cnt N ac (wk s);
  i_lq : forall w, w < N -> lq s w <> 0 -> wk s w = Run;
  i_end : forall w, w < N -> ended (wk s w) = true -> done s = true;
  i_psh : forall k n r, ex s k = Psh n r -> n <> 0 }.
Lemma one_mono N s t u : one N s t -> tok s u = true -> t u = true.
Proof. destruct 1; auto. intros T. unfold set. destruct (u =? w); auto. Qed.
Lemma all_mono s u : tok s u = true -> all s u = true.
Proof. unfold all. now destruct (waiting (wk s u)). Qed.
(** What a worker's step does to the others. *)
Lemma step_other N s w s' u : wstep N s w (wk s w) s' -> u <> w -> wk s' u = wk s u /\ (tok s u = true -> tok s' u = true) /\ ex s' = ex s /\ done s' = done s /\ gq s' <= gq s.
Proof.
  intros H Q. remember (wk s w) as p eqn:E. destruct H; cbn [wk tok ex gq done]; rewrite ?set_other by auto; repeat split; auto; try lia; try (apply all_mono); try (eapply one_mono; eauto; fail).
Qed.
Lemma step_ex N s w s' : wstep N s w (wk s w) s' -> ex s' = ex s /\ done s' = done s /\ gq s' <= gq s.
Proof. intros H. destruct (step_other N s w s' (S w) H ltac:(lia)) as (_ & _ & X). exact X. Qed.
Lemma work_inv N s w s' : inv N s -> w < N -> wstep N s w (wk s w) s' -> inv N s'.
Proof.
  intros I L H. destruct (step_ex _ _ _ _ H) as (Ex & Ed & _). constructor.
  - pose proof (i_th _ _ I) as T. remember (wk s w) as p eqn:E. destruct H; cbn [wk thieves]; auto; try (match goal with |- context [cnt N tc (set (wk s) w ?q)] => pose proof (cnt_set N tc (wk s) w q L) as C end; rewrite <- E in C; cbn [tc Nat.b2n] in C; lia).
    + pose proof (cnt_set N tc (wk s) w (if thieves s =? 1 then Ntf1 else Act0) L) as C. rewrite <- E in C. destruct (thieves s =? 1); cbn [tc Nat.b2n] in C; lia.
    + pose proof (cnt_set N tc (wk s) w (if actives s =? 0 then Act1 else Run) L) as C. rewrite <- E in C. destruct (actives s =? 0); cbn [tc Nat.b2n] in C; lia.
    + pose proof (cnt_set N tc (wk s) w (if thieves s =? 0 then Ntf2 else Run) L) as C. rewrite <- E in C. destruct (thieves s =? 0); cbn [tc Nat.b2n] in C; lia.
    + pose proof (cnt_set N tc (wk s) w (if thieves s =? 1 then Last else Com) L) as C. rewrite <- E in C. destruct (thieves s =? 1); cbn [tc Nat.b2n] in C; lia.
    + pose proof (cnt_set N tc (wk s) w (if actives s =? 0 then LastQ else Canc0) L) as C. rewrite <- E in C. destruct (actives s =? 0); cbn [tc Nat.b2n] in C; lia.
  - pose proof (i_ac _ _ I) as T. remember (wk s w) as p eqn:E. destruct H; cbn [wk actives]; auto; try (match goal with |- context [cnt N ac (set (wk s) w ?q)] => pose proof (cnt_set N ac (wk s) w q L) as C end; rewrite <- E in C; cbn [ac Nat.b2n] in C; lia).
    + pose proof (cnt_set N ac (wk s) w (if thieves s =? 1 then Ntf1 else Act0) L) as C. rewrite <- E in C. destruct (thieves s =? 1); cbn [ac Nat.b2n] in C; lia.
    + pose proof (cnt_set N ac (wk s) w (if actives s =? 0 then Act1 else Run) L) as C. rewrite <- E in C. destruct (actives s =? 0); cbn [ac Nat.b2n] in C; lia.
    + pose proof (cnt_set N ac (wk s) w (if thieves s =? 0 then Ntf2 else Run) L) as C. rewrite <- E in C. destruct (thieves s =? 0); cbn [ac Nat.b2n] in C; lia.
    + pose proof (cnt_set N ac (wk s) w (if thieves s =? 1 then Last else Com) L) as C. rewrite <- E in C. destruct (thieves s =? 1); cbn [ac Nat.b2n] in C; lia.
    + pose proof (cnt_set N ac (wk s) w (if actives s =? 0 then LastQ else Canc0) L) as C. rewrite <- E in C. destruct (actives s =? 0); cbn [ac Nat.b2n] in C; lia.
  - intros u Lu Q. pose proof (i_lq _ _ I) as Y. destruct (Nat.eq_dec u w) as [->|Nu].
    + assert (Z := Y w L). remember (wk s w) as p eqn:E. symmetry in E. destruct H; cbn [wk lq] in *; rewrite ?set_same in *; auto; try (rewrite set_other in Q by auto); try (exfalso; apply Z in Q; discriminate); try contradiction.
    + destruct (step_other N s w s' u H Nu) as (-> & _). assert (Z := Y u Lu). destruct H; cbn [wk lq] in *; auto; try (rewrite set_other in Q by auto; auto; fail). destruct (Nat.eq_dec u v) as [->|Nv]; [apply Z; lia|rewrite set_other in Q; auto].
  - intros u Lu Q. rewrite Ed. pose proof (i_end _ _ I u Lu) as Y. destruct (Nat.eq_dec u w) as [->|Nu]; [|destruct (step_other N s w s' u H Nu) as (Z & _); rewrite Z in Q; auto].
    remember (wk s w) as p eqn:E. symmetry in E. destruct H; cbn [wk] in Q; rewrite ?set_same in Q; auto; try discriminate; try (destruct (thieves s =? 1); discriminate); try (destruct (actives s =? 0); discriminate); try (destruct (thieves s =? 0); discriminate); rewrite E in Q; discriminate.
  - rewrite Ex. apply I.
Qed.
Lemma ext_inv N s k s' : inv N s -> estep N s k (ex s k) s' -> inv N s'.
Proof.
  intros I H. constructor.
  - destruct H; apply I.
  - destruct H; apply I.
  - destruct H; apply I.
  - intros w L Q. pose proof (i_end _ _ I w L) as Y. destruct H; cbn [wk done] in *; auto.
  - intros j n r. pose proof (i_psh _ _ I j n r) as Y. remember (ex s k) as x eqn:E. symmetry in E. destruct (Nat.eq_dec j k) as [->|Nj]; [|destruct H; cbn [ex]; rewrite set_other by auto; auto].
    destruct H; cbn [ex]; rewrite set_same; try discriminate; [congruence|intros [= -> ->]; eapply (i_psh _ _ I k); eauto|destruct (N <=? n0); discriminate].
Qed.
Lemma reach_inv N s : reachable N s -> inv N s.
Proof.
  induction 1 as [|s w s' R I L H|s k s' R I H]; [|eapply work_inv; eauto|eapply ext_inv; eauto].
  constructor; cbn [init thieves actives wk lq ex done]; try discriminate; try (symmetry; apply cnt_none; reflexivity). intros w _ Q. now destruct Q.
Qed.
(** Tasks in the shared queue. *)
Lemma alive_step N s w s' u : wstep N s w (wk s w) s' -> alive s u -> gq s' <> 0 -> alive s' u.
Proof.
  unfold alive. intros H A G. destruct (Nat.eq_dec u w) as [->|Nu]; [|destruct (step_other N s w s' u H Nu) as (-> & T & _); auto].
  remember (wk s w) as p eqn:E. symmetry in E. destruct H; cbn [wk tok gq] in *; rewrite ?set_same; cbn [past] in *; auto; try discriminate; try contradiction; try (destruct (thieves s =? 1); cbn [past]; auto; discriminate); try (destruct (actives s =? 0); cbn [past]; auto; discriminate); try (destruct (thieves s =? 0); cbn [past]; auto; discriminate); try (rewrite E; discriminate).
Qed.
Lemma one_alive N s t : N <> 0 -> one N s t -> exists u, u < N /\ (past (wk s u) = true -> t u = true).
Proof. intros Nz [w L W T|Q]; [exists w; split; auto; intros _; apply set_same|]. exists 0. split; [lia|]. intros P. apply Q; [lia|]. destruct (wk s 0); auto; discriminate. Qed.
Lemma all_alive s u : past (wk s u) = true -> all s u = true.
Proof. unfold all. destruct (wk s u); auto; discriminate. Qed.
Lemma tasks N s : N <> 0 -> reachable N s -> gq s <> 0 -> (exists k, busy (ex s k)) \/ exists w, w < N /\ alive s w.
Proof.
  intros Nz R. induction R as [|s w s' R IH L H|s k s' R IH H]; intros G; [cbn in G; lia| |].
  - destruct (step_ex _ _ _ _ H) as (Ex & _ & Le). rewrite Ex. destruct IH as [B|(u & Lu & A)]; [lia|now left|right; exists u; split; auto; eapply alive_step; eauto].
  - assert (Keep : forall j, j <> k -> ex s' j = ex s j) by (intros j Nj; destruct H; cbn [ex]; now rewrite set_other).
    assert (K : busy (ex s' k) \/ (exists u, u < N /\ alive s' u) \/ ~ busy (ex s k) /\ gq s' = gq s /\ wk s' = wk s /\ tok s' = tok s).
    { pose proof (i_psh _ _ (reach_inv _ _ R) k) as Y. remember (ex s k) as x eqn:E. symmetry in E. destruct H; cbn [ex gq wk tok]; rewrite set_same.
      - left. split; discriminate.
      - left. split; discriminate.
      - left. specialize (Y n 0 eq_refl). destruct (N <=? n); split; congruence.
      - left. split; discriminate.
      - destruct (one_alive N s t Nz H) as (u & Lu & A). right. left. exists u. auto.
      - right. right. repeat split; auto. intros (_ & B). auto.
      - right. left. exists 0. split; [lia|]. unfold alive. cbn [wk tok]. apply all_alive.
      - left. split; discriminate. }
    destruct K as [K|[K|(Nb & Eg & Ek & Et)]]; [left; eauto|now right|]. rewrite Eg in G. destruct (IH G) as [(j & B)|(u & Lu & A)].
    + left. exists j. rewrite Keep; auto. intros ->. contradiction.
    + right. exists u. split; auto. unfold alive in *. now rewrite Ek, Et.
Qed.
(** Somebody works and somebody sleeps: somebody looks for work. *)
Definition cover (N : nat) (s : st) : Prop := thieves s <> 0 \/ (exists u, u < N /\ help s u) \/ forall u, u < N -> ~ dorm s u.
Lemma one_cover N s t : inv N s -> one N s t -> thieves s <> 0 \/ (exists u, u < N /\ waiting (wk s u) = true /\ (helps (wk s u) = true \/ idle (wk s u) = true /\ t u = true)) \/ forall u, u < N -> ~ (idle (wk s u) = true /\ t u = false).
Proof.
  intros I [w L W T|Q].
  - assert (X : tc (wk s w) = true \/ helps (wk s w) = true \/ idle (wk s w) = true) by (destruct (wk s w); auto; discriminate). destruct X as [X|X].
    + left. rewrite (i_th _ _ I). pose proof (cnt_pos N tc (wk s) w L X). lia.
    + right. left. exists w. rewrite set_same. repeat split; auto. destruct X; auto.
  - right. right. intros u L (D & T). rewrite Q in T; auto; [discriminate|]. destruct (wk s u); auto; discriminate.
Qed.
Lemma counted N s w : inv N s -> w < N -> tc (wk s w) = true -> thieves s <> 0.
Proof. intros I L T. rewrite (i_th _ _ I). pose proof (cnt_pos N tc (wk s) w L T). lia. Qed.
(** A step that leaves the counter of thieves. *)
Lemma cover_keep N s w s' : wstep N s w (wk s w) s' -> cover N s -> thieves s' = thieves s -> (help s w -> help s' w) -> (dorm s' w -> dorm s w) -> cover N s'.
Proof.
  intros H [T|[(u & L & Hu)|D]] Et Hw Dw; [left; congruence|right; left; exists u; split; auto|right; right; intros u L].
  - destruct (Nat.eq_dec u w) as [->|Nu]; auto. destruct (step_other N s w s' u H Nu) as (Ek & T & _). unfold help in *. rewrite Ek. tauto.
  - destruct (Nat.eq_dec u w) as [->|Nu]; [intros Q; apply (D w L); auto|]. destruct (step_other N s w s' u H Nu) as (Ek & T & _). intros (Q1 & Q2). apply (D u L). unfold dorm. rewrite Ek in Q1. split; auto. destruct (tok s u); auto. rewrite T in Q2; auto.
Qed.
Lemma cover_note N s w s' t q : inv N s -> one N s t -> wk s' = set (wk s) w q -> tok s' = t -> thieves s' = thieves s -> waiting (wk s w) = false -> idle q = false -> cover N s'.
Proof.
  intros I O Ek Et Eh Nw Dq. destruct (one_cover N s t I O) as [T|[(u & L & W & Hu)|D]]; [left; congruence|right; left; exists u; split; auto|right; right; intros u L].
  - assert (Nu : u <> w) by congruence. unfold help. rewrite Ek, Et, set_other by auto. exact Hu.
  - unfold dorm. rewrite Ek, Et. destruct (Nat.eq_dec u w) as [->|Nu]; [rewrite set_same; intros (Q & _); congruence|rewrite set_other by auto; apply D; auto].
Qed.
Lemma covers N s : reachable N s -> done s = false -> actives s <> 0 -> cover N s.
Proof.
  induction 1 as [|s w s' R IH L H|s k s' R IH H]; intros Dn A; [cbn in A; lia| |].
  - destruct (step_ex _ _ _ _ H) as (_ & Ed & _). rewrite Ed in Dn. specialize (IH Dn). pose proof (reach_inv _ _ R) as I. pose proof (work_inv _ _ _ _ I L H) as I'. assert (Ct := counted N s' w I' L). assert (H0 := H).
    assert (Hp : help s' w -> cover N s') by (intros Q; right; left; eauto).
    remember (wk s w) as p eqn:E. symmetry in E. destruct H; cbn [wk thieves actives] in *; rewrite ?set_same in *; try (left; cbn [thieves]; apply Ct; reflexivity); try (apply Hp; left; cbn [wk]; rewrite set_same; reflexivity).
    + assert (T := counted N s w I L). rewrite E in T. specialize (T eq_refl). destruct (Nat.eqb_spec (thieves s) 1) as [Q|Q]; [apply Hp; left; cbn [wk]; rewrite set_same; reflexivity|left; cbn [thieves]; lia].
    + apply (cover_note N s w _ t Act0 I H); auto. now rewrite E.
    + destruct (Nat.eqb_spec (actives s) 0) as [Q|Q]; [apply Hp; left; cbn [wk]; rewrite set_same; reflexivity|]. apply (cover_keep N s w); auto; [rewrite E; exact H0| |]; unfold help, dorm; cbn [wk tok]; rewrite ?set_same, ?E; cbn [helps idle]; intuition discriminate.
    + destruct (Nat.eqb_spec (thieves s) 0) as [Q|Q]; [apply Hp; left; cbn [wk]; rewrite set_same; reflexivity|left; exact Q].
    + apply (cover_note N s w _ t Run I H); auto. now rewrite E.
    + apply (cover_keep N s w); auto; rewrite E; exact H0.
    + apply (cover_keep N s w); auto; rewrite E; exact H0.
    + apply (cover_keep N s w); auto; [rewrite E; exact H0| |]; unfold help, dorm; cbn [wk tok]; rewrite ?set_same, ?E; cbn [helps idle]; intuition discriminate.
    + exfalso. pose proof (i_end _ _ I w L) as Q. rewrite E in Q. specialize (Q eq_refl). congruence.
    + assert (T := counted N s w I L). rewrite E in T. specialize (T eq_refl). destruct (Nat.eqb_spec (thieves s) 1) as [Q|Q]; [apply Hp; left; cbn [wk]; rewrite set_same; reflexivity|left; cbn [thieves]; lia].
    + destruct (Nat.eqb_spec (actives s) 0) as [Q|Q]; [contradiction|]. apply Hp. left. cbn [wk]. rewrite set_same. reflexivity.
    + apply (cover_keep N s w); auto; [rewrite E; exact H0| |]; unfold help, dorm; cbn [wk tok]; rewrite ?set_same, ?E; cbn [helps idle]; intuition.
    + apply (cover_keep N s w); auto; [rewrite E; exact H0| |]; unfold help, dorm; cbn [wk tok]; rewrite ?set_same, ?E; cbn [helps idle]; intuition.
  - pose proof (reach_inv _ _ R) as I. destruct H; cbn [done actives] in *; try discriminate; try (exact (IH Dn A)).
    + destruct (one_cover N s t I H) as [T|[(u & L & W & Hu)|D]]; [now left|right; left; eauto|right; right; auto].
    + right. right. intros u L (Q & T). cbn [wk tok] in *. unfold all in T. destruct (wk s u); discriminate.
Qed.
(** Shutdown. *)
Lemma stops N s : reachable N s -> done s = true -> (exists k, ex s k = NAll) \/ forall w, w < N -> past2 (wk s w) = true -> tok s w = true.
Proof.
  induction 1 as [|s w s' R IH L H|s k s' R IH H]; intros Dn; [discriminate| |].
  - destruct (step_ex _ _ _ _ H) as (Ex & Ed & _). rewrite Ex. rewrite Ed in Dn. destruct (IH Dn) as [B|A]; [now left|right]. intros u Lu. destruct (Nat.eq_dec u w) as [->|Nu]; [|destruct (step_other N s w s' u H Nu) as (-> & T & _); auto].
    specialize (A w Lu). remember (wk s w) as p eqn:E. symmetry in E. destruct H; cbn [wk tok] in *; rewrite ?set_same; cbn [past2] in *; auto; try discriminate; try congruence; try (destruct (thieves s =? 1); cbn [past2]; auto; discriminate); try (destruct (actives s =? 0); cbn [past2]; auto; discriminate); try (destruct (thieves s =? 0); cbn [past2]; auto; discriminate); try (rewrite E; discriminate).
  - assert (Keep : forall j, j <> k -> ex s' j = ex s j) by (intros j Nj; destruct H; cbn [ex]; now rewrite set_other).
    remember (ex s k) as x eqn:E. symmetry in E.
    assert (K : x <> NAll -> done s = true -> (forall u, tok s u = true -> tok s' u = true) -> wk s' = wk s -> (exists j, ex s' j = NAll) \/ forall w, w < N -> past2 (wk s' w) = true -> tok s' w = true).
    { intros Nx D0 T Ek. destruct (IH D0) as [(j & B)|A]; [left; exists j; rewrite Keep; auto; congruence|right; rewrite Ek; auto]. }
    destruct H; cbn [done] in *; try (apply K; auto; discriminate).
    + apply K; auto; [discriminate|]. intros u. now apply (one_mono N s t u).
    + right. intros w L P. cbn [wk tok] in *. unfold all. destruct (wk s w); auto; discriminate.
    + left. exists k. cbn [ex]. apply set_same.
Qed.
