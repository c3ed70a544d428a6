From Verif Require Import Base Sim_Model Sim_Proofs Own_Model Own_Spec.
Open Scope R_scope.

Lemma nth_map_seq {A} (g : nat -> A) n i x : nth_error (map g (seq 0 n)) i = Some x -> (i < n)%nat /\ x = g i.
Proof.
  intros H. assert (L : (i < n)%nat).
  { assert (K : nth_error (map g (seq 0 n)) i <> None) by congruence.
    apply nth_error_Some in K. rewrite map_length, seq_length in K. exact K. }
  split; auto. rewrite nth_error_map in H.
  rewrite (nth_error_nth' (seq 0 n) 0%nat) in H by (rewrite seq_length; auto).
  rewrite seq_nth in H by auto. simpl in H. congruence.
Qed.

Section P.
Context {W : Type}.
Notation E := (W * stored W)%type.
Variable sys : system W.
Variable f : config.
Variable a0 : stored W.
Notation faith := (faithful (widen sys) (args_of f a0)).

(** What one event does to the stored objects. *)
Lemma ev_cases (e : event E) : faith e ->
  match ek e with
  | KOp i => after e = opt_at i (eh e) (before e)
  | KStopOp i => after e = stop_at i (eh e) (before e)
  | KStart i => after e = start_at i (eh e) (before e)
  | KCond i b => (i < length (k_cond a0))%nat /\ cond_at i (eh e) (before e) = (b, after e)
  | KStep => snd (after e) = snd (before e)
  end.
Proof.
  unfold faithful. destruct (ek e) as [i|i|i|i b|] eqn:K; cbn [start_opts opts stop_opts stop_cond args_of].
  - intros (g & N & ->). apply nth_map_seq in N as (_ & ->). reflexivity.
  - intros (g & N & ->). apply nth_map_seq in N as (_ & ->). reflexivity.
  - intros (g & N & ->). apply nth_map_seq in N as (_ & ->). reflexivity.
  - intros (g & N & Q). apply nth_map_seq in N as (L & ->). auto.
  - intros ->. cbn [post_iter widen iterate pre_iter]. cbn [fst snd].
    destruct (iterate sys (eh e) (pre_iter sys (fst (before e)))); reflexivity.
Qed.
Lemma cond_snd i h (e : E) b e' : cond_at i h e = (b, e') -> snd e' = snd e.
Proof.
  unfold cond_at. destruct (nth_error _ _) as [c|]; [|congruence].
  destruct (invoke c h (fst e)) as [[b' w'] c']. intros H; injection H as <- <-. reflexivity.
Qed.
Lemma ev_cond (e : event E) : faith e -> k_cond (snd (after e)) = k_cond (snd (before e)).
Proof.
  intros H. apply ev_cases in H. destruct (ek e).
  1-3: rewrite H; unfold start_at, opt_at, stop_at; destruct (call_stored _ _ _ _); reflexivity.
  - destruct H as (_ & H). now rewrite (cond_snd _ _ _ _ _ H).
  - now rewrite H.
Qed.
Lemma linked_cond (tr : list (event E)) : forall w w', linked w tr w' -> (forall e, In e tr -> faith e) ->
  k_cond (snd w') = k_cond (snd w) /\ forall e, In e tr -> k_cond (snd (before e)) = k_cond (snd w).
Proof.
  induction tr as [|e tr IH]; simpl; intros w w' L F; [subst; split; [auto|tauto]|].
  destruct L as (<- & L). destruct (IH _ _ L (fun x H => F x (or_intror H))) as (A & B).
  assert (C := ev_cond e (F e (or_introl eq_refl))). split; [congruence|].
  intros x [<-|Hx]; auto. rewrite B; auto.
Qed.

Definition lens (mk : nat -> kind) (get : stored W -> list (callable W unit)) : Prop :=
  forall e i, faith e ->
    (same_kind (ek e) (mk i) = true -> call_stored (get (snd (before e))) i (eh e) (fst (before e)) = (get (snd (after e)), fst (after e))) /\
    (same_kind (ek e) (mk i) = false -> nth_error (get (snd (after e))) i = nth_error (get (snd (before e))) i).
Lemma call_stored_other l j h w i : i <> j -> nth_error (fst (call_stored l j h w) : list (callable W unit)) i = nth_error l i.
Proof.
  intros D. unfold call_stored. destruct (nth_error l j) as [c|]; [|reflexivity].
  destruct (invoke c h w) as [[u w'] c']. simpl. apply nth_error_list_set_neq; auto.
Qed.
Ltac lens_tac := intros e i F; apply ev_cases in F; destruct (ek e) as [j|j|j|j b|]; simpl same_kind;
  (split; [intros Q; try discriminate Q; apply Nat.eqb_eq in Q; subst j; rewrite F; unfold opt_at, start_at, stop_at; simpl;
             destruct (call_stored _ _ _ _) eqn:HC; simpl; try rewrite HC; reflexivity
          |intros Q; try (destruct F as (_ & F); apply cond_snd in F; rewrite F; reflexivity); rewrite F; try reflexivity;
           unfold opt_at, start_at, stop_at;
           match goal with |- context [call_stored ?l ?j0 ?h ?w] => pose proof (call_stored_other l j0 h w i) as HC;
              destruct (call_stored l j0 h w); simpl in *; try reflexivity;
              apply HC; apply Nat.eqb_neq in Q; congruence end]).
Lemma lens_op : lens KOp k_opts. Proof. lens_tac. Qed.
Lemma lens_start : lens KStart k_start. Proof. lens_tac. Qed.
Lemma lens_stop : lens KStopOp k_stop. Proof. lens_tac. Qed.

Lemma linked_successive mk get (Ls : lens mk get) i (tr : list (event E)) : forall w w' c, linked w tr w' -> (forall e, In e tr -> faith e) ->
  nth_error (get (snd w)) i = Some c ->
  exists c', successive c (only (mk i) tr) c' /\ nth_error (get (snd w')) i = Some c'.
Proof.
  induction tr as [|e tr IH]; simpl; intros w w' c L F N; [subst; eauto|].
  destruct L as (<- & L). destruct (Ls e i (F e (or_introl eq_refl))) as (A & B).
  unfold only; simpl. destruct (same_kind (ek e) (mk i)) eqn:K.
  - specialize (A eq_refl). unfold call_stored in A. rewrite N in A.
    destruct (invoke c (eh e) (fst (before e))) as [[u w1] c1] eqn:V. destruct u. injection A as A1 A2.
    destruct (IH _ _ c1 L (fun x H => F x (or_intror H))) as (c' & S1 & S2).
    { rewrite <- A1. apply nth_error_list_set_eq. apply nth_error_Some. congruence. }
    exists c'. split; auto. simpl. exists c1. split; auto. now rewrite <- A2.
  - specialize (B eq_refl). apply (IH _ _ c L (fun x H => F x (or_intror H))). congruence.
Qed.

(** ** Counting *)
Definition cnt (k : kind) (l : list (kind * R)) : nat := length (filter (fun p => same_kind (fst p) k) l).
Lemma cnt_app k l m : cnt k (l ++ m) = (cnt k l + cnt k m)%nat.
Proof. unfold cnt. now rewrite filter_app, app_length. Qed.
Lemma cnt_noncond k l : cnt k (filter (fun p => negb (is_cond (fst p))) l) = cnt k l.
Proof.
  unfold cnt. induction l as [|[q h] l IH]; simpl; auto.
  assert (Q : is_cond q = true -> same_kind q k = false) by (destruct q; simpl; congruence).
  destruct (is_cond q); simpl.
  - now rewrite (Q eq_refl).
  - destruct (same_kind q k); simpl; auto.
Qed.
Lemma cnt_only {X} k (tr : list (event X)) : length (only k tr) = cnt k (map kh tr).
Proof.
  unfold only, cnt. induction tr as [|e tr IH]; simpl; auto. destruct (same_kind (ek e) k); simpl; auto.
Qed.
Lemma cnt_calls_other k mk n h : (forall j, same_kind (mk j) k = false) -> cnt k (calls mk n h) = 0%nat.
Proof.
  intros H. unfold cnt, calls. generalize (seq 0 n). intros l.
  induction l; simpl; auto. rewrite H. exact IHl.
Qed.
Lemma cnt_calls_op i n h : (i < n)%nat -> cnt (KOp i) (calls KOp n h) = 1%nat.
Proof.
  intros L. unfold cnt, calls.
  assert (G : forall s, length (filter (fun p : kind * R => same_kind (fst p) (KOp i)) (map (fun j => (KOp j, h)) (seq s n))) =
      if ((s <=? i) && (i <? s + n))%nat then 1%nat else 0%nat).
  { clear L. induction n; intros s; simpl.
    - destruct (s <=? i)%nat eqn:A; simpl; auto. destruct (i <? s + 0)%nat eqn:B; auto.
      apply Nat.leb_le in A. apply Nat.ltb_lt in B. lia.
    - destruct (Nat.eqb_spec s i) as [->|D]; simpl; rewrite IHn.
      + replace (i <=? i)%nat with true by (symmetry; apply Nat.leb_le; lia).
        replace (S i <=? i)%nat with false by (symmetry; apply Nat.leb_gt; lia).
        replace (i <? i + S n)%nat with true by (symmetry; apply Nat.ltb_lt; lia). reflexivity.
      + replace (s + S n)%nat with (S s + n)%nat by lia.
        replace (S s <=? i)%nat with (s <=? i)%nat; auto.
        destruct (Nat.leb_spec s i), (Nat.leb_spec (S s) i); auto; lia. }
  rewrite G. replace (0 <=? i)%nat with true by (symmetry; apply Nat.leb_le; lia).
  replace (i <? 0 + n)%nat with true by (symmetry; apply Nat.ltb_lt; lia). reflexivity.
Qed.
Lemma steps_cnt {X} (tr : list (event X)) : steps tr = cnt KStep (map kh tr).
Proof.
  unfold steps, cnt. induction tr as [|e tr IH]; simpl; auto. destruct (ek e); simpl; rewrite ?IH; auto.
Qed.
End P.

(** ** Runs *)
Lemma own_conditions W (sys : system W) f hubble fuel w a tr w' : own_run sys f hubble fuel w a = Returned tr w' ->
  step_scale sys w <> 0 ->
  k_cond (snd w') = k_cond a /\
  forall e i b, In e tr -> ek e = KCond i b -> exists c d, nth_error (k_cond a) i = Some c /\
    body c (value c) (eh e) (fst (before e)) = (b, fst (after e), d).
Proof.
  intros H S. unfold own_run in H. destruct (run_protocol _ _ _ _ _ _ _ H S) as (L & F & _).
  cbn [widen set_tols] in L. destruct (linked_cond sys f a tr _ _ L F) as (A & B). cbn [snd] in A, B.
  split; auto. intros e i b He K. generalize (ev_cases sys f a e (F e He)). rewrite K. intros (Li & Q).
  unfold cond_at in Q. rewrite (B e He) in Q.
  destruct (nth_error (k_cond a) i) as [c|] eqn:N; [|apply nth_error_None in N; lia].
  unfold invoke in Q. destruct (body c (value c) (eh e) (fst (before e))) as [[b' w1] d] eqn:V.
  exists c, d. split; auto. injection Q as <- Q. now rewrite <- Q.
Qed.
Lemma own_successive W (sys : system W) f hubble fuel w a tr w' : own_run sys f hubble fuel w a = Returned tr w' ->
  step_scale sys w <> 0 ->
  (forall i c, nth_error (k_opts a) i = Some c ->
     exists c', successive c (only (KOp i) tr) c' /\ nth_error (k_opts (snd w')) i = Some c' /\
                length (only (KOp i) tr) = S (steps tr)) /\
  (forall i c, nth_error (k_start a) i = Some c ->
     exists c', successive c (only (KStart i) tr) c' /\ nth_error (k_start (snd w')) i = Some c') /\
  (forall i c, nth_error (k_stop a) i = Some c ->
     exists c', successive c (only (KStopOp i) tr) c' /\ nth_error (k_stop (snd w')) i = Some c').
Proof.
  intros H S. unfold own_run in H. destruct (run_protocol _ _ _ _ _ _ _ H S) as (L & F & hs & hf & P).
  cbn [widen set_tols] in L. repeat split; intros i c N.
  - destruct (linked_successive sys f a _ _ (lens_op sys f a) i tr _ _ c L F N) as (c' & A & B).
    exists c'. split; auto. split; auto.
    rewrite cnt_only, steps_cnt, <- (cnt_noncond _ (map kh tr)), <- (cnt_noncond KStep), P.
    assert (Li : (i < length (opts (args_of f a)))%nat).
    { simpl. rewrite map_length, seq_length. apply nth_error_Some. congruence. }
    rewrite !cnt_app. rewrite !(cnt_calls_other (KOp i) KStart), !(cnt_calls_other (KOp i) KStopOp),
      !(cnt_calls_other KStep KStart), !(cnt_calls_other KStep KStopOp), !(cnt_calls_other KStep KOp) by reflexivity.
    rewrite cnt_calls_op by auto.
    assert (G : forall l, cnt (KOp i) (concat (map (fun h => calls KOp (length (opts (args_of f a))) h ++ [(KStep, h)]) l)) = length l /\
                          cnt KStep (concat (map (fun h => calls KOp (length (opts (args_of f a))) h ++ [(KStep, h)]) l)) = length l).
    { induction l as [|h l (I1 & I2)]; [split; reflexivity|].
      cbn [map concat]. rewrite !cnt_app, I1, I2, cnt_calls_op by auto.
      rewrite (cnt_calls_other KStep KOp) by reflexivity. split; reflexivity. }
    destruct (G hs) as (G1 & G2). rewrite G1, G2. lia.
  - exact (linked_successive sys f a _ _ (lens_start sys f a) i tr _ _ c L F N).
  - exact (linked_successive sys f a _ _ (lens_stop sys f a) i tr _ _ c L F N).
Qed.

(** ** Slices *)
Lemma successive_step {W X} n (g : R -> W -> unit * W) : (0 < n)%nat -> forall (evs : list (event (W * X))) k c',
  successive (Callable nat k (body (step_sliced tt n g))) evs c' ->
  c' = Callable nat (k + length evs)%nat (body (step_sliced tt n g)) /\
  forall j e, nth_error evs j = Some e -> fst (after e) = (if ((k + j) mod n =? 0)%nat then snd (g (eh e) (fst (before e))) else fst (before e)).
Proof.
  intros Hn. induction evs as [|e r IH]; intros k c'.
  - simpl. intros ->. rewrite Nat.add_0_r. split; auto. intros [|j] e; discriminate.
  - cbn [successive]. intros (c1 & V & Hs). unfold invoke in V. cbn [value body step_sliced data] in V.
    destruct (k mod n =? 0)%nat eqn:M.
    + destruct (g (eh e) (fst (before e))) as [u w1] eqn:G. injection V as V1 V2 V3. subst c1. destruct (IH _ _ Hs) as (A & B). split.
      * rewrite A. f_equal. simpl. lia.
      * intros [|j] e' Q; cbn [nth_error] in Q; [injection Q as <-|].
        { rewrite Nat.add_0_r, M. rewrite <- V2, G. reflexivity. }
        { rewrite (B _ _ Q). replace (k + S j)%nat with (S k + j)%nat by lia. reflexivity. }
    + injection V as V2 V3. subst c1. destruct (IH _ _ Hs) as (A & B). split.
      * rewrite A. f_equal. simpl. lia.
      * intros [|j] e' Q; cbn [nth_error] in Q; [injection Q as <-|].
        { rewrite Nat.add_0_r, M. now symmetry. }
        { rewrite (B _ _ Q). replace (k + S j)%nat with (S k + j)%nat by lia. reflexivity. }
Qed.
Lemma successive_time {W X} clock (g : R -> W -> unit * W) : forall (evs : list (event (W * X))) s c',
  successive (Callable time_slice s (body (time_sliced clock tt s g))) evs c' ->
  exists fired : list bool, length fired = length evs /\
    map snd (filter (fun p => fst p) (combine fired (map (fun e => clock (fst (before e))) evs))) =
      fst (ts_calls s (map (fun e => clock (fst (before e))) evs)) /\
    forall j e b, nth_error evs j = Some e -> nth_error fired j = Some b ->
      fst (after e) = if b then snd (g (eh e) (fst (before e))) else fst (before e).
Proof.
  induction evs as [|e r IH]; intros s c'.
  - intros _. exists []. repeat split; auto. intros [|j] e b; discriminate.
  - cbn [successive]. intros (c1 & V & Hs). unfold invoke in V. cbn [value body time_sliced data] in V.
    cbn [map ts_calls]. destruct (ts_call s (clock (fst (before e)))) as [b s1] eqn:T.
    assert (Q : fst (after e) = (if b then snd (g (eh e) (fst (before e))) else fst (before e)) /\
       c1 = Callable time_slice s1 (body (time_sliced clock tt s1 g))).
    { destruct b.
      - destruct (g (eh e) (fst (before e))) as [u w1]. injection V as V1 V2 V3. split; [simpl; now symmetry|]. symmetry; exact V3.
      - injection V as V2 V3. split; [now symmetry|]. symmetry; exact V3. }
    destruct Q as (Q1 & ->). destruct (IH _ _ Hs) as (fired & A & B & C).
    exists (b :: fired). split; [simpl; lia|]. split.
    + cbn [combine filter map fst]. destruct (ts_calls s1 (map (fun e0 => clock (fst (before e0))) r)) as [l s2]. cbn [fst] in *.
      destruct b; cbn [map snd]; now rewrite B.
    + intros [|j] e' b' P1 P2; cbn [nth_error] in P1, P2; [injection P1 as <-; injection P2 as <-; exact Q1|]. eapply C; eauto.
Qed.
