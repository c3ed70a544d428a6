(** C71: the operations of a ConcurrentFile take effect one at a time. *)
From Verif Require Import Text CLin_Model CLin_Spec CLin_Proofs CLin_Proofs2.
From Coq Require Import Permutation.

(** Every run, stopped anywhere, is explained by a sequential history; and the history of a longer run
    extends the history of the shorter one, so an operation that had returned before another one was
    called precedes it. *)
Theorem C71_linearizable : forall S R (cl : list (client S R)) x ls1 ls2 s1 s2,
  run cl (init cl x) ls1 = Some s1 -> run cl s1 ls2 = Some s2 ->
  exists l1 l2, explains cl x l1 s1 /\ explains cl x (l1 ++ l2) s2.
Proof.
  intros S R cl x ls1 ls2 s1 s2 H1 H2.
  destruct (inv_run cl x ls1 [] _ _ (inv_init cl x) H1) as [l1 I1].
  destruct (inv_run cl x ls2 _ _ _ I1 H2) as [l2 I2].
  exists l1, l2. split; [apply (inv_explains cl x l1)|apply inv_explains]; auto.
Qed.

Lemma linear S R (cl : list (client S R)) x ls s :
  run cl (init cl x) ls = Some s -> exists l, explains cl x l s.
Proof.
  intros H. destruct (inv_run cl x ls [] _ _ (inv_init cl x) H) as [l1 I1]. exists l1. apply inv_explains; auto.
Qed.

(** As long as no callback uses its own file, the threads never block each other for good: some thread can
    act, or every thread has finished its client code. *)
Theorem C71_no_deadlock : forall S R (cl : list (client S R)) x ls s,
  (forall t c h p, nth_error cl t = Some c -> c h = Some p -> closed p) ->
  run cl (init cl x) ls = Some s ->
  (exists t, step cl s t <> None) \/
  (forall t c, nth_error cl t = Some c -> exists h, nth_error (threads s) t = Some (Out, h) /\ c h = None).
Proof.
  intros S R cl x ls s Hc H.
  destruct (inv_run cl x ls [] _ _ (inv_init cl x) H) as [l I].
  eapply progress; eauto. eapply closed_run; eauto. apply closed_init.
Qed.

(** A callback given to execute that uses the same file again blocks the file for ever: whatever the other
    threads do, no call returns any more and the stream does not change. *)
Theorem C71_reentrant_callback_refuted : forall S R (cl : list (client S R)) x ls s,
  run cl (init cl x) ls = Some s ->
  (exists t h, nth_error (threads s) t = Some (Hold Again, h)) ->
  forall ls' s', run cl s ls' = Some s' ->
    stream s' = stream s /\
    forall u, option_map snd (nth_error (threads s') u) = option_map snd (nth_error (threads s) u).
Proof.
  intros S R cl x ls s H E ls' s' H'.
  destruct (inv_run cl x ls [] _ _ (inv_init cl x) H) as [l I].
  eapply stuck_run; eauto.
Qed.

(** Readers.  A client that only ever calls [>>]. *)
Definition reads (c : client istr res) : Prop := forall h p, c h = Some p -> p = op_read.

Lemma sequential_reads (l : list (entry istr res)) : forall x y,
  (forall e, In e l -> snd (fst e) = op_read) -> good_inv x -> (failbit x = true -> eofbit x = true) ->
  sequential x l y -> results l = answers (words (rest x)) (length l).
Proof.
  induction l as [|[[t p] r] l IH]; intros x y A G F H; simpl in *; auto.
  destruct H as [z [E H]].
  assert (p = op_read) by (apply (A (t, p, r)); auto). subst p.
  destruct (alone_read x G F) as [o [z' [E1 [G1 [F1 M]]]]].
  rewrite E in E1. injection E1 as <- ->.
  unfold results in *. simpl. rewrite (IH z y); auto.
  destruct o as [v|].
  - rewrite M. auto.
  - destruct M as [-> ->]. auto.
Qed.

Lemma explained_op S R (cl : list (client S R)) x l s : explains cl x l s ->
  forall t p r, In (t, p, r) l -> exists c h, nth_error cl t = Some c /\ c h = Some p.
Proof.
  intros [_ [D T]] t p r I.
  destruct (nth_error cl t) as [c|] eqn:Ec.
  - destruct (T _ _ Ec) as [F _]. apply in_split in I. destruct I as [a [b ->]].
    exists c, (returned t a). split; auto. eapply F; eauto.
  - apply nth_error_None in Ec. apply D in I. simpl in I. lia.
Qed.

(** Whatever the threads that read one file with [>>], and whatever the schedule: taken in some order that
    respects each thread's own order, the answers of all their calls are the words of the file, each one
    exactly once and in file order, then failures. *)
Theorem C71_readers_share_the_words : forall (cl : list (client istr res)) t ls s,
  (forall i c, nth_error cl i = Some c -> reads c) ->
  run cl (init cl (opened t)) ls = Some s ->
  exists order : list (nat * res),
    map snd order = answers (words t) (length order) /\
    forall i c, nth_error cl i = Some c ->
      exists k, nth_error (threads s) i = Some (k, map snd (filter (fun e => fst e =? i) order)).
Proof.
  intros cl t ls s A H. destruct (linear _ _ cl (opened t) ls s H) as [l L].
  exists (map (fun e => (fst (fst e), snd e)) l). split.
  - rewrite map_map. simpl. rewrite map_length.
    pose proof L as [[y [Q _]] LD].
    assert (X : results l = answers (words (rest (opened t))) (length l)).
    { eapply sequential_reads; eauto.
      - intros [[i p] r] I. simpl.
        destruct (explained_op _ _ _ _ _ _ L _ _ _ I) as [c [h [E1 E2]]]. eapply A; eauto.
      - discriminate. }
    exact X.
  - intros i c Ei. destruct L as [_ [_ T]]. destruct (T _ _ Ei) as [_ [k Ek]]. exists k. rewrite Ek.
    f_equal. f_equal. unfold returned. clear. induction l as [|[[j p] r] l IH]; simpl; auto.
    destruct (j =? i); simpl; rewrite IH; auto.
Qed.

(** Threads that call [>>], eof and flush in any mixture, each call possibly depending on the answers before it: in some order that
    respects each thread's own order, the j-th [>>] of all gets the j-th word (a failure when there is none), and eof says true exactly
    when a [>>] has failed before or the last word has been read and nothing follows it. *)
Lemma run_of_inj o o' : run_of o = run_of o' -> o = o'.
Proof.
  intros H. assert (E : alone (run_of o) (opened []) = alone (run_of o') (opened [])) by congruence. destruct o, o'; auto; vm_compute in E; discriminate.
Qed.
Lemma zip_shares (l : list (entry istr res)) : forall order, map fst l = map (fun e => (fst e, run_of (snd e))) order -> forall i rs, results l = rs ->
  returned i l = map snd (filter (fun e => fst e =? i) (combine (map fst order) rs)).
Proof.
  induction l as [|[[j p] r] l IH]; intros [|[j' o] order] E i rs <-; try discriminate; auto. simpl in E. injection E as -> -> E. simpl. unfold returned in *. simpl.
  destruct (j' =? i); simpl; rewrite (IH _ E i _ eq_refl); auto.
Qed.
Theorem C71_reads_and_eof : forall (cl : list (list res -> option rop)) t ls s,
  run (map asks cl) (init (map asks cl) (opened t)) ls = Some s ->
  exists order : list (nat * rop), forall i c, nth_error cl i = Some c ->
    (exists k, nth_error (threads s) i = Some (k, answers_to t i order)) /\
    forall a o b, order = a ++ (i, o) :: b -> c (answers_to t i a) = Some o.
Proof.
  intros cl t ls s H. destruct (linear _ _ (map asks cl) (opened t) ls s H) as [l L].
  assert (B : forall e, In e l -> exists o, snd (fst e) = run_of o).
  { intros [[i p] r] J. destruct (explained_op _ _ _ _ _ _ L _ _ _ J) as [c [h [E1 E2]]]. simpl.
    rewrite nth_error_map in E1. destruct (nth_error cl i) as [f|]; [|discriminate]. injection E1 as <-. unfold asks in E2. destruct (f h) as [o|]; [|discriminate]. injection E2 as <-. eauto. }
  assert (W : exists order : list (nat * rop), map fst l = map (fun e => (fst e, run_of (snd e))) order).
  { clear - B. induction l as [|[[i p] r] l IH].
    - exists []. auto.
    - destruct (B (i, p, r)) as [b Eb]; [left; auto|]. simpl in Eb. subst p. destruct IH as [o Eo]; [intros; apply B; right; auto|]. exists ((i, b) :: o). simpl. rewrite Eo. auto. }
  destruct W as [order W]. exists order. intros i c Ei. pose proof L as [[y [Sq _]] [D T]].
  assert (Pre : forall l1 l2 o1, l = l1 ++ l2 -> map fst l1 = map (fun e => (fst e, run_of (snd e))) o1 -> returned i l1 = answers_to t i o1).
  { intros l1 l2 o1 El Eo. apply zip_shares; auto.
    assert (Sq1 : exists z, sequential (opened t) l1 z).
    { rewrite El in Sq. clear - Sq. revert Sq. generalize (opened t). induction l1 as [|[[j p] r] l1 IH]; intros x Sq; simpl in *; [eauto|]. destruct Sq as (z & A & Sq). destruct (IH _ Sq) as (z' & Z). eauto. }
    destruct Sq1 as (z & Sq1). apply (sequential_mixed t l1 (map snd o1) 0 (opened t) z (opened_after t)); auto.
    rewrite map_map. apply (f_equal (map snd)) in Eo. rewrite !map_map in Eo. exact Eo. }
  assert (Ec : nth_error (map asks cl) i = Some (asks c)) by (rewrite nth_error_map, Ei; auto).
  destruct (T _ _ Ec) as [F [k Ek]]. split; [exists k; rewrite Ek, (Pre l [] order); auto; rewrite app_nil_r; auto|].
  intros a o b Eab. assert (SP : exists l1 p r l2, l = l1 ++ (i, p, r) :: l2 /\ p = run_of o /\ map fst l1 = map (fun e => (fst e, run_of (snd e))) a).
  { clear - W Eab. subst order. revert a W. induction l as [|[[j p] r] l IH]; intros a W; [destruct a; discriminate|]. destruct a as [|[j' o'] a]; simpl in W.
    - injection W as -> -> W. exists [], (run_of o), r, l. auto.
    - injection W as -> -> W. destruct (IH a W) as (l1 & p1 & r1 & l2 & A & B & E). exists ((j', run_of o', r) :: l1), p1, r1, l2. rewrite A. simpl. rewrite E. auto. }
  destruct SP as (l1 & p & r & l2 & E1 & -> & E2). specialize (F _ _ _ _ E1). rewrite (Pre l1 _ a E1 E2) in F. unfold asks in F. destruct (c (answers_to t i a)) as [o'|]; [|discriminate]. simpl in F. f_equal. apply run_of_inj. congruence.
Qed.
(** Answers for the file "7 " read twice with eof after every call: the space is only consumed by the failing read. *)
Example C71_case_eof : expected_all (txt "7 ") 0 [Eof; Read; Eof; Read; Eof] = [RBool false; RWord (Some (txt "7")); RBool false; RWord None; RBool true] /\
  expected_all (txt "7") 0 [Eof; Read; Eof; Read; Eof] = [RBool false; RWord (Some (txt "7")); RBool true; RWord None; RBool true].
Proof. split; reflexivity. Qed.

(** while (file >> w) use(w);  in every thread. *)
Definition read_all : client istr res := fun h => match last h (RWord (Some [])) with RWord (Some _) => Some op_read | _ => None end.

Lemma read_all_reads : reads read_all.
Proof. intros h p. unfold read_all. destruct (last h _) as [|b|[w|]]; intros E; try discriminate; congruence. Qed.

Definition got (h : list res) : list text :=
  flat_map (fun r => match r with RWord (Some w) => [w] | _ => [] end) h.

Lemma got_answers ws : forall n, got (answers ws n) = firstn n ws.
Proof.
  induction ws as [|w ws IH]; intros n.
  - rewrite firstn_nil. induction n; simpl; auto.
  - destruct n; simpl; auto. f_equal. apply IH.
Qed.

Lemma none_in_answers ws n : In (RWord None) (answers ws n) -> length ws < n.
Proof.
  revert n; induction ws as [|w ws IH]; intros [|n]; simpl; try tauto; try lia.
  intros [E|I]; [discriminate|]. apply IH in I. lia.
Qed.

Lemma nth_error_same {A} (l : list A) : forall m, (forall i, nth_error l i = nth_error m i) -> l = m.
Proof.
  induction l as [|x l IH]; intros [|y m] H; auto; try (specialize (H 0); discriminate).
  f_equal; [specialize (H 0); simpl in H; congruence|]. apply IH. intros i. apply (H (S i)).
Qed.

(** The threads' shares of a list, put together, are a permutation of it. *)
Lemma shares {A} (order : list (nat * A)) n : (forall e, In e order -> fst e < n) ->
  Permutation (concat (map (fun i => map snd (filter (fun e => fst e =? i) order)) (seq 0 n))) (map snd order).
Proof.
  revert n. induction order as [|[i a] o IH]; intros n D.
  - simpl. induction (seq 0 n); simpl; auto.
  - assert (Hi : i < n) by (apply (D (i, a)); left; auto).
    assert (IHn : forall e, In e o -> fst e < n) by (intros; apply D; right; auto).
    specialize (IH n IHn).
    assert (E : seq 0 n = seq 0 i ++ i :: seq (S i) (n - S i)).
    { replace n with (i + S (n - S i)) at 1 by lia. rewrite seq_app. simpl. auto. }
    rewrite E in *. rewrite map_app, concat_app in *. simpl in *. rewrite Nat.eqb_refl.
    assert (G : forall l, ~ In i l ->
      map (fun j => map snd (filter (fun e : nat * A => fst e =? j) ((i, a) :: o))) l =
      map (fun j => map snd (filter (fun e : nat * A => fst e =? j) o)) l).
    { intros l N. apply map_ext_in. intros j Hj. simpl. destruct (Nat.eqb_spec i j); auto. subst. tauto. }
    simpl in G. rewrite !G; [|rewrite in_seq; lia|rewrite in_seq; lia].
    simpl. symmetry. apply Permutation_cons_app. symmetry. exact IH.
Qed.

(** When several threads each run [while (file >> w) use(w);] to the end, together they have used exactly the
    words of the file: none is lost, none is used twice, no invented word is used. *)
Theorem C71_read_loop_uses_every_word_once : forall n t ls s, 0 < n ->
  run (repeat read_all n) (init (repeat read_all n) (opened t)) ls = Some s ->
  (forall i, i < n -> exists h, nth_error (threads s) i = Some (Out, h) /\ read_all h = None) ->
  Permutation (concat (map (fun th => got (snd th)) (threads s))) (words t).
Proof.
  intros n t ls s Hn H Fin.
  destruct (inv_run _ _ ls [] _ _ (inv_init _ _) H) as [l I]. simpl in I.
  pose proof (inv_explains _ _ _ _ I) as L.
  pose proof (i_dom _ _ _ _ I) as Dm. rewrite repeat_length in Dm.
  set (order := map (fun e : entry istr res => (fst (fst e), snd e)) l).
  assert (O1 : map snd order = answers (words t) (length order)).
  { unfold order. rewrite map_map, map_length. pose proof L as [[y [Q _]] LD].
    eapply (sequential_reads l (opened t)); eauto; try discriminate.
    intros [[i p] r] J. simpl.
    destruct (explained_op _ _ _ _ _ _ L _ _ _ J) as [c [h [E1 E2]]].
    apply nth_error_In in E1. apply repeat_spec in E1. subst c. eapply read_all_reads; eauto. }
  assert (T1 : forall i, i < n -> exists k, nth_error (threads s) i = Some (k, map snd (filter (fun e => fst e =? i) order))).
  { intros i Hi. destruct L as [_ [_ T]].
    assert (Ei : nth_error (repeat read_all n) i = Some read_all) by (apply nth_error_repeat; auto).
    destruct (T _ _ Ei) as [_ [k Ek]]. exists k. rewrite Ek.
    f_equal. f_equal. unfold returned, order. clear. induction l as [|[[j p] r] l IH]; simpl; auto.
    destruct (j =? i); simpl; rewrite IH; auto. }
  assert (Th : map snd (threads s) = map (fun i => map snd (filter (fun e => fst e =? i) order)) (seq 0 n)).
  { apply nth_error_same. intros i. rewrite !nth_error_map.
    destruct (lt_dec i n) as [Hi|Hi].
    - destruct (T1 i Hi) as [k ->]. simpl.
      rewrite (nth_error_nth' (seq 0 n) 0), seq_nth; rewrite ?seq_length; auto.
    - assert (X : nth_error (threads s) i = None) by (apply nth_error_None; lia).
      assert (Y : nth_error (seq 0 n) i = None) by (apply nth_error_None; rewrite seq_length; lia).
      rewrite X, Y. auto. }
  assert (P : Permutation (concat (map snd (threads s))) (answers (words t) (length order))).
  { rewrite Th, <- O1. apply shares. unfold order. intros e J. apply in_map_iff in J.
    destruct J as [[[i p] r] [<- J]]. simpl. destruct L as [_ [D _]]. apply D in J. simpl in J.
    rewrite repeat_length in J. auto. }
  assert (Big : length (words t) < length order).
  { apply none_in_answers. eapply Permutation_in; [exact P|].
    destruct (Fin 0 Hn) as [h [E1 E2]].
    apply in_concat. exists h. split; [apply in_map_iff; exists (Out, h); split; auto; eapply nth_error_In; eauto|].
    unfold read_all in E2.
    destruct h as [|r h]; [simpl in E2; discriminate|].
    destruct (exists_last (l := r :: h)) as [h' [z Ez]]; [discriminate|]. rewrite Ez in *.
    rewrite last_last in E2. apply in_or_app. right. left.
    assert (J : In z (answers (words t) (length order))).
    { eapply Permutation_in; [exact P|]. apply in_concat. exists (h' ++ [z]). split.
      - apply in_map_iff. exists (Out, h' ++ [z]). split; auto. eapply nth_error_In; eauto.
      - apply in_or_app. right. left. auto. }
    assert (K : forall ws m, In z (answers ws m) -> exists o, z = RWord o).
    { clear. induction ws as [|w ws IH]; intros m; induction m as [|m IHm]; simpl; try tauto.
      - intros [<-|J]; eauto.
      - intros [<-|J]; eauto. }
    destruct (K _ _ J) as [[w|] ->]; [discriminate|auto]. }
  assert (Gc : concat (map (fun th => got (snd th)) (threads s)) = got (concat (map snd (threads s)))).
  { generalize (threads s). intros ts. induction ts as [|[k h] ts IH]; simpl; auto.
    unfold got in *. rewrite flat_map_app, IH. auto. }
  rewrite Gc. replace (words t) with (got (answers (words t) (length order))).
  - unfold got. clear - P. induction P; simpl; auto.
    + apply Permutation_app_head; auto.
    + rewrite !app_assoc. apply Permutation_app_tail. apply Permutation_app_comm.
    + etransitivity; eauto.
  - rewrite got_answers. apply firstn_all2. lia.
Qed.

(** Writers.  Everything one call of execute writes stays together: the file is the concatenation, in some
    order that respects each thread's own order, of what the completed calls wrote. *)
Lemma alone_write r : forall f, alone (op_write r) f = Some (f ++ r, RUnit).
Proof.
  induction r as [|c r IH]; intros f; simpl; [rewrite app_nil_r; auto|].
  rewrite IH. rewrite <- app_assoc. auto.
Qed.

(** The client that writes the given blocks, one call each. *)
Definition write_blocks (bs : list text) : client text res := fun h => option_map op_write (nth_error bs (length h)).

Theorem C71_blocks_of_execute_stay_together : forall (blocks : list (list text)) ls s,
  let cl := map write_blocks blocks in
  run cl (init cl []) ls = Some s -> quiet s ->
  exists order : list (nat * text),
    stream s = concat (map snd order) /\
    forall i bs, nth_error blocks i = Some bs -> exists k h, nth_error (threads s) i = Some (k, h) /\
      map snd (filter (fun e => fst e =? i) order) = firstn (length h) bs.
Proof.
  intros blocks ls s cl H Q. destruct (linear _ _ cl [] ls s H) as [l L].
  assert (B : forall e, In e l -> exists b, snd (fst e) = op_write b).
  { intros [[i p] r] J. destruct (explained_op _ _ _ _ _ _ L _ _ _ J) as [c [h [E1 E2]]]. simpl.
    unfold cl in E1. rewrite nth_error_map in E1. destruct (nth_error blocks i) as [bs|]; [|discriminate].
    injection E1 as <-. unfold write_blocks in E2. destruct (nth_error bs (length h)) as [b|]; [|discriminate].
    injection E2 as <-. eauto. }
  assert (W : exists order : list (nat * text), map (fun e : entry text res => fst e) l = map (fun e => (fst e, op_write (snd e))) order).
  { clear - B. induction l as [|[[i p] r] l IH].
    - exists []. auto.
    - destruct (B (i, p, r)) as [b Eb]; [left; auto|]. simpl in Eb. subst p.
      destruct IH as [o Eo]; [intros; apply B; right; auto|]. exists ((i, b) :: o). simpl. rewrite Eo. auto. }
  destruct W as [order W]. exists order. split.
  - destruct L as [[y [Sq Sy]] _]. rewrite (Sy Q).
    enough (G : forall l order x y, map (fun e : entry text res => fst e) l = map (fun e => (fst e, op_write (snd e))) order ->
       sequential x l y -> y = x ++ concat (map snd order)).
    { eapply (G l order []) in Sq; auto. }
    clear. induction l as [|[[i p] r] l IH]; intros [|[j b] o] x y E Sq; simpl in *; try discriminate.
    + rewrite app_nil_r. auto.
    + injection E as -> -> E. destruct Sq as [z [A Sq]]. rewrite alone_write in A. injection A as <- <-.
      apply IH with (order := o) in Sq; auto. rewrite <- app_assoc in Sq. auto.
  - intros i bs Ei. destruct L as [_ [_ T]].
    assert (Ec : nth_error cl i = Some (write_blocks bs)) by (unfold cl; rewrite nth_error_map, Ei; auto).
    destruct (T _ _ Ec) as [F [k Ek]]. exists k, (returned i l). split; auto.
    enough (G : forall l1 l2 o1, l = l1 ++ l2 -> map (fun e : entry text res => fst e) l1 = map (fun e => (fst e, op_write (snd e))) o1 ->
       (forall b b', op_write b = op_write b' -> b = b') ->
       map snd (filter (fun e => fst e =? i) o1) = firstn (length (returned i l1)) bs).
    { eapply (G l []); auto; [rewrite app_nil_r; auto|].
      intros b b' Eb. assert (X : alone (op_write b) [] = alone (op_write b') []) by congruence.
      rewrite !alone_write in X. simpl in X. congruence. }
    clear - F. intros l1. induction l1 as [|e l1 IH] using rev_ind; intros l2 o1 El Eo Inj.
    + destruct o1; [auto|discriminate].
    + destruct e as [[j p] r].
      destruct (exists_last (l := o1)) as [o [[j' b] ->]].
      { intros ->. rewrite map_app in Eo. simpl in Eo. symmetry in Eo. apply app_cons_not_nil in Eo. auto. }
      rewrite !map_app in Eo. simpl in Eo. apply app_inj_tail in Eo. destruct Eo as [Eo Ej].
      injection Ej as <- ->. rewrite <- app_assoc in El. simpl in El.
      specialize (IH _ _ El Eo Inj). rewrite filter_app, map_app, IH.
      unfold returned in *. rewrite filter_app, map_app, app_length. simpl.
      destruct (Nat.eqb_spec j i) as [->|N]; simpl.
      * specialize (F _ _ _ _ El). unfold write_blocks, returned in F.
        set (n := length _) in *. destruct (nth_error bs n) as [b'|] eqn:Eb; [|discriminate].
        simpl in F. injection F as F. apply Inj in F. subst b'.
        rewrite Nat.add_1_r. clearbody n. clear - Eb. revert n Eb. induction bs as [|x bs IH]; intros [|n] Eb; simpl in *; try discriminate.
        -- injection Eb as ->. auto.
        -- f_equal. apply IH. auto.
      * rewrite Nat.add_0_r, app_nil_r. auto.
Qed.

Lemma ends {S R} (o : option (state S R)) ts : option_map threads o = Some ts -> exists s, o = Some s /\ threads s = ts.
Proof. destruct o as [s|]; simpl; intros E; [|discriminate]. exists s. split; auto. congruence. Qed.

(** [while (!file.eof()) { file >> w; use(w); }] is not safe: eof() can say "not at the end" and the next
    [>>] of the same thread fails, because another thread took the last word in between. *)
Definition eof_loop : client istr res := fun h =>
  match h with [] => Some op_eof | [RBool false] => Some op_read | _ => None end.

Theorem C71_eof_then_read_refuted : exists ls s,
  run [eof_loop; eof_loop] (init [eof_loop; eof_loop] (opened (txt "7"))) ls = Some s /\
  threads s = [(Out, [RBool false; RWord (Some (txt "7"))]); (Out, [RBool false; RWord None])].
Proof.
  exists [0;0;0;0; 1;1;1;1; 0;0;0;0;0;0;0; 1;1;1;1]. apply ends. vm_compute. reflexivity.
Qed.

(** Also with a single thread: the white space after the last word is only skipped by the failing [>>]. *)
Theorem C71_eof_trailing_space_refuted : exists ls s,
  run [fun h => match h with [] => Some op_read | [_] => Some op_eof | [_; _] => Some op_read | _ => None end]
      (init [fun h => match h with [] => Some op_read | [_] => Some op_eof | [_; _] => Some op_read | _ => None end] (opened (txt "7 "))) ls = Some s /\
  threads s = [(Out, [RWord (Some (txt "7")); RBool false; RWord None])].
Proof.
  exists (repeat 0 7 ++ repeat 0 4 ++ repeat 0 6). apply ends. vm_compute. reflexivity.
Qed.

(** Concrete cases. *)
Example C71_case_words : words (txt " ab c  7") = [txt "ab"; txt "c"; txt "7"].
Proof. reflexivity. Qed.

Example C71_case_closed : forall h p, read_all h = Some p -> closed p.
Proof.
  intros h p E. apply read_all_reads in E. subst p. unfold op_read. cbn [closed]. intros x.
  destruct (eofbit x || failbit x); simpl; auto.
  assert (W : forall n w, closed (rd_word n w)).
  { induction n; intros w; simpl; intros y; destruct (rest y) as [|c r]; simpl; auto; destruct (isspace c); simpl; auto. }
  generalize (length (rest x)) as n. induction n; cbn [rd_skip closed]; intros y; destruct (rest y) as [|c r]; cbn [snd closed]; auto;
    destruct (isspace c); cbn [snd closed]; auto.
Qed.

(** Two read loops on "a b", run to the end; each gets one word. *)
Example C71_case_readers : exists ls s,
  run [read_all; read_all] (init [read_all; read_all] (opened (txt "a b"))) ls = Some s /\
  threads s = [(Out, [RWord (Some (txt "a")); RWord None]); (Out, [RWord (Some (txt "b")); RWord None])] /\
  map read_all (map snd (threads s)) = [None; None].
Proof.
  exists ([0;1] ++ repeat 0 6 ++ repeat 1 7 ++ repeat 0 4 ++ repeat 1 4).
  destruct (ends (run [read_all; read_all] (init [read_all; read_all] (opened (txt "a b"))) ([0;1] ++ repeat 0 6 ++ repeat 1 7 ++ repeat 0 4 ++ repeat 1 4))
    [(Out, [RWord (Some (txt "a")); RWord None]); (Out, [RWord (Some (txt "b")); RWord None])]) as [s [E1 E2]]; [vm_compute; reflexivity|].
  exists s. rewrite E2. repeat split; auto.
Qed.

(** A callback of execute that writes to its own file. *)
Example C71_case_reentrant : exists s,
  run [fun h => match h with [] => Some Again | _ => None end; write_blocks [txt "x"]]
      (init [fun h => match h with [] => Some Again | _ => None end; write_blocks [txt "x"]] []) [0;0] = Some s /\
  nth_error (threads s) 0 = Some (Hold Again, []).
Proof. eexists. split; reflexivity. Qed.

Definition two_writers := map write_blocks [[txt "ab"; txt "c"]; [txt "xy"]].

Example C71_case_blocks : exists s,
  run two_writers (init two_writers []) [0;1;1;1;1;1;0;0;0;0] = Some s /\ quiet s /\ stream s = txt "xyab".
Proof.
  destruct (run two_writers (init two_writers []) [0;1;1;1;1;1;0;0;0;0]) as [s|] eqn:E.
  - exists s. split; auto.
    assert (X : option_map (fun s => (threads s, stream s)) (run two_writers (init two_writers []) [0;1;1;1;1;1;0;0;0;0])
              = Some ([(Out, [RUnit]); (Out, [RUnit])], txt "xyab")) by (vm_compute; reflexivity).
    rewrite E in X. simpl in X. injection X as X1 X2. split; auto.
    intros t p h. rewrite X1. destruct t as [|[|[|t]]]; discriminate.
  - exfalso. assert (X : match run two_writers (init two_writers []) [0;1;1;1;1;1;0;0;0;0] with Some _ => True | None => False end) by (vm_compute; auto).
    rewrite E in X. auto.
Qed.

Print Assumptions C71_linearizable.
Print Assumptions C71_no_deadlock.
Print Assumptions C71_reentrant_callback_refuted.
Print Assumptions C71_readers_share_the_words.
Print Assumptions C71_read_loop_uses_every_word_once.
Print Assumptions C71_blocks_of_execute_stay_together.
Print Assumptions C71_eof_then_read_refuted.
Print Assumptions C71_eof_trailing_space_refuted.
Print Assumptions C71_reads_and_eof.
