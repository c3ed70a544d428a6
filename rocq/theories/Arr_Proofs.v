From Verif Require Export Arr_Spec.
Open Scope nat_scope.

Section P.
  Context {A : Type}.
  Implicit Types (h : heap A) (rd : nat -> heap A -> outcome A).

  Definition local rd : Prop := forall i h h', (forall x, nth_error (h x) i = nth_error (h' x) i) -> rd i h = rd i h'.

  Lemma aget_local i h h' a : (forall x, nth_error (h x) i = nth_error (h' x) i) -> aget (h a) i = aget (h' a) i.
  Proof. intros E. unfold aget. rewrite E. reflexivity. Qed.
  Lemma rd1_local f a : local (rd1 f a).
  Proof. intros i h h' E. unfold rd1. rewrite (aget_local _ _ _ a E). reflexivity. Qed.
  Lemma rd2_local f a b : local (rd2 f a b).
  Proof. intros i h h' E. unfold rd2. rewrite (aget_local _ _ _ a E), (aget_local _ _ _ b E). reflexivity. Qed.
  Lemma rdfold_local op args : forall a, local (rdfold op a args).
  Proof.
    induction args as [|b r IH]; intros a i h h' E; cbn.
    - apply aget_local; auto.
    - rewrite (aget_local _ _ _ a E), (IH b i h h' E). reflexivity.
  Qed.

  Lemma hput_same h d l : hput h d l d = l.
  Proof. unfold hput. rewrite Nat.eqb_refl. reflexivity. Qed.
  Lemma hput_other h d l x : x <> d -> hput h d l x = h x.
  Proof. intros E. unfold hput. destruct (Nat.eqb_spec x d); congruence. Qed.

  Lemma aset_ok (l : list A) i v : i < length l -> aset l i v = Ok (list_set l i v).
  Proof. intros H. unfold aset. apply Nat.ltb_lt in H. rewrite H. reflexivity. Qed.
  Lemma aset_ub (l : list A) i v : length l <= i -> aset l i v = UB.
  Proof. intros H. unfold aset. apply Nat.ltb_ge in H. rewrite H. reflexivity. Qed.
  Lemma aget_ok (l : list A) i : i < length l -> exists v, aget l i = Ok v /\ nth_error l i = Some v.
  Proof.
    intros H. unfold aget. destruct (nth_error l i) eqn:E; [eauto|]. apply nth_error_None in E. lia.
  Qed.
  Lemma aget_some (l : list A) i v : nth_error l i = Some v -> aget l i = Ok v.
  Proof. intros E. unfold aget. rewrite E. reflexivity. Qed.
  Lemma aget_ub (l : list A) i : length l <= i -> aget l i = UB.
  Proof. intros H. unfold aget. apply nth_error_None in H. rewrite H. reflexivity. Qed.

  Lemma nth_hput_other_index h d i j v x : i <> j -> nth_error (hput h d (list_set (h d) i v) x) j = nth_error (h x) j.
  Proof.
    intros E. destruct (Nat.eq_dec x d) as [->|N].
    - rewrite hput_same. apply nth_error_list_set_neq; auto.
    - rewrite hput_other; auto.
  Qed.

  (** The loop from [lo]. *)
  Lemma each_from rd d (L : local rd) : forall c lo h,
    (forall i, lo <= i < lo + c -> exists v, rd i h = Ok v) -> lo + c <= length (h d) ->
    exists h', for_up lo c (assign d rd) h = Ok h' /\
      (forall x, x <> d -> h' x = h x) /\ length (h' d) = length (h d) /\
      (forall i, ~ (lo <= i < lo + c) -> nth_error (h' d) i = nth_error (h d) i) /\
      (forall i, lo <= i < lo + c -> exists v, nth_error (h' d) i = Some v /\ rd i h = Ok v).
  Proof.
    induction c as [|c IH]; intros lo h V Ln.
    - exists h. cbn. repeat split; auto. intros; lia.
    - destruct (V lo) as [v E]; [lia|].
      set (h1 := hput h d (list_set (h d) lo v)).
      assert (E1 : assign d rd lo h = Ok h1).
      { unfold assign. rewrite E. cbn. rewrite aset_ok by lia. reflexivity. }
      assert (Lo : forall i, lo < i -> rd i h1 = rd i h).
      { intros i Hi. apply L. intros x. apply nth_hput_other_index. lia. }
      assert (LL : length (h1 d) = length (h d)).
      { unfold h1. rewrite hput_same. apply list_set_length. }
      destruct (IH (S lo) h1) as (h' & F & A1 & A2 & A3 & A4).
      { intros i Hi. rewrite Lo by lia. apply V. lia. }
      { rewrite LL. lia. }
      exists h'. cbn [for_up]. rewrite E1. cbn [obind]. split; [exact F|].
      split. { intros x N. rewrite (A1 x N). unfold h1. apply hput_other; auto. }
      split. { congruence. }
      split.
      { intros i Hi. rewrite (A3 i) by lia. unfold h1. apply nth_hput_other_index. lia. }
      intros i Hi. destruct (Nat.eq_dec i lo) as [->|N].
      + exists v. split; [|exact E]. rewrite (A3 lo) by lia. unfold h1. rewrite hput_same.
        apply nth_error_list_set_eq. lia.
      + destruct (A4 i) as (w & W1 & W2); [lia|]. exists w. split; [exact W1|]. rewrite <- Lo by lia. exact W2.
  Qed.

  Lemma each_ok rd d n h : local rd -> (forall i, i < n -> exists v, rd i h = Ok v) -> n <= length (h d) ->
    exists h', each d rd n h = Ok h' /\ writes h h' d n (fun i v => rd i h = Ok v).
  Proof.
    intros L V Ln. destruct (each_from rd d L n 0 h) as (h' & F & A1 & A2 & A3 & A4).
    { intros i Hi. apply V. lia. } { lia. }
    exists h'. split; [exact F|]. split; [exact A1|]. split; [exact A2|]. split.
    - intros i Hi. apply A3. lia.
    - intros i Hi. destruct (A4 i) as (v & ? & ?); [lia|]. exists v. auto.
  Qed.

  (** No right-hand side of these loops aborts: a failing one is out of bounds. *)
  Definition no_abort rd : Prop := forall i h, rd i h <> Abort.
  Lemma aget_no_abort (l : list A) i : aget l i <> Abort.
  Proof. unfold aget. destruct (nth_error l i); discriminate. Qed.
  Lemma rd1_no_abort f a : no_abort (rd1 f a).
  Proof. intros i h. unfold rd1. destruct (aget (h a) i) eqn:E; cbn; try discriminate. apply aget_no_abort in E. contradiction. Qed.
  Lemma rd2_no_abort f a b : no_abort (rd2 f a b).
  Proof.
    intros i h. unfold rd2. destruct (aget (h a) i) eqn:E; cbn; try discriminate; [|apply aget_no_abort in E; contradiction].
    destruct (aget (h b) i) eqn:E2; cbn; try discriminate. apply aget_no_abort in E2. contradiction.
  Qed.
  Lemma rdfold_no_abort op args : forall a, no_abort (rdfold op a args).
  Proof.
    induction args as [|b r IH]; intros a i h; cbn.
    - apply aget_no_abort.
    - destruct (aget (h a) i) eqn:E; cbn; try discriminate; [|apply aget_no_abort in E; contradiction].
      specialize (IH b i h). destruct (rdfold op b r i h); cbn; congruence.
  Qed.

  Lemma each_from_ub rd d (L : local rd) (NA : no_abort rd) : forall c lo h,
    (exists i, lo <= i < lo + c /\ ((forall v, rd i h <> Ok v) \/ length (h d) <= i)) ->
    for_up lo c (assign d rd) h = UB.
  Proof.
    induction c as [|c IH]; intros lo h (i & Hi & B); [lia|].
    cbn [for_up]. unfold assign at 1. destruct (rd lo h) as [v| |] eqn:E; cbn [obind].
    - destruct (Nat.lt_ge_cases lo (length (h d))) as [Ln|Ge].
      + rewrite aset_ok by auto. cbn [obind]. apply IH. exists i.
        assert (i <> lo).
        { intros ->. destruct B as [B|B]; [apply (B v E)|lia]. }
        split; [lia|]. destruct B as [B|B].
        * left. intros w W. apply (B w). rewrite <- W. apply L. intros x. symmetry. apply nth_hput_other_index. lia.
        * right. rewrite hput_same, list_set_length. exact B.
      + rewrite aset_ub by auto. reflexivity.
    - exfalso. apply (NA _ _ E).
    - reflexivity.
  Qed.

  Lemma rd1_ok f a i h : (exists v, rd1 f a i h = Ok v) <-> i < length (h a).
  Proof.
    unfold rd1, aget. split.
    - intros (v & E). apply nth_error_Some. destruct (nth_error (h a) i); cbn in E; congruence.
    - intros E. apply nth_error_Some in E. destruct (nth_error (h a) i); cbn; [eauto|congruence].
  Qed.
  Lemma rd2_ok f a b i h : (exists v, rd2 f a b i h = Ok v) <-> i < length (h a) /\ i < length (h b).
  Proof.
    unfold rd2, aget. rewrite <- !nth_error_Some. split.
    - intros (v & E). destruct (nth_error (h a) i), (nth_error (h b) i); cbn in E; split; congruence.
    - intros [E1 E2]. destruct (nth_error (h a) i), (nth_error (h b) i); cbn; try congruence. eauto.
  Qed.
  Lemma rdfold_ok op args : forall a i h, (exists v, rdfold op a args i h = Ok v) <-> (forall x, In x (a :: args) -> i < length (h x)).
  Proof.
    induction args as [|b r IH]; intros a i h.
    - cbn. unfold aget. split.
      + intros (v & E) x [<-|[]]. apply nth_error_Some. destruct (nth_error (h a) i); congruence.
      + intros V. specialize (V a (or_introl eq_refl)). apply nth_error_Some in V. destruct (nth_error (h a) i); [eauto|congruence].
    - cbn [rdfold]. split.
      + intros (v & E) x [<-|Hx].
        * unfold aget in E. apply nth_error_Some. destruct (nth_error (h a) i); cbn in E; congruence.
        * apply (proj1 (IH b i h)); auto.
          destruct (aget (h a) i); cbn in E; try discriminate. destruct (rdfold op b r i h); cbn in E; try discriminate. eauto.
      + intros V. destruct (aget_ok (h a) i) as (x & E & _); [apply V; left; auto|]. rewrite E. cbn.
        destruct (proj2 (IH b i h)) as [y Ey]; [intros z Hz; apply V; right; auto|]. rewrite Ey. cbn. eauto.
  Qed.
  Lemma rdfold_value op args : forall a i h x xs,
    at_is h a i x -> Forall2 (fun b y => at_is h b i y) args xs -> rdfold op a args i h = Ok (right_assoc op x xs).
  Proof.
    induction args as [|b r IH]; intros a i h x xs Ha F; inversion F; subst; cbn.
    - apply aget_some. exact Ha.
    - rewrite (aget_some _ _ _ Ha). cbn. rewrite (IH b i h y l'); auto.
  Qed.

  Lemma writes_weaken h h' d n (R Q : nat -> A -> Prop) : (forall i v, i < n -> R i v -> Q i v) -> writes h h' d n R -> writes h h' d n Q.
  Proof.
    intros I (A1 & A2 & A3 & A4). split; [exact A1|]. split; [exact A2|]. split; [exact A3|].
    intros i Hi. destruct (A4 i Hi) as (v & V1 & V2). exists v. auto.
  Qed.

  (** Reordered execution. *)
  Definition val_at rd h i v := rd i h = Ok v.
  Lemma perform_inv rd d n h (L : local rd) (V : forall i, i < n -> exists v, rd i h = Ok v) (Ln : n <= length (h d)) :
    forall es done g regs,
      NoDup (done ++ es) ->
      (forall i, In (Load i) (done ++ es) \/ In (Store i) (done ++ es) -> i < n) ->
      (forall i, i < n -> exists p q, position (Load i) (done ++ es) p /\ position (Store i) (done ++ es) q /\ p < q) ->
      (forall x, x <> d -> g x = h x) -> length (g d) = length (h d) ->
      (forall i, ~ In (Store i) done -> nth_error (g d) i = nth_error (h d) i) ->
      (forall i, In (Store i) done -> exists v, nth_error (g d) i = Some v /\ rd i h = Ok v) ->
      (forall i, In (Load i) done -> exists v, regs i = Some v /\ rd i h = Ok v) ->
      exists g' regs', perform_all d rd es (g, regs) = Ok (g', regs') /\
        (forall x, x <> d -> g' x = h x) /\ length (g' d) = length (h d) /\
        (forall i, ~ In (Store i) (done ++ es) -> nth_error (g' d) i = nth_error (h d) i) /\
        (forall i, In (Store i) (done ++ es) -> exists v, nth_error (g' d) i = Some v /\ rd i h = Ok v).
  Proof.
    induction es as [|e es IH]; intros dn g regs ND Rg Or O LL NS St Ld.
    - exists g, regs. rewrite app_nil_r. cbn. repeat split; auto.
    - assert (AS : forall l : list event, dn ++ e :: l = (dn ++ [e]) ++ l) by (intros; rewrite <- app_assoc; reflexivity).
      assert (Bef : forall i, i < n -> ~ In (Load i) dn -> e <> Load i -> ~ In (Store i) dn /\ e <> Store i).
      { intros i Hi N1 N2. destruct (Or i Hi) as (p & q & Pp & Pq & PQ). unfold position in *.
        assert (PL : p >= S (length dn)).
        { destruct (Nat.lt_ge_cases p (S (length dn))) as [Q|]; auto. exfalso.
          destruct (Nat.eq_dec p (length dn)) as [->|NE].
          - rewrite nth_error_app2, Nat.sub_diag in Pp by lia. cbn in Pp. congruence.
          - rewrite nth_error_app1 in Pp by lia. apply nth_error_In in Pp. contradiction. }
        assert (U : forall k, nth_error (dn ++ e :: es) k = Some (Store i) -> k = q).
        { intros k Ek. apply (proj1 (NoDup_nth_error _) ND); [|congruence]. apply nth_error_Some. congruence. }
        split.
        - intros B. apply In_nth_error in B. destruct B as [k Ek].
          assert (k < length dn) by (apply nth_error_Some; congruence).
          assert (k = q) by (apply U; rewrite nth_error_app1 by lia; exact Ek). lia.
        - intros ->. assert (length dn = q) by (apply U; rewrite nth_error_app2, Nat.sub_diag by lia; reflexivity). lia. }
      assert (Fr : ~ In e dn).
      { intros B. apply NoDup_remove_2 in ND. apply ND. apply in_or_app. auto. }
      destruct e as [i|i].
      + assert (Hi : i < n) by (apply Rg; left; apply in_or_app; right; left; auto).
        destruct (V i Hi) as [v Ev].
        assert (NotS : ~ In (Store i) dn).
        { intros B. destruct (Or i Hi) as (p & q & Pp & Pq & PQ). unfold position in *.
          apply In_nth_error in B. destruct B as [k Ek].
          assert (k < length dn) by (apply nth_error_Some; congruence).
          assert (k = q).
          { apply (proj1 (NoDup_nth_error _) ND); [apply nth_error_Some|]; rewrite nth_error_app1 by lia; congruence. }
          assert (p = length dn).
          { apply (proj1 (NoDup_nth_error _) ND); [apply nth_error_Some; congruence|].
            rewrite (nth_error_app2 _ _ (n := length dn)), Nat.sub_diag by lia. cbn. congruence. }
          lia. }
        assert (Eg : rd i g = Ok v).
        { rewrite <- Ev. apply L. intros x. destruct (Nat.eq_dec x d) as [->|NE]; [apply NS; auto|rewrite O; auto]. }
        cbn [perform_all perform fst snd]. rewrite Eg. cbn [obind fst snd].
        destruct (IH (dn ++ [Load i]) g (fun j => if j =? i then Some v else regs j)) as (g' & regs' & P1 & P2 & P3 & P4 & P5).
        * rewrite <- AS. exact ND.
        * rewrite <- AS. exact Rg.
        * rewrite <- AS. exact Or.
        * exact O.
        * exact LL.
        * intros j Hj. apply NS. intros B. apply Hj. apply in_or_app. auto.
        * intros j Hj. apply St. apply in_app_or in Hj. destruct Hj as [Hj|[Hj|[]]]; [exact Hj|discriminate].
        * intros j Hj. destruct (Nat.eqb_spec j i) as [->|NE]; [eauto|]. apply Ld.
          apply in_app_or in Hj. destruct Hj as [Hj|[Hj|[]]]; [exact Hj|congruence].
        * exists g', regs'. rewrite <- AS in P4, P5. auto.
      + assert (Hi : i < n) by (apply Rg; right; apply in_or_app; right; left; auto).
        destruct (V i Hi) as [v Ev].
        assert (IL : In (Load i) dn).
        { destruct (in_dec (fun a b : event => ltac:(decide equality; apply Nat.eq_dec) : {a = b} + {a <> b}) (Load i) dn) as [B|B]; [exact B|].
          destruct (Bef i Hi B ltac:(discriminate)) as [_ C0]. congruence. }
        destruct (Ld i IL) as (w & W1 & W2). assert (w = v) by congruence. subst w.
        cbn [perform_all perform fst snd]. rewrite W1. rewrite aset_ok by lia. cbn [obind].
        destruct (IH (dn ++ [Store i]) (hput g d (list_set (g d) i v)) regs) as (g' & regs' & P1 & P2 & P3 & P4 & P5).
        * rewrite <- AS. exact ND.
        * rewrite <- AS. exact Rg.
        * rewrite <- AS. exact Or.
        * intros x Hx. rewrite hput_other by auto. auto.
        * rewrite hput_same, list_set_length. exact LL.
        * intros j Hj. assert (i <> j) by (intros ->; apply Hj; apply in_or_app; right; left; auto).
          rewrite hput_same, nth_error_list_set_neq by auto. apply NS. intros B. apply Hj. apply in_or_app. auto.
        * intros j Hj. rewrite hput_same. destruct (Nat.eq_dec i j) as [->|NE].
          -- exists v. split; [apply nth_error_list_set_eq; lia|exact Ev].
          -- rewrite nth_error_list_set_neq by auto. apply St.
             apply in_app_or in Hj. destruct Hj as [Hj|[Hj|[]]]; [exact Hj|congruence].
        * intros j Hj. apply Ld. apply in_app_or in Hj. destruct Hj as [Hj|[Hj|[]]]; [exact Hj|discriminate].
        * exists g', regs'. rewrite <- AS in P4, P5. auto.
  Qed.

  Lemma writes_unique rd h h1 h2 d n : writes h h1 d n (fun i v => rd i h = Ok v) -> writes h h2 d n (fun i v => rd i h = Ok v) ->
    forall x, h1 x = h2 x.
  Proof.
    intros (A1 & A2 & A3 & A4) (B1 & B2 & B3 & B4) x. destruct (Nat.eq_dec x d) as [->|N].
    - assert (X : forall i, nth_error (h1 d) i = nth_error (h2 d) i).
      { intros i. destruct (Nat.lt_ge_cases i n) as [Hi|Hi].
        - destruct (A4 i Hi) as (v & V1 & V2), (B4 i Hi) as (w & W1 & W2). unfold at_is in *. congruence.
        - rewrite A3, B3 by auto. reflexivity. }
      assert (G : forall l1 l2 : list A, (forall i, nth_error l1 i = nth_error l2 i) -> l1 = l2).
      { induction l1 as [|a l1 IHl]; intros [|b l2] E; auto.
        - specialize (E 0). discriminate.
        - specialize (E 0). discriminate.
        - f_equal; [specialize (E 0); cbn in E; congruence|]. apply IHl. intros i. apply (E (S i)). }
      apply G. exact X.
    - rewrite A1, B1 by auto. reflexivity.
  Qed.

  Lemma reorder rd d n h es : local rd -> (forall i, i < n -> exists v, rd i h = Ok v) -> n <= length (h d) -> admissible n es ->
    exists h1 h2 r, each d rd n h = Ok h1 /\ perform_all d rd es (h, fun _ => None) = Ok (h2, r) /\ forall x, h1 x = h2 x.
  Proof.
    intros L V Ln (ND & Rg & Or).
    destruct (each_ok rd d n h L V Ln) as (h1 & E1 & W1).
    destruct (perform_inv rd d n h L V Ln es [] h (fun _ => None)) as (h2 & r & P1 & P2 & P3 & P4 & P5); auto.
    { intros i []. } { intros i []. }
    exists h1, h2, r. split; [exact E1|]. split; [exact P1|].
    apply (writes_unique rd h h1 h2 d n W1). split; [exact P2|]. split; [exact P3|]. cbn [app] in *. split.
    - intros i Hi. apply P4. intros B. assert (i < n) by (apply Rg; auto). lia.
    - intros i Hi. apply P5. destruct (Or i Hi) as (p & q & _ & Q & _). eapply nth_error_In; exact Q.
  Qed.
End P.
