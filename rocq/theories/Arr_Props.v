(** C85: the calc:: array helpers are element-wise whatever arrays they are given. *)
From Verif Require Import Arr_Proofs2.
From Coq Require Import Permutation Lra.
Open Scope nat_scope.

Section Statements.
  Context {A T : Type}.
  Variable O : elem A T.
  Local Notation add := (e_add O).
  Local Notation sub := (e_sub O).
  Local Notation mul := (e_mul O).
  Local Notation div := (e_div O).
  Local Notation addto := (e_addto O).
  Local Notation subto := (e_subto O).
  Local Notation dotp := (e_dotp O).
  Local Notation scale := (e_scale O).
  Local Notation divs := (e_divs O).
  Local Notation zero := (e_zero O).
  Implicit Types (h : heap A).

  Definition unary_result (f : A -> A) h (d a n : nat) h' : Prop :=
    writes h h' d n (fun i v => exists x, at_is h a i x /\ v = f x).
  Definition binary_result (f : A -> A -> A) h (d a b n : nat) h' : Prop :=
    writes h h' d n (fun i v => exists x y, at_is h a i x /\ at_is h b i y /\ v = f x y).

  Lemma each1 f d a n h : n <= length (h d) -> n <= length (h a) ->
    exists h', each d (rd1 f a) n h = Ok h' /\ unary_result f h d a n h'.
  Proof.
    intros Ld La. destruct (each_ok (rd1 f a) d n h) as (h' & E & W); auto using rd1_local.
    { intros i Hi. apply rd1_ok. lia. }
    exists h'. split; [exact E|]. eapply writes_weaken; [|exact W]. cbn. intros i v Hi Ev. unfold rd1 in Ev.
    destruct (aget_ok (h a) i ltac:(lia)) as (x & Ex & Nx). rewrite Ex in Ev. cbn in Ev. exists x. unfold at_is. split; congruence.
  Qed.
  Lemma each2 f d a b n h : n <= length (h d) -> n <= length (h a) -> n <= length (h b) ->
    exists h', each d (rd2 f a b) n h = Ok h' /\ binary_result f h d a b n h'.
  Proof.
    intros Ld La Lb. destruct (each_ok (rd2 f a b) d n h) as (h' & E & W); auto using rd2_local.
    { intros i Hi. apply rd2_ok. lia. }
    exists h'. split; [exact E|]. eapply writes_weaken; [|exact W]. cbn. intros i v Hi Ev. unfold rd2 in Ev.
    destruct (aget_ok (h a) i ltac:(lia)) as (x & Ex & Nx). destruct (aget_ok (h b) i ltac:(lia)) as (y & Ey & Ny).
    rewrite Ex in Ev. cbn in Ev. rewrite Ey in Ev. cbn in Ev. exists x, y. unfold at_is. repeat split; congruence.
  Qed.
  Lemma each1_ub f d a n h : n > length (h d) \/ n > length (h a) -> each d (rd1 f a) n h = UB.
  Proof.
    intros B. apply each_from_ub; auto using rd1_local, rd1_no_abort.
    destruct B as [B|B].
    - exists (length (h d)). split; [lia|]. right. lia.
    - exists (length (h a)). split; [lia|]. left. intros v E.
      assert (length (h a) < length (h a)) by (apply (proj1 (rd1_ok f a _ h)); eauto). lia.
  Qed.
  Lemma each2_ub f d a b n h : n > length (h d) \/ n > length (h a) \/ n > length (h b) -> each d (rd2 f a b) n h = UB.
  Proof.
    intros B. apply each_from_ub; auto using rd2_local, rd2_no_abort.
    destruct B as [B|[B|B]].
    - exists (length (h d)). split; [lia|]. right. lia.
    - exists (length (h a)). split; [lia|]. left. intros v E.
      assert (length (h a) < length (h a) /\ length (h a) < length (h b)) by (apply (proj1 (rd2_ok f a b _ h)); eauto). lia.
    - exists (length (h b)). split; [lia|]. left. intros v E.
      assert (length (h b) < length (h a) /\ length (h b) < length (h b)) by (apply (proj1 (rd2_ok f a b _ h)); eauto). lia.
  Qed.

  (** *** Two-operand helpers whose bound is dst.size() (or var.size(), the destination). *)
  Theorem C85_array_sub d a b h :
    (length (h d) <= length (h a) -> length (h d) <= length (h b) ->
       exists h', array_sub O d a b h = Ok h' /\ binary_result sub h d a b (length (h d)) h') /\
    (length (h a) < length (h d) \/ length (h b) < length (h d) -> array_sub O d a b h = UB).
  Proof. split; intros; [apply each2; lia|apply each2_ub; lia]. Qed.
  Theorem C85_array_div d a b h :
    (length (h d) <= length (h a) -> length (h d) <= length (h b) ->
       exists h', array_div O d a b h = Ok h' /\ binary_result div h d a b (length (h d)) h') /\
    (length (h a) < length (h d) \/ length (h b) < length (h d) -> array_div O d a b h = UB).
  Proof. split; intros; [apply each2; lia|apply each2_ub; lia]. Qed.
  Theorem C85_coord_dot d a b h :
    (length (h d) <= length (h a) -> length (h d) <= length (h b) ->
       exists h', coord_dot O d a b h = Ok h' /\ binary_result dotp h d a b (length (h d)) h') /\
    (length (h a) < length (h d) \/ length (h b) < length (h d) -> coord_dot O d a b h = UB).
  Proof. split; intros; [apply each2; lia|apply each2_ub; lia]. Qed.
  Theorem C85_array_advance v a k h :
    (length (h v) <= length (h a) ->
       (exists h', array_advance O v a h = Ok h' /\ binary_result addto h v v a (length (h v)) h') /\
       (exists h', array_advance_by O v a k h = Ok h' /\
                   binary_result (fun x y => addto x (scale y k)) h v v a (length (h v)) h') /\
       (exists h', array_retreat O v a h = Ok h' /\ binary_result subto h v v a (length (h v)) h') /\
       (exists h', array_retreat_by O v a k h = Ok h' /\
                   binary_result (fun x y => subto x (scale y k)) h v v a (length (h v)) h')) /\
    (length (h a) < length (h v) ->
       array_advance O v a h = UB /\ array_advance_by O v a k h = UB /\
       array_retreat O v a h = UB /\ array_retreat_by O v a k h = UB).
  Proof.
    split; intros H.
    - split; [apply each2; lia|]. split; [apply each2; lia|]. split; apply each2; lia.
    - split; [apply each2_ub; lia|]. split; [apply each2_ub; lia|]. split; apply each2_ub; lia.
  Qed.
  Theorem C85_array_scale d a k h :
    (length (h d) <= length (h a) ->
       (exists h', array_scale O d a k h = Ok h' /\ unary_result (fun x => scale x k) h d a (length (h d)) h') /\
       (exists h', array_div_scale O d a k h = Ok h' /\ unary_result (fun x => divs x k) h d a (length (h d)) h')) /\
    (length (h a) < length (h d) -> array_scale O d a k h = UB /\ array_div_scale O d a k h = UB).
  Proof.
    split; intros H.
    - split; apply each1; lia.
    - split; apply each1_ub; lia.
  Qed.

  (** *** Helpers whose bound is the size of the first operand: the destination must be at least as long,
      and what lies beyond is kept. *)
  Theorem C85_array_advance_to d v a k h :
    (length (h v) <= length (h d) -> length (h v) <= length (h a) ->
       (exists h', array_advance_to O d v a k h = Ok h' /\
                   binary_result (fun x y => add x (scale y k)) h d v a (length (h v)) h') /\
       (exists h', array_retreat_to O d v a k h = Ok h' /\
                   binary_result (fun x y => sub x (scale y k)) h d v a (length (h v)) h')) /\
    (length (h d) < length (h v) \/ length (h a) < length (h v) ->
       array_advance_to O d v a k h = UB /\ array_retreat_to O d v a k h = UB).
  Proof. split; intros; [split; apply each2; lia|split; apply each2_ub; lia]. Qed.
  Theorem C85_array_transform d a b c e h :
    (length (h a) <= length (h d) -> length (h a) <= length (h b) ->
       (exists h', array_scale_add O d a b c h = Ok h' /\
                   binary_result (fun x y => scale (add x y) c) h d a b (length (h a)) h') /\
       (exists h', array_scale_add2 O d a c b e h = Ok h' /\
                   binary_result (fun x y => add (scale x c) (scale y e)) h d a b (length (h a)) h') /\
       (exists h', array_scale_sub O d a b c h = Ok h' /\
                   binary_result (fun x y => scale (sub x y) c) h d a b (length (h a)) h')) /\
    (length (h d) < length (h a) \/ length (h b) < length (h a) ->
       array_scale_add O d a b c h = UB /\ array_scale_add2 O d a c b e h = UB /\
       array_scale_sub O d a b c h = UB).
  Proof.
    split; intros.
    - split; [apply each2; lia|]. split; apply each2; lia.
    - split; [apply each2_ub; lia|]. split; apply each2_ub; lia.
  Qed.

  (** *** Any number of operands: a0 op (a1 op (...)). *)
  Definition pack_result (op : A -> A -> A) h (d a : nat) (args : list nat) (n : nat) h' : Prop :=
    writes h h' d n (fun i v => exists x xs, at_is h a i x /\ Forall2 (fun b y => at_is h b i y) args xs /\ v = right_assoc op x xs).
  Lemma eachpack op d a args h :
    ((forall x, In x (a :: args) -> length (h d) <= length (h x)) ->
       exists h', each d (rdfold op a args) (length (h d)) h = Ok h' /\ pack_result op h d a args (length (h d)) h') /\
    ((exists x, In x (a :: args) /\ length (h x) < length (h d)) -> each d (rdfold op a args) (length (h d)) h = UB).
  Proof.
    split.
    - intros V. destruct (each_ok (rdfold op a args) d (length (h d)) h) as (h' & E & W); auto using rdfold_local.
      { intros i Hi. apply rdfold_ok. intros x Hx. specialize (V x Hx). lia. }
      exists h'. split; [exact E|]. eapply writes_weaken; [|exact W]. cbn. intros i v Hi Ev.
      destruct (aget_ok (h a) i) as (x & _ & Nx); [specialize (V a (or_introl eq_refl)); lia|].
      assert (F : exists xs, Forall2 (fun b y => at_is h b i y) args xs).
      { assert (V' : forall x, In x args -> length (h d) <= length (h x)) by (intros; apply V; right; auto).
        clear -V' Hi. induction args as [|b r IH]; [exists []; constructor|].
        destruct IH as [xs F]; [intros; apply V'; right; auto|].
        destruct (aget_ok (h b) i) as (y & _ & Ny); [specialize (V' b (or_introl eq_refl)); lia|].
        exists (y :: xs). constructor; auto. }
      destruct F as [xs F]. exists x, xs. split; [exact Nx|]. split; [exact F|].
      rewrite (rdfold_value op args a i h x xs Nx F) in Ev. congruence.
    - intros (x & Hx & Lx). apply each_from_ub; auto using rdfold_local, rdfold_no_abort.
      exists (length (h x)). split; [lia|]. left. intros v E.
      assert (length (h x) < length (h x)) by (apply (proj1 (rdfold_ok op args a _ h)); eauto). lia.
  Qed.
  Theorem C85_array_add d a args h :
    ((forall x, In x (a :: args) -> length (h d) <= length (h x)) ->
       exists h', array_add O d a args h = Ok h' /\ pack_result add h d a args (length (h d)) h') /\
    ((exists x, In x (a :: args) /\ length (h x) < length (h d)) -> array_add O d a args h = UB).
  Proof. apply eachpack. Qed.
  Theorem C85_array_mul d a args h :
    ((forall x, In x (a :: args) -> length (h d) <= length (h x)) ->
       exists h', array_mul O d a args h = Ok h' /\ pack_result mul h d a args (length (h d)) h') /\
    ((exists x, In x (a :: args) /\ length (h x) < length (h d)) -> array_mul O d a args h = UB).
  Proof. apply eachpack. Qed.

  (** set_arrays_zero clears exactly the arrays it is given and keeps their sizes. *)
  Theorem C85_set_arrays_zero ds h :
    exists h', set_arrays_zero O ds h = Ok h' /\
      forall x, h' x = if in_dec Nat.eq_dec x ds then repeat zero (length (h x)) else h x.
  Proof.
    revert h. induction ds as [|d r IH]; intros h.
    - exists h. split; auto.
    - cbn [set_arrays_zero obind array_set_zero].
      destruct (IH (hput h d (repeat zero (length (h d))))) as (h' & E & W).
      exists h'. split; [exact E|]. intros x. rewrite W.
      destruct (in_dec Nat.eq_dec x (d :: r)) as [J|J], (in_dec Nat.eq_dec x r) as [I|I]; cbn [In] in J.
      + destruct (Nat.eq_dec x d) as [->|N].
        * rewrite hput_same, repeat_length. reflexivity.
        * rewrite hput_other by exact N. reflexivity.
      + assert (x = d) by (destruct J; [congruence|contradiction]). subst x. rewrite hput_same. reflexivity.
      + tauto.
      + rewrite hput_other by (intros ->; tauto). reflexivity.
  Qed.

  (** *** The loops may be reordered or vectorised (#pragma GCC ivdep): every admissible interleaving of
      the loads and stores leaves the same arrays as the loop in order. *)
  Definition same_as_loop (d n : nat) (rd : nat -> heap A -> outcome A) (es : list event) h h1 : Prop :=
    exists h2 r, perform_all d rd es (h, fun _ => None) = Ok (h2, r) /\ forall x, h1 x = h2 x.
  Theorem C85_any_schedule_pack op d a args h es :
    admissible (length (h d)) es -> (forall x, In x (a :: args) -> length (h d) <= length (h x)) ->
    exists h1, each d (rdfold op a args) (length (h d)) h = Ok h1 /\ same_as_loop d (length (h d)) (rdfold op a args) es h h1.
  Proof.
    intros Ad V. destruct (reorder (rdfold op a args) d (length (h d)) h es) as (h1 & h2 & r & E1 & E2 & E3); auto using rdfold_local.
    { intros i Hi. apply rdfold_ok. intros x Hx. specialize (V x Hx). lia. }
    exists h1. split; [exact E1|]. exists h2, r. auto.
  Qed.
  Theorem C85_any_schedule_unary f d a h es :
    admissible (length (h d)) es -> length (h d) <= length (h a) ->
    exists h1, each d (rd1 f a) (length (h d)) h = Ok h1 /\ same_as_loop d (length (h d)) (rd1 f a) es h h1.
  Proof.
    intros Ad V. destruct (reorder (rd1 f a) d (length (h d)) h es) as (h1 & h2 & r & E1 & E2 & E3); auto using rd1_local.
    { intros i Hi. apply rd1_ok. lia. }
    exists h1. split; [exact E1|]. exists h2, r. auto.
  Qed.
  Theorem C85_any_schedule_binary f d a b n h es :
    admissible n es -> n <= length (h d) -> n <= length (h a) -> n <= length (h b) ->
    exists h1, each d (rd2 f a b) n h = Ok h1 /\ same_as_loop d n (rd2 f a b) es h h1.
  Proof.
    intros Ad Vd Va Vb. destruct (reorder (rd2 f a b) d n h es) as (h1 & h2 & r & E1 & E2 & E3); auto using rd2_local.
    { intros i Hi. apply rd2_ok. lia. }
    exists h1. split; [exact E1|]. exists h2, r. auto.
  Qed.

  (** *** Reductions: the terms in index order, added with operator+=. *)
  Theorem C85_array_dot a b args h :
    length (h a) <= length (h b) -> (forall x, In x args -> length (h a) <= length (h x)) ->
    exists terms, array_dot O a b args h = Ok (fold_left addto terms zero) /\
      length terms = length (h a) /\
      forall i t, nth_error terms i = Some t ->
        exists x y zs, at_is h a i x /\ at_is h b i y /\ Forall2 (fun c z => at_is h c i z) args zs /\
                       t = fold_right mul (mul x y) zs.
  Proof.
    intros Lb La.
    assert (Term : forall i, i < length (h a) -> exists x y zs, at_is h a i x /\ at_is h b i y /\ Forall2 (fun c z => at_is h c i z) args zs).
    { intros i Hi. destruct (aget_ok (h a) i Hi) as (x & _ & Nx). destruct (aget_ok (h b) i ltac:(lia)) as (y & _ & Ny).
      assert (F : exists xs, Forall2 (fun b y => at_is h b i y) args xs).
      { clear -La Hi. induction args as [|c r IH]; [exists []; constructor|].
        destruct IH as [xs F]; [intros; apply La; right; auto|].
        destruct (aget_ok (h c) i) as (z & _ & Nz); [specialize (La c (or_introl eq_refl)); lia|].
        exists (z :: xs). constructor; auto. }
      destruct F as [zs F]. exists x, y, zs. auto. }
    assert (PF : forall ar zs i w, Forall2 (fun c z => at_is h c i z) ar zs -> prodfold O ar w i h = Ok (fold_right mul w zs)).
    { intros ar zs i w F. induction F as [|c z ar zs Hc F IH]; cbn; auto. rewrite (aget_some _ _ _ Hc). cbn. rewrite IH. reflexivity. }
    set (g := fun i => obind (aget (h a) i) (fun x => obind (aget (h b) i) (fun y => prodfold O args (mul x y) i h))).
    assert (TS : forall n, n <= length (h a) -> exists terms, length terms = n /\ forall i t, nth_error terms i = Some t ->
        g i = Ok t /\ exists x y zs, at_is h a i x /\ at_is h b i y /\ Forall2 (fun c z => at_is h c i z) args zs /\ t = fold_right mul (mul x y) zs).
    { induction n as [|n IH]; intros Hn.
      - exists []. split; auto. intros [|i]; discriminate.
      - destruct IH as (ts & L0 & P); [lia|]. destruct (Term n ltac:(lia)) as (x & y & zs & X & Y & F).
        exists (ts ++ [fold_right mul (mul x y) zs]). split; [rewrite app_length; cbn; lia|].
        intros i t Ht. destruct (Nat.lt_ge_cases i n) as [Hi|Hi].
        + rewrite nth_error_app1 in Ht by lia. apply P. exact Ht.
        + assert (i = n).
          { assert (i < length (ts ++ [fold_right mul (mul x y) zs])) by (apply nth_error_Some; congruence).
            rewrite app_length in H. cbn in H. lia. }
          subst i. rewrite nth_error_app2 in Ht by lia. rewrite L0, Nat.sub_diag in Ht. cbn in Ht. injection Ht as <-.
          split; [|exists x, y, zs; auto]. unfold g. rewrite (aget_some _ _ _ X). cbn. rewrite (aget_some _ _ _ Y). cbn. apply PF. exact F. }
    destruct (TS (length (h a)) (le_n _)) as (ts & L0 & P). exists ts. split; [|split; [exact L0|]].
    - unfold array_dot. rewrite <- (for_up_fold g addto (length (h a)) 0 zero ts L0).
      + apply for_up_ext. intros i s. unfold g. destruct (aget (h a) i); cbn; auto. destruct (aget (h b) i); cbn; auto.
      + intros k v Hk. cbn. apply P. exact Hk.
    - intros i t Ht. apply (proj2 (P i t Ht)).
  Qed.
  Theorem C85_coord_contract coef a b h :
    length (h coef) <= length (h a) -> length (h coef) <= length (h b) ->
    exists terms, coord_contract O coef a b h = Ok (fold_left addto terms zero) /\
      length terms = length (h coef) /\
      forall i t, nth_error terms i = Some t ->
        exists c x y, at_is h coef i c /\ at_is h a i x /\ at_is h b i y /\ t = mul (dotp x y) c.
  Proof.
    intros La Lb.
    set (g := fun i => obind (aget (h a) i) (fun x => obind (aget (h b) i) (fun y => obind (aget (h coef) i) (fun c => Ok (mul (dotp x y) c))))).
    assert (TS : forall n, n <= length (h coef) -> exists terms, length terms = n /\ forall i t, nth_error terms i = Some t ->
        g i = Ok t /\ exists c x y, at_is h coef i c /\ at_is h a i x /\ at_is h b i y /\ t = mul (dotp x y) c).
    { induction n as [|n IH]; intros Hn.
      - exists []. split; auto. intros [|i]; discriminate.
      - destruct IH as (ts & L0 & P); [lia|].
        destruct (aget_ok (h coef) n) as (c & _ & Nc); [lia|]. destruct (aget_ok (h a) n) as (x & _ & Nx); [lia|].
        destruct (aget_ok (h b) n) as (y & _ & Ny); [lia|].
        exists (ts ++ [mul (dotp x y) c]). split; [rewrite app_length; cbn; lia|].
        intros i t Ht. destruct (Nat.lt_ge_cases i n) as [Hi|Hi].
        + rewrite nth_error_app1 in Ht by lia. apply P. exact Ht.
        + assert (i = n).
          { assert (i < length (ts ++ [mul (dotp x y) c])) by (apply nth_error_Some; congruence).
            rewrite app_length in H. cbn in H. lia. }
          subst i. rewrite nth_error_app2 in Ht by lia. rewrite L0, Nat.sub_diag in Ht. cbn in Ht. injection Ht as <-.
          split; [|exists c, x, y; auto]. unfold g. rewrite (aget_some _ _ _ Nx). cbn. rewrite (aget_some _ _ _ Ny). cbn.
          rewrite (aget_some _ _ _ Nc). reflexivity. }
    destruct (TS (length (h coef)) (le_n _)) as (ts & L0 & P). exists ts. split; [|split; [exact L0|]].
    - unfold coord_contract. rewrite <- (for_up_fold g addto (length (h coef)) 0 zero ts L0).
      + apply for_up_ext. intros i s. unfold g. destruct (aget (h a) i); cbn; auto. destruct (aget (h b) i); cbn; auto.
        destruct (aget (h coef) i); reflexivity.
      + intros k v Hk. cbn. apply P. exact Hk.
    - intros i t Ht. apply (proj2 (P i t Ht)).
  Qed.
  Theorem C85_coord_contract2 a b h :
    length (h a) <= length (h b) ->
    exists terms, coord_contract2 O a b h = Ok (fold_left addto terms zero) /\
      length terms = length (h a) /\
      forall i t, nth_error terms i = Some t -> exists x y, at_is h a i x /\ at_is h b i y /\ t = dotp x y.
  Proof.
    intros Lb.
    set (ts := map (fun p => dotp (fst p) (snd p)) (combine (h a) (h b))).
    assert (Ev : forall i t, nth_error ts i = Some t -> exists x y, at_is h a i x /\ at_is h b i y /\ t = dotp x y).
    { intros i t Ht. unfold ts in Ht. rewrite nth_error_map, nth_error_combine in Ht.
      destruct (nth_error (h a) i) as [x|] eqn:X; [|discriminate]. destruct (nth_error (h b) i) as [y|] eqn:Y; [|discriminate].
      cbn in Ht. exists x, y. unfold at_is. repeat split; congruence. }
    assert (L0 : length ts = length (h a)) by (unfold ts; rewrite map_length, combine_length; lia).
    exists ts. split; [|split; [exact L0|exact Ev]].
    unfold coord_contract2.
    rewrite <- (for_up_fold (fun i => obind (aget (h a) i) (fun x => obind (aget (h b) i) (fun y => Ok (dotp x y)))) addto (length (h a)) 0 zero ts L0).
    - apply for_up_ext. intros i s. destruct (aget (h a) i); cbn; auto. destruct (aget (h b) i); cbn; auto.
    - intros k v Hk. cbn. destruct (Ev k v Hk) as (x & y & X & Y & ->). rewrite (aget_some _ _ _ X). cbn. rewrite (aget_some _ _ _ Y). reflexivity.
  Qed.
End Statements.

(** A two-lane vectorised execution of three iterations, out of order: loads of 2 and 0, stores, then 1. *)
Example two_lanes : admissible 3 [Load 2; Load 0; Store 0; Load 1; Store 2; Store 1].
Proof.
  split; [|split].
  - repeat constructor; cbn; intuition discriminate.
  - intros i. cbn. intuition; try discriminate; match goal with H : _ = _ |- _ => injection H as <- end; lia.
  - intros i Hi. destruct i as [|[|[|i]]]; [| | |lia].
    + exists 1, 2. cbn. repeat split; auto.
    + exists 3, 5. cbn. repeat split; auto.
    + exists 0, 4. cbn. repeat split; auto.
Qed.
Open Scope R_scope.
(** The operators of double and of the 3-vectors (Vec3 has component-wise * and /; its zero is the default vector;
    dot() yields a scalar, which the instances below do not use: it is put in the first component here). *)
Definition reals : elem R R := mkElem R R Rplus Rminus Rmult Rdiv Rplus Rminus Rmult Rmult Rdiv 0.
Definition vecs : elem vec R :=
  mkElem vec R vadd vsub
    (fun a b => mkV (vx a * vx b) (vy a * vy b) (vz a * vz b)) (fun a b => mkV (vx a / vx b) (vy a / vy b) (vz a / vz b))
    vadd vsub (fun a b => mkV (dot a b) 0 0)
    (fun x t => vscal t x) (fun x t => vscal (/ t) x) (mkV 0 0 0).
(** In-place use with aliasing: acc = acc + newtonian + acc. *)
Example alias_add :
  let h : heap R := fun x => match x with O => [1; 2; 3] | 1%nat => [10; 20; 30; 40] | _ => [] end in
  match array_add reals 0 0 [1; 0]%nat h with Ok h' => h' 0%nat = [12; 24; 36] /\ h' 1%nat = [10; 20; 30; 40] | _ => False end.
Proof. cbn. split; repeat (f_equal; try lra). Qed.
(** A destination longer than the source. *)
Example short_source :
  let h : heap R := fun x => match x with O => [1; 2; 3] | _ => [10; 20] end in array_scale reals 0 1 2 h = UB.
Proof. reflexivity. Qed.

(** *** Instances used by the rest of the model. *)
Theorem C85_advance_is_model (h : heap vec) (v a : nat) (k : R) : length (h v) = length (h a) ->
  exists h', array_advance_by vecs v a k h = Ok h' /\
    h' v = System_Model.advance (h v) (h a) k /\ (forall x, x <> v -> h' x = h x).
Proof.
  intros L. destruct (proj1 (C85_array_advance vecs v a k h) ltac:(lia)) as (_ & (h' & E & W) & _).
  exists h'. split; [exact E|]. split; [|exact (proj1 W)].
  unfold binary_result in W. apply writes2_list in W; [|reflexivity|lia]. rewrite W. reflexivity.
Qed.
Theorem C85_add_is_model (h : heap vec) (d a b : nat) : length (h d) = length (h a) -> length (h d) = length (h b) ->
  exists h', array_add vecs d a [b] h = Ok h' /\ h' d = System_Model.vladd (h a) (h b) /\ (forall x, x <> d -> h' x = h x).
Proof.
  intros L1 L2. destruct (proj1 (C85_array_add vecs d a [b] h)) as (h' & E & W).
  { intros x [<-|[<-|[]]]; lia. }
  exists h'. split; [exact E|]. split; [|exact (proj1 W)].
  unfold System_Model.vladd. apply (writes2_list vadd h h' d a b); [lia|lia|].
  eapply writes_weaken; [|exact W]. cbn. intros i v Hi (x & xs & X & F & ->). inversion F as [|? y ? l Hy F' ]; subst. inversion F'; subst.
  exists x, y. auto.
Qed.
Theorem C85_radau_is_model (h : heap R) (d a : nat) (k : R) :
  (length (h d) <= length (h a))%nat ->
  (exists h', array_scale reals d a k h = Ok h' /\ h' d = Radau_Model.array_scale (length (h d)) (h a) k) /\
  (exists h', array_advance_by reals d a k h = Ok h' /\ h' d = Radau_Model.array_advance (h d) (h a) k).
Proof.
  intros L. split.
  - destruct (proj1 (C85_array_scale reals d a k h) L) as ((h' & E & W) & _). exists h'. split; [exact E|].
    destruct W as (_ & Ld & Bey & In0). apply nth_ext_eq. intros i.
    unfold Radau_Model.array_scale, Radau_Model.arr. unfold System_Model.tolist.
    destruct (Nat.lt_ge_cases i (length (h d))) as [Hi|Hi].
    + destruct (In0 i Hi) as (v & V & x & X & ->). unfold at_is in V. rewrite V.
      rewrite nth_error_map. rewrite (nth_error_nth' _ 0%nat) by (rewrite seq_length; exact Hi). rewrite seq_nth by exact Hi. cbn.
      unfold Radau_Model.at_. rewrite (nth_error_nth _ _ 0 X). reflexivity.
    + rewrite Bey by auto. replace (nth_error (h d) i) with (@None R) by (symmetry; apply nth_error_None; lia).
      symmetry. apply nth_error_None. rewrite map_length, seq_length. exact Hi.
  - destruct (proj1 (C85_array_advance reals d a k h) L) as (_ & (h' & E & W) & _). exists h'. split; [exact E|].
    destruct W as (_ & Ld & Bey & In0). apply nth_ext_eq. intros i.
    unfold Radau_Model.array_advance, Radau_Model.arr. unfold System_Model.tolist.
    destruct (Nat.lt_ge_cases i (length (h d))) as [Hi|Hi].
    + destruct (In0 i Hi) as (v & V & x & y & X & Y & ->). unfold at_is in V. rewrite V.
      rewrite nth_error_map. rewrite (nth_error_nth' _ 0%nat) by (rewrite seq_length; exact Hi). rewrite seq_nth by exact Hi. cbn.
      unfold Radau_Model.at_. rewrite (nth_error_nth _ _ 0 X), (nth_error_nth _ _ 0 Y). reflexivity.
    + rewrite Bey by auto. replace (nth_error (h d) i) with (@None R) by (symmetry; apply nth_error_None; lia).
      symmetry. apply nth_error_None. rewrite map_length, seq_length. exact Hi.
Qed.

(** *** Error terms of compensated numbers. *)
Open Scope nat_scope.
Theorem C85_error_terms_round_trip {T} (zero : T) (x : list (cnum T)) (buf : list T) :
  length buf = length x ->
  exists saved, array_save_err buf x = Ok saved /\ length saved = length x /\
    array_load_err (array_set_err_zero zero x) saved = Ok x.
Proof.
  intros L. unfold array_save_err, array_load_err. rewrite zip_into_ok by lia.
  eexists. split; [reflexivity|]. rewrite map_length, combine_length. split; [lia|].
  rewrite zip_into_ok.
  - f_equal. apply nth_ext_eq. intros i. unfold array_set_err_zero.
    rewrite !nth_error_map, nth_error_combine, !nth_error_map, nth_error_combine.
    destruct (nth_error x i) as [[r e]|] eqn:X; cbn; [|reflexivity].
    destruct (nth_error buf i) eqn:B; cbn; [reflexivity|]. exfalso. apply nth_error_None in B.
    assert (i < length x) by (apply nth_error_Some; congruence). lia.
  - unfold array_set_err_zero. rewrite !map_length, combine_length. lia.
Qed.
Theorem C85_error_terms_round_trip_vectors {T} (zero : T) (x : list (v3 (cnum T))) (buf : list (v3 T)) :
  length buf = length x ->
  exists saved, array_save_err3 buf x = Ok saved /\ length saved = length x /\
    array_load_err3 (array_set_err_zero3 zero x) saved = Ok x.
Proof.
  intros L. unfold array_save_err3, array_load_err3. rewrite zip_into_ok by lia.
  eexists. split; [reflexivity|]. rewrite map_length, combine_length. split; [lia|].
  rewrite zip_into_ok.
  - f_equal. apply nth_ext_eq. intros i. unfold array_set_err_zero3.
    rewrite !nth_error_map, nth_error_combine, !nth_error_map, nth_error_combine.
    destruct (nth_error x i) as [[[r1 e1] [r2 e2] [r3 e3]]|] eqn:X; cbn; [|reflexivity].
    destruct (nth_error buf i) eqn:B; cbn; [reflexivity|]. exfalso. apply nth_error_None in B.
    assert (i < length x) by (apply nth_error_Some; congruence). lia.
  - unfold array_set_err_zero3. rewrite !map_length, combine_length. lia.
Qed.
(** Copying and clearing error terms never touches a value; a destination longer than the source is out of
    bounds. *)
Theorem C85_error_terms_keep_values {T} (zero : T) (d s : list (cnum T)) :
  map c_val (array_set_err_zero zero d) = map c_val d /\
  map c_err (array_set_err_zero zero d) = repeat zero (length d) /\
  (length d = length s -> exists r, array_copy_err d s = Ok r /\ map c_val r = map c_val d /\ map c_err r = map c_err s) /\
  (length s < length d -> array_copy_err d s = UB).
Proof.
  split; [|split; [|split]].
  - unfold array_set_err_zero. rewrite map_map. reflexivity.
  - unfold array_set_err_zero. rewrite map_map. cbn. induction d; cbn; congruence.
  - intros L. unfold array_copy_err. rewrite zip_into_ok by lia. eexists. split; [reflexivity|]. rewrite !map_map. cbn.
    revert s L. induction d as [|x d IH]; intros [|y s] L; try discriminate; [split; reflexivity|].
    injection L as L. destruct (IH s L). cbn. split; f_equal; auto.
  - intros L. unfold array_copy_err, zip_into.
    assert (G : forall c lo (r : list (cnum T)), lo <= length s -> lo + c = length r -> length s < length r ->
       for_up lo c (fun i dst => obind (aget dst i) (fun x => obind (aget s i) (fun y => aset dst i (with_err x (c_err y))))) r = UB).
    { induction c as [|c IH]; intros lo r Hl E Ls; [lia|]. cbn [for_up].
      destruct (aget_ok r lo) as (x & Ex & _); [lia|]. rewrite Ex. cbn [obind].
      destruct (Nat.eq_dec lo (length s)) as [->|N].
      - rewrite aget_ub by lia. reflexivity.
      - destruct (aget_ok s lo) as (y & Ey & _); [lia|]. rewrite Ey. cbn [obind]. rewrite aset_ok by lia. cbn [obind].
        apply IH; rewrite ?list_set_length; lia. }
    apply G; lia.
Qed.
Example err_round : array_load_err (array_set_err_zero 0 [mkC 5 1; mkC 6 2]) [1; 2] = Ok [mkC 5 1; mkC 6 2].
Proof. reflexivity. Qed.

Print Assumptions C85_array_add.
Print Assumptions C85_any_schedule_pack.
Print Assumptions C85_array_dot.
Print Assumptions C85_radau_is_model.
Print Assumptions C85_error_terms_round_trip_vectors.
