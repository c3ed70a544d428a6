From Verif Require Import Base Opip_Model Opip_Proofs.

(** The items producer [p] was asked to push in schedule [ls]. *)
Fixpoint pushes (p : nat) (ls : list label) : list nat :=
  match ls with
  | [] => []
  | LPush q x :: ls' => if q =? p then x :: pushes p ls' else pushes p ls'
  | _ :: ls' => pushes p ls'
  end.
(** The entries of [l] whose tag is [p]. *)
Definition tagged (p : nat) (tags l : list nat) : list nat :=
  map snd (filter (fun e => fst e =? p) (combine tags l)).
Definition pending (k : option ppc) : list nat :=
  match k with Some (PAcquire x) | Some (PHold x) => [x] | _ => [] end.

Lemma pushes_app p a b : pushes p (a ++ b) = pushes p a ++ pushes p b.
Proof.
  induction a as [|l a IH]; auto. destruct l; simpl; auto. destruct (_ =? _); simpl; rewrite IH; auto.
Qed.
Lemma combine_app {A B} (a : list A) : forall (c : list B) a' c', length a = length c ->
  combine (a ++ a') (c ++ c') = combine a c ++ combine a' c'.
Proof.
  induction a as [|x a IH]; intros [|y c] a' c' H; simpl in *; try lia; auto. f_equal. apply IH. lia.
Qed.
Lemma tagged_snoc p tags l q x : length tags = length l ->
  tagged p (tags ++ [q]) (l ++ [x]) = tagged p tags l ++ (if q =? p then [x] else []).
Proof.
  intros H. unfold tagged. rewrite combine_app, filter_app, map_app by auto. simpl.
  destruct (q =? p); reflexivity.
Qed.

Definition PInv (ls : list label) (s : pipe) : Prop :=
  exists tags, length tags = length (pushed s) /\
    forall p, tagged p tags (pushed s) ++ pending (nth_error (prods s) p) = pushes p ls.

Lemma run_snoc s ls l : run s (ls ++ [l]) =
  match run s ls with Some s1 => step s1 l | None => None end.
Proof.
  revert s; induction ls as [|a ls IH]; intros s; simpl.
  - destruct (step s l); auto.
  - destruct (step s a); auto.
Qed.

Lemma pinv_same ls l s s' : PInv ls s -> pushed s' = pushed s -> prods s' = prods s ->
  (forall p, pushes p [l] = []) -> PInv (ls ++ [l]) s'.
Proof.
  intros (tags & A & B) E1 E2 E3. exists tags. rewrite E1, E2. split; auto.
  intros p. rewrite pushes_app, E3, app_nil_r. auto.
Qed.

Lemma pinv_step ls l s s' : PInv ls s -> step s l = Some s' -> PInv (ls ++ [l]) s'.
Proof.
  intros I H. destruct l as [g| |q x|q|]; simpl in H.
  - eapply pinv_same; eauto; unfold writer_step, read_stop in H;
    destruct (writer s); try destruct (locked s); try destruct (stop s) as [[|]|]; try destruct g;
    try destruct (queue s); simpl in H; try discriminate; injection H as <-; reflexivity.
  - destruct (writer s); try discriminate. injection H as <-. eapply pinv_same; eauto; reflexivity.
  - destruct (life s); try discriminate. destruct (nth_error (prods s) q) as [[]|] eqn:E; try discriminate.
    injection H as <-. destruct I as (tags & A & B). exists tags. split; auto. intros p.
    simpl. rewrite pushes_app. rewrite <- B. simpl.
    rewrite (nth_error_list_set _ _ p (PAcquire x) _ E).
    destruct (q =? p) eqn:Q; [|rewrite app_nil_r; auto].
    apply Nat.eqb_eq in Q. subst. rewrite E. simpl. rewrite app_nil_r. reflexivity.
  - unfold prod_step in H. destruct (nth_error (prods s) q) as [[|x|x|]|] eqn:E; try discriminate.
    + destruct (locked s); [discriminate|]. injection H as <-.
      destruct I as (tags & A & B). exists tags. split; auto. intros p. simpl.
      rewrite pushes_app, app_nil_r, <- B, (nth_error_list_set _ _ p (PHold x) _ E).
      destruct (q =? p) eqn:Q; auto. apply Nat.eqb_eq in Q. subst. rewrite E. reflexivity.
    + injection H as <-.
      destruct I as (tags & A & B). exists (tags ++ [q]). simpl.
      split; [rewrite !app_length; simpl; lia|]. intros p.
      rewrite pushes_app, app_nil_r, <- B, tagged_snoc by auto.
      rewrite (nth_error_list_set _ _ p PNotify _ E).
      destruct (q =? p) eqn:Q; simpl; rewrite ?app_nil_r; auto.
      apply Nat.eqb_eq in Q. subst. rewrite E. reflexivity.
    + injection H as <-.
      destruct I as (tags & A & B). exists tags. split; auto. intros p. simpl.
      rewrite pushes_app, app_nil_r, <- B, (nth_error_list_set _ _ p PIdle _ E).
      destruct (q =? p) eqn:Q; auto. apply Nat.eqb_eq in Q. subst. rewrite E. reflexivity.
  - eapply pinv_same; eauto; unfold life_step in H;
    destruct (life s); try destruct (forallb _ _); try destruct (locked s); try destruct (writer s);
    simpl in H; try discriminate; injection H as <-; reflexivity.
Qed.

Lemma nth_error_repeat' {A} (x : A) n i y : nth_error (repeat x n) i = Some y -> y = x.
Proof. revert i; induction n; intros [|i] H; simpl in *; try discriminate; eauto. congruence. Qed.

Lemma opip_pinv np ls : forall s, run (init np) ls = Some s -> PInv ls s.
Proof.
  induction ls as [|l ls IH] using rev_ind; intros s H.
  - injection H as <-. exists []. split; auto. intros p. simpl.
    destruct (nth_error (repeat PIdle np) p) eqn:E; auto. apply nth_error_repeat' in E. subst; auto.
  - rewrite run_snoc in H. destruct (run (init np) ls) as [s1|]; [|discriminate].
    eapply pinv_step; eauto.
Qed.

(** The destroyed pipe's file is an interleaving of exactly what the producers pushed. *)
Lemma opip_merge np ls s : run (init np) ls = Some s -> uninit_read s = false -> life s = LDead ->
  exists tags, length tags = length (file s) /\ forall p, tagged p tags (file s) = pushes p ls.
Proof.
  intros H U L. assert (Rc : reachable np s) by (exists ls; auto).
  destruct (opip_complete np s Rc U) as [F _]. rewrite (F L).
  destruct (opip_pinv _ _ _ H) as (tags & A & B). exists tags. split; auto.
  intros p. rewrite <- B. destruct (nth_error (prods s) p) as [[]|] eqn:E; simpl; rewrite ?app_nil_r; auto.
  - exfalso. assert (X : life s = LAlive); [|congruence].
    apply (ctl_idle _ (proj2 (proj2 (reach_good np s Rc)) U)). exists p, (PAcquire x). split; auto. discriminate.
  - exfalso. assert (X : life s = LAlive); [|congruence].
    apply (ctl_idle _ (proj2 (proj2 (reach_good np s Rc)) U)). exists p, (PHold x). split; auto. discriminate.
Qed.

(** At every moment what has been enqueued is an interleaving of prefixes of the pushes. *)
Lemma opip_merge_any np ls s : run (init np) ls = Some s ->
  exists tags, length tags = length (pushed s) /\
    forall p, exists rest, pushes p ls = tagged p tags (pushed s) ++ rest /\ length rest <= 1.
Proof.
  intros H. destruct (opip_pinv _ _ _ H) as (tags & A & B). exists tags. split; auto.
  intros p. exists (pending (nth_error (prods s) p)). split; [symmetry; apply B|].
  destruct (nth_error (prods s) p) as [[]|]; simpl; lia.
Qed.
