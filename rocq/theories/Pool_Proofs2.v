From Verif Require Import Base Pool_Model Pool_Proofs.

(** What the environment asked for and saw, read off the schedule alone. *)
(** Tasks with which client [c] called [commit], in order. *)
Fixpoint commits (c : nat) (ls : list label) : list nat :=
  match ls with
  | [] => []
  | LCall d t :: ls' => if d =? c then t :: commits c ls' else commits c ls'
  | _ :: ls' => commits c ls'
  end.
(** Tasks whose execution some worker begins along the schedule, in order. *)
Fixpoint executed (s : pool) (ls : list label) : list nat :=
  match ls with
  | [] => []
  | l :: ls' =>
      match step s l with
      | None => []
      | Some s' =>
          match l with
          | LWorker i => match nth_error (workers s') i with
                         | Some (WRunning t) => t :: executed s' ls'
                         | _ => executed s' ls'
                         end
          | _ => executed s' ls'
          end
      end
  end.

Definition pending (k : option cpc) : list nat :=
  match k with Some (CAcquire t) | Some (CHold t) => [t] | _ => [] end.
(** A completed commit: client, task, whether it was accepted. *)
Definition of_client (c : nat) (h : list (nat * nat * bool)) : list nat :=
  map (fun e => snd (fst e)) (filter (fun e => fst (fst e) =? c) h).
Definition acc_tasks (h : list (nat * nat * bool)) : list nat :=
  map (fun e => snd (fst e)) (filter (fun e => snd e) h).

Definition CInv (ls : list label) (s : pool) : Prop :=
  exists h, accepted s = acc_tasks h /\
    forall c, of_client c h ++ pending (nth_error (clients s) c) = commits c ls.

Lemma commits_app c a b : commits c (a ++ b) = commits c a ++ commits c b.
Proof.
  induction a as [|l a IH]; auto. destruct l; simpl; auto. destruct (_ =? _); simpl; rewrite IH; auto.
Qed.
Lemma run_snoc s ls l : run s (ls ++ [l]) =
  match run s ls with Some s1 => step s1 l | None => None end.
Proof.
  revert s; induction ls as [|a ls IH]; intros s; simpl.
  - destruct (step s l); auto.
  - destruct (step s a); auto.
Qed.
Lemma of_client_snoc c h d t b :
  of_client c (h ++ [(d, t, b)]) = of_client c h ++ (if d =? c then [t] else []).
Proof.
  unfold of_client. rewrite filter_app, map_app. simpl. destruct (d =? c); reflexivity.
Qed.
Lemma acc_snoc h d t b : acc_tasks (h ++ [(d, t, b)]) = acc_tasks h ++ (if b then [t] else []).
Proof. unfold acc_tasks. rewrite filter_app, map_app. simpl. destruct b; reflexivity. Qed.

Lemma cinv_same ls l s s' : CInv ls s -> accepted s' = accepted s ->
  (forall c, pending (nth_error (clients s') c) = pending (nth_error (clients s) c)) ->
  (forall c, commits c [l] = []) -> CInv (ls ++ [l]) s'.
Proof.
  intros (h & A & B) E1 E2 E3. exists h. rewrite E1. split; auto.
  intros c. rewrite commits_app, E3, app_nil_r, E2. auto.
Qed.

Lemma pending_set cl c k y d : nth_error cl c = Some y ->
  pending (nth_error (list_set cl c k) d) = if c =? d then pending (Some k) else pending (nth_error cl d).
Proof. intros H. rewrite (nth_error_list_set _ _ _ _ _ H). destruct (c =? d); reflexivity. Qed.

Lemma cinv_step ls l s s' : CInv ls s -> step s l = Some s' -> CInv (ls ++ [l]) s'.
Proof.
  intros I H. destruct l as [i|i|d t|d w|]; simpl in H.
  - eapply cinv_same; eauto; unfold worker_step in H;
    destruct (nth_error (workers s) i) as [[]|]; try destruct (locked s); try destruct (stop s);
    try destruct (queue s); simpl in H; try discriminate; injection H as <-; reflexivity.
  - destruct (nth_error (workers s) i) as [[]|]; try discriminate. injection H as <-.
    eapply cinv_same; eauto; reflexivity.
  - assert (P : exists k, nth_error (clients s) d = Some k /\ pending (Some k) = [] /\
                s' = set_client s d (CAcquire t) (locked s)).
    { destruct (nth_error (clients s) d) as [[]|]; try discriminate; injection H as <-; eauto. }
    destruct P as (k & E & P & ->). destruct I as (h & A & B). exists h. split; auto. intros c.
    simpl. rewrite commits_app, (pending_set _ _ _ _ _ E), <- B. simpl.
    destruct (d =? c) eqn:Q; [|rewrite app_nil_r; auto].
    apply Nat.eqb_eq in Q. subst. rewrite E, P. simpl. rewrite app_nil_r. reflexivity.
  - unfold client_step in H. destruct (nth_error (clients s) d) as [[|t|t| |]|] eqn:E; try discriminate.
    + destruct (locked s); [discriminate|]. injection H as <-.
      eapply cinv_same; eauto. intros c. simpl. rewrite (pending_set _ _ _ _ _ E).
      destruct (d =? c) eqn:Q; auto. apply Nat.eqb_eq in Q. subst. rewrite E. reflexivity.
    + destruct I as (h & A & B).
      destruct (_ || _); injection H as <-.
      * exists (h ++ [(d, t, false)]). simpl. rewrite acc_snoc, app_nil_r. split; auto. intros c.
        rewrite commits_app, app_nil_r, <- B, of_client_snoc, (pending_set _ _ _ _ _ E).
        destruct (d =? c) eqn:Q; simpl; rewrite ?app_nil_r; auto.
        apply Nat.eqb_eq in Q. subst. rewrite E. reflexivity.
      * exists (h ++ [(d, t, true)]). simpl. rewrite acc_snoc. split; [congruence|]. intros c.
        rewrite commits_app, app_nil_r, <- B, of_client_snoc, (pending_set _ _ _ _ _ E).
        destruct (d =? c) eqn:Q; simpl; rewrite ?app_nil_r; auto.
        apply Nat.eqb_eq in Q. subst. rewrite E. reflexivity.
    + assert (P : exists s1, accepted s1 = accepted s /\ clients s1 = clients s /\
                  s' = set_client s1 d CIdle (locked s1)).
      { destruct w as [i|].
        - destruct (nth_error (workers s) i) as [[]|]; try discriminate. injection H as <-.
          exists (set_worker s i WAcquire (locked s)). auto.
        - destruct (existsb _ _); [discriminate|]. injection H as <-. exists s. auto. }
      destruct P as (s1 & P1 & P2 & ->).
      eapply cinv_same; eauto. intros c. simpl. rewrite P2, (pending_set _ _ _ _ _ E).
      destruct (d =? c) eqn:Q; auto. apply Nat.eqb_eq in Q. subst. rewrite E. reflexivity.
  - eapply cinv_same; eauto; unfold dtor_step in H;
    destruct (dtor s); try destruct (forallb _ _); simpl in H; try discriminate;
    injection H as <-; reflexivity.
Qed.

Lemma nth_error_repeat' {A} (x : A) n i y : nth_error (repeat x n) i = Some y -> y = x.
Proof. revert i; induction n; intros [|i] H; simpl in *; try discriminate; eauto. congruence. Qed.

Lemma pool_cinv maxt nw nc ls : forall s, run (init maxt nw nc) ls = Some s -> CInv ls s.
Proof.
  induction ls as [|l ls IH] using rev_ind; intros s H.
  - injection H as <-. exists []. split; auto. intros c. simpl.
    destruct (nth_error (repeat CIdle nc) c) eqn:E; auto. apply nth_error_repeat' in E. subst; auto.
  - rewrite run_snoc in H. destruct (run (init maxt nw nc) ls) as [s1|]; [|discriminate].
    eapply cinv_step; eauto.
Qed.

Lemma pool_accounting maxt nw nc ls s : run (init maxt nw nc) ls = Some s ->
  exists h, accepted s = map (fun e => snd (fst e)) (filter (fun e => snd e) h) /\
    forall c, exists rest,
      commits c ls = map (fun e => snd (fst e)) (filter (fun e => fst (fst e) =? c) h) ++ rest /\
      length rest <= 1 /\
      (nth_error (clients s) c = Some CIdle \/ nth_error (clients s) c = Some CThrown -> rest = []).
Proof.
  intros H. destruct (pool_cinv _ _ _ _ _ H) as (h & A & B). exists h. split; auto.
  intros c. exists (pending (nth_error (clients s) c)). split; [symmetry; apply B|].
  destruct (nth_error (clients s) c) as [[]|]; simpl; split; auto; intros [X|X]; discriminate.
Qed.

Lemma worker_started s i s' : step s (LWorker i) = Some s' ->
  started s' = started s ++ match nth_error (workers s') i with Some (WRunning t) => [t] | _ => [] end.
Proof.
  simpl. unfold worker_step.
  destruct (nth_error (workers s) i) as [w|] eqn:E; [|discriminate].
  assert (L : forall x, nth_error (list_set (workers s) i x) i = Some x).
  { intros x. rewrite (nth_error_list_set _ _ _ _ _ E), Nat.eqb_refl. reflexivity. }
  destruct w; try discriminate; intros H.
  - destruct (locked s); [discriminate|]. injection H as <-. simpl. rewrite L, app_nil_r. auto.
  - destruct (_ && _); injection H as <-; simpl; rewrite L, app_nil_r; auto.
  - injection H as <-. simpl. rewrite L, app_nil_r. auto.
  - destruct (stop s); [injection H as <-; simpl; rewrite L, app_nil_r; auto|].
    destruct (queue s) as [|t q]; injection H as <-; simpl; rewrite ?L, ?E, ?app_nil_r; auto.
  - injection H as <-. simpl. rewrite L, app_nil_r. auto.
Qed.
Lemma other_started s l s' : step s l = Some s' -> (forall i, l <> LWorker i) -> started s' = started s.
Proof.
  destruct l as [i|i|d t|d w|]; simpl; intros H N.
  - exfalso; eapply N; eauto.
  - destruct (nth_error (workers s) i) as [[]|]; try discriminate. injection H as <-. reflexivity.
  - destruct (nth_error (clients s) d) as [[]|]; try discriminate; injection H as <-; reflexivity.
  - unfold client_step in H. destruct (nth_error (clients s) d) as [[|t|t| |]|]; try discriminate.
    + destruct (locked s); [discriminate|]. injection H as <-. reflexivity.
    + destruct (_ || _); injection H as <-; reflexivity.
    + destruct w as [i|].
      * destruct (nth_error (workers s) i) as [[]|]; try discriminate. injection H as <-. reflexivity.
      * destruct (existsb _ _); [discriminate|]. injection H as <-. reflexivity.
  - unfold dtor_step in H. destruct (dtor s); try destruct (forallb _ _); try discriminate;
      injection H as <-; reflexivity.
Qed.
Lemma executed_started ls : forall s s', run s ls = Some s' -> started s' = started s ++ executed s ls.
Proof.
  induction ls as [|l ls IH]; simpl; intros s s' H.
  - injection H as <-. rewrite app_nil_r. auto.
  - destruct (step s l) as [s1|] eqn:E; [|discriminate]. rewrite (IH _ _ H).
    destruct l as [i| | | |]; try (rewrite (other_started _ _ _ E) by discriminate; reflexivity).
    rewrite (worker_started _ _ _ E), <- app_assoc. f_equal.
    destruct (nth_error (workers s1) i) as [[]|]; reflexivity.
Qed.
Lemma pool_executed maxt nw nc ls s : run (init maxt nw nc) ls = Some s ->
  executed (init maxt nw nc) ls = started s.
Proof. intros H. rewrite (executed_started _ _ _ H). reflexivity. Qed.

(** Everything together, without ghost state. *)
Lemma pool_history maxt nw nc ls s : run (init maxt nw nc) ls = Some s ->
  exists h,
    map (fun e => snd (fst e)) (filter (fun e => snd e) h) =
      executed (init maxt nw nc) ls ++ queue s /\
    forall c, exists rest,
      commits c ls = map (fun e => snd (fst e)) (filter (fun e => fst (fst e) =? c) h) ++ rest /\
      length rest <= 1 /\
      (nth_error (clients s) c = Some CIdle \/ nth_error (clients s) c = Some CThrown -> rest = []).
Proof.
  intros H. destruct (pool_accounting _ _ _ _ _ H) as (h & A & B). exists h. split; auto.
  rewrite (pool_executed _ _ _ _ _ H), <- A.
  apply (pool_fifo maxt nw nc). exists ls; auto.
Qed.

(** Destruction completes only after every worker has returned. *)
Lemma done_stays ls : forall s s', dtor s = DFinished -> forallb is_done (workers s) = true ->
  run s ls = Some s' -> dtor s' = DFinished /\ forallb is_done (workers s') = true.
Proof.
  induction ls as [|l ls IH]; simpl; intros s s' D A H.
  - injection H as <-. auto.
  - destruct (step s l) as [s1|] eqn:E; [|discriminate]. apply (IH s1); auto.
    + destruct l as [i|i|d t|d w|]; simpl in E.
      * unfold worker_step in E. destruct (nth_error (workers s) i) as [k|] eqn:N; [|discriminate].
        rewrite forallb_forall in A. assert (X := A k (nth_error_In _ _ N)). destruct k; discriminate.
      * destruct (nth_error (workers s) i) as [[]|] eqn:N; try discriminate.
        rewrite forallb_forall in A. assert (X := A _ (nth_error_In _ _ N)). discriminate.
      * destruct (nth_error (clients s) d) as [[]|]; try discriminate; injection E as <-; auto.
      * unfold client_step in E. destruct (nth_error (clients s) d) as [[]|]; try discriminate.
        -- destruct (locked s); [discriminate|]. injection E as <-. auto.
        -- destruct (_ || _); injection E as <-; auto.
        -- destruct w as [i|].
           ++ destruct (nth_error (workers s) i) as [[]|]; try discriminate. injection E as <-. auto.
           ++ destruct (existsb _ _); [discriminate|]. injection E as <-. auto.
      * unfold dtor_step in E. rewrite D in E. discriminate.
    + destruct l as [i|i|d t|d w|]; simpl in E.
      * unfold worker_step in E. destruct (nth_error (workers s) i) as [k|] eqn:N; [|discriminate].
        rewrite forallb_forall in A. assert (X := A k (nth_error_In _ _ N)). destruct k; discriminate.
      * destruct (nth_error (workers s) i) as [[]|] eqn:N; try discriminate.
        rewrite forallb_forall in A. assert (X := A _ (nth_error_In _ _ N)). discriminate.
      * destruct (nth_error (clients s) d) as [[]|]; try discriminate; injection E as <-; auto.
      * unfold client_step in E. destruct (nth_error (clients s) d) as [[]|]; try discriminate.
        -- destruct (locked s); [discriminate|]. injection E as <-. auto.
        -- destruct (_ || _); injection E as <-; auto.
        -- destruct w as [i|].
           ++ destruct (nth_error (workers s) i) as [[]|] eqn:N; try discriminate.
              rewrite forallb_forall in A. assert (X := A _ (nth_error_In _ _ N)). discriminate.
           ++ destruct (existsb _ _); [discriminate|]. injection E as <-. auto.
      * unfold dtor_step in E. rewrite D in E. discriminate.
Qed.

Lemma dtor_only s l s' : step s l = Some s' -> l <> LDtor -> dtor s' = dtor s.
Proof.
  destruct l as [i|i|d t|d w|]; simpl; intros H N; try congruence.
  - unfold worker_step in H. destruct (nth_error (workers s) i) as [[]|]; try destruct (locked s);
      try destruct (stop s); try destruct (queue s); simpl in H; try discriminate; injection H as <-; auto.
  - destruct (nth_error (workers s) i) as [[]|]; try discriminate. injection H as <-. auto.
  - destruct (nth_error (clients s) d) as [[]|]; try discriminate; injection H as <-; auto.
  - unfold client_step in H. destruct (nth_error (clients s) d) as [[|t|t| |]|]; try discriminate.
    + destruct (locked s); [discriminate|]. injection H as <-. auto.
    + destruct (_ || _); injection H as <-; auto.
    + destruct w as [i|].
      * destruct (nth_error (workers s) i) as [[]|]; try discriminate. injection H as <-. auto.
      * destruct (existsb _ _); [discriminate|]. injection H as <-. auto.
Qed.

Lemma pool_joined_aux ls : forall s s', dtor s <> DFinished -> run s ls = Some s' ->
  dtor s' = DFinished -> forallb is_done (workers s') = true.
Proof.
  induction ls as [|l ls IH]; simpl; intros s s' D H F.
  - injection H as <-. contradiction.
  - destruct (step s l) as [s1|] eqn:E; [|discriminate].
    assert (Cl : l = LDtor \/ l <> LDtor) by (destruct l; auto; right; discriminate).
    destruct Cl as [->|N].
    + simpl in E. unfold dtor_step in E. destruct (dtor s) eqn:Ds; try discriminate.
      * injection E as <-. eapply IH; eauto. simpl. discriminate.
      * injection E as <-. eapply IH; eauto. simpl. discriminate.
      * destruct (forallb is_done (workers s)) eqn:A; [|discriminate]. injection E as <-.
        match type of H with run ?s1 _ = _ => destruct (done_stays ls s1 s' eq_refl A H) as [_ X] end. exact X.
    + apply (IH s1 s'); auto. rewrite (dtor_only _ _ _ E N). auto.
Qed.
Lemma pool_joined maxt nw nc s : reachable maxt nw nc s -> dtor s = DFinished ->
  forall i w, nth_error (workers s) i = Some w -> w = WDone.
Proof.
  intros (ls & H) F i w N.
  assert (D0 : dtor (init maxt nw nc) <> DFinished) by discriminate.
  assert (A := pool_joined_aux ls _ _ D0 H F).
  rewrite forallb_forall in A. assert (X := A w (nth_error_In _ _ N)). destruct w; try discriminate; auto.
Qed.
