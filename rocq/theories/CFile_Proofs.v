From Verif Require Import Base CFile_Model.

Definition pending (p : tpc) : list record :=
  match p with TIdle => [] | TAcquire r => [r] | TWrite d r => [d ++ r] end.
Definition holds (p : tpc) : nat := match p with TWrite _ _ => 1 | _ => 0 end.
Definition cnt (l : list tpc) : nat := list_sum (map holds l).
Definition partial (l : list tpc) : list nat :=
  concat (map (fun p => match p with TWrite d _ => d | _ => [] end) l).

Record Inv (progs : list (list record)) (s : state) : Prop := {
  i_file : file s = concat (map snd (log s)) ++ partial (pcs s);
  i_lock : cnt (pcs s) = if locked s then 1 else 0;
  i_prog : forall t p, nth_error progs t = Some p ->
     exists k td, nth_error (pcs s) t = Some k /\ nth_error (todo s) t = Some td /\
       p = of_thread t (log s) ++ pending k ++ td;
  i_dom : length (pcs s) = length progs /\ length (todo s) = length progs;
  i_log : forall e, In e (log s) -> fst e < length progs
}.

Lemma cnt_set l i x y : nth_error l i = Some y -> cnt (list_set l i x) + holds y = cnt l + holds x.
Proof.
  unfold cnt. revert i; induction l as [|h t IH]; intros [|i] H; simpl in *; try discriminate.
  - injection H as ->. lia.
  - apply IH in H. lia.
Qed.

Lemma partial0 l : cnt l = 0 -> partial l = [].
Proof.
  unfold cnt, partial. induction l as [|h t IH]; simpl; auto. intros H.
  destruct h; simpl in *; try lia; apply IH; lia.
Qed.

Lemma partial_set l : forall i y x, nth_error l i = Some y -> holds y = cnt l ->
  partial (list_set l i x) = match x with TWrite d _ => d | _ => [] end.
Proof.
  induction l as [|h t IH]; intros [|i] y x H E; simpl in *; try discriminate.
  - injection H as <-. unfold cnt in E; simpl in E.
    assert (P : partial t = []) by (apply partial0; unfold cnt; lia).
    unfold partial in *; simpl. rewrite P. destruct x; simpl; rewrite ?app_nil_r; auto.
  - assert (G : holds y <= cnt t).
    { clear - H. unfold cnt. revert i H; induction t as [|h t IH]; intros [|i] H; simpl in *; try discriminate.
      - injection H as <-. lia.
      - apply IH in H. lia. }
    unfold cnt in E, G; simpl in E.
    unfold partial in *; simpl.
    rewrite (IH i y x H); [|unfold cnt; lia].
    destruct h; simpl in *; auto; lia.
Qed.

Lemma partial_at l i d r : nth_error l i = Some (TWrite d r) -> cnt l = 1 -> partial l = d.
Proof.
  intros H E. assert (X : list_set l i (TWrite d r) = l).
  { clear E. revert i H; induction l as [|h t IH]; intros [|i] H; simpl in *; try discriminate.
    - congruence.
    - f_equal; auto. }
  rewrite <- X. rewrite (partial_set l i _ (TWrite d r) H); auto.
Qed.

Lemma of_thread_app t a b : of_thread t (a ++ b) = of_thread t a ++ of_thread t b.
Proof. unfold of_thread. rewrite filter_app, map_app. reflexivity. Qed.

Lemma cnt_ge l i y : nth_error l i = Some y -> holds y <= cnt l.
Proof.
  unfold cnt. revert i; induction l as [|h t IH]; intros [|i] H; simpl in *; try discriminate.
  - injection H as <-. lia.
  - apply IH in H. lia.
Qed.

Lemma prog_upd progs s t k td td' k' lg' :
  (forall t p, nth_error progs t = Some p ->
     exists k td, nth_error (pcs s) t = Some k /\ nth_error (todo s) t = Some td /\
       p = of_thread t (log s) ++ pending k ++ td) ->
  nth_error (pcs s) t = Some k -> nth_error (todo s) t = Some td ->
  of_thread t (log s) ++ pending k ++ td = of_thread t lg' ++ pending k' ++ td' ->
  (forall t', t' <> t -> of_thread t' lg' = of_thread t' (log s)) ->
  forall t0 p, nth_error progs t0 = Some p ->
     exists k td, nth_error (list_set (pcs s) t k') t0 = Some k /\
       nth_error (list_set (todo s) t td') t0 = Some td /\
       p = of_thread t0 lg' ++ pending k ++ td.
Proof.
  intros I Hk Htd E1 E2 t0 p Hp. destruct (I _ _ Hp) as (k0 & td0 & H1 & H2 & ->).
  rewrite (nth_error_list_set _ _ _ _ _ Hk), (nth_error_list_set _ _ _ _ _ Htd).
  destruct (Nat.eqb_spec t t0) as [<-|Hn].
  - exists k', td'. rewrite Hk in H1; rewrite Htd in H2. injection H1 as <-; injection H2 as <-. auto.
  - exists k0, td0. rewrite E2; auto.
Qed.

Lemma set_same {A} (l : list A) i x : nth_error l i = Some x -> list_set l i x = l.
Proof.
  revert i; induction l as [|h t IH]; intros [|i] H; simpl in *; try discriminate.
  - congruence.
  - f_equal; auto.
Qed.

Lemma inv_step progs s t s' : Inv progs s -> step s t = Some s' -> Inv progs s'.
Proof.
  intros [F L P [D1 D2] G]. unfold step.
  destruct (nth_error (pcs s) t) as [k|] eqn:Hk; [|discriminate].
  assert (Htd : exists td, nth_error (todo s) t = Some td).
  { destruct (nth_error (todo s) t) as [td|] eqn:E; eauto. exfalso.
    apply nth_error_None in E. assert (t < length (pcs s)) by (apply nth_error_Some; congruence). lia. }
  destruct Htd as [td Htd]. rewrite Htd.
  pose proof (cnt_ge _ _ _ Hk) as Hge.
  destruct k as [|r|d [|c r]].
  - destruct td as [|r rs]; [discriminate|]. intros H; injection H as <-.
    pose proof (cnt_set _ _ (TAcquire r) _ Hk) as Q; simpl in Q.
    constructor; simpl; rewrite ?list_set_length; auto; try lia.
    + rewrite F. f_equal. clear - Hk. unfold partial.
      revert t Hk; induction (pcs s) as [|h l IH]; intros [|t] H; simpl in *; try discriminate.
      * injection H as ->. reflexivity.
      * f_equal. apply IH; auto.
    + eapply prog_upd; eauto.
  - destruct (locked s) eqn:Hl; [discriminate|]. intros H; injection H as <-.
    pose proof (cnt_set _ _ (TWrite [] r) _ Hk) as Q; simpl in Q.
    constructor; simpl; rewrite ?list_set_length; auto; try lia.
    + rewrite F. f_equal. rewrite (partial0 _ L).
      rewrite (partial_set _ _ _ _ Hk); simpl; auto.
    + intros t0 p Hp.
      destruct (prog_upd progs s t (TAcquire r) td td (TWrite [] r) (log s)
                  P Hk Htd eq_refl (fun _ _ => eq_refl) t0 p Hp) as (a & b & A & B & C).
      exists a, b. rewrite (set_same _ _ _ Htd) in *. auto.
  - intros H; injection H as <-. simpl in Hge.
    assert (Hl : locked s = true) by (destruct (locked s); auto; lia). rewrite Hl in L.
    pose proof (cnt_set _ _ TIdle _ Hk) as Q; simpl in Q.
    constructor; simpl; rewrite ?list_set_length; auto; try lia.
    + rewrite F, map_app, concat_app. simpl. rewrite app_nil_r, <- app_assoc. f_equal.
      rewrite (partial_at _ _ _ _ Hk L). rewrite (partial_set _ _ _ _ Hk); simpl; auto.
      rewrite app_nil_r; auto.
    + assert (E1 : of_thread t (log s) ++ pending (TWrite d []) ++ td =
                   of_thread t (log s ++ [(t, d)]) ++ pending TIdle ++ td).
      { rewrite of_thread_app. unfold of_thread at 3; simpl. rewrite Nat.eqb_refl. simpl.
        rewrite app_nil_r, <- app_assoc. reflexivity. }
      assert (E2 : forall t', t' <> t -> of_thread t' (log s ++ [(t, d)]) = of_thread t' (log s)).
      { intros t' Hn. rewrite of_thread_app. unfold of_thread at 2; simpl.
        destruct (Nat.eqb_spec t t'); [congruence|]. simpl. apply app_nil_r. }
      intros t0 p Hp.
      destruct (prog_upd progs s t (TWrite d []) td td TIdle (log s ++ [(t,d)]) P Hk Htd E1 E2 t0 p Hp)
        as (a & b & A & B & C).
      exists a, b. rewrite (set_same _ _ _ Htd) in *. auto.
    + intros e He. apply in_app_or in He as [He|[<-|[]]]; auto. simpl.
      rewrite <- D1. apply nth_error_Some. congruence.
  - intros H; injection H as <-. simpl in Hge.
    assert (Hl : locked s = true) by (destruct (locked s); auto; lia).
    assert (L1 : cnt (pcs s) = 1) by (rewrite Hl in L; auto).
    pose proof (cnt_set _ _ (TWrite (d ++ [c]) r) _ Hk) as Q; simpl in Q.
    constructor; simpl; rewrite ?list_set_length; auto; try lia.
    + rewrite F, <- app_assoc. f_equal.
      rewrite (partial_at _ _ _ _ Hk L1). rewrite (partial_set _ _ _ _ Hk); simpl; auto.
    + assert (E1 : of_thread t (log s) ++ pending (TWrite d (c :: r)) ++ td =
                   of_thread t (log s) ++ pending (TWrite (d ++ [c]) r) ++ td).
      { simpl. rewrite <- app_assoc. reflexivity. }
      intros t0 p Hp.
      destruct (prog_upd progs s t (TWrite d (c :: r)) td td (TWrite (d ++ [c]) r) (log s)
                  P Hk Htd E1 (fun _ _ => eq_refl) t0 p Hp) as (a & b & A & B & C).
      exists a, b. rewrite (set_same _ _ _ Htd) in *. auto.
Qed.

Lemma init_inv progs : Inv progs (init progs).
Proof.
  constructor; simpl; auto.
  - unfold partial. induction progs; simpl; auto.
  - unfold cnt. induction progs; simpl; auto.
  - intros t p Hp. exists TIdle, p. split.
    + rewrite nth_error_map, Hp. reflexivity.
    + split; auto.
  - rewrite map_length; auto.
  - tauto.
Qed.

Lemma run_inv progs ls : forall s s', Inv progs s -> run s ls = Some s' -> Inv progs s'.
Proof.
  induction ls as [|l ls IH]; simpl; intros s s' I H; [injection H as <-; auto|].
  destruct (step s l) as [s1|] eqn:E; [|discriminate]. eapply IH; [|exact H]. eapply inv_step; eauto.
Qed.

(** At every moment the file is a concatenation of whole records followed by the part of the
    one record being written. *)
Lemma cfile_any progs s : reachable progs s ->
  exists part, file s = concat (map snd (log s)) ++ part /\
    (locked s = false -> part = []) /\
    (forall t p, nth_error progs t = Some p -> exists rest, p = of_thread t (log s) ++ rest) /\
    (forall e, In e (log s) -> fst e < length progs).
Proof.
  intros [ls H]. destruct (run_inv progs ls _ _ (init_inv progs) H) as [F L P D G].
  exists (partial (pcs s)). split; auto. split.
  - intros Hl. apply partial0. rewrite L, Hl. reflexivity.
  - split; auto. intros t p Hp. destruct (P _ _ Hp) as (k & td & _ & _ & E).
    exists (pending k ++ td). auto.
Qed.

Definition all_done (s : state) : Prop :=
  (forall k, In k (pcs s) -> k = TIdle) /\ (forall l, In l (todo s) -> l = []).

Lemma cfile_final progs s : reachable progs s -> all_done s ->
  file s = concat (map snd (log s)) /\
  (forall t p, nth_error progs t = Some p -> of_thread t (log s) = p) /\
  (forall e, In e (log s) -> fst e < length progs).
Proof.
  intros [ls H] [A1 A2]. destruct (run_inv progs ls _ _ (init_inv progs) H) as [F L P D G].
  split; [|split; auto].
  - rewrite F. replace (partial (pcs s)) with (@nil nat); [apply app_nil_r|].
    unfold partial. clear - A1. induction (pcs s) as [|h l IH]; simpl; auto.
    rewrite (A1 h) by (left; auto). simpl. apply IH. intros; apply A1; right; auto.
  - intros t p Hp. destruct (P _ _ Hp) as (k & td & Hk & Htd & E).
    apply nth_error_In in Hk, Htd. rewrite (A1 _ Hk), (A2 _ Htd) in E. simpl in E.
    rewrite app_nil_r in E. auto.
Qed.

(** No deadlock: unless every thread is done some thread can step. *)
Lemma cfile_progress progs s : reachable progs s -> all_done s \/ exists t s', step s t = Some s'.
Proof.
  intros [ls H]. destruct (run_inv progs ls _ _ (init_inv progs) H) as [F L P [D1 D2] G].
  destruct (locked s) eqn:Hl.
  - right. assert (X : exists t d r, nth_error (pcs s) t = Some (TWrite d r)).
    { clear - L. unfold cnt in L. induction (pcs s) as [|h l IH]; simpl in L; [lia|].
      destruct h as [|r|d r]; simpl in L.
      - destruct IH as (t & d & r & E); [lia|]. exists (S t), d, r; auto.
      - destruct IH as (t & d' & r' & E); [lia|]. exists (S t), d', r'; auto.
      - exists 0, d, r; auto. }
    destruct X as (t & d & r & E). exists t. unfold step. rewrite E.
    destruct r; eauto.
  - assert (X : (exists t r, nth_error (pcs s) t = Some (TAcquire r)) \/ (forall k, In k (pcs s) -> k = TIdle)).
    { clear - L. unfold cnt in L. induction (pcs s) as [|h l IH]; simpl in L; [right; simpl; tauto|].
      destruct h as [|r|d r]; simpl in L; try lia.
      - destruct IH as [(t & r & E)|IH]; [lia|left; exists (S t), r; auto|].
        right. intros k [<-|Hk]; auto.
      - left. exists 0, r; auto. }
    destruct X as [(t & r & E)|X].
    + right. exists t. unfold step. rewrite E, Hl. eauto.
    + destruct (existsb (fun l => match l with [] => false | _ => true end) (todo s)) eqn:Ex.
      * right. apply existsb_exists in Ex as (l & Hin & Hne).
        destruct l as [|r rs]; [discriminate|].
        apply In_nth_error in Hin as [t Ht].
        assert (Hlt : t < length (pcs s)).
        { rewrite D1, <- D2. apply nth_error_Some. congruence. }
        apply nth_error_Some in Hlt. destruct (nth_error (pcs s) t) as [k|] eqn:Hk; [|congruence].
        pose proof (X k (nth_error_In _ _ Hk)) as ->.
        exists t. unfold step. rewrite Hk, Ht. eauto.
      * left. split; auto. intros l Hin. destruct l; auto. exfalso.
        assert (Y : existsb (fun l => match l with [] => false | _ => true end) (todo s) = true).
        { apply existsb_exists. exists (r :: l); auto. }
        congruence.
Qed.

(** A chained expression [f << a << b] is two records: the pair is not atomic. *)
Lemma cfile_chain_interleaves : exists s, reachable [[[1]; [2]]; [[1]; [2]]] s /\ all_done s /\
  file s = [1; 1; 2; 2].
Proof.
  eexists; split.
  - exists [0;0;0;0; 1;1;1;1; 0;0;0;0; 1;1;1;1]. vm_compute; reflexivity.
  - split; [|reflexivity]. split; simpl; intuition.
Qed.
