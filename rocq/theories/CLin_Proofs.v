From Verif Require Import Text CLin_Model CLin_Spec.

Section Lin.
Context {S R : Type}.
Variables (cl : list (client S R)) (x0 : S).

Lemma sequential_app (l1 l2 : list (entry S R)) : forall x y z,
  sequential x l1 y -> sequential y l2 z -> sequential x (l1 ++ l2) z.
Proof.
  induction l1 as [|[[t p] r] l1 IH]; simpl; intros x y z H1 H2.
  - subst; auto.
  - destruct H1 as [w [A B]]. exists w; split; auto. eapply IH; eauto.
Qed.

Lemma returned_app t (a b : list (entry S R)) : returned t (a ++ b) = returned t a ++ returned t b.
Proof. unfold returned. rewrite filter_app, map_app. reflexivity. Qed.

Lemma returned_one t t' p (r : R) : returned (S := S) t [(t', p, r)] = if t' =? t then [r] else [].
Proof. unfold returned; simpl. destruct (t' =? t); auto. Qed.

Lemma follows_snoc t c (l : list (entry S R)) t' p r :
  follows t c l -> (t' = t -> c (returned t l) = Some p) -> follows t c (l ++ [(t', p, r)]).
Proof.
  intros F N a q r' b E.
  destruct b as [|e b].
  - apply app_inj_tail in E. destruct E as [E1 E2].
    injection E2 as E3 E4 E5. subst. apply N; auto.
  - assert (G : exists b', e :: b = b' ++ [(t', p, r)] /\ l = a ++ (t, q, r') :: b').
    { destruct (exists_last (l := e :: b)) as [b' [z Hz]]; [discriminate|].
      exists b'. rewrite Hz in E. rewrite app_comm_cons, app_assoc in E.
      apply app_inj_tail in E. destruct E as [E1 E2]. subst z. auto. }
    destruct G as [b' [G1 G2]]. eapply F; eauto.
Qed.

(** Invariant, with the position of the holder made explicit. *)
Record Inv (l : list (entry S R)) (s : state S R) : Prop := {
  i_seq : exists y, sequential x0 l y /\
     (locked s = false -> stream s = y /\ quiet s) /\
     (locked s = true -> exists t p q h,
        nth_error (threads s) t = Some (Hold q, h) /\
        (forall t' q' h', nth_error (threads s) t' = Some (Hold q', h') -> t' = t) /\
        (forall c, nth_error cl t = Some c -> c h = Some p) /\ alone p y = alone q (stream s));
  i_dom : length (threads s) = length cl;
  i_log : forall e, In e l -> fst (fst e) < length cl;
  i_thr : forall t c, nth_error cl t = Some c ->
     follows t c l /\ exists k, nth_error (threads s) t = Some (k, returned t l) /\
       (forall p, k = Wait p -> c (returned t l) = Some p)
}.

Lemma inv_init : Inv [] (init cl x0).
Proof.
  constructor; simpl.
  - exists x0. split; auto. split; [|discriminate]. intros _. split; auto.
    intros t p h H. simpl in H. rewrite nth_error_map in H.
    destruct (nth_error cl t); discriminate.
  - apply map_length.
  - tauto.
  - intros t c H. split.
    + intros a p r b E. destruct a; discriminate.
    + exists Out. rewrite nth_error_map, H. split; auto. discriminate.
Qed.

Lemma inv_step l s t s' : Inv l s -> step cl s t = Some s' ->
  exists e, Inv (l ++ e) s' /\ (forall i, In i e -> fst (fst i) = t).
Proof.
  intros [[y [Q [FR HL]]] D LG TH] H. unfold step in H.
  destruct (nth_error (threads s) t) as [[k h]|] eqn:Ek; [|discriminate].
  destruct (nth_error cl t) as [c|] eqn:Ec; [|destruct k as [|?|[| |]]; discriminate].
  destruct (TH _ _ Ec) as [Ft [k0 [E0 W0]]]. rewrite Ek in E0. injection E0 as -> Eh.
  assert (QT : forall k' h', (forall q, k' <> Hold q) -> (forall q, k0 <> Hold q) -> quiet s ->
             forall f b, quiet (mkSt f b (list_set (threads s) t (k', h')))).
  { intros k' h' N1 N2 Qs f b t1 p1 h1 E1. simpl in E1.
    rewrite (nth_error_list_set _ _ _ _ _ Ek) in E1. destruct (t =? t1); [|eapply Qs; eauto].
    injection E1 as E1 _. eapply N1; eauto. }
  assert (ONE : forall k' h' , (forall q, k' <> Hold q) -> (forall q, k0 <> Hold q) ->
            forall f, (exists t0 p q h0,
        nth_error (threads s) t0 = Some (Hold q, h0) /\
        (forall t' q' h', nth_error (threads s) t' = Some (Hold q', h') -> t' = t0) /\
        (forall c, nth_error cl t0 = Some c -> c h0 = Some p) /\ alone p y = alone q (stream s)) ->
        stream s = f ->
        exists t0 p q h0,
        nth_error (list_set (threads s) t (k', h')) t0 = Some (Hold q, h0) /\
        (forall t' q' h1, nth_error (list_set (threads s) t (k', h')) t' = Some (Hold q', h1) -> t' = t0) /\
        (forall c, nth_error cl t0 = Some c -> c h0 = Some p) /\ alone p y = alone q f).
  { intros k' h' N1 N2 f [t0 [p [q [h0 [A1 [A2 [A3 A4]]]]]]] <-.
    exists t0, p, q, h0.
    assert (Nt : t <> t0) by (intros ->; rewrite Ek in A1; injection A1 as A1 _; eapply N2; eauto).
    repeat split; auto.
    - rewrite nth_error_list_set_neq; auto.
    - intros t' q' h1. rewrite (nth_error_list_set _ _ _ _ _ Ek).
      destruct (Nat.eqb_spec t t'); [|eauto]. intros E. injection E as E _. exfalso; eapply N1; eauto. }
  destruct k0 as [|p|p].
  - (* call *)
    destruct (c h) as [p|] eqn:Ep; [|discriminate]. injection H as <-.
    exists []. rewrite app_nil_r. split; [|simpl; tauto]. constructor; simpl.
    + exists y. split; auto. split.
      * intros L. destruct (FR L) as [F1 F2]. split; auto. apply QT; auto; discriminate.
      * intros L. eapply ONE; eauto; discriminate.
    + rewrite list_set_length; auto.
    + auto.
    + intros t1 c1 E1. destruct (TH _ _ E1) as [F1 [k1 [G1 G2]]]. split; auto.
      rewrite (nth_error_list_set _ _ _ _ _ Ek). destruct (Nat.eqb_spec t t1) as [->|N].
      * exists (Wait p). rewrite <- Eh. split; auto. intros q E; injection E as <-.
        rewrite Ec in E1; injection E1 as <-. auto.
      * exists k1; auto.
  - (* lock *)
    destruct (locked s) eqn:L; [discriminate|]. injection H as <-.
    destruct (FR eq_refl) as [F1 F2].
    exists []. rewrite app_nil_r. split; [|simpl; tauto]. constructor; simpl.
    + exists y. split; auto. split; [discriminate|]. intros _.
      exists t, p, p, h. repeat split.
      * apply nth_error_list_set_eq. apply nth_error_Some. congruence.
      * intros t' q' h'. rewrite (nth_error_list_set _ _ _ _ _ Ek).
        destruct (Nat.eqb_spec t t'); auto. intros E. exfalso. eapply F2; eauto.
      * intros c1 E1. rewrite Ec in E1; injection E1 as <-. rewrite Eh. apply W0; auto.
      * rewrite F1; auto.
    + rewrite list_set_length; auto.
    + auto.
    + intros t1 c1 E1. destruct (TH _ _ E1) as [G0 [k1 [G1 G2]]]. split; auto.
      rewrite (nth_error_list_set _ _ _ _ _ Ek). destruct (Nat.eqb_spec t t1) as [->|N].
      * exists (Hold p). rewrite <- Eh. split; auto. discriminate.
      * exists k1; auto.
  - (* inside *)
    assert (L : locked s = true).
    { destruct (locked s) eqn:L; auto. destruct (FR eq_refl) as [_ F2]. exfalso. eapply F2; eauto. }
    destruct (HL L) as [t0 [p0 [q0 [h0 [A1 [A2 [A3 A4]]]]]]].
    assert (t = t0) by (eapply A2; eauto). subst t0. rewrite Ek in A1. injection A1 as <- <-.
    destruct p as [r|f|].
    + (* return *)
      injection H as <-.
      exists [(t, p0, r)]. split; [|intros i [<-|[]]; auto]. constructor; simpl.
      * exists (stream s). split.
        { eapply sequential_app; eauto. simpl. exists (stream s). split; auto. }
        split; [|discriminate]. intros _. split; auto. intros t1 p1 h1. simpl.
        rewrite (nth_error_list_set _ _ _ _ _ Ek). destruct (Nat.eqb_spec t t1); [discriminate|].
        intros E1. apply A2 in E1. congruence.
      * rewrite list_set_length; auto.
      * intros e I. apply in_app_or in I. destruct I as [I|[<-|[]]]; auto. simpl.
        apply nth_error_Some. congruence.
      * intros t1 c1 E1. destruct (TH _ _ E1) as [G0 [k1 [G1 G2]]]. split.
        { apply follows_snoc; auto. intros <-. rewrite Ec in E1; injection E1 as <-.
          rewrite <- Eh. apply A3; auto. }
        rewrite (nth_error_list_set _ _ _ _ _ Ek). rewrite returned_app, returned_one.
        destruct (Nat.eqb_spec t t1) as [->|N].
        -- exists Out. rewrite Eh. split; auto. discriminate.
        -- rewrite app_nil_r. exists k1; auto.
    + (* access *)
      destruct (f (stream s)) as [x p] eqn:Ef. injection H as <-.
      exists []. rewrite app_nil_r. split; [|simpl; tauto]. constructor; simpl.
      * exists y. split; auto. split; [intros Q0; congruence|]. intros _.
        exists t, p0, p, h. repeat split; auto.
        -- apply nth_error_list_set_eq. apply nth_error_Some. congruence.
        -- intros t' q' h'. rewrite (nth_error_list_set _ _ _ _ _ Ek).
           destruct (Nat.eqb_spec t t'); auto. intros E. eapply A2; eauto.
        -- rewrite A4. simpl. rewrite Ef. auto.
      * rewrite list_set_length; auto.
      * auto.
      * intros t1 c1 E1. destruct (TH _ _ E1) as [G0 [k1 [G1 G2]]]. split; auto.
        rewrite (nth_error_list_set _ _ _ _ _ Ek). destruct (Nat.eqb_spec t t1) as [->|N].
        -- exists (Hold p). rewrite <- Eh. split; auto. discriminate.
        -- exists k1; auto.
    + discriminate.
Qed.

Lemma inv_run ls : forall l s s', Inv l s -> run cl s ls = Some s' -> exists e, Inv (l ++ e) s'.
Proof.
  induction ls as [|t ls IH]; simpl; intros l s s' I H.
  - injection H as <-. exists []. rewrite app_nil_r. auto.
  - destruct (step cl s t) as [s1|] eqn:E; [|discriminate].
    destruct (inv_step _ _ _ _ I E) as [e [I1 _]]. destruct (IH _ _ _ I1 H) as [e' I2].
    exists (e ++ e'). rewrite app_assoc. auto.
Qed.

Lemma inv_explains l s : Inv l s -> explains cl x0 l s.
Proof.
  intros [[y [Q [FR HL]]] D LG TH]. repeat split; auto.
  - exists y. split; auto. intros Qs. destruct (locked s) eqn:L.
    + destruct (HL eq_refl) as [t [p [q [h [A1 _]]]]]. exfalso. eapply Qs; eauto.
    + destruct (FR eq_refl); auto.
  - destruct (TH _ _ H); auto.
  - destruct (TH _ _ H) as [_ [k [G _]]]. exists k; auto.
Qed.

(** Progress. *)
Lemma closed_step p : closed p -> p <> @Again S R.
Proof. destruct p; simpl; congruence || tauto. Qed.

Definition all_closed (s : state S R) : Prop :=
  forall t q h, nth_error (threads s) t = Some (Hold q, h) \/ nth_error (threads s) t = Some (Wait q, h) -> closed q.

Lemma closed_inv (C : forall t c h p, nth_error cl t = Some c -> c h = Some p -> closed p) s t s' :
  all_closed s -> step cl s t = Some s' -> all_closed s'.
Proof.
  intros A H. unfold step in H.
  destruct (nth_error (threads s) t) as [[k h]|] eqn:Ek; [|discriminate].
  destruct (nth_error cl t) as [c|] eqn:Ec; [|destruct k as [|?|[| |]]; discriminate].
  assert (G : forall f b k' h', (forall q, k' = Hold q \/ k' = Wait q -> closed q) ->
     all_closed (mkSt f b (list_set (threads s) t (k', h')))).
  { intros f b k' h' N t1 q1 h1. simpl. rewrite (nth_error_list_set _ _ _ _ _ Ek).
    destruct (t =? t1).
    - intros [E|E]; injection E as E _; apply N; auto.
    - intros E. eapply A; eauto. }
  destruct k as [|p|p].
  - destruct (c h) as [p|] eqn:Ep; [|discriminate]. injection H as <-. apply G.
    intros q [E|E]; [discriminate|]. injection E as <-. eauto.
  - destruct (locked s); [discriminate|]. injection H as <-. apply G.
    intros q [E|E]; [|discriminate]. injection E as <-. eapply A; eauto.
  - destruct p as [r|f|]; [| |discriminate].
    + injection H as <-. apply G. intros q [E|E]; discriminate.
    + destruct (f (stream s)) as [x p] eqn:Ef. injection H as <-. apply G.
      intros q [E|E]; [|discriminate]. injection E as <-.
      assert (X : closed (Act f)) by (eapply A; left; eauto). simpl in X.
      specialize (X (stream s)). rewrite Ef in X. auto.
Qed.

Lemma closed_run (C : forall t c h p, nth_error cl t = Some c -> c h = Some p -> closed p) ls : forall s s',
  all_closed s -> run cl s ls = Some s' -> all_closed s'.
Proof.
  induction ls as [|t ls IH]; simpl; intros s s' A H; [injection H as <-; auto|].
  destruct (step cl s t) eqn:E; [|discriminate]. eapply IH; [eapply closed_inv|]; eauto.
Qed.

Lemma closed_init : all_closed (init cl x0).
Proof.
  intros t q h. simpl. rewrite nth_error_map. destruct (nth_error cl t); simpl; intros [E|E]; discriminate.
Qed.

Lemma progress l s : Inv l s -> all_closed s ->
  (exists t, step cl s t <> None) \/
  (forall t c, nth_error cl t = Some c -> exists h, nth_error (threads s) t = Some (Out, h) /\ c h = None).
Proof.
  intros I A. destruct (locked s) eqn:L.
  - left. destruct (i_seq _ _ I) as [y [_ [_ HL]]]. destruct (HL L) as [t [p [q [h [A1 _]]]]].
    exists t. unfold step. rewrite A1.
    destruct (nth_error cl t) as [c|] eqn:Ec.
    + destruct q as [r|f|]; try discriminate.
      * destruct (f (stream s)); discriminate.
      * exfalso. apply (A t Again h); auto.
    + exfalso. apply nth_error_None in Ec. rewrite <- (i_dom _ _ I) in Ec.
      apply nth_error_None in Ec. congruence.
  - destruct (i_seq _ _ I) as [y [_ [FR _]]]. destruct (FR L) as [_ Q].
    assert (G : forall n, n <= length cl ->
      (exists t, step cl s t <> None) \/
      (forall t c, t < n -> nth_error cl t = Some c -> exists h, nth_error (threads s) t = Some (Out, h) /\ c h = None)).
    { induction n as [|n IH]; intros Hn; [right; intros; lia|].
      destruct IH as [X|X]; [lia|auto|].
      destruct (nth_error cl n) as [c|] eqn:Ec; [|apply nth_error_None in Ec; lia].
      destruct (i_thr _ _ I _ _ Ec) as [_ [k [Ek _]]].
      destruct k as [|p|p].
      - destruct (c (returned n l)) as [p|] eqn:Ep.
        + left. exists n. unfold step. rewrite Ek, Ec, Ep. discriminate.
        + right. intros t c1 Ht E1. destruct (Nat.eq_dec t n) as [->|N].
          * rewrite Ec in E1; injection E1 as <-. eauto.
          * apply X; auto; lia.
      - left. exists n. unfold step. rewrite Ek, Ec, L. discriminate.
      - exfalso. eapply Q; eauto. }
    destruct (G (length cl) (le_n _)) as [X|X]; auto. right. intros t c E. apply X; auto.
    apply nth_error_Some. congruence.
Qed.

(** Once a callback uses its own file, nothing completes any more. *)
Lemma stuck_step s t q : Inv q s -> (exists t0 h, nth_error (threads s) t0 = Some (Hold Again, h)) ->
  forall s', step cl s t = Some s' ->
    (exists t0 h, nth_error (threads s') t0 = Some (Hold Again, h)) /\ stream s' = stream s /\
    forall u, option_map snd (nth_error (threads s') u) = option_map snd (nth_error (threads s) u).
Proof.
  intros I [t0 [h0 E0]] s' H.
  assert (L : locked s = true).
  { destruct (locked s) eqn:L; auto. destruct (i_seq _ _ I) as [y [_ [FR _]]]. destruct (FR L) as [_ Q].
    exfalso. eapply Q; eauto. }
  destruct (i_seq _ _ I) as [y [_ [_ HL]]]. destruct (HL L) as [t1 [p1 [q1 [h1 [A1 [A2 _]]]]]].
  assert (t0 = t1) by eauto. subst t1.
  unfold step in H.
  destruct (nth_error (threads s) t) as [[k h]|] eqn:Ek; [|discriminate].
  destruct (nth_error cl t) as [c|] eqn:Ec; [|destruct k as [|?|[| |]]; discriminate].
  destruct k as [|p|p].
  - destruct (c h) as [p|]; [|discriminate]. injection H as <-. simpl. repeat split.
    + exists t0, h0. rewrite nth_error_list_set_neq; auto. intros ->. congruence.
    + intros u. rewrite (nth_error_list_set _ _ _ _ _ Ek). destruct (Nat.eqb_spec t u) as [->|N]; auto. rewrite Ek; auto.
  - rewrite L in H. discriminate.
  - assert (t = t0) by eauto. subst t0. rewrite Ek in E0. injection E0 as -> ->. discriminate.
Qed.

Lemma stuck_run ls : forall s q, Inv q s -> (exists t0 h, nth_error (threads s) t0 = Some (Hold Again, h)) ->
  forall s', run cl s ls = Some s' -> stream s' = stream s /\
    forall u, option_map snd (nth_error (threads s') u) = option_map snd (nth_error (threads s) u).
Proof.
  induction ls as [|t ls IH]; simpl; intros s q I E s' H.
  - injection H as <-. auto.
  - destruct (step cl s t) as [s1|] eqn:Es; [|discriminate].
    destruct (stuck_step _ _ _ I E _ Es) as [E1 [E2 E3]].
    destruct (inv_step _ _ _ _ I Es) as [e [I1 _]].
    destruct (IH _ _ I1 E1 _ H) as [E4 E5]. split; [congruence|]. intros u. rewrite E5. auto.
Qed.
End Lin.

(** Reading words. *)
Lemma skip_words c t : isspace c = true -> words_from [] (c :: t) = words_from [] t.
Proof. simpl. intros ->. auto. Qed.

Lemma alone_rd_word n : forall w s, w <> [] \/ (exists c r, rest s = c :: r /\ isspace c = false) ->
  length (rest s) <= n -> failbit s = false ->
  exists v s', alone (rd_word n w) s = Some (s', RWord (Some v)) /\ failbit s' = false /\
    words_from w (rest s) = v :: words (rest s') /\ (eofbit s' = true -> rest s' = [] \/ eofbit s = true) /\
    length (rest s') <= length (rest s).
Proof.
  induction n as [|n IH]; intros w s W L F.
  - simpl. destruct (rest s) as [|c r] eqn:Er; [|simpl in L; lia].
    destruct W as [W|[c [r [X _]]]]; [|discriminate].
    rewrite F. exists w, (mkI [] true false). simpl. repeat split; auto. destruct w; [congruence|reflexivity].
  - simpl. destruct (rest s) as [|c r] eqn:Er.
    + destruct W as [W|[c [r [X _]]]]; [|discriminate].
      rewrite F. exists w, (mkI [] true false). simpl. repeat split; auto. destruct w; [congruence|reflexivity].
    + destruct (isspace c) eqn:Ec.
      * destruct W as [W|[c1 [r1 [X Y]]]]; [|congruence].
        rewrite F. exists w, s. simpl. rewrite Er. repeat split; auto.
        -- rewrite ?Ec. destruct w; [congruence|]. unfold words. rewrite skip_words; auto.
      * destruct (IH (w ++ [c]) (mkI r (eofbit s) (failbit s))) as [v [s' [A [B [D [E G]]]]]].
        -- left. destruct w; discriminate.
        -- simpl in *. lia.
        -- auto.
        -- exists v, s'. cbn [words_from]. rewrite Ec. simpl in *. repeat split; auto.
Qed.

Lemma alone_rd_skip n : forall s, length (rest s) <= n -> failbit s = false ->
  exists o s', alone (rd_skip n) s = Some (s', RWord o) /\
   match o with
   | Some v => failbit s' = false /\ words (rest s) = v :: words (rest s') /\
               (eofbit s' = true -> rest s' = [] \/ eofbit s = true)
   | None => failbit s' = true /\ eofbit s' = true /\ words (rest s) = [] /\ rest s' = []
   end.
Proof.
  assert (G : forall n s c r, rest s = c :: r -> isspace c = false -> length (rest s) <= n -> failbit s = false ->
    exists o s', alone (rd_word n []) s = Some (s', RWord o) /\
   match o with
   | Some v => failbit s' = false /\ words (rest s) = v :: words (rest s') /\
               (eofbit s' = true -> rest s' = [] \/ eofbit s = true)
   | None => failbit s' = true /\ eofbit s' = true /\ words (rest s) = [] /\ rest s' = []
   end).
  { intros m s c r Er Ec L F.
    destruct (alone_rd_word m [] s) as [v [s' [A [B [D [E _]]]]]]; auto; [right; eauto|].
    exists (Some v), s'. auto. }
  induction n as [|n IH]; intros s L F.
  - simpl. destruct (rest s) as [|c r] eqn:Er; [|simpl in L; lia].
    exists None, (mkI [] true true). simpl. auto.
  - cbn [rd_skip alone]. destruct (rest s) as [|c r] eqn:Er.
    + exists None, (mkI [] true true). simpl. auto.
    + destruct (isspace c) eqn:Ec.
      * destruct (IH (mkI r (eofbit s) (failbit s))) as [o [s' [A B]]]; simpl in *; auto; [lia|].
        exists o, s'. split; auto. unfold words in *. rewrite skip_words; auto.
      * rewrite <- Er in *. eapply G; eauto.
Qed.

Definition good_inv (s : istr) : Prop := eofbit s = true -> rest s = [].

(** One [>>]: the next word, or a failure when there is none. *)
Lemma alone_read s : good_inv s -> (failbit s = true -> eofbit s = true) ->
  exists o s', alone op_read s = Some (s', RWord o) /\ good_inv s' /\ (failbit s' = true -> eofbit s' = true) /\
   match o with
   | Some v => words (rest s) = v :: words (rest s')
   | None => words (rest s) = [] /\ words (rest s') = []
   end.
Proof.
  intros GI FE. unfold op_read. cbn [alone].
  destruct (eofbit s || failbit s) eqn:B.
  - assert (E : eofbit s = true).
    { destruct (eofbit s) eqn:E; auto. }
    exists None, (mkI (rest s) (eofbit s) true). simpl. unfold good_inv in *. simpl. rewrite (GI E). repeat split; auto.
  - apply orb_false_iff in B. destruct B as [B1 B2].
    destruct (alone_rd_skip (length (rest s)) s) as [o [s' [A1 A2]]]; auto.
    exists o, s'. split; auto. destruct o as [v|].
    + destruct A2 as [A2 [A3 A4]]. unfold good_inv. repeat split; auto.
      * intros E. destruct (A4 E); auto. congruence.
      * congruence.
    + destruct A2 as [A2 [A3 [A4 A5]]]. unfold good_inv. rewrite A5. repeat split; auto.
Qed.
