From Verif Require Import Tsq_Model Tsq_Spec Tsq_Proofs.
From Coq Require Import Lia.
Open Scope Z_scope.
Notation pow2 := power_of_two (only parsing).
Section P.
Context {A : Type}.
Variable junk : A.
Lemma inv_fresh c : pow2 c -> inv (fresh junk c).
Proof. intros P. pose proof (pow2_pos _ P). constructor; cbn; auto; unfold eb; cbn; lia. Qed.
Lemma step_pres s e s' : inv s -> step junk s e s' -> inv s'.
Proof.
  intros I H. destruct H as [s o Ho|s Ho|s k Hk|s s' e H|s s' e k H].
  - apply inv_owner; [exact I|unfold eb; cbn; rewrite Ho; reflexivity|exact Logic.I].
  - apply inv_owner; [exact I|unfold eb; cbn; rewrite Ho; reflexivity|exact Logic.I].
  - destruct I as [H1 H2 H3 H4 H5 H6]. constructor; auto. intros j. cbn [thieves set_thief]. destruct (Nat.eqb j k); [exact Logic.I|apply H6].
  - exact (own_pres junk s s' e I H).
  - exact (thief_step_pres s s' e k I H).
Qed.
Lemma runs_inv c h s : pow2 c -> runs junk c h s -> inv s.
Proof. intros P R. induction R as [|h s e s' R IH H]; [apply inv_fresh; exact P|exact (step_pres _ _ _ IH H)]. Qed.
(** The phase each thread is in. *)
Definition own_ph (s : state A) : phase (A:=A) := match owner s with
  | OIdle => Outside
  | Pu1 o | Pu2 o _ | Pu3 o _ _ | Pu4 o _ _ | Pu5 o _ _ | Pu6 o _ => Called (KPush o)
  | Po1 | Po2 _ | Po3 _ _ | Po4 _ _ | Po6 _ _ _ => Called KPop
  | Po5 b a t => if t =? b then Called KPop else Done (Pop (Some (a_pop (heap s a) b)))
  | Po7 _ r => Done (Pop r)
  end.
Definition thief_ph (p : thief A) : phase (A:=A) := match p with SIdle => Outside | _ => Called KSteal end.
Definition ph (s : state A) (w : option nat) : phase (A:=A) := match w with None => own_ph s | Some k => thief_ph (thieves s k) end.
Lemma turn_here st w (p : phase (A:=A)) : turn st w p w = p.
Proof. unfold turn. destruct w as [k|]; [rewrite Nat.eqb_refl|]; reflexivity. Qed.
Lemma turn_other st w (p : phase (A:=A)) v : v <> w -> turn st w p v = st v.
Proof. unfold turn. destruct v as [i|], w as [j|]; auto; [|congruence]. intros N. destruct (Nat.eqb_spec i j) as [E|E]; [congruence|reflexivity]. Qed.
Lemma turn_ok st (s s' : state A) w p : (forall v, st v = ph s v) -> ph s' w = p -> (forall v, v <> w -> ph s' v = ph s v) -> forall v, turn st w p v = ph s' v.
Proof.
  intros H E K v. assert (D : v = w \/ v <> w) by (destruct v as [i|], w as [j|]; try (right; congruence); [destruct (Nat.eq_dec i j); [left|right]; congruence|left; reflexivity]).
  destruct D as [-> |D]; [rewrite turn_here; auto|rewrite turn_other by exact D; rewrite K by exact D; apply H].
Qed.
Lemma turn_twice_ok st (s s' : state A) w p p' : (forall v, st v = ph s v) -> ph s' w = p -> (forall v, v <> w -> ph s' v = ph s v) -> forall v, turn (turn st w p') w p v = ph s' v.
Proof.
  intros H E K v. assert (D : v = w \/ v <> w) by (destruct v as [i|], w as [j|]; try (right; congruence); [destruct (Nat.eq_dec i j); [left|right]; congruence|left; reflexivity]).
  destruct D as [-> |D]; [rewrite turn_here; auto|rewrite !turn_other by exact D; rewrite K by exact D; apply H].
Qed.
Lemma content_same (s s' : state A) : top s' = top s -> eb s' = eb s -> (forall i, top s <= i < eb s -> val s' i = val s i) -> content s' = content s.
Proof. intros T E V. unfold content. rewrite T, E. apply map_ext_in. intros i Hi. apply V. apply range_in. exact Hi. Qed.
Definition held (s : state A) : list A := match ph s None with Done (Pop (Some x)) => [x] | _ => [] end.
Definition bal (h : list (event A)) (s : state A) : Prop := Permutation (pushed h) (taken h ++ held s ++ content s).
Definition sim (h : list (event A)) (s : state A) : Prop := exists l st, linear h l st /\ (forall w, st w = ph s w) /\ deques [] l (content s) /\ bal h s.
Lemma pushed_app h h' : pushed (h ++ h') = pushed h ++ pushed (A:=A) h'.
Proof. induction h as [|[w k|w [o|r|r]] h IH]; cbn; auto. rewrite IH. reflexivity. Qed.
Lemma taken_app h h' : taken (h ++ h') = taken h ++ taken (A:=A) h'.
Proof. induction h as [|[w k|w [o|[r|]|[r|]]] h IH]; cbn; auto; rewrite IH; reflexivity. Qed.
(** Five kinds of steps. *)
Lemma sim_silent h (s s' : state A) : sim h s -> (forall w, ph s' w = ph s w) -> content s' = content s -> sim h s'.
Proof. intros (l & st & L & P & D & B) E C. exists l, st. split; [exact L|]. split; [intros w; rewrite P, E; reflexivity|]. unfold bal, held. rewrite C, E. auto. Qed.
Lemma held_same (s s' : state A) w : (forall v, v <> w -> ph s' v = ph s v) -> (exists k, ph s w = Called k) \/ ph s w = Outside -> (exists k, ph s' w = Called k) \/ ph s' w = Outside -> held s' = held s.
Proof.
  intros O H H'. unfold held. destruct w as [k|]; [rewrite O by congruence; reflexivity|].
  destruct H as [(k & ->)| ->], H' as [(k' & ->)| ->]; reflexivity.
Qed.
Lemma sim_call h (s s' : state A) w k : sim h s -> ph s w = Outside -> ph s' w = Called k -> (forall v, v <> w -> ph s' v = ph s v) -> content s' = content s -> sim (h ++ [Call w k]) s'.
Proof.
  intros (l & st & L & P & D & B) E E' O C. exists l, (turn st w (Called k)). split; [apply l_call; [exact L|rewrite P; exact E]|]. split; [apply (turn_ok st s s' w _ P E' O)|].
  unfold bal. rewrite pushed_app, taken_app. cbn [pushed taken]. rewrite !app_nil_r, C, (held_same s s' w O (or_intror E) (or_introl (ex_intro _ _ E'))). auto.
Qed.
Lemma sim_effect h (s s' : state A) r : sim h s -> ph s None = Called KPop -> ph s' None = Done (Pop r) -> (forall v, v <> None -> ph s' v = ph s v) -> deque (content s) (Pop r) (content s') -> sim h s'.
Proof.
  intros (l & st & L & P & D & B) E E' O C. exists (l ++ [Pop r]), (turn st None (Done (Pop r))). split; [apply (l_effect h l st None KPop (Pop r)); [exact L|rewrite P; exact E|exact Logic.I]|]. split; [apply (turn_ok st s s' None _ P E' O)|].
  split; [apply (ds_snoc [] l (content s) _ _ D C)|]. unfold bal, held in *. rewrite E in B. rewrite E'. inversion C as [|q x E1 E2 E3|E1 E2 E3| |]; subst.
  - rewrite <- E1 in B. rewrite B. apply Permutation_app_head. cbn [app]. apply Permutation_sym, Permutation_cons_append.
  - rewrite <- E1 in B. exact B.
Qed.
Lemma sim_return h (s s' : state A) r : sim h s -> ph s None = Done (Pop r) -> ph s' None = Outside -> (forall v, v <> None -> ph s' v = ph s v) -> content s' = content s -> sim (h ++ [Ret None (Pop r)]) s'.
Proof.
  intros (l & st & L & P & D & B) E E' O C. exists l, (turn st None Outside). split; [apply l_return; [exact L|rewrite P; exact E]|]. split; [apply (turn_ok st s s' None _ P E' O)|].
  rewrite C. split; [exact D|]. unfold bal, held in *. rewrite E in B. rewrite E', C, pushed_app, taken_app. cbn [pushed taken]. destruct r as [x|]; cbn [taken app]; rewrite ?app_nil_r; [|exact B]. rewrite <- app_assoc. exact B.
Qed.
Lemma sim_both h (s s' : state A) w k o : sim h s -> ph s w = Called k -> of_kind k o -> ph s' w = Outside -> (forall v, v <> w -> ph s' v = ph s v) -> deque (content s) o (content s') -> sim (h ++ [Ret w o]) s'.
Proof.
  intros (l & st & L & P & D & B) E K E' O C. exists (l ++ [o]), (turn (turn st w (Done o)) w Outside). split.
  - apply l_return; [|apply turn_here]. apply (l_effect h l st w k o); auto. rewrite P. exact E.
  - split; [apply (turn_twice_ok st s s' w _ _ P E' O)|]. split; [apply (ds_snoc [] l (content s) o _ D C)|]. unfold bal in *.
    rewrite (held_same s s' w O (or_introl (ex_intro _ _ E)) (or_intror E')). rewrite pushed_app, taken_app. inversion C as [q x E1 E2 E3|q x E1 E2 E3|E1 E2 E3|q x E1 E2 E3|q E1 E2 E3]; subst; cbn [pushed taken]; rewrite ?app_nil_r.
    + rewrite B. rewrite <- !app_assoc. reflexivity.
    + rewrite <- E1 in B. rewrite B. rewrite <- !app_assoc. apply Permutation_app_head. cbn [app]. rewrite app_assoc. apply Permutation_sym, Permutation_cons_append.
    + rewrite B, <- E1, app_nil_r. reflexivity.
    + rewrite <- E1 in B. rewrite B. rewrite <- !app_assoc. apply Permutation_app_head. cbn [app]. apply Permutation_sym, Permutation_middle.
    + exact B.
Qed.
Lemma own_others (s : state A) (s' : state A) : thieves s' = thieves s -> forall v : option nat, v <> None -> ph s' v = ph s v.
Proof. intros T [k|] N; [|congruence]. cbn [ph]. rewrite T. reflexivity. Qed.
Lemma own_sim h s s' e : inv s -> sim h s -> own_step junk s = Some (s', e) -> sim (h ++ e) s'.
Proof.
  intros I M. pose proof I as [H1 H2 H3 H4 H5 H6]. unfold own_step, own_inv in *. destruct (owner s) as [|o|o b|o b t|o b a|o b a|o b| |b|b a|b a|b a t|b t x|b r] eqn:Eo; intros E; try discriminate E.
  all: assert (Ep : ph s None = own_ph s) by reflexivity; unfold own_ph in Ep; rewrite Eo in Ep.
  all: assert (Eb := eq_refl (eb s)); unfold eb in Eb at 2; rewrite Eo in Eb.
  - injection E as <- <-. rewrite app_nil_r. apply (sim_silent h s); [exact M| |apply content_same; auto; unfold eb; cbn; rewrite Eo; reflexivity]. intros [k|]; [reflexivity|]. rewrite Ep. reflexivity.
  - injection E as <- <-. rewrite app_nil_r. apply (sim_silent h s); [exact M| |apply content_same; auto; unfold eb; cbn; rewrite Eo; reflexivity]. intros [k|]; [reflexivity|]. rewrite Ep. reflexivity.
  - destruct (_ <? _); injection E as <- <-; rewrite app_nil_r; (apply (sim_silent h s); [exact M|intros [k|]; [reflexivity|]; rewrite Ep; reflexivity|]).
    + apply content_same; [reflexivity|rewrite Eb; reflexivity|]. intros i _. unfold val. cbn. destruct (Nat.eqb_spec (cur s) (next s)); [lia|reflexivity].
    + apply content_same; auto; unfold eb; cbn; rewrite Eo; reflexivity.
  - injection E as <- <-. rewrite app_nil_r. apply (sim_silent h s); [exact M|intros [k|]; [reflexivity|]; rewrite Ep; reflexivity|]. destruct H5 as (-> & Ha & Hc & Hv).
    apply content_same; [reflexivity|rewrite Eb; reflexivity|]. intros i Hi. unfold val at 1. cbn. apply Hv. lia.
  - injection E as <- <-. rewrite app_nil_r. apply (sim_silent h s); [exact M|intros [k|]; [reflexivity|]; rewrite Ep; reflexivity|]. destruct H5 as (-> & -> & Hc).
    apply content_same; [reflexivity|rewrite Eb; reflexivity|]. intros i Hi. unfold val. cbn. rewrite Nat.eqb_refl. apply push_other; [apply H2|]. left. lia.
  - injection E as <- <-. destruct H5 as (-> & Hv & Hc). apply (sim_both h s _ None (KPush o) (Push o)); [exact M|exact Ep|reflexivity|reflexivity|apply own_others; reflexivity|].
    unfold content. cbn [top set_owner set_bottom]. change (eb (set_owner (set_bottom s (bottom s + 1)) OIdle)) with (bottom s + 1). rewrite Eb, range_snoc by lia. rewrite map_app. cbn [map].
    change (val (set_owner (set_bottom s (bottom s + 1)) OIdle)) with (val s). rewrite Hv. apply d_push.
  - injection E as <- <-. rewrite app_nil_r. apply (sim_silent h s); [exact M| |apply content_same; auto; unfold eb; cbn; rewrite Eo; reflexivity]. intros [k|]; [reflexivity|]. rewrite Ep. reflexivity.
  - injection E as <- <-. rewrite app_nil_r. apply (sim_silent h s); [exact M| |apply content_same; auto; unfold eb; cbn; rewrite Eo; reflexivity]. intros [k|]; [reflexivity|]. rewrite Ep. reflexivity.
  - injection E as <- <-. destruct H5 as (-> & ->). rewrite app_nil_r. apply (sim_silent h s); [exact M| |apply content_same; auto; unfold eb; cbn; rewrite Eo; lia]. intros [k|]; [reflexivity|]. rewrite Ep. reflexivity.
  - destruct H5 as (-> & ->). rewrite Eb in *. destruct (Z.leb_spec (top s) (bottom s)) as [L|L]; injection E as <- <-; rewrite app_nil_r.
    + destruct (Z.eqb_spec (top s) (bottom s)) as [Q|Q].
      * apply (sim_silent h s); [exact M|intros [k|]; [reflexivity|]; rewrite Ep; unfold ph, own_ph; cbn; rewrite (proj2 (Z.eqb_eq _ _) Q); reflexivity|].
        apply content_same; [reflexivity| |reflexivity]. rewrite Eb. unfold eb; cbn. rewrite (proj2 (Z.eqb_eq _ _) Q). reflexivity.
      * apply (sim_effect h s _ (Some (val s (bottom s)))); [exact M|exact Ep|unfold ph, own_ph; cbn; rewrite (proj2 (Z.eqb_neq _ _) Q); reflexivity|apply own_others; reflexivity|].
        unfold content. rewrite Eb, range_snoc by lia. rewrite map_app. cbn [map].
        assert (Eb' : eb (set_owner s (Po5 (bottom s) (cur s) (top s))) = bottom s) by (unfold eb; cbn; rewrite (proj2 (Z.eqb_neq _ _) Q); reflexivity). rewrite Eb'. apply d_pop.
    + apply (sim_effect h s _ None); [exact M|exact Ep|reflexivity|apply own_others; reflexivity|].
      unfold content. rewrite !range_nil; [apply d_pop_empty|unfold eb; cbn; lia|lia].
  - destruct H5 as (-> & -> & Ht & Hb). destruct (Z.eqb_spec t (bottom s)) as [Q|Q]; injection E as <- <-.
    + rewrite app_nil_r. apply (sim_silent h s); [exact M| |]. { intros [k|]; [reflexivity|]. rewrite Ep. reflexivity. }
      apply content_same; [reflexivity|rewrite Eb; reflexivity|reflexivity].
    + apply (sim_return h s); [exact M|exact Ep|reflexivity|apply own_others; reflexivity|]. apply content_same; auto.
  - destruct H5 as (-> & -> & Ht & Hx). rewrite Eb in *. destruct (Z.eqb_spec (top s) (bottom s)) as [Q|Q]; injection E as <- <-; rewrite app_nil_r.
    + apply (sim_effect h s _ (Some x)); [exact M|exact Ep|reflexivity|apply own_others; reflexivity|].
      unfold content. rewrite Eb. rewrite Q, range_snoc by lia. rewrite (range_nil (bottom s) (bottom s)) by lia. cbn [map app]. rewrite range_nil by (unfold eb; cbn; lia). rewrite <- Hx. apply (d_pop [] x).
    + apply (sim_effect h s _ None); [exact M|exact Ep|reflexivity|apply own_others; reflexivity|].
      unfold content. rewrite !range_nil; [apply d_pop_empty|unfold eb; cbn; lia|lia].
  - injection E as <- <-. destruct H5 as (-> & Ht). apply (sim_return h s); [exact M|exact Ep|reflexivity|apply own_others; reflexivity|]. apply content_same; auto.
Qed.
Lemma thief_others (s s' : state A) k p : owner s' = owner s -> heap s' = heap s -> thieves s' = (fun j => if Nat.eqb j k then p else thieves s j) -> forall v : option nat, v <> Some k -> ph s' v = ph s v.
Proof.
  intros O Hh T [j|] N; cbn [ph]; [rewrite T; destruct (Nat.eqb_spec j k); [congruence|reflexivity]|]. unfold own_ph. rewrite O, Hh. reflexivity.
Qed.
Lemma set_thief_ph (s : state A) k p : ph (set_thief s k p) (Some k) = thief_ph p.
Proof. cbn [ph thieves set_thief]. rewrite Nat.eqb_refl. reflexivity. Qed.
Lemma thief_sim h s s' e k : inv s -> sim h s -> thief_step s k = Some (s', e) -> sim (h ++ e) s'.
Proof.
  intros I M. pose proof I as [H1 H2 H3 H4 H5 H6]. pose proof (H6 k) as Hk. unfold thief_step.
  assert (Ep : ph s (Some k) = thief_ph (thieves s k)) by reflexivity.
  assert (Silent : forall p, thief_ph p = thief_ph (thieves s k) -> sim (h ++ []) (set_thief s k p)).
  { intros p Hp. rewrite app_nil_r. apply (sim_silent h s); [exact M| |apply content_same; auto]. intros v. assert (D : v = Some k \/ v <> Some k) by (destruct v as [j|]; [destruct (Nat.eq_dec j k); [left|right]; congruence|right; congruence]).
    destruct D as [-> |D]; [rewrite set_thief_ph, Ep; exact Hp|apply (thief_others s _ k p); auto]. }
  assert (Fails : thief_ph (thieves s k) = Called KSteal -> sim (h ++ [Ret (Some k) (Steal None)]) (set_thief s k SIdle)).
  { intros Hp. apply (sim_both h s _ (Some k) KSteal (Steal None)); [exact M|exact Hp|exact Logic.I|apply set_thief_ph|apply (thief_others s _ k SIdle); auto|].
    replace (content (set_thief s k SIdle)) with (content s) by (symmetry; apply content_same; auto). apply d_steal_fails. }
  destruct (thieves s k) as [| |t|t|t a|t x] eqn:Et; intros E; try discriminate E; cbn [thief_inv] in Hk.
  - injection E as <- <-. apply Silent. reflexivity.
  - destruct (_ <? _); injection E as <- <-; [apply Silent; reflexivity|apply Fails; reflexivity].
  - injection E as <- <-. apply Silent. reflexivity.
  - injection E as <- <-. apply Silent. reflexivity.
  - destruct (Z.eqb_spec (top s) t) as [Q|Q]; injection E as <- <-; [|apply Fails; reflexivity]. destruct Hk as (A1 & A2). destruct (A2 Q) as (B1 & B2).
    apply (sim_both h s _ (Some k) KSteal (Steal (Some x))); [exact M|exact Ep|exact Logic.I|apply set_thief_ph|apply (thief_others s _ k SIdle); auto|].
    unfold content. change (eb (set_thief (set_top s (t + 1)) k SIdle)) with (eb s). cbn [top set_thief set_top]. rewrite Q, range_cons by exact B1. cbn [map]. rewrite <- B2. apply d_steal.
Qed.
Lemma step_sim h s e s' : inv s -> sim h s -> step junk s e s' -> sim (h ++ e) s'.
Proof.
  intros I M H. destruct H as [s o Ho|s Ho|s k Hk|s s' e H|s s' e k H].
  - apply (sim_call h s); [exact M|cbn [ph]; unfold own_ph; rewrite Ho; reflexivity|reflexivity|apply own_others; reflexivity|apply content_same; auto; unfold eb; cbn; rewrite Ho; reflexivity].
  - apply (sim_call h s); [exact M|cbn [ph]; unfold own_ph; rewrite Ho; reflexivity|reflexivity|apply own_others; reflexivity|apply content_same; auto; unfold eb; cbn; rewrite Ho; reflexivity].
  - apply (sim_call h s); [exact M|cbn [ph]; rewrite Hk; reflexivity|apply set_thief_ph|apply (thief_others s _ k St1); auto|apply content_same; auto].
  - exact (own_sim h s s' e I M H).
  - exact (thief_sim h s s' e k I M H).
Qed.
Lemma runs_sim c h s : pow2 c -> runs junk c h s -> sim h s.
Proof.
  intros P R. induction R as [|h s e s' R IH H].
  - exists [], (fun _ => Outside). split; [apply l_start|]. split; [intros [k|]; reflexivity|]. unfold bal, held, content. rewrite range_nil by (cbn; lia). split; [apply ds_nil|reflexivity].
  - apply (step_sim h s); auto. exact (runs_inv c h s P R).
Qed.
End P.
