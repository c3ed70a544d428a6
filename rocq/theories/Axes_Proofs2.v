(** The error checkers do not depend on numbering and axes. *)
From Coq Require Import Permutation.
From Verif Require Import Chain_Proofs Axes_Spec Axes_Proofs Inv_Proofs Meth_Proofs2 System_Proofs System_Proofs2 Ctrl_Model.
Import System_Spec.
Open Scope R_scope.

Definition absw (x : R * R * R) : R * R * R := let '(a, b, c) := x in (Rabs a, Rabs b, Rabs (c - b)).
Lemma combine_app {A B} (a a' : list A) (b b' : list B) : length a = length b -> combine (a ++ a') (b ++ b') = combine a b ++ combine a' b'.
Proof. revert b. induction a as [|x a IH]; intros [|y b] H; cbn in *; try discriminate; auto. f_equal. apply IH; lia. Qed.
Lemma zip3_app {T} (a b c a' b' c' : list T) : length a = length b -> length b = length c -> zip3 (a ++ a') (b ++ b') (c ++ c') = zip3 a b c ++ zip3 a' b' c'.
Proof. intros H1 H2. unfold zip3. rewrite combine_app by auto. apply combine_app. rewrite combine_length. lia. Qed.
Definition z3 (x : vec * vec * vec) : list (R * R * R) := let '(p, q, r) := x in [(vx p, vx q, vx r); (vy p, vy q, vy r); (vz p, vz q, vz r)].
Lemma zip3_coords p : forall q r, length p = length q -> length q = length r -> zip3 (coords p) (coords q) (coords r) = flat_map z3 (zip3 p q r).
Proof.
  unfold zip3. induction p as [|x p IH]; intros [|y q] [|z r] H1 H2; cbn in *; try discriminate; auto. do 3 f_equal. apply IH; lia.
Qed.
Lemma zip3_nth p : forall q r n, length p = n -> length q = n -> length r = n -> zip3 p q r = map (fun k => (nth k p vzero, nth k q vzero, nth k r vzero)) (seq 0 n).
Proof.
  unfold zip3. induction p as [|x p IH]; intros [|y q] [|z r] n H1 H2 H3; cbn in *; subst n; try discriminate; auto.
  cbn [seq map nth]. f_equal. rewrite <- seq_shift, map_map. apply IH; lia.
Qed.
Lemma map_flat_map {A B C} (f : B -> C) (g : A -> list B) l : map f (flat_map g l) = flat_map (fun x => map f (g x)) l.
Proof. induction l as [|x l IH]; cbn; auto. rewrite map_app, IH. auto. Qed.
Lemma flat_map_map {A B C} (f : A -> B) (g : B -> list C) l : flat_map g (map f l) = flat_map (fun x => g (f x)) l.
Proof. induction l as [|x l IH]; cbn; auto. rewrite IH. auto. Qed.
Lemma flat_map_perm {A B} (f g : A -> list B) l : (forall x, Permutation (f x) (g x)) -> Permutation (flat_map f l) (flat_map g l).
Proof. intros H. induction l as [|x l IH]; cbn; auto. apply Permutation_app; auto. Qed.
Lemma axis_z3 A : axis_change A -> forall p q r, Permutation (map absw (z3 (A p, A q, A r))) (map absw (z3 (p, q, r))).
Proof.
  intros H. destruct (axis_cases A H) as (c & s & Hs & E & _ & Hin). intros p q r. rewrite !E. cbn [z3 map absw vx vy vz].
  assert (Ab : forall i x, Rabs (s i * x) = Rabs x) by (intros i x; destruct (Hs i) as [-> | ->]; [f_equal; ring|rewrite <- Rabs_Ropp; f_equal; ring]).
  assert (Q : forall i x y z, (Rabs (s i * x), Rabs (s i * y), Rabs (s i * z - s i * y)) = (Rabs x, Rabs y, Rabs (z - y))).
  { intros. rewrite !Ab. replace (s i * z - s i * y) with (s i * (z - y)) by ring. rewrite Ab. reflexivity. }
  rewrite !Q. clear Q Ab E. cbn in Hin. repeat destruct Hin as [Hin|Hin]; try contradiction; injection Hin as <- <- <-; cbn [coordinate].
  - apply Permutation_refl.
  - apply perm_skip, perm_swap.
  - apply perm_swap.
  - eapply perm_trans; [apply perm_skip, perm_swap|apply perm_swap].
  - eapply perm_trans; [apply perm_swap|apply perm_skip, perm_swap].
  - eapply perm_trans; [apply perm_swap|]. eapply perm_trans; [apply perm_skip, perm_swap|apply perm_swap].
Qed.
Section CHECK.
  Variables (n : nat) (pi : nat -> nat) (A : vec -> vec) (I : inter).
  Hypotheses (PI : renumbering n pi) (AX : axis_change A).
  Notation fr := (view n pi A vzero).
  Notation T := (frame_array I n pi A).
  Lemma vecs_multiset p q r : length p = n -> length q = n -> length r = n ->
    Permutation (map absw (zip3 (coords (fr p)) (coords (fr q)) (coords (fr r)))) (map absw (zip3 (coords p) (coords q) (coords r))).
  Proof.
    intros Lp Lq Lr. rewrite !zip3_coords by (rewrite ?view_length; congruence). rewrite (zip3_nth _ _ _ n) by apply view_length. rewrite (zip3_nth p q r n) by auto.
    rewrite !flat_map_map, !map_flat_map.
    eapply perm_trans; [|apply (Permutation_flat_map (fun k => map absw (z3 (nth k p vzero, nth k q vzero, nth k r vzero))) PI)].
    rewrite flat_map_map.
    assert (Q : forall l, (forall k, In k l -> (k < n)%nat) ->
      Permutation (flat_map (fun x => map absw (z3 (nth x (fr p) vzero, nth x (fr q) vzero, nth x (fr r) vzero))) l)
                  (flat_map (fun x => map absw (z3 (nth (pi x) p vzero, nth (pi x) q vzero, nth (pi x) r vzero))) l)).
    { induction l as [|k l IH]; intros Hl; [constructor|]. cbn [flat_map]. apply Permutation_app; [|apply IH; intros; apply Hl; right; auto].
      rewrite !(view_nth n pi A), !vadd_0_r by (apply Hl; left; auto). apply axis_z3; auto. }
    apply Q. intros k Hk. apply in_seq in Hk. lia.
  Qed.
  Lemma array_multiset e a b c : (1 <= e)%nat -> length a = variable_number I e n -> length b = variable_number I e n -> length c = variable_number I e n ->
    Permutation (map absw (zip3 (T a) (T b) (T c))) (map absw (zip3 a b c)).
  Proof.
    intros He La Lb Lc.
    destruct (unpack I e n a He La) as (t1 & p1 & v1 & w1 & l1 & -> & Lp1 & Lv1 & Lw1 & Ll1).
    destruct (unpack I e n b He Lb) as (t2 & p2 & v2 & w2 & l2 & -> & Lp2 & Lv2 & Lw2 & Ll2).
    destruct (unpack I e n c He Lc) as (t3 & p3 & v3 & w3 & l3 & -> & Lp3 & Lv3 & Lw3 & Ll3).
    rewrite !frame_pack by auto. unfold pack.
    assert (Z : forall (x y z : R) a b c, zip3 (x :: a) (y :: b) (z :: c) = (x, y, z) :: zip3 a b c) by reflexivity.
    rewrite !Z. clear Z. cbn [map]. apply perm_skip.
    assert (L : forall l, length l = n -> length (coords (fr l)) = length (coords l)) by (intros; rewrite !coords_length, view_length; congruence).
    unfold auxl. clear La Lb Lc. destruct (I_dep I).
    - rewrite !zip3_app, !map_app by (rewrite ?L by auto; rewrite ?coords_length; congruence).
      apply Permutation_app; [apply vecs_multiset; auto|]. apply Permutation_app; [apply vecs_multiset; auto|].
      apply Permutation_app; [apply vecs_multiset; auto|apply Permutation_refl].
    - cbn [coords flat_map app]. rewrite !zip3_app, !map_app by (rewrite ?L by auto; rewrite ?coords_length; congruence).
      apply Permutation_app; [apply vecs_multiset; auto|]. apply Permutation_app; [apply vecs_multiset; auto|apply Permutation_refl].
  Qed.
End CHECK.

(** * The checkers are functions of these multisets *)
Lemma fold_perm {A B} (f : B -> A -> B) : (forall m x y, f (f m x) y = f (f m y) x) -> forall l l', Permutation l l' -> forall m, fold_left f l m = fold_left f l' m.
Proof. intros H l l' P. induction P; intros m; cbn [fold_left]; auto. - rewrite H; auto. - rewrite IHP1; auto. Qed.
Lemma rgtb_spec a b : rgtb a b = true <-> b < a.
Proof. unfold rgtb. destruct (Rlt_dec b a); split; intros; auto; try discriminate; contradiction. Qed.
Lemma rgtb_false a b : rgtb a b = false <-> a <= b.
Proof. unfold rgtb. destruct (Rlt_dec b a); split; intros; auto; try discriminate; lra. Qed.
Lemma emax_comm m x y : emax (emax m x) y = emax (emax m y) x.
Proof.
  unfold emax. destruct m, x, y; cbn [egt]; repeat match goal with |- context [if ?b then _ else _] => match b with rgtb ?x ?y => let E := fresh in destruct (rgtb x y) eqn:E; [apply rgtb_spec in E|apply rgtb_false in E]; cbn [egt] end end;
  auto; try (f_equal; lra); try (exfalso; lra).
Qed.
Lemma fold_emax_map {A} (w : A -> ext) l m : fold_left (fun m x => emax m (w x)) l m = fold_left emax (map w l) m.
Proof. revert m. induction l as [|x l IH]; intros m; cbn [fold_left map]; auto. Qed.
Lemma wo_multiset atol rtol a b c a' b' c' : Permutation (map absw (zip3 a b c)) (map absw (zip3 a' b' c')) ->
  wo_error Rabs Rminus atol rtol a b c = wo_error Rabs Rminus atol rtol a' b' c'.
Proof.
  intros P. unfold wo_error.
  set (w := fun x : R * R * R => let '(x, y, z) := x in ediv (Fin z) (Fin (atol + Rmax y x * rtol))).
  assert (Q : forall l, fold_left (fun m '(a, b, b') => emax m (ediv (Fin (Rabs (b' - b))) (Fin (atol + Rmax (Rabs b) (Rabs a) * rtol)))) l (Fin 0) =
     fold_left emax (map w (map absw l)) (Fin 0)).
  { intros l. rewrite map_map. rewrite <- (fold_emax_map (fun x => w (absw x))). generalize (Fin 0). induction l as [|[[x y] z] l IH]; intros m; cbn [fold_left absw w]; auto. }
  rewrite !Q. apply fold_perm; [apply emax_comm|]. apply Permutation_map; auto.
Qed.
Lemma mr_multiset atol rtol a b c a' b' c' : Permutation (map absw (zip3 a b c)) (map absw (zip3 a' b' c')) ->
  mr_error Rabs Rminus atol rtol a b c = mr_error Rabs Rminus atol rtol a' b' c'.
Proof.
  intros P. unfold mr_error.
  set (f := fun (m : R * R) (x : R * R * R) => let '(md, ms) := m in let '(x, y, z) := x in (Rmax md z, Rmax ms (atol + x * rtol))).
  assert (Q : forall l m, fold_left (fun '(md, ms) '(s, b, b') => (Rmax md (Rabs (b' - b)), Rmax ms (atol + Rabs s * rtol))) l m = fold_left f (map absw l) m).
  { induction l as [|[[x y] z] l IH]; intros m; cbn [fold_left map]; auto. rewrite IH. f_equal. destruct m; reflexivity. }
  rewrite !Q. rewrite (fold_perm f) with (l' := map absw (zip3 a' b' c')); auto.
  intros [md ms] [[x y] z] [[x' y'] z']. unfold f. f_equal; rewrite <- !Rmax_assoc; f_equal; apply Rmax_comm.
Qed.
Lemma rms_multiset atol rtol a b c a' b' c' : length a = length a' -> Permutation (map absw (zip3 a b c)) (map absw (zip3 a' b' c')) ->
  rms_error atol rtol a b c = rms_error atol rtol a' b' c'.
Proof.
  intros L P. unfold rms_error. rewrite L.
  set (f := fun (acc : R) (x : R * R * R) => let '(x, y, z) := x in let scale := Rmax x y * rtol + atol in if Req_EM_T scale 0 then acc else acc + (z / scale) * (z / scale)).
  assert (Q : forall l m, fold_left (fun acc '(a, b, b') => let scale := Rmax (Rabs a) (Rabs b) * rtol + atol in
               if Req_EM_T scale 0 then acc else acc + (Rabs (b - b') / scale) * (Rabs (b - b') / scale)) l m = fold_left f (map absw l) m).
  { induction l as [|[[x y] z] l IH]; intros m; cbn [fold_left map]; auto. rewrite IH. f_equal. unfold f, absw. cbv zeta. rewrite (Rabs_minus_sym y z). reflexivity. }
  rewrite !Q. rewrite (fold_perm f) with (l' := map absw (zip3 a' b' c')); auto.
  intros m [[x y] z] [[x' y'] z']. unfold f. cbv zeta. destruct (Req_EM_T (Rmax x y * rtol + atol) 0), (Req_EM_T (Rmax x' y' * rtol + atol) 0); auto. ring.
Qed.
