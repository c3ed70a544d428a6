(** C48 (collision detection), C51 (timer), C52 (random parameters). *)
From Coq Require Import Permutation.
From Verif Require Import Tool_Model.

(** * C48 *)
(** Specification: two bodies touch when the distance of the centres is at most the sum of the radii. *)
Definition touch (a b : vec * R) : Prop := norm (vsub (fst a) (fst b)) <= snd a + snd b.

Lemma touching_true p r i j : touching p r i j = true <-> norm (vsub (nth i p vzero) (nth j p vzero)) <= nth i r 0 + nth j r 0.
Proof. unfold touching, norm, norm2, dot. destruct (Rle_dec _ _); split; auto; try discriminate; tauto. Qed.
Lemma inner_true p r i left : forall j, inner p r i j left = true <-> exists k, (j <= k < j + left)%nat /\ touching p r i k = true.
Proof.
  induction left as [|l IH]; intros j; simpl; [split; [discriminate|intros (k & H & _); lia]|].
  destruct (touching p r i j) eqn:E.
  - split; auto. intros _. exists j. split; [lia|auto].
  - rewrite IH. split; intros (k & H & T); exists k; (split; auto); [lia|]. destruct (Nat.eq_dec k j) as [->|]; [congruence|lia].
Qed.
Lemma outer_true p r left : forall i, outer p r i left = true <-> exists a b, (i <= a < b)%nat /\ (b < i + left)%nat /\ touching p r a b = true.
Proof.
  induction left as [|l IH]; intros i; simpl; [split; [discriminate|intros (a & b & H & H2 & _); lia]|].
  destruct (inner p r i (S i) l) eqn:E.
  - split; auto. intros _. apply inner_true in E as (k & H & T). exists i, k. split; [lia|]. split; [lia|auto].
  - rewrite IH. split; intros (a & b & H & H2 & T); exists a, b; (split; [|split; auto]); try lia.
    destruct (Nat.eq_dec a i) as [->|]; [|lia]. exfalso. assert (inner p r i (S i) l = true) by (apply inner_true; exists b; split; [lia|auto]). congruence.
Qed.
(** A collision is reported exactly when two distinct particles touch. *)
Theorem C48_reports_touching_pairs p r : length p = length r ->
  (sticky_collision p r = true <-> exists i j a b, (i < j)%nat /\ nth_error (combine p r) i = Some a /\ nth_error (combine p r) j = Some b /\ touch a b).
Proof.
  intros L. unfold sticky_collision. rewrite outer_true. split.
  - intros (i & j & H & H2 & T). apply touching_true in T. exists i, j, (nth i p vzero, nth i r 0), (nth j p vzero, nth j r 0). split; [lia|].
    rewrite <- !(combine_nth p r _ vzero 0 L). split; [|split]; [apply nth_error_nth'; rewrite combine_length; lia..|]. rewrite !combine_nth; auto.
  - intros (i & j & a & b & H & A & B & T). exists i, j. assert (j < length (combine p r))%nat by (apply nth_error_Some; congruence). rewrite combine_length in H0.
    split; [lia|]. split; [lia|]. apply touching_true.
    apply (nth_error_nth _ _ (vzero, 0)) in A, B. rewrite combine_nth in A, B by auto. subst a b. exact T.
Qed.
Lemma touch_sym a b : touch a b -> touch b a.
Proof.
  unfold touch. intros H. rewrite (Rplus_comm (snd b)). replace (norm (vsub (fst b) (fst a))) with (norm (vsub (fst a) (fst b))); auto.
  unfold norm. f_equal. unfold norm2, dot, vsub. simpl. ring.
Qed.
Lemma pairs_spec l : (exists i j a b, (i < j)%nat /\ nth_error l i = Some a /\ nth_error l j = Some b /\ touch a b) <-> ~ ForallOrdPairs (fun a b => ~ touch a b) l.
Proof.
  induction l as [|x l IH].
  - split; [intros (i & j & a & b & _ & A & _); destruct i; discriminate|intros H; exfalso; apply H; constructor].
  - split.
    + intros (i & j & a & b & H & A & B & T) F. inversion F as [|? ? F1 F2]; subst. destruct j as [|j]; [lia|]. simpl in B. destruct i as [|i].
      * injection A as <-. rewrite Forall_forall in F1. apply (F1 b); auto. eapply nth_error_In; eauto.
      * apply IH in F2; auto. exists i, j, a, b. split; [lia|auto].
    + intros N. destruct (Exists_dec (touch x) l) as [E|E].
      { intros b. unfold touch. apply Rle_dec. }
      * apply Exists_exists in E as (b & Hb & T). apply In_nth_error in Hb as (k & Hk). exists 0%nat, (S k), x, b. split; [lia|auto].
      * destruct (proj2 IH) as (i & j & a & b & H & A & B & T).
        { intros F. apply N. constructor; auto. rewrite <- Forall_Exists_neg in E. auto. }
        exists (S i), (S j), a, b. split; [lia|auto].
Qed.
Lemma pairs_perm l l' : Permutation l l' -> ForallOrdPairs (fun a b => ~ touch a b) l -> ForallOrdPairs (fun a b => ~ touch a b) l'.
Proof.
  induction 1; intros F; auto.
  - inversion F; subst. constructor; auto. eapply Permutation_Forall; eauto.
  - inversion F as [|? ? F1 F2]; subst. inversion F2 as [|? ? F3 F4]; subst. inversion F1; subst. constructor; [constructor; auto|constructor; auto].
    intros T. apply touch_sym in T. auto.
Qed.
(** The answer does not depend on the order of the particles. *)
Theorem C48_order_irrelevant p r p' r' : length p = length r -> length p' = length r' -> Permutation (combine p r) (combine p' r') ->
  sticky_collision p r = sticky_collision p' r'.
Proof.
  intros L L' P. apply eq_true_iff_eq. rewrite !C48_reports_touching_pairs by auto. rewrite !pairs_spec. split; intros N F; apply N; [apply (pairs_perm _ _ (Permutation_sym P))|apply (pairs_perm _ _ P)]; auto.
Qed.
(** Nor on the origin of the coordinates. *)
Theorem C48_translation p r c : length p = length r -> sticky_collision (map (fun q => vadd q c) p) r = sticky_collision p r.
Proof.
  intros L. apply eq_true_iff_eq. unfold sticky_collision. rewrite map_length, !outer_true.
  assert (T : forall i j, (i < length p)%nat -> (j < length p)%nat -> touching (map (fun q => vadd q c) p) r i j = touching p r i j).
  { intros i j Hi Hj. apply eq_true_iff_eq. rewrite !touching_true. set (f := fun q => vadd q c).
    rewrite (nth_indep _ vzero (f vzero)) by (rewrite map_length; auto). rewrite (nth_indep (map f p) vzero (f vzero) (n := j)) by (rewrite map_length; auto).
    rewrite !map_nth. unfold f. replace (vsub (vadd (nth i p vzero) c) (vadd (nth j p vzero) c)) with (vsub (nth i p vzero) (nth j p vzero)); [tauto|].
    unfold vsub, vadd. simpl. f_equal; ring. }
  split; intros (a & b & H & H2 & E); exists a, b; (split; [auto|split; auto]); simpl in H2; rewrite T in * by lia; auto.
Qed.
Example C48_case : sticky_collision [mkV 0 0 0; mkV 3 4 0; mkV 9 0 0] [1; 2; 4] = false /\ sticky_collision [mkV 0 0 0; mkV 3 4 0; mkV 9 0 0] [1; 4; 4] = true.
Proof.
  assert (S25 : sqrt 25 = 5) by (replace 25 with (5 * 5) by ring; apply sqrt_square; lra).
  assert (S81 : sqrt 81 = 9) by (replace 81 with (9 * 9) by ring; apply sqrt_square; lra).
  assert (S52 : 7 < sqrt 52) by (rewrite <- (sqrt_square 7) by lra; apply sqrt_lt_1; lra).
  unfold sticky_collision, outer, inner, touching. cbn [length nth vsub vx vy vz].
  replace ((0 - 3) * (0 - 3) + (0 - 4) * (0 - 4) + (0 - 0) * (0 - 0)) with 25 by ring.
  replace ((0 - 9) * (0 - 9) + (0 - 0) * (0 - 0) + (0 - 0) * (0 - 0)) with 81 by ring.
  replace ((3 - 9) * (3 - 9) + (4 - 0) * (4 - 0) + (0 - 0) * (0 - 0)) with 52 by ring. rewrite S25, S81.
  split; repeat (destruct (Rle_dec _ _); try lra); reflexivity.
Qed.

(** * C51 *)
(** Specification: how a timer has been used since its last reset. [I] lists the intervals (start, pause) completed, the
    option holds the start of an interval still open. Reading the time and pausing a paused timer are harmless;
    [restart] marks a start while active. *)
Inductive usage (restart : bool) : list event -> list (Z * Z) -> option Z -> Prop :=
| U_empty : usage restart [] [] None
| U_start h I a : usage restart h I None -> usage restart (h ++ [Start a]) I (Some a)
| U_pause h I a b : usage restart h I (Some a) -> usage restart (h ++ [Pause b]) (I ++ [(a, b)]) None
| U_idle h I b : usage restart h I None -> usage restart (h ++ [Pause b]) I None
| U_get h I o t : usage restart h I o -> usage restart (h ++ [Get t]) I o
| U_restart h I a b : restart = true -> usage restart h I (Some a) -> usage restart (h ++ [Start b]) I (Some b).
Definition seconds (ns : Z) : R := IZR ns / 10 ^ 9.
Fixpoint sum_seconds (I : list (Z * Z)) : R := match I with [] => 0 | (a, b) :: r => seconds (b - a) + sum_seconds r end.
Lemma sum_seconds_app I J : sum_seconds (I ++ J) = sum_seconds I + sum_seconds J.
Proof. induction I as [|(a, b) I IH]; simpl; [lra|rewrite IH; lra]. Qed.

Lemma timer_usage rs s h I o : t_dur s = 0 -> t_active s = false -> usage rs h I o ->
  let s' := fold_left timer_step h s in t_dur s' = sum_seconds I /\ match o with None => t_active s' = false | Some a => t_active s' = true /\ t_start s' = a end.
Proof.
  intros D A. induction 1; cbv zeta in *; try rewrite fold_left_app; cbn [fold_left]; try (set (s' := fold_left timer_step h s) in * ); simpl; auto.
  - tauto.
  - destruct IHusage as (E & F & G). split; auto. unfold timer_get. rewrite F, G, E, sum_seconds_app. simpl. unfold seconds. simpl. lra.
  - destruct IHusage as (E & F). split; auto. unfold timer_get. rewrite F, E. auto.
  - tauto.
Qed.
(** After any earlier history and a reset, a timer started and paused alternately reports the summed length of its
    active intervals in seconds, up to now when the last one is still open. *)
Theorem C51_active_time pre h I o now : usage false h I o ->
  timer_get (timer_run (pre ++ Reset :: h)) now = sum_seconds I + match o with None => 0 | Some a => seconds (now - a) end.
Proof.
  intros U. unfold timer_run. rewrite fold_left_app. cbn [fold_left]. set (s := timer_step _ Reset).
  destruct (timer_usage false s h I o eq_refl eq_refl U) as (D & A). unfold timer_get. destruct o as [a|].
  - destruct A as (A & E). rewrite A, E, D. unfold seconds. simpl. lra.
  - rewrite A, D. lra.
Qed.
(** The same without a reset for a new timer. *)
Theorem C51_new_timer h I o now : usage false h I o -> timer_get (timer_run h) now = sum_seconds I + match o with None => 0 | Some a => seconds (now - a) end.
Proof.
  intros U. unfold timer_run. destruct (timer_usage false timer_new h I o eq_refl eq_refl U) as (D & A). unfold timer_get. destruct o as [a|].
  - destruct A as (A & E). rewrite A, E, D. unfold seconds. simpl. lra.
  - rewrite A, D. lra.
Qed.
(** Every history without reset is a usage, if restarts are counted: the time between two starts without a pause is lost. *)
Theorem C51_restart_discards pre h I o now : usage true h I o ->
  timer_get (timer_run (pre ++ Reset :: h)) now = sum_seconds I + match o with None => 0 | Some a => seconds (now - a) end.
Proof.
  intros U. unfold timer_run. rewrite fold_left_app. cbn [fold_left]. set (s := timer_step _ Reset).
  destruct (timer_usage true s h I o eq_refl eq_refl U) as (D & A). unfold timer_get. destruct o as [a|].
  - destruct A as (A & E). rewrite A, E, D. unfold seconds. simpl. lra.
  - rewrite A, D. lra.
Qed.
Theorem C51_every_history h : ~ In Reset h -> exists I o, usage true h I o.
Proof.
  induction h as [|e h IH] using rev_ind; intros N; [exists [], None; constructor|].
  destruct IH as (I & o & U). { intros H. apply N, in_app_iff. auto. }
  destruct e as [n|n|n|]; [| | |exfalso; apply N, in_app_iff; right; left; auto].
  - exists I, (Some n). destruct o; [eapply U_restart; eauto|constructor; auto].
  - destruct o as [a|]; [exists (I ++ [(a, n)]), None|exists I, None]; constructor; auto.
  - exists I, o. constructor. auto.
Qed.
(** Starting a running timer loses the time already measured, whatever it is. *)
Theorem C51_restart_refuted a b c : (a < b <= c)%Z -> timer_get (timer_run [Start a; Start b]) c < seconds (c - a).
Proof. intros H. unfold timer_run, timer_get, seconds. simpl. assert (IZR (c - b) < IZR (c - a)) by (apply IZR_lt; lia). lra. Qed.
(** The result is in seconds, not in milliseconds as documented. *)
Theorem C51_milliseconds_refuted : timer_get (timer_run [Start 0; Pause 1000000]) 0 = 1 / 1000.
Proof. unfold timer_run, timer_get. simpl. unfold timer_get. simpl. lra. Qed.
Example C51_case : usage false [Start 0; Get 5; Pause 10; Pause 12; Start 20; Get 21] [(0, 10)%Z] (Some 20%Z).
Proof.
  change [Start 0; Get 5; Pause 10; Pause 12; Start 20; Get 21] with ((((((([] ++ [Start 0]) ++ [Get 5]) ++ [Pause 10]) ++ [Pause 12]) ++ [Start 20]) ++ [Get 21])).
  apply U_get, U_start, U_idle. change [(0, 10)%Z] with ([] ++ [(0, 10)%Z]). apply U_pause, U_get, U_start, U_empty.
Qed.

(** * C52 *)
(** What a rejection loop does: it returns the first accepted element, after reading it, and returns iff there is one. *)
Lemma rejection_spec {A B} (acc : A -> option B) s k b k' : rejection acc s k b k' <->
  exists n, k' = S n /\ (k <= n)%nat /\ acc (s n) = Some b /\ forall i, (k <= i < n)%nat -> acc (s i) = None.
Proof.
  split.
  - induction 1 as [k b E|k b k' E R IH].
    + exists k. repeat split; auto. intros i H. lia.
    + destruct IH as (n & -> & L & E' & F). exists n. split; auto. split; [lia|]. split; auto. intros i H. destruct (Nat.eq_dec i k) as [->|]; auto. apply F. lia.
  - intros (n & -> & L & E & F). remember (n - k)%nat as d eqn:D. revert k L F D. induction d as [|d IH]; intros k L F D.
    + assert (k = n) as -> by lia. constructor. auto.
    + apply rej_next; [apply F; lia|]. apply IH; [lia| |lia]. intros i H. apply F. lia.
Qed.
(** Parameters. Every sequence of boundary calls leaves the last boundary set. *)
Inductive setter := SetMax (m : dbl) | SetMin (m : dbl) | SetBoundary (a b : dbl).
Definition apply_setter (p : parameter) (s : setter) : parameter :=
  match s with SetMax m => set_max p m | SetMin m => set_min p m | SetBoundary a b => set_boundary p a b end.
Definition bounds (l : list setter) : parameter := fold_left apply_setter l parameter_new.
Definition sets_max (s : setter) : option dbl := match s with SetMax m | SetBoundary _ m => Some m | _ => None end.
Definition sets_min (s : setter) : option dbl := match s with SetMin m | SetBoundary m _ => Some m | _ => None end.
Theorem C52_boundaries l s m : (sets_max s = Some m -> forall l2, (forall x, In x l2 -> sets_max x = None) -> p_max (bounds (l ++ s :: l2)) = m) /\
  (sets_min s = Some m -> forall l2, (forall x, In x l2 -> sets_min x = None) -> p_min (bounds (l ++ s :: l2)) = m).
Proof.
  unfold bounds. split; intros E l2 N; rewrite fold_left_app; cbn [fold_left]; set (p0 := fold_left apply_setter l parameter_new).
  - assert (E0 : p_max (apply_setter p0 s) = m) by (destruct s; simpl in *; congruence). revert E0. generalize (apply_setter p0 s).
    induction l2 as [|x l2 IH]; intros p E0; auto. simpl. apply IH; [intros y Hy; apply N; right; auto|]. specialize (N x (or_introl eq_refl)). destruct x; simpl in *; congruence.
  - assert (E0 : p_min (apply_setter p0 s) = m) by (destruct s; simpl in *; congruence). revert E0. generalize (apply_setter p0 s).
    induction l2 as [|x l2 IH]; intros p E0; auto. simpl. apply IH; [intros y Hy; apply N; right; auto|]. specialize (N x (or_introl eq_refl)). destruct x; simpl in *; congruence.
Qed.
(** A number drawn lies within the boundaries; it is the first value of the source that does (or is not a number). *)
Theorem C52_draw_in_range lo hi s k x k' : draw (mkP (Num lo) (Num hi)) s k (Num x) k' -> lo <= x <= hi.
Proof.
  intros H. apply rejection_spec in H as (n & _ & _ & E & _). unfold p_accept in E. simpl in E. destruct (s n) as [y|]; [|discriminate].
  simpl in E. destruct (Rlt_dec y lo); [discriminate|]. destruct (Rlt_dec hi y); [discriminate|]. simpl in E. injection E as <-. lra.
Qed.
Theorem C52_draw_is_first lo hi s k v k' : draw (mkP (Num lo) (Num hi)) s k v k' <->
  exists n, k' = S n /\ (k <= n)%nat /\ s n = v /\ (forall x, v = Num x -> lo <= x <= hi) /\ forall i, (k <= i < n)%nat -> exists x, s i = Num x /\ (x < lo \/ hi < x).
Proof.
  unfold draw. rewrite rejection_spec. split; intros (n & H1 & H2 & H3 & H4); exists n; (split; [auto|]); (split; [auto|]).
  - unfold p_accept in *. simpl in *. destruct (s n) as [y|]; simpl in *.
    + destruct (Rlt_dec y lo); [discriminate|]. destruct (Rlt_dec hi y); [discriminate|]. simpl in H3. injection H3 as <-. split; auto. split; [intros x [= <-]; lra|].
      intros i Hi. specialize (H4 i Hi). destruct (s i) as [z|]; [|discriminate]. exists z. split; auto. simpl in H4. destruct (Rlt_dec z lo); auto. destruct (Rlt_dec hi z); auto. discriminate.
    + injection H3 as <-. split; auto. split; [discriminate|]. intros i Hi. specialize (H4 i Hi). destruct (s i) as [z|]; [|discriminate]. exists z. split; auto. simpl in H4. destruct (Rlt_dec z lo); auto. destruct (Rlt_dec hi z); auto. discriminate.
  - destruct H4 as (R & F). subst v. split.
    + unfold p_accept. simpl. destruct (s n) as [y|]; simpl; auto. specialize (R y eq_refl). destruct (Rlt_dec y lo); [lra|]. destruct (Rlt_dec hi y); [lra|]. auto.
    + intros i Hi. destruct (F i Hi) as (x & -> & D). unfold p_accept. simpl. destruct (Rlt_dec x lo); auto. destruct (Rlt_dec hi x); auto. lra.
Qed.
(** The loop ends iff the source ever produces a value within the boundaries or a NaN. *)
Theorem C52_draw_returns_iff lo hi s k : (exists v k', draw (mkP (Num lo) (Num hi)) s k v k') <-> exists n, (k <= n)%nat /\ (s n = NaN \/ exists x, s n = Num x /\ lo <= x <= hi).
Proof.
  split.
  - intros (v & k' & H). apply C52_draw_is_first in H as (n & _ & L & E & R & _). exists n. split; auto. destruct v as [x|]; auto. right. exists x. auto.
  - intros (n & L & H).
    assert (G : forall d j, (n - j <= d)%nat -> (j <= n)%nat -> exists v k', draw (mkP (Num lo) (Num hi)) s j v k').
    { induction d as [|d IH]; intros j D J.
      - assert (j = n) as -> by lia. exists (s n), (S n). apply rej_stop. unfold p_accept. destruct H as [->|(x & -> & R)]; simpl; auto.
        destruct (Rlt_dec x lo); [lra|]. destruct (Rlt_dec hi x); [lra|]. auto.
      - destruct (p_accept (mkP (Num lo) (Num hi)) (s j)) as [v|] eqn:E; [exists v, (S j); apply rej_stop; auto|].
        destruct (Nat.eq_dec j n) as [->|]. { exfalso. unfold p_accept in E. destruct H as [H|(x & H & R)]; rewrite H in E; simpl in E; [discriminate|]. destruct (Rlt_dec x lo); [lra|]. destruct (Rlt_dec hi x); [lra|]. discriminate. }
        destruct (IH (S j)) as (v & k' & Q); [lia..|]. exists v, k'. apply rej_next; auto. }
    apply (G (n - k)%nat); auto.
Qed.
(** With the boundaries a parameter has by default, negative numbers and zero are rejected: a source of such values
    makes draw run for ever. *)
Theorem C52_default_boundary_refuted (s : stream dbl) : (forall n, exists x, s n = Num x /\ x <= 0) -> forall k v k', ~ draw parameter_new s k v k'.
Proof.
  intros H k v k' D. assert (P : 0 < dbl_min) by (unfold dbl_min; apply Rinv_0_lt_compat, pow_lt; lra).
  destruct (proj1 (C52_draw_returns_iff dbl_min dbl_max s k)) as (n & _ & [E|(x & E & R)]).
  - exists v, k'. exact D.
  - destruct (H n) as (y & E' & _). congruence.
  - destruct (H n) as (y & E' & L). assert (x = y) by congruence. subst. lra.
Qed.
(** A value that is not a number passes every boundary of a parameter, but no truncated generator returns one. *)
Theorem C52_nan_drawn_refuted lo hi s k : s k = NaN -> draw (mkP lo hi) s k NaN (S k).
Proof. intros E. apply rej_stop. rewrite E. unfold p_accept. simpl. destruct hi; auto. Qed.
Theorem C52_truncated_normal lo hi s k v k' : truncated_normal (Num lo) (Num hi) s k v k' -> exists x n, v = Num x /\ s n = Num x /\ lo <= x <= hi /\ forall i y, (k <= i < n)%nat -> s i = Num y -> y < lo \/ hi < y.
Proof.
  intros H. apply rejection_spec in H as (n & _ & _ & E & F). unfold t_accept in *. simpl in *. destruct (s n) as [x|] eqn:Q; [|discriminate]. simpl in E.
  destruct (Rle_dec lo x); [|discriminate]. destruct (Rle_dec x hi); [|discriminate]. injection E as <-. exists x, n. split; auto. split; auto. split; [lra|].
  intros i y Hi Ey. specialize (F i Hi). rewrite Ey in F. simpl in F. destruct (Rle_dec lo y); [|lra]. destruct (Rle_dec y hi); [discriminate|lra].
Qed.
Theorem C52_truncated_maxwellian lo hi s k v k' : truncated_maxwellian (Num lo) (Num hi) s k v k' ->
  exists n x y z, s n = (Num x, Num y, Num z) /\ v = Num (norm (mkV x y z)) /\ lo <= norm (mkV x y z) <= hi.
Proof.
  intros H. apply rejection_spec in H as (n & _ & _ & E & F). destruct (s n) as [[x y] z] eqn:Q. unfold t_accept in E. simpl in E.
  destruct x as [x|], y as [y|], z as [z|]; try discriminate. simpl in E. change (sqrt (x * x + y * y + z * z)) with (norm (mkV x y z)) in E.
  destruct (Rle_dec lo (norm (mkV x y z))); [|discriminate]. destruct (Rle_dec (norm (mkV x y z)) hi); [|discriminate]. injection E as <-. exists n, x, y, z. auto.
Qed.
(** An upper limit below zero is never met, and neither is an empty range. *)
Theorem C52_empty_range_never_returns lo hi : (hi < lo -> forall s k v k', ~ truncated_normal (Num lo) (Num hi) s k v k') /\ (hi < 0 \/ hi < lo -> forall s k v k', ~ truncated_maxwellian (Num lo) (Num hi) s k v k').
Proof.
  split; intros L s k v k' H.
  - apply C52_truncated_normal in H as (x & n & _ & _ & R & _). lra.
  - apply C52_truncated_maxwellian in H as (n & x & y & z & _ & _ & R). pose proof (sqrt_pos (norm2 (mkV x y z))) as P. fold (norm (mkV x y z)) in P. lra.
Qed.
(** The pair of normal values: the point returned lies on the ray of an accepted point (x, y) of the unit disc, at the
    squared distance -2 ln(x^2+y^2), hence at most at -2 ln(min_r^2). *)
Theorem C52_normal2 min_r s k a b k' : normal2 min_r s k (a, b) k' -> exists n x y, s n = (x, y) /\ min_r * min_r < x * x + y * y < 1 /\
  a * a + b * b = - 2 * ln (x * x + y * y) /\ (exists f, 0 < f /\ a = f * x /\ b = f * y) /\ (min_r <> 0 -> a * a + b * b < - 2 * ln (min_r * min_r)).
Proof.
  intros H. apply rejection_spec in H as (n & _ & _ & E & _). destruct (s n) as [x y] eqn:Q. unfold normal2_accept in E. cbv zeta in E.
  set (r2 := x * x + y * y) in *. destruct (Rlt_dec r2 1) as [L1|]; [|discriminate]. destruct (Rlt_dec (min_r * min_r) r2) as [L2|]; [|discriminate].
  assert (M : 0 <= min_r * min_r) by (apply Rle_0_sqr). assert (P : 0 < r2) by lra. assert (LN : ln r2 < 0) by (rewrite <- ln_1; apply ln_increasing; lra).
  assert (F : 0 < - 2 * ln r2 / r2). { apply Rdiv_lt_0_compat; lra. }
  assert (A : a = x * sqrt (- 2 * ln r2 / r2)) by congruence. assert (B : b = y * sqrt (- 2 * ln r2 / r2)) by congruence. clear E.
  exists n, x, y. split; auto. split; [fold r2; lra|].
  assert (N : a * a + b * b = - 2 * ln r2).
  { subst a b. replace (x * sqrt (- 2 * ln r2 / r2) * (x * sqrt (- 2 * ln r2 / r2)) + y * sqrt (- 2 * ln r2 / r2) * (y * sqrt (- 2 * ln r2 / r2)))
      with (r2 * (sqrt (- 2 * ln r2 / r2) * sqrt (- 2 * ln r2 / r2))) by (unfold r2; ring). rewrite sqrt_sqrt by lra. field. lra. }
  split; auto. split. { exists (sqrt (- 2 * ln r2 / r2)). split; [apply sqrt_lt_R0; auto|]. rewrite A, B. split; ring. }
  intros NZ. rewrite N. assert (0 < min_r * min_r) by (pose proof (Rsqr_pos_lt min_r NZ); auto). pose proof (ln_increasing (min_r * min_r) r2 H L2). lra.
Qed.
Theorem C52_normal2_never_returns min_r s k v k' : 1 <= Rabs min_r -> ~ normal2 min_r s k v k'.
Proof.
  intros H D. destruct v as [a b]. apply C52_normal2 in D as (n & x & y & _ & R & _). assert (1 <= min_r * min_r); [|lra].
  unfold Rabs in H. destruct (Rcase_abs min_r); nra.
Qed.

(** ** Power law and logarithmic generators: inverse transform of u in [0, 1]. *)
Lemma cpow_pos x y : 0 < x -> cpow x y = Rpower x y. Proof. intros H. unfold cpow. destruct (Rlt_dec 0 x); auto; lra. Qed.
Lemma uniform_between a b u : 0 <= u <= 1 -> a <= b -> a <= uniform a b u <= b. Proof. unfold uniform. intros. nra. Qed.
Lemma uniform_between' a b u : 0 <= u <= 1 -> b <= a -> b <= uniform a b u <= a. Proof. unfold uniform. intros. nra. Qed.
Lemma ln10_pos : 0 < ln 10. Proof. rewrite <- ln_1. apply ln_increasing; lra. Qed.
Lemma ten_log x : 0 < x -> Rpower 10 (log10 x) = x.
Proof. intros H. unfold Rpower, log10. replace (ln x / ln 10 * ln 10) with (ln x) by (field; pose proof ln10_pos; lra). apply exp_ln. auto. Qed.
Lemma log10_le x y : 0 < x -> 0 < y -> (x <= y <-> log10 x <= log10 y).
Proof.
  intros H P. pose proof ln10_pos as L. assert (Q : 0 < / ln 10) by (apply Rinv_0_lt_compat; auto). unfold log10, Rdiv. split; intros G.
  - apply Rmult_le_compat_r; [lra|]. destruct G as [G| ->]; [left; apply ln_increasing; auto|lra].
  - apply Rnot_lt_le. intros N. pose proof (ln_increasing y x P N). assert (ln y * / ln 10 < ln x * / ln 10) by (apply Rmult_lt_compat_r; auto). lra.
Qed.

Lemma rpow_lt b x y : 0 < b -> 0 < x -> x < y -> Rpower x b < Rpower y b.
Proof. intros B X H. apply exp_increasing, Rmult_lt_compat_l; auto. apply ln_increasing; auto. Qed.
Lemma rpow_le b x y : 0 < x -> 0 < y -> 0 < b -> (Rpower x b <= Rpower y b <-> x <= y).
Proof.
  intros X Y B. split; intros H.
  - apply Rnot_lt_le. intros N. pose proof (rpow_lt b y x B Y N). lra.
  - apply Rle_Rpower_l; lra.
Qed.
Lemma rpow_ge b x y : 0 < x -> 0 < y -> b < 0 -> (Rpower x b <= Rpower y b <-> y <= x).
Proof.
  intros X Y B. replace b with (- - b) by ring. rewrite !(Rpower_Ropp _ (- b)). rewrite <- (rpow_le (- b) y x) by lra.
  assert (P : 0 < Rpower x (- b)) by apply exp_pos. assert (Q : 0 < Rpower y (- b)) by apply exp_pos.
  split; intros H; [|apply Rinv_le_contravar; auto]. apply Rnot_lt_le. intros N. pose proof (Rinv_lt_contravar _ _ (Rmult_lt_0_compat _ _ P Q) N). lra.
Qed.
Lemma rpow_root b x : 0 < x -> b <> 0 -> Rpower (Rpower x b) (1 / b) = x.
Proof. intros X B. rewrite Rpower_mult. replace (b * (1 / b)) with 1 by (field; auto). apply Rpower_1. auto. Qed.
(** The logarithmic generator stays within the limits, and is at most x iff u is at most the share of [low, x] in
    [low, high] on a logarithmic scale. *)
Theorem C52_logarithm low high u : 0 < low -> low <= high -> 0 <= u <= 1 -> low <= logarithm low high u <= high /\
  forall x, low < high -> 0 < x -> (logarithm low high u <= x <-> u <= (ln x - ln low) / (ln high - ln low)).
Proof.
  intros L H U. unfold logarithm. rewrite cpow_pos by lra. pose proof ln10_pos as T. set (w := uniform (log10 low) (log10 high) u).
  assert (W : log10 (Rpower 10 w) = w). { unfold log10, Rpower. rewrite ln_exp. field. lra. } assert (P : 0 < Rpower 10 w) by apply exp_pos. split.
  - pose proof (proj1 (log10_le low high L ltac:(lra)) H) as G. destruct (uniform_between _ _ u U G) as (A & B). fold w in A, B.
    rewrite <- W in A, B. split; apply log10_le; auto; lra.
  - intros x LH X. rewrite log10_le by auto. rewrite W. unfold w, uniform, log10. pose proof (ln_increasing low high L LH) as D.
    assert (Q : 0 < / ln 10) by (apply Rinv_0_lt_compat; auto).
    replace (u * (ln high / ln 10 - ln low / ln 10) + ln low / ln 10) with ((u * (ln high - ln low) + ln low) * / ln 10) by (field; lra).
    unfold Rdiv. split; intros G.
    + apply Rmult_le_reg_r in G; auto. apply (Rmult_le_reg_r (ln high - ln low)); [lra|]. rewrite Rmult_assoc, Rinv_l, Rmult_1_r by lra. lra.
    + apply Rmult_le_compat_r; [lra|]. apply (Rmult_le_compat_r (ln high - ln low)) in G; [|lra]. rewrite Rmult_assoc, Rinv_l, Rmult_1_r in G by lra. lra.
Qed.
(** The power-law generator stays within the limits for every exponent. *)
Theorem C52_power_law_range power low high u : 0 < low -> low <= high -> 0 <= u <= 1 -> low <= power_law power low high u <= high.
Proof.
  intros L H U. unfold power_law. destruct (Rlt_dec _ _) as [E|E]; [apply C52_logarithm; auto|].
  assert (B : power + 1 <> 0). { intros Z. apply E. replace (power - -1) with 0 by lra. rewrite Rabs_R0. unfold epsilon. apply Rinv_0_lt_compat, pow_lt. lra. }
  set (b := power + 1) in *. cbv zeta. rewrite !(cpow_pos _ b) by lra. assert (P : 0 < Rpower low b) by apply exp_pos. assert (Q : 0 < Rpower high b) by apply exp_pos.
  set (w := uniform (Rpower low b) (Rpower high b) u).
  assert (W : 0 < w). { destruct (Rle_dec (Rpower low b) (Rpower high b)); [pose proof (uniform_between _ _ u U r)|pose proof (uniform_between' (Rpower low b) (Rpower high b) u U ltac:(lra))]; fold w in H0; lra. }
  rewrite cpow_pos by auto. assert (B1 : 1 / b <> 0) by (intros Z; apply B; apply Rmult_integral in Z as [Z|Z]; [lra|]; exfalso; apply (Rinv_neq_0_compat b B); auto).
  rewrite <- (rpow_root b low) at 1 by auto. rewrite <- (rpow_root b high) by lra.
  destruct (Rdichotomy b 0 B) as [N|N].
  - assert (1 / b < 0) by (unfold Rdiv; rewrite Rmult_1_l; apply Rinv_lt_0_compat; auto). assert (G : Rpower high b <= Rpower low b) by (apply rpow_ge; lra).
    pose proof (uniform_between' _ _ u U G) as R. fold w in R. split; apply rpow_ge; lra.
  - assert (0 < 1 / b) by (apply Rdiv_lt_0_compat; lra). assert (G : Rpower low b <= Rpower high b) by (apply rpow_le; lra).
    pose proof (uniform_between _ _ u U G) as R. fold w in R. split; apply rpow_le; lra.
Qed.
(** It is at most x iff u is at most the share of [low, x] in [low, high] under the density t^power: the share is 0 at
    low, 1 at high, and grows with x at a rate proportional to x^power. *)
Definition share (power low high x : R) : R := (Rpower x (power + 1) - Rpower low (power + 1)) / (Rpower high (power + 1) - Rpower low (power + 1)).
Theorem C52_share power low high : 0 < low -> low < high -> power <> -1 -> share power low high low = 0 /\ share power low high high = 1 /\
  exists c, 0 < c /\ forall x, 0 < x -> derivable_pt_lim (share power low high) x (c * Rpower x power).
Proof.
  intros L H B. assert (b0 : power + 1 <> 0) by (intros Z; apply B; lra). set (b := power + 1) in *. unfold share. fold b.
  assert (D : 0 < b / (Rpower high b - Rpower low b)).
  { destruct (Rdichotomy b 0 b0) as [N|N].
    - assert (Rpower high b < Rpower low b). { apply Rnot_le_lt. intros G. apply (rpow_ge b low high) in G; lra. }
      replace (b / (Rpower high b - Rpower low b)) with ((- b) / (Rpower low b - Rpower high b)) by (field; lra). apply Rdiv_lt_0_compat; lra.
    - assert (Rpower low b < Rpower high b) by (apply rpow_lt; lra). apply Rdiv_lt_0_compat; lra. }
  assert (NZ : Rpower high b - Rpower low b <> 0). { intros Z. rewrite Z in D. unfold Rdiv in D. rewrite Rinv_0, Rmult_0_r in D. lra. }
  split; [unfold Rdiv; rewrite Rminus_diag_eq, Rmult_0_l; auto|]. split; [field; auto|]. exists (b / (Rpower high b - Rpower low b)). split; auto. intros x X.
  replace (b / (Rpower high b - Rpower low b) * Rpower x power) with ((b * Rpower x (b - 1) - 0) * / (Rpower high b - Rpower low b) + (Rpower x b - Rpower low b) * 0)
    by (replace (b - 1) with power by (unfold b; ring); field; auto).
  unfold Rdiv. apply (derivable_pt_lim_mult (fun x => Rpower x b - Rpower low b) (fun _ => / (Rpower high b - Rpower low b))); [|apply derivable_pt_lim_const].
  apply (derivable_pt_lim_minus (fun x => Rpower x b) (fun _ => Rpower low b)); [apply derivable_pt_lim_power; auto|apply derivable_pt_lim_const].
Qed.
Theorem C52_power_law_distribution power low high u x : epsilon <= Rabs (power - -1) -> 0 < low -> low < high -> 0 <= u <= 1 -> 0 < x ->
  (power_law power low high u <= x <-> u <= share power low high x).
Proof.
  intros E0 L H U X. unfold power_law. destruct (Rlt_dec _ _) as [E|_]; [lra|].
  assert (B : power + 1 <> 0). { intros Z. replace (power - -1) with 0 in E0 by lra. rewrite Rabs_R0 in E0. assert (0 < epsilon); [|lra]. unfold epsilon. apply Rinv_0_lt_compat, pow_lt. lra. }
  unfold share. set (b := power + 1) in *. cbv zeta. rewrite !(cpow_pos _ b) by lra. assert (P : 0 < Rpower low b) by apply exp_pos. assert (Q : 0 < Rpower high b) by apply exp_pos.
  set (w := uniform (Rpower low b) (Rpower high b) u).
  assert (W : 0 < w). { destruct (Rle_dec (Rpower low b) (Rpower high b)); [pose proof (uniform_between _ _ u U r)|pose proof (uniform_between' (Rpower low b) (Rpower high b) u U ltac:(lra))]; fold w in H0; lra. }
  rewrite cpow_pos by auto. assert (XB : 0 < Rpower x b) by apply exp_pos. rewrite <- (rpow_root b x) at 1 by auto. destruct (Rdichotomy b 0 B) as [N|N].
  - assert (1 / b < 0) by (unfold Rdiv; rewrite Rmult_1_l; apply Rinv_lt_0_compat; auto). rewrite rpow_ge by auto.
    assert (D : Rpower high b < Rpower low b). { apply Rnot_le_lt. intros G. apply (rpow_ge b low high) in G; lra. }
    unfold w, uniform. replace ((Rpower x b - Rpower low b) / (Rpower high b - Rpower low b)) with ((Rpower low b - Rpower x b) / (Rpower low b - Rpower high b)) by (field; lra).
    unfold Rdiv. split; intros G.
    + apply (Rmult_le_reg_r (Rpower low b - Rpower high b)); [lra|]. rewrite Rmult_assoc, Rinv_l, Rmult_1_r by lra. lra.
    + apply (Rmult_le_compat_r (Rpower low b - Rpower high b)) in G; [|lra]. rewrite Rmult_assoc, Rinv_l, Rmult_1_r in G by lra. lra.
  - assert (0 < 1 / b) by (apply Rdiv_lt_0_compat; lra). rewrite rpow_le by auto. assert (D : Rpower low b < Rpower high b) by (apply rpow_lt; lra).
    unfold w, uniform, Rdiv. split; intros G.
    + apply (Rmult_le_reg_r (Rpower high b - Rpower low b)); [lra|]. rewrite Rmult_assoc, Rinv_l, Rmult_1_r by lra. lra.
    + apply (Rmult_le_compat_r (Rpower high b - Rpower low b)) in G; [|lra]. rewrite Rmult_assoc, Rinv_l, Rmult_1_r in G by lra. lra.
Qed.
(** For exponents below -1 the limits are handed to std::uniform_real_distribution in the wrong order, which its
    precondition forbids (libstdc++ happens to compute the right value). *)
Theorem C52_power_law_precondition_refuted power low high : power + epsilon <= -1 -> 0 < low -> low < high -> ~ power_law_ok power low high.
Proof.
  intros E L H. assert (EP : 0 < epsilon) by (unfold epsilon; apply Rinv_0_lt_compat, pow_lt; lra). unfold power_law_ok. destruct (Rlt_dec _ _) as [G|G].
  - rewrite Rabs_left in G; lra.
  - unfold uniform_ok. rewrite !cpow_pos by lra. intros K. apply rpow_ge in K; lra.
Qed.
Theorem C52_power_law_precondition power low high : -1 - epsilon < power -> 0 < low -> low <= high -> power_law_ok power low high.
Proof.
  intros E L H. assert (EP : 0 < epsilon) by (unfold epsilon; apply Rinv_0_lt_compat, pow_lt; lra). unfold power_law_ok, uniform_ok. destruct (Rlt_dec _ _) as [G|G]; [apply (proj1 (log10_le low high L ltac:(lra))); auto|].
  rewrite !cpow_pos by lra. assert (B : 0 < power + 1) by (apply Rnot_lt_le in G; unfold Rabs in G; destruct (Rcase_abs (power - -1)); lra).
  apply (proj2 (rpow_le (power + 1) low high L ltac:(lra) B) H).
Qed.
Example C52_case : draw (mkP (Num 1) (Num 2)) (fun n => match n with O => Num 5 | 1%nat => Num (3/2) | _ => NaN end) 0 (Num (3/2)) 2 /\
  (forall n : nat, exists x, (fun n => Num (- INR n)) n = Num x /\ x <= 0) /\ normal2 (1/4) (fun _ => (1/2, 1/2)) 0 (1/2 * sqrt (- 2 * ln (1/2) / (1/2)), 1/2 * sqrt (- 2 * ln (1/2) / (1/2))) 1.
Proof.
  split; [|split].
  - apply rej_next; [|apply rej_stop]; unfold p_accept; simpl; repeat (destruct (Rlt_dec _ _); try lra); auto.
  - intros n. exists (- INR n). split; auto. pose proof (pos_INR n). lra.
  - apply rej_stop. unfold normal2_accept. cbv zeta. replace (1 / 2 * (1 / 2) + 1 / 2 * (1 / 2)) with (1 / 2) by lra.
    destruct (Rlt_dec (1 / 2) 1); [|lra]. destruct (Rlt_dec (1 / 4 * (1 / 4)) (1 / 2)); [|lra]. auto.
Qed.
Example C52_power_case : power_law (-2) 1 2 (1/2) = 4 / 3.
Proof.
  unfold power_law. destruct (Rlt_dec _ _) as [E|_].
  - exfalso. rewrite Rabs_left in E by lra. assert (epsilon < 1); [|lra]. unfold epsilon. rewrite <- Rinv_1. apply Rinv_lt_contravar; [rewrite Rmult_1_l; apply pow_lt; lra|]. apply Rlt_pow_R1; [lra|lia].
  - cbv zeta. replace (-2 + 1) with (- (1)) by lra. rewrite (cpow_pos 1), (cpow_pos 2) by lra. rewrite !Rpower_Ropp, !Rpower_1 by lra. unfold uniform.
    replace (1 / - (1)) with (- (1)) by field. rewrite cpow_pos by lra. rewrite Rpower_Ropp, Rpower_1 by lra. field.
Qed.
Print Assumptions C48_reports_touching_pairs. Print Assumptions C48_order_irrelevant. Print Assumptions C48_translation. Print Assumptions C51_active_time. Print Assumptions C51_restart_discards.
Print Assumptions C51_every_history. Print Assumptions C52_boundaries. Print Assumptions C52_draw_is_first. Print Assumptions C52_draw_returns_iff. Print Assumptions C52_default_boundary_refuted.
Print Assumptions C52_normal2. Print Assumptions C52_power_law_range. Print Assumptions C52_power_law_distribution. Print Assumptions C52_share.
