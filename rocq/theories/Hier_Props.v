(** C78: the helpers of the hierarchy finder. *)
From Coq Require DecimalNat.
From Verif Require Import Hier_Model Orbit_Spec Orbit_Props.
Open Scope R_scope.

(** Specific energy of the first body in the field of all others. *)
Definition energy_of (x : node) (others : list node) : R :=
  0.5 * norm2 (n_vel x) + fold_right Rplus 0 (map (fun y => - n_mass y / norm (vsub (n_pos x) (n_pos y))) others).
Definition distinct_from (x : node) (l : list node) : Prop := forall y, In y l -> n_pos y <> n_pos x.

(** C78.  Whatever the bodies, "not unbound" is right: the body has negative energy in the field of all others.  With one
    other body the answer is exact. *)
Lemma last_pot x others a : fold_left (fun _ y => - n_mass y / norm (vsub (n_pos x) (n_pos y))) others a = match rev others with [] => a | y :: _ => - n_mass y / norm (vsub (n_pos x) (n_pos y)) end.
Proof. revert a. induction others as [|y l IH] using rev_ind; intros a; [reflexivity|]. rewrite fold_left_app, rev_app_distr. reflexivity. Qed.
Lemma pot_nonpos x l : (forall y, In y l -> 0 <= n_mass y) -> fold_right Rplus 0 (map (fun y => - n_mass y / norm (vsub (n_pos x) (n_pos y))) l) <= 0.
Proof.
  induction l as [|y l IH]; intros H; cbn; [lra|]. assert (0 <= n_mass y) by (apply H; left; auto). specialize (IH ltac:(intros; apply H; right; auto)).
  assert (K : 0 <= / norm (vsub (n_pos x) (n_pos y))). { pose proof (norm_nonneg (vsub (n_pos x) (n_pos y))). destruct (Req_dec (norm (vsub (n_pos x) (n_pos y))) 0) as [->|N]; [rewrite Rinv_0; lra|left; apply Rinv_0_lt_compat; lra]. }
  unfold Rdiv. nra.
Qed.
Theorem C78_bound_answer : forall x others, (forall y, In y others -> 0 <= n_mass y) ->
  exists b, check_unbound (x :: others) = Ok b /\ (b = false -> energy_of x others < 0) /\
    ((List.length others <= 1)%nat -> (b = true <-> 0 <= energy_of x others)).
Proof.
  intros x others Hm. unfold check_unbound. cbn [aget nth_error obind tl]. eexists; split; [reflexivity|]. rewrite last_pot. unfold energy_of. split.
  - destruct (Rle_dec _ _) as [L|L]; [discriminate|]. intros _. destruct (rev others) as [|y r] eqn:E.
    + assert (others = []) by (rewrite <- (rev_involutive others), E; reflexivity). subst. cbn. lra.
    + assert (Q : others = rev r ++ [y]) by (rewrite <- (rev_involutive others), E; reflexivity). rewrite Q, map_app, fold_right_app. cbn [map fold_right].
      assert (G : forall l c, fold_right Rplus c l = fold_right Rplus 0 l + c) by (induction l; intros; cbn; [lra|rewrite IHl; lra]). rewrite G.
      pose proof (pot_nonpos x (rev r) ltac:(intros; apply Hm; rewrite Q; apply in_or_app; left; auto)). lra.
  - intros L1. destruct others as [|y [|z l]]; cbn in L1; try lia; cbn [rev app map fold_right].
    + destruct (Rle_dec _ _); split; auto; try discriminate; lra.
    + destruct (Rle_dec _ _); split; auto; try discriminate; lra.
Qed.
Print Assumptions C78_bound_answer.

(** C78.  With two or more others only the last one counts: a body bound with energy -98 is reported unbound; and the
    answer depends on the frame, although being bound does not. *)
Theorem C78_unbound_answer_refuted :
  (exists x l, check_unbound (x :: l) = Ok true /\ energy_of x l < -98) /\
  (exists x y w, check_unbound [x; y] = Ok false /\
     check_unbound [mkN (n_pos x) (vadd (n_vel x) w) (n_mass x) 0 EmptyString; mkN (n_pos y) (vadd (n_vel y) w) (n_mass y) 1 EmptyString] = Ok true).
Proof.
  assert (N1 : forall d, 0 <= d -> norm (vsub vzero (mkV d 0 0)) = d).
  { intros d Hd. unfold norm, norm2, dot, vsub, vzero. cbn [vx vy vz]. replace (_ + _ + _) with (d * d) by ring. apply sqrt_square; auto. }
  split.
  - exists (mkN vzero (mkV 1 0 0) 1 0 EmptyString), [mkN (mkV 1 0 0) vzero 100 1 EmptyString; mkN (mkV 10 0 0) vzero 1 2 EmptyString].
    unfold check_unbound, energy_of. cbn [aget nth_error obind tl fold_left map fold_right n_pos n_vel n_mass]. rewrite !N1 by lra. unfold norm2, dot. cbn [vx vy vz]. split.
    + destruct (Rle_dec _ _); [reflexivity|lra].
    + lra.
  - exists (mkN vzero vzero 1 0 EmptyString), (mkN (mkV 1 0 0) vzero 1 1 EmptyString), (mkV 2 0 0).
    unfold check_unbound. cbn [aget nth_error obind tl fold_left n_pos n_vel n_mass]. rewrite !N1 by lra. unfold norm2, dot, vadd, vzero. cbn [vx vy vz]. split; destruct (Rle_dec _ _); auto; lra.
Qed.
Print Assumptions C78_unbound_answer_refuted.

(** C78.  "Most bound": body idx has no other partner (body 0 apart) on a bound orbit with a semi-major axis below amin. *)
Definition tighter (x y : node) (amin : R) : Prop :=
  let u := n_mass x + n_mass y in let E := specific_energy u (vsub (n_pos x) (n_pos y)) (vsub (n_vel x) (n_vel y)) in
  E < 0 /\ u / (2 * - E) < amin.
Theorem C78_most_bound : forall l idx amin, (idx < List.length l)%nat -> (forall x, In x l -> 0 < n_mass x) ->
  (forall i j x y, i <> j -> nth_error l i = Some x -> nth_error l j = Some y -> n_pos x <> n_pos y) ->
  exists b, check_most_bound l idx amin = Ok b /\
    (b = true <-> forall x y i, nth_error l idx = Some x -> nth_error l i = Some y -> i <> idx -> i <> 0%nat -> ~ tighter x y amin).
Proof.
  intros l idx amin Hidx Hm Hd. destruct (nth_error l idx) as [x|] eqn:Ex; [|apply nth_error_None in Ex; lia]. unfold check_most_bound.
  assert (Ax : aget l idx = Ok x) by (unfold aget; rewrite Ex; reflexivity).
  match goal with |- context [fold_right ?f _ _] => set (F := f) end.
  assert (K : forall L, (forall i, In i L -> (i < List.length l)%nat) -> exists b, fold_right F (Ok true) L = Ok b /\
    (b = true <-> forall y i, In i L -> nth_error l i = Some y -> i <> idx -> ~ tighter x y amin)).
  { induction L as [|i L IH]; intros HL; cbn [fold_right].
    - exists true. split; [reflexivity|]. split; [intros _ y i Hi; destruct Hi|reflexivity].
    - destruct IH as (b & E & Hb); [intros; apply HL; right; auto|]. rewrite E. unfold F at 1. destruct (Nat.eqb_spec i idx) as [->|Ni].
      + exists b. split; auto. rewrite Hb. split; intros H y j; [intros [<-|Hj]|intros Hj]; intros; [contradiction|apply (H y j); auto|apply (H y j); auto; right; auto].
      + rewrite Ax. cbn [obind]. destruct (nth_error l i) as [y|] eqn:Ey; [|apply nth_error_None in Ey; specialize (HL i (or_introl eq_refl)); lia].
        unfold aget at 1. rewrite Ey. cbn [obind].
        assert (U : 0 < n_mass x + n_mass y). { pose proof (Hm x (nth_error_In _ _ Ex)). pose proof (Hm y (nth_error_In _ _ Ey)). lra. }
        assert (D : vsub (n_pos x) (n_pos y) <> vzero). { intros Z. apply (Hd idx i x y (not_eq_sym Ni) Ex Ey). unfold vsub, vzero in Z. injection Z as Z1 Z2 Z3. apply vec_eq; lra. }
        destruct (C41_state_invariants (n_mass x + n_mass y) (vsub (n_pos x) (n_pos y)) (vsub (n_vel x) (n_vel y)) U D) as (_ & _ & A & _). rewrite A. cbn [fst]. cbv zeta.
        set (u := n_mass x + n_mass y) in *. set (En := specific_energy u _ _) in *.
        assert (T : tighter x y amin <-> 0 < - u / (2 * En) /\ - u / (2 * En) < amin).
        { unfold tighter. fold u. fold En. assert (Q : En < 0 -> - u / (2 * En) = u / (2 * - En)) by (intros; field; lra). split.
          - intros (T1 & T2). rewrite Q by auto. split; auto. apply Rdiv_lt_0_compat; lra.
          - intros (T1 & T2). assert (En < 0). { destruct (Rlt_dec En 0); auto. exfalso. destruct (Req_dec En 0) as [Z|Z]; [rewrite Z in T1; replace (2 * 0) with 0 in T1 by ring; unfold Rdiv in T1; rewrite Rinv_0 in T1; lra|].
              assert (0 < u / (2 * En)) by (apply Rdiv_lt_0_compat; lra). unfold Rdiv in *. lra. }
            split; auto. rewrite <- Q; auto. }
        assert (B : ~ tighter x y amin -> exists b0, Ok b = Ok b0 /\ (b0 = true <-> (forall y0 i0, In i0 (i :: L) -> nth_error l i0 = Some y0 -> i0 <> idx -> ~ tighter x y0 amin))).
        { intros NT. exists b. split; auto. rewrite Hb. split; intros H y' j; [intros [<-|Hj]|intros Hj]; intros Ej Nj.
          - rewrite Ey in Ej. injection Ej as <-. exact NT.
          - apply (H y' j); auto.
          - apply (H y' j); auto. right; auto. }
        destruct (Rlt_dec 0 (- u / (2 * En))) as [P|P]; [destruct (Rlt_dec (- u / (2 * En)) amin) as [P2|P2]|].
        * exists false. split; auto. split; [discriminate|]. intros H. exfalso. apply (H y i); auto. { left; auto. } apply T. auto.
        * apply B. rewrite T. tauto.
        * apply B. rewrite T. tauto. }
  destruct (K (seq 1 (List.length l - 1))) as (b & E & Hb). { intros i Hi. apply in_seq in Hi. lia. }
  exists b. split; [exact E|]. rewrite Hb. split.
  - intros H x' y i Ex' Ey Ni N0. injection Ex' as <-. apply (H y i); auto. apply in_seq. assert (i < List.length l)%nat by (apply nth_error_Some; congruence). lia.
  - intros H y i Hi Ey Ni. apply in_seq in Hi. apply (H x y i); auto. lia.
Qed.
Print Assumptions C78_most_bound.

(** C78.  The initial list: one node per particle, in order, with the index as weight and as name; distinct particles have
    distinct names. *)
Theorem C78_init_list : forall m p v, List.length p = List.length m -> List.length v = List.length m ->
  exists l, create_init_list m p v = Ok l /\ List.length l = List.length m /\
  forall i, (i < List.length m)%nat -> exists x, nth_error l i = Some x /\ n_pos x = nth i p vzero /\ n_vel x = nth i v vzero /\ n_mass x = nth i m 0 /\ n_weight x = i /\
     n_name x = to_string i.
Proof.
  intros m p v Hp Hv. unfold create_init_list.
  assert (K : forall k, (k <= List.length m)%nat -> fold_left (fun ol i => obind ol (fun l => obind (aget p i) (fun x => obind (aget v i) (fun w => obind (aget m i) (fun ms =>
    Ok (l ++ [mkN x w ms i (to_string i)])))))) (seq 0 k) (Ok []) = Ok (map (fun i => mkN (nth i p vzero) (nth i v vzero) (nth i m 0) i (to_string i)) (seq 0 k))).
  { induction k as [|k IH]; intros Hk; [reflexivity|]. rewrite seq_S, fold_left_app, IH by lia. cbn [fold_left obind Nat.add]. unfold aget.
    rewrite (nth_error_nth' p vzero), (nth_error_nth' v vzero), (nth_error_nth' m 0) by lia. cbn [obind]. rewrite map_app. reflexivity. }
  rewrite K by lia. eexists; split; [reflexivity|]. rewrite map_length, seq_length. split; auto. intros i Hi.
  rewrite nth_error_map. rewrite (nth_error_nth' (seq 0 (List.length m)) 0%nat) by (rewrite seq_length; auto). rewrite seq_nth by auto. cbn [option_map Nat.add]. eexists; split; [reflexivity|]. cbn. auto.
Qed.
Print Assumptions C78_init_list.
Theorem C78_names_distinct : forall i j, to_string i = to_string j -> i = j.
Proof.
  intros i j H. unfold to_string in H. assert (E : Nat.to_uint i = Nat.to_uint j). { apply (f_equal DecimalString.NilEmpty.uint_of_string) in H. rewrite !DecimalString.NilEmpty.usu in H. congruence. }
  apply DecimalNat.Unsigned.to_uint_inj; auto.
Qed.
Print Assumptions C78_names_distinct.

(** C78.  The string: the names of all nodes once each, in the order of increasing weight; unique when the weights differ. *)
Theorem C78_to_string : forall l l' out, hierarchical_to_string l l' out ->
  Permutation l l' /\ (forall i j x y, (i <= j)%nat -> nth_error l' i = Some x -> nth_error l' j = Some y -> (n_weight x <= n_weight y)%nat) /\
  out = String.concat EmptyString (map n_name l') /\
  (NoDup (map n_weight l) -> forall l2 out2, hierarchical_to_string l l2 out2 -> out2 = out).
Proof.
  intros l l' out (P & S & O). split; [exact P|]. split; [|split].
  - clear - S. induction S as [|a l0 S IH F]; intros i j x y Hij Hx Hy; [destruct i; discriminate|]. destruct i as [|i], j as [|j]; cbn in Hx, Hy; try lia.
    + assert (x = y) by congruence. subst. lia.
    + injection Hx as <-. rewrite Forall_forall in F. apply F. apply (nth_error_In _ _ Hy).
    + apply (IH i j x y); auto. lia.
  - rewrite O. clear. assert (G : forall l s, fold_left (fun s x => (s ++ n_name x)%string) l s = (s ++ String.concat EmptyString (map n_name l))%string).
    { induction l as [|a l IH]; intros s; cbn [fold_left map String.concat]; [induction s; cbn; congruence|]. rewrite IH. clear IH.
      assert (A : forall a b c : string, ((a ++ b) ++ c)%string = (a ++ (b ++ c))%string) by (induction a0; intros; cbn; congruence).
      destruct (map n_name l) as [|b r] eqn:E; [cbn [String.concat]; rewrite A; f_equal; clear; induction (n_name a); cbn; congruence|]. rewrite A. f_equal. }
    rewrite G. reflexivity.
  - intros ND l2 out2 (P2 & S2 & O2). assert (E : l2 = l').
    { assert (PP : Permutation l2 l') by (rewrite <- P2; auto). assert (ND2 : NoDup (map n_weight l2)) by (apply (Permutation_NoDup (Permutation_map n_weight P2)); auto).
      clear - PP ND2 S S2. revert l' PP S. induction S2 as [|a l0 S2 IH F]; intros l' PP S; [symmetry; apply Permutation_nil; auto|].
      destruct l' as [|b r]; [apply Permutation_sym, Permutation_nil in PP; discriminate|]. inversion S as [|? ? S' F']; subst. inversion ND2 as [|? ? N1 N2]; subst.
      assert (E : a = b).
      { assert (Ia : In a (b :: r)) by (apply (Permutation_in _ PP); left; auto). assert (Ib : In b (a :: l0)) by (apply (Permutation_in _ (Permutation_sym PP)); left; auto).
        destruct Ia as [|Ia]; auto. destruct Ib as [|Ib]; auto. rewrite Forall_forall in F, F'. specialize (F b Ib). specialize (F' a Ia).
        exfalso. apply N1. replace (n_weight a) with (n_weight b) by lia. apply in_map; auto. }
      subst b. apply Permutation_cons_inv in PP. f_equal. apply IH; auto. }
    rewrite E in O2. congruence.
Qed.
Print Assumptions C78_to_string.
Example C78_case : exists l, create_init_list [1; 2; 3] [vzero; mkV 1 0 0; mkV 2 0 0] [vzero; vzero; vzero] = Ok l /\ hierarchical_to_string l l "012" /\
  (forall x, In x l -> 0 < n_mass x) /\ (forall i j x y, i <> j -> nth_error l i = Some x -> nth_error l j = Some y -> n_pos x <> n_pos y) /\ NoDup (map n_weight l).
Proof.
  eexists. split; [reflexivity|]. split; [|split; [|split]].
  - split; [apply Permutation_refl|]. split; [|reflexivity]. repeat constructor.
  - intros x [<-|[<-|[<-|[]]]]; cbn; lra.
  - intros i j x y Hij Hx Hy. destruct i as [|[|[|i]]], j as [|[|[|j]]]; cbn in Hx, Hy; try congruence; try (destruct i; discriminate); try (destruct j; discriminate);
      injection Hx as <-; injection Hy as <-; cbn; intros E; injection E; intros; lra.
  - cbn. repeat constructor; cbn; intuition lia.
Qed.
