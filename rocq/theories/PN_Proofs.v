From Verif Require Import Force_Model Force_Spec Force_Proofs PN_Spec.
Open Scope R_scope.

(** What particle k receives from particle j, whichever of the two is listed first. *)
Definition pull2 (F : pair_force) (s : sys) (k j : nat) : vec :=
  if (k <? j)%nat then fst (F (vsub (sp s j) (sp s k)) (vsub (sv s j) (sv s k)) k j)
  else snd (F (vsub (sp s k) (sp s j)) (vsub (sv s k) (sv s j)) j k).

Lemma direct_sum2 F s acc k : (k < sn s)%nat ->
  add_acc F (direct_calls s) acc k =
  vadd (acc k) (vsum (fun j => if (j =? k)%nat then vzero else pull2 F s k j) (sn s)).
Proof.
  intros Hk. rewrite add_acc_spec by apply direct_calls_ne. f_equal.
  unfold direct_calls. rewrite lsum_map.
  pose (h := fun i j => vadd (if (k =? i)%nat then pull2 F s i j else vzero)
     (if (k =? j)%nat then pull2 F s j i else vzero)).
  rewrite (lsum_ext _ (fun ij => h (fst ij) (snd ij))).
  2: { intros [i j] Hij. apply all_pairs_in in Hij. unfold contrib, h, pull2. simpl.
       destruct (Nat.ltb_spec i j); [|lia]. destruct (Nat.ltb_spec j i); [lia|]. auto. }
  rewrite lsum_pairs. unfold h. clear h.
  rewrite (vsum_ext _ (fun i => vadd (if (i =? k)%nat then vsum (fun j => if (k <? j)%nat then pull2 F s k j else vzero) (sn s) else vzero)
     (if (i <? k)%nat then pull2 F s k i else vzero))).
  - rewrite vsum_add, vsum_delta by auto. rewrite <- vsum_add. apply vsum_ext. intros j Hj.
    generalize (pull2 F s k j). intros w.
    destruct (Nat.eqb_spec j k), (Nat.ltb_spec k j), (Nat.ltb_spec j k); try lia; vring.
  - intros i Hi. 
    rewrite (vsum_ext _ (fun j => vadd (if (i <? j)%nat then (if (k =? i)%nat then pull2 F s i j else vzero) else vzero)
       (if (j =? k)%nat then (if (i <? k)%nat then pull2 F s k i else vzero) else vzero))).
    + rewrite vsum_add, vsum_delta by auto. f_equal. rewrite (Nat.eqb_sym i k). destruct (Nat.eqb_spec k i) as [->|]; auto.
      rewrite (vsum_ext _ (fun _ => vzero)), vsum_zero; auto. intros j _. destruct (i <? j)%nat; auto.
    + intros j Hj. destruct (Nat.eqb_spec j k) as [->|]. 
      * rewrite Nat.eqb_refl. destruct (i <? k)%nat; generalize (pull2 F s i k), (pull2 F s k i); intros; destruct (k =? i)%nat; vring.
      * destruct (Nat.eqb_spec k j); [congruence|]. destruct (i <? j)%nat; generalize (pull2 F s i j), (pull2 F s j i); intros; destruct (k =? i)%nat; vring.
Qed.

(** The three pair terms, with the geometry named. *)
Lemma norm_vsub_sym a b : norm (vsub a b) = norm (vsub b a).
Proof. rewrite (vsub_anti a b). apply norm_neg. Qed.

Ltac decs := try replace 1.5 with (3/2) by lra;
  try replace 4.5 with (9/2) by lra;
  try replace 1.875 with (15/8) by lra;
  try replace 3.75 with (15/4) by lra;
  try replace 1.25 with (5/4) by lra;
  try replace 2.5 with (5/2) by lra;
  try replace 19.5 with (39/2) by lra;
  try replace 8.5 with (17/2) by lra;
  try replace 14.25 with (57/4) by lra;
  try replace 34.5 with (69/2) by lra;
  try replace 15.75 with (63/4) by lra;
  try replace 13.75 with (55/4) by lra;
  try replace 0.8 with (4/5) by lra; try replace (-3.75) with (-15/4) by lra; try replace (-14.25) with (-57/4) by lra;
  try replace (-15.75) with (-63/4) by lra; try replace (-1.5) with (-3/2) by lra.

Ltac geo xi xj vi vj :=
  let r := fresh "r" in let Hr := fresh "Hr" in
  fold (norm (vsub xj xi)); rewrite ?(norm_vsub_sym xi xj);
  rewrite <- ?(norm_sq (vsub xj xi));
  unfold Gc in *; decs;
  generalize dependent (norm (vsub xj xi)); intros r Hr.

Lemma pn1_bl c m v i j xi xj : c <> 0 -> norm (vsub xj xi) <> 0 ->
  pn1_pair (/ c) m v (vsub xj xi) (vsub (v j) (v i)) i j =
  (bl_1pn 1 c (m i) (m j) xi xj (v i) (v j), bl_1pn 1 c (m j) (m i) xj xi (v j) (v i)).
Proof.
  intros Hc H. unfold pn1_pair, bl_1pn. cbv zeta. geo xi xj (v i) (v j).
  generalize (m i) (m j) (v i) (v j). intros mi mj vi vj. destruct xi, xj, vi, vj.
  vunf. apply f_equal2; apply vec_eq; cbn [Vec.vx Vec.vy Vec.vz]; field; auto.
Qed.

Lemma pn25_bl c m vi vj i j xi xj : c <> 0 -> norm (vsub xj xi) <> 0 ->
  pn25_pair (/ c) m (vsub xj xi) (vsub vj vi) i j =
  (bl_25pn 1 c (m i) (m j) xi xj vi vj, bl_25pn 1 c (m j) (m i) xj xi vj vi).
Proof.
  intros Hc H. unfold pn25_pair, bl_25pn. cbv zeta. geo xi xj vi vj.
  generalize (m i) (m j). intros mi mj. destruct xi, xj, vi, vj.
  vunf. apply f_equal2; apply vec_eq; cbn [Vec.vx Vec.vy Vec.vz]; field; auto.
Qed.

(** The extra term of the second-listed particle at 2PN. *)
Definition pn2_extra (c mi : R) (xi xj vi vj : vec) : vec :=
  vscal (5 * mi * norm2 vi / (c ^ 4 * norm (vsub xi xj) ^ 3) * dot (vsub xi xj) (vsub vj vi)) (vsub vj vi).

Lemma pn2_bl c m v i j xi xj : c <> 0 -> norm (vsub xj xi) <> 0 ->
  pn2_pair (/ c) m v (vsub xj xi) (vsub (v j) (v i)) i j =
  (bl_2pn 1 c (m i) (m j) xi xj (v i) (v j),
   vadd (bl_2pn 1 c (m j) (m i) xj xi (v j) (v i)) (pn2_extra c (m i) xi xj (v i) (v j))).
Proof.
  intros Hc H. unfold pn2_pair, bl_2pn, pn2_extra. cbv zeta. geo xi xj (v i) (v j).
  generalize (m i) (m j) (v i) (v j). intros mi mj vi vj.
  (* name every scalar product *)
  assert (F1 : forall a b w, dot (vscal a w) b = a * dot w b) by (intros; vring).
  assert (F2 : vneg (vsub xj xi) = vsub xi xj) by vring.
  assert (F3 : forall w, dot (vsub xj xi) w = - dot (vsub xi xj) w) by (intros; vring).
  assert (F4 : dot vj vi = dot vi vj) by vring.
  assert (F5 : dot (vsub xi xj) (vsub vj vi) = dot (vsub xi xj) vj - dot (vsub xi xj) vi) by vring.
  assert (F6 : vsub vj vi = vneg (vsub vi vj)) by vring.
  assert (F7 : vsub xj xi = vneg (vsub xi xj)) by vring.
  rewrite F2, !F1, !F3, F4, F5, F6, F7.
  generalize (dot (vsub xi xj) vi). intros a. generalize (dot (vsub xi xj) vj). intros b.
  generalize (norm2 vi). intros p. generalize (norm2 vj). intros q. generalize (dot vi vj). intros d.
  clear F1 F2 F3 F4 F5 F6 F7. generalize (vsub xi xj) (vsub vi vj). intros X V. destruct X, V.
  vunf. apply f_equal2; apply vec_eq; cbn [Vec.vx Vec.vy Vec.vz]; field; auto.
Qed.
