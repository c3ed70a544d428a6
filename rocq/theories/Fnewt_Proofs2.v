From Verif Require Import Fnewt_Model Fnewt_Spec Kahan_Proofs Fsim_Proofs Fsim_Proofs4 Fchain_Proofs Force_Proofs PN_Proofs Fnewt_Proofs.
From Flocq Require Import Relative Ulp.
From Coq Require Import Lra Lia.
Open Scope R_scope.

(** * Sums over the pairs *)
Lemma vx_lsum {A} (f : A -> vec) l : vx (lsum f l) = lsumR (fun a => vx (f a)) l.
Proof. induction l; cbn [lsum lsumR vadd vx]; auto. rewrite IHl. reflexivity. Qed.
Lemma vx_vsum f n : vx (vsum f n) = rsum (fun j => vx (f j)) n.
Proof. induction n; cbn [vsum rsum vadd vx]; auto. rewrite IHn. reflexivity. Qed.
Lemma pairs_sum (h : nat -> nat -> R) n k : (k < n)%nat ->
  lsumR (fun ij => (if (k =? fst ij)%nat then h (fst ij) (snd ij) else 0) + (if (k =? snd ij)%nat then h (snd ij) (fst ij) else 0)) (all_pairs n) =
  rsum (fun j => if (j =? k)%nat then 0 else h k j) n.
Proof.
  intros Hk. set (F := (fun _ _ i j => (mkV (h i j) 0 0, mkV (h j i) 0 0)) : pair_force). set (s := mkS n (fun _ => 0) (fun _ => vzero) (fun _ => vzero)).
  pose proof (direct_sum2 F s (fun _ => vzero) k Hk) as D. rewrite add_acc_spec in D by apply direct_calls_ne. rewrite !vadd_0_l in D. apply (f_equal vx) in D. rewrite vx_lsum, vx_vsum in D. cbn [sn s] in D.
  rewrite (rsum_ext _ (fun j => vx (if (j =? k)%nat then vzero else pull2 F s k j))).
  - rewrite <- D. unfold direct_calls. rewrite lsumR_map. apply lsumR_ext. intros [i j] _. unfold contrib, true_call. cbn [c_i c_j fst snd F vx vadd].
    destruct (k =? i)%nat, (k =? j)%nat; reflexivity.
  - intros j _. destruct (j =? k)%nat; auto. unfold pull2, F. destruct (k <? j)%nat; reflexivity.
Qed.
Definition true_calls (s : sys) : list fcall := map (fun ij => (vsub (sp s (snd ij)) (sp s (fst ij)), fst ij, snd ij)) (all_pairs (sn s)).
Lemma norm_sym p q : norm (vsub p q) = norm (vsub q p). Proof. rewrite vsub_anti. apply norm_neg. Qed.
Lemma co_sym a p q : co a (vsub p q) = - co a (vsub q p). Proof. rewrite !co_vsub. ring. Qed.
Lemma one_part_pull s a k i j : i <> j ->
  one_part (sm s) a k (vsub (sp s j) (sp s i), i, j) = (if (k =? i)%nat then gpull s a i j else 0) + (if (k =? j)%nat then gpull s a j i else 0).
Proof.
  intros H. unfold one_part, gpull. rewrite (co_sym a (sp s i) (sp s j)), (norm_sym (sp s i) (sp s j)). destruct (k =? i)%nat, (k =? j)%nat; unfold Rdiv; ring.
Qed.
Lemma parts_true s a k : (k < sn s)%nat -> parts (sm s) a k (true_calls s) = true_acc s a k.
Proof.
  intros Hk. unfold true_acc. rewrite <- (pairs_sum (gpull s a) (sn s) k Hk). unfold true_calls.
  assert (G : forall l, (forall ij, In ij l -> fst ij <> snd ij) -> parts (sm s) a k (map (fun ij => (vsub (sp s (snd ij)) (sp s (fst ij)), fst ij, snd ij)) l) =
     lsumR (fun ij => (if (k =? fst ij)%nat then gpull s a (fst ij) (snd ij) else 0) + (if (k =? snd ij)%nat then gpull s a (snd ij) (fst ij) else 0)) l).
  { induction l as [|[i j] l IH]; intros H; auto. cbn [map parts lsumR]. rewrite one_part_pull by (apply (H (i, j)); left; auto). rewrite IH; auto. intros; apply H; right; auto. }
  apply G. intros [i j] H. apply all_pairs_in in H. cbn [fst snd]. lia.
Qed.
Lemma abs_parts_true s a k : (k < sn s)%nat -> abs_parts (sm s) a k (true_calls s) = abs_acc s a k.
Proof.
  intros Hk. unfold abs_acc. rewrite <- (pairs_sum (fun i j => Rabs (gpull s a i j)) (sn s) k Hk). unfold true_calls.
  assert (G : forall l, (forall ij, In ij l -> fst ij <> snd ij) -> abs_parts (sm s) a k (map (fun ij => (vsub (sp s (snd ij)) (sp s (fst ij)), fst ij, snd ij)) l) =
     lsumR (fun ij => (if (k =? fst ij)%nat then Rabs (gpull s a (fst ij) (snd ij)) else 0) + (if (k =? snd ij)%nat then Rabs (gpull s a (snd ij) (fst ij)) else 0)) l).
  { induction l as [|[i j] l IH]; intros H; auto. cbn [map abs_parts lsumR]. pose proof (H (i, j) (or_introl eq_refl)) as Hij. cbn [fst snd] in Hij. rewrite one_part_pull by exact Hij. rewrite IH by (intros; apply H; right; auto). f_equal.
    cbn [fst snd]. destruct (Nat.eqb_spec k i), (Nat.eqb_spec k j); subst; try congruence; rewrite ?Rplus_0_r, ?Rplus_0_l, ?Rabs_R0; auto. }
  apply G. intros [i j] H. apply all_pairs_in in H. cbn [fst snd]. lia.
Qed.
Lemma concerns_true s k : (k < sn s)%nat -> concerns k (true_calls s) = (sn s - 1)%nat.
Proof.
  intros Hk. apply INR_eq. pose proof (pairs_sum (fun _ _ => 1) (sn s) k Hk) as P. cbv beta in P.
  assert (Q : rsum (fun j => if (j =? k)%nat then 0 else 1) (sn s) = INR (sn s - 1)).
  { assert (G : forall n, rsum (fun j => if (j =? k)%nat then 0 else 1) n = if (k <? n)%nat then INR n - 1 else INR n).
    { induction n as [|n IH]; [reflexivity|]. cbn [rsum]. rewrite IH, S_INR. destruct (Nat.ltb_spec k n), (Nat.ltb_spec k (S n)), (Nat.eqb_spec n k); try lia; lra. }
    rewrite G. destruct (Nat.ltb_spec k (sn s)); [|lia]. rewrite minus_INR by lia. reflexivity. }
  rewrite Q in P. rewrite <- P. unfold true_calls.
  assert (G : forall l, (forall ij, In ij l -> fst ij <> snd ij) -> INR (concerns k (map (fun ij => (vsub (sp s (snd ij)) (sp s (fst ij)), fst ij, snd ij)) l)) =
     lsumR (fun ij : nat * nat => (if (k =? fst ij)%nat then 1 else 0) + (if (k =? snd ij)%nat then 1 else 0)) l).
  { induction l as [|[i j] l IH]; intros H; auto. cbn [map lsumR]. rewrite concerns_cons, plus_INR. pose proof (H (i, j) (or_introl eq_refl)) as Hij. rewrite IH by (intros; apply H; right; auto). f_equal.
    unfold fc_i, fc_j. cbn [fst snd] in *. destruct (Nat.eqb_spec k i), (Nat.eqb_spec k j); subst; try congruence; cbn [orb INR]; lra. }
  apply G. intros [i j] H. apply all_pairs_in in H. cbn [fst snd]. lia.
Qed.
Lemma abs_acc_nonneg s a k : 0 <= abs_acc s a k.
Proof. unfold abs_acc. induction (sn s) as [|n IH]; cbn [rsum]; [lra|]. destruct (n =? k)%nat; [lra|]. pose proof (Rabs_pos (gpull s a k n)). lra. Qed.

(** Newton's third law for the exact accelerations. *)
Lemma true_momentum s a : rsum (fun k => sm s k * true_acc s a k) (sn s) = 0.
Proof.
  assert (A : forall n f, rsum (fun k => rsum (fun j => f k j) n) n = rsum (fun k => rsum (fun j => f j k) n) n).
  { intros n f. assert (B : forall p q, rsum (fun k => rsum (fun j => f k j) q) p = rsum (fun j => rsum (fun k => f k j) p) q).
    { induction p as [|p IH]; intros q; cbn [rsum]; [rewrite rsum_zero; auto|]. rewrite IH, <- rsum_add. reflexivity. }
    apply B. }
  set (f := fun k j => if (j =? k)%nat then 0 else sm s k * gpull s a k j).
  assert (E : rsum (fun k => sm s k * true_acc s a k) (sn s) = rsum (fun k => rsum (f k) (sn s)) (sn s)).
  { apply rsum_ext. intros k _. unfold true_acc. rewrite <- rsum_scal. apply rsum_ext. intros j _. unfold f. destruct (j =? k)%nat; ring. }
  assert (N : rsum (fun k => rsum (fun j => f j k) (sn s)) (sn s) = - rsum (fun k => rsum (f k) (sn s)) (sn s)).
  { replace (- rsum (fun k => rsum (f k) (sn s)) (sn s)) with (- (1) * rsum (fun k => rsum (f k) (sn s)) (sn s)) by ring. rewrite <- rsum_scal. apply rsum_ext. intros k _. rewrite <- rsum_scal. apply rsum_ext. intros j _. unfold f. rewrite (Nat.eqb_sym k j). destruct (j =? k)%nat; [ring|].
    unfold gpull. rewrite (co_sym a (sp s j) (sp s k)), (norm_sym (sp s j) (sp s k)). unfold Rdiv. ring. }
  rewrite E. pose proof (A (sn s) f) as A1. rewrite N in A1. change (fun k => rsum (fun j => f k j) (sn s)) with (fun k => rsum (f k) (sn s)) in A1. lra.
Qed.

Section P.
Variables (emin prec : Z) (choice : Z -> bool).
Context { prec_gt_0_ : Prec_gt_0 prec }.
Notation fmt := (fmt emin prec).
Notation rnd := (rnd emin prec choice).
Variable E : Z.
Hypothesis E0 : (0 <= E)%Z.
Hypothesis HE : (emin + prec - 1 <= - (5 * E + 3))%Z.

Lemma direct_near s : tame_system E s -> distinct_positions s -> Forall2 (call_near prec E 1) (fdirect emin prec choice s) (true_calls s).
Proof.
  intros (Tm & Tp) Dp. unfold fdirect, true_calls.
  assert (G : forall l, (forall i j, In (i, j) l -> (i < j < sn s)%nat) ->
    Forall2 (call_near prec E 1) (map (fun ij => (fvsub emin prec choice (sp s (snd ij)) (sp s (fst ij)), fst ij, snd ij)) l) (map (fun ij => (vsub (sp s (snd ij)) (sp s (fst ij)), fst ij, snd ij)) l)).
  { induction l as [|[i j] l IH]; intros H; cbn [map]; constructor.
    - pose proof (H i j (or_introl eq_refl)) as Hij. unfold call_near, fc_i, fc_j, fc_dr. cbn [fst snd].
      split; [reflexivity|]. split; [reflexivity|]. split; [lia|]. split.
      + intros Z. apply vsub_eq_zero in Z. apply (Dp j i); auto; lia.
      + intros x. rewrite co_fvsub, co_vsub. pose proof (Tp i j x ltac:(lia) ltac:(lia) ltac:(lia)) as T. rewrite co_vsub in T.
        pose proof (emin_le emin prec E HE) as EM.
        destruct (step emin prec choice E HE 0 (- E) E (co x (sp s j) - co x (sp s i)) (co x (sp s j) - co x (sp s i))) as (G1 & G2); try lia; [exact T|apply near_refl|split; [exact G2|exact G1]].
    - apply IH. intros; apply H; right; auto. }
  apply G. intros i j. apply all_pairs_in.
Qed.
End P.
