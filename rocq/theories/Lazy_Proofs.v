From Verif Require Import Lazy_Model Lazy_Spec.
Open Scope R_scope.
Lemma aget_nth (l : list R) i : (i < length l)%nat -> aget l i = Ok (nth i l 0).
Proof. intros H. unfold aget. rewrite (nth_error_nth' l 0 H). reflexivity. Qed.
Lemma slice_at_value b s n i : (0 < n)%nat -> (0 <= b + Z.of_nat n + Z.of_nat i * s < 2 ^ 64)%Z ->
  slice_at b s n i = Z.to_nat ((b + Z.of_nat i * s) mod Z.of_nat n) /\ (slice_at b s n i < n)%nat.
Proof.
  intros Hn H. unfold slice_at. rewrite (Z.mod_small _ (2 ^ 64)) by exact H.
  assert (E : ((b + Z.of_nat n + Z.of_nat i * s) mod Z.of_nat n = (b + Z.of_nat i * s) mod Z.of_nat n)%Z).
  { replace (b + Z.of_nat n + Z.of_nat i * s)%Z with (b + Z.of_nat i * s + 1 * Z.of_nat n)%Z by ring. apply Z_mod_plus_full. }
  rewrite E. split; [reflexivity|]. pose proof (Z.mod_pos_bound (b + Z.of_nat i * s) (Z.of_nat n) ltac:(lia)). lia.
Qed.
Lemma eval_value m e len i : fits m len e -> (i < len)%nat -> eval m e i = Ok (value m e i).
Proof.
  intros H Hi. induction e as [v|x|v j|v b s|f a IH|f a IHa b IHb]; cbn [fits eval value] in *.
  - apply aget_nth. lia.
  - reflexivity.
  - apply aget_nth. auto.
  - destruct H as (Hn & H). destruct (slice_at_value b s _ i Hn (H i Hi)) as (E & L). rewrite aget_nth by exact L. rewrite E. reflexivity.
  - rewrite IH by auto. reflexivity.
  - destruct H. rewrite IHa, IHb by auto. reflexivity.
Qed.
Lemma nth_set (l : list R) i j x : (i < length l)%nat -> nth j (list_set l i x) 0 = if (j =? i)%nat then x else nth j l 0.
Proof.
  revert i j. induction l as [|h t IH]; intros i j H; cbn in H; [lia|]. destruct i as [|i], j as [|j]; cbn; auto. apply IH. lia.
Qed.
(** State after k components. *)
Definition half_done (op : R -> R -> R) (k v : nat) (e : lexpr) (m m' : store) : Prop :=
  (forall w, w <> v -> m' w = m w) /\ length (m' v) = length (m v) /\
  forall i, nth i (m' v) 0 = if (i <? k)%nat then op (nth i (m v) 0) (value m e i) else nth i (m v) 0.
Lemma fits_half op k v e0 m m' len e : half_done op k v e0 m m' -> fits m len e -> fits m' len e.
Proof.
  intros (A & B & _). assert (Q : forall w, length (m' w) = length (m w)). { intros w. destruct (Nat.eq_dec w v) as [->|N]; [auto|rewrite A; auto]. }
  induction e; cbn [fits]; rewrite ?Q; auto. intros (H1 & H2). split; auto.
Qed.
Lemma value_half op k v e0 m m' len e : half_done op k v e0 m m' -> (k < len)%nat -> fits m len e -> no_component_of v m len e -> value m' e k = value m e k.
Proof.
  intros (A & B & C) Hk. assert (Q : forall w, length (m' w) = length (m w)). { intros w. destruct (Nat.eq_dec w v) as [->|N]; [auto|rewrite A; auto]. }
  assert (V : forall w i, (k <= i)%nat -> nth i (m' w) 0 = nth i (m w) 0).
  { intros w i Hi. destruct (Nat.eq_dec w v) as [->|N]; [|rewrite A; auto]. rewrite C. destruct (Nat.ltb_spec i k); [lia|auto]. }
  induction e as [w|x|w j|w b s|f a IH|f a IHa b IHb]; cbn [fits no_component_of value]; intros F N; auto.
  - rewrite A; auto.
  - rewrite Q. destruct (Nat.eq_dec w v) as [->|Nw]; [|rewrite A; auto]. apply V. apply N; auto.
  - rewrite IH; auto.
  - destruct F, N. rewrite IHa, IHb; auto.
Qed.
Lemma assign_snoc op k v e m : assign op (S k) v e m = obind (assign op k v e m) (fun m => obind (eval m e k) (fun x => obind (aget (m v) k) (fun old => put m v k (op old x)))).
Proof. unfold assign. rewrite seq_S, fold_left_app. reflexivity. Qed.
Lemma assign_half op v e m len : fits m len e -> (len <= length (m v))%nat -> no_component_of v m len e -> forall k, (k <= len)%nat -> exists m', assign op k v e m = Ok m' /\ half_done op k v e m m'.
Proof.
  intros F L N. induction k as [|k IH]; intros Hk.
  - exists m. split; [reflexivity|]. split; [auto|split; [auto|]]. intros i. reflexivity.
  - destruct IH as (m1 & E & Hd); [lia|]. rewrite assign_snoc, E. cbn [obind]. pose proof Hd as (A & B & C).
    rewrite (eval_value m1 e len k (fits_half _ _ _ _ _ _ _ _ Hd F) ltac:(lia)). cbn [obind].
    rewrite aget_nth by (rewrite B; lia). cbn [obind]. unfold put. destruct (Nat.ltb_spec k (length (m1 v))); [|lia].
    eexists; split; [reflexivity|]. split; [|split].
    + intros w Hw. destruct (Nat.eqb_spec w v); [contradiction|]. auto.
    + rewrite Nat.eqb_refl, list_set_length. auto.
    + intros i. rewrite Nat.eqb_refl, nth_set by auto. rewrite (value_half _ _ _ _ _ _ len _ Hd ltac:(lia) F N).
      destruct (Nat.eqb_spec i k) as [->|Ni].
      * destruct (Nat.ltb_spec k (S k)); [|lia]. rewrite C. destruct (Nat.ltb_spec k k); [lia|]. reflexivity.
      * rewrite C. destruct (Nat.ltb_spec i k), (Nat.ltb_spec i (S k)); auto; lia.
Qed.
