(** C77: lazy vector expressions. *)
From Verif Require Import Lazy_Model Lazy_Spec Lazy_Proofs.
Open Scope R_scope.

(** C77.  For every expression, every plain or compound assignment and every aliasing of whole arrays: if the arrays are
    long enough and no operand is a single component of the destination (and no slice of the destination looks back), the
    assignment is defined and acts as if all components were computed first and stored afterwards. *)
Theorem C77_assignment : forall op len v e m, fits m len e -> (len <= length (m v))%nat -> no_component_of v m len e ->
  exists m', assign op len v e m = Ok m' /\ simultaneous op len v e m m'.
Proof. intros op len v e m F L N. destruct (assign_half op v e m len F L N len (le_n _)) as (m' & E & H). exists m'. split; [exact E|exact H]. Qed.
Print Assumptions C77_assignment.

(** C77.  A component of the destination used as a scalar operand: every component after that one is computed with the
    new value, not the old one. *)
Lemma comp_half f len v j m : (j < len)%nat -> (len <= length (m v))%nat -> forall k, (k <= len)%nat ->
  exists m', assign set_op k v (Bin f (Arr v) (Comp v j)) m = Ok m' /\ (forall w, w <> v -> m' w = m w) /\ length (m' v) = length (m v) /\
  forall i, nth i (m' v) 0 = if (i <? k)%nat then f (nth i (m v) 0) (if (i <=? j)%nat then nth j (m v) 0 else f (nth j (m v) 0) (nth j (m v) 0)) else nth i (m v) 0.
Proof.
  intros Hj L. induction k as [|k IH]; intros Hk.
  - exists m. split; [reflexivity|]. split; [auto|]. split; [auto|]. reflexivity.
  - destruct IH as (m1 & E & A & B & C); [lia|]. rewrite assign_snoc, E. cbn [obind eval]. rewrite (aget_nth (m1 v) k) by lia. rewrite (aget_nth (m1 v) j) by lia. cbn [obind].
    unfold put. destruct (Nat.ltb_spec k (length (m1 v))); [|lia]. eexists; split; [reflexivity|]. split; [|split].
    + intros w Hw. destruct (Nat.eqb_spec w v); [contradiction|]. auto.
    + rewrite Nat.eqb_refl, list_set_length. auto.
    + intros i. rewrite Nat.eqb_refl, nth_set by auto. rewrite !C. unfold set_op. destruct (Nat.eqb_spec i k) as [->|Ni].
      * destruct (Nat.ltb_spec k k); [lia|]. destruct (Nat.ltb_spec k (S k)); [|lia]. destruct (Nat.leb_spec k j), (Nat.ltb_spec j k); try lia; [reflexivity|].
        destruct (Nat.leb_spec j j); [|lia]. reflexivity.
      * destruct (Nat.ltb_spec i k), (Nat.ltb_spec i (S k)); auto; lia.
Qed.
Theorem C77_own_component_as_operand : forall f len v j m, (j < len)%nat -> (len <= length (m v))%nat ->
  exists m', assign set_op len v (Bin f (Arr v) (Comp v j)) m = Ok m' /\
  forall i, (i < len)%nat -> nth i (m' v) 0 = f (nth i (m v) 0) (if (i <=? j)%nat then nth j (m v) 0 else f (nth j (m v) 0) (nth j (m v) 0)).
Proof.
  intros f len v j m Hj L. destruct (comp_half f len v j m Hj L len (le_n _)) as (m' & E & _ & _ & C). exists m'. split; [exact E|].
  intros i Hi. rewrite C. destruct (Nat.ltb_spec i len); [reflexivity|lia].
Qed.
Print Assumptions C77_own_component_as_operand.
(** C77.  So v = v / v.x does not scale v: it yields (1, y, z) instead of (1, y/x, z/x). *)
Theorem C77_scaled_by_own_component_refuted : exists m m', length (m 0%nat) = 3%nat /\ fits m 3 (Bin Rdiv (Arr 0) (Comp 0 0)) /\
  assign set_op 3 0 (Bin Rdiv (Arr 0) (Comp 0 0)) m = Ok m' /\ m' 0%nat = [1; 4; 6] /\ m 0%nat = [2; 4; 6] /\
  ~ simultaneous set_op 3 0 (Bin Rdiv (Arr 0) (Comp 0 0)) m m'.
Proof.
  set (m := fun _ : nat => [2; 4; 6]). destruct (comp_half Rdiv 3 0 0 m ltac:(lia) ltac:(cbn; lia) 3%nat ltac:(lia)) as (m' & E & _ & B & C).
  exists m, m'. split; [reflexivity|]. split; [cbn; lia|]. split; [exact E|].
  assert (V : m' 0%nat = [1; 4; 6]).
  { pose proof (C 0%nat) as C0. pose proof (C 1%nat) as C1. pose proof (C 2%nat) as C2. cbn in C0, C1, C2. cbn in B. destruct (m' 0%nat) as [|a [|b [|c [|]]]]; cbn in B; try lia. cbn in C0, C1, C2.
    f_equal; [lra|]. f_equal; [lra|]. f_equal. lra. }
  split; [exact V|]. split; [reflexivity|]. intros (_ & _ & S). specialize (S 1%nat). rewrite V in S. cbn in S. unfold set_op in S. lra.
Qed.
Print Assumptions C77_scaled_by_own_component_refuted.

(** C77.  A vector constructed from an expression holds the components of the expression, in order. *)
Fixpoint mentions (v : nat) (e : lexpr) : Prop :=
  match e with Arr w => w = v | Val _ => False | Comp w _ => w = v | Slice w _ _ => w = v | Un _ a => mentions v a | Bin _ a b => mentions v a \/ mentions v b end.
Lemma construct_snoc k v e m : construct (S k) v e m = obind (construct k v e m) (fun m => obind (eval m e k) (fun x => Ok (fun w => if (w =? v)%nat then m v ++ [x] else m w))).
Proof. unfold construct. rewrite seq_S, fold_left_app. reflexivity. Qed.
Lemma value_other v m m' e i : ~ mentions v e -> (forall w, w <> v -> m' w = m w) -> value m' e i = value m e i.
Proof. intros N A. induction e; cbn [mentions value] in *; auto; try (rewrite A; auto); try (rewrite IHe; auto). rewrite IHe1, IHe2; tauto. Qed.
Lemma fits_other v m m' e len : ~ mentions v e -> (forall w, w <> v -> m' w = m w) -> fits m len e -> fits m' len e.
Proof. intros N A. induction e; cbn [mentions fits] in *; auto; try (rewrite A; auto). intros (H1 & H2). split; [apply IHe1|apply IHe2]; tauto. Qed.
Theorem C77_construct : forall len v e m, fits m len e -> ~ mentions v e ->
  exists m', construct len v e m = Ok m' /\ m' v = map (value m e) (seq 0 len) /\ forall w, w <> v -> m' w = m w.
Proof.
  intros len v e m F N.
  assert (K : forall k, (k <= len)%nat -> exists m', construct k v e m = Ok m' /\ m' v = map (value m e) (seq 0 k) /\ forall w, w <> v -> m' w = m w).
  { induction k as [|k IH]; intros Hk.
    - eexists. split; [reflexivity|]. cbn. rewrite Nat.eqb_refl. split; auto. intros w Hw. destruct (Nat.eqb_spec w v); [contradiction|auto].
    - destruct IH as (m1 & E & V & A); [lia|]. rewrite construct_snoc, E. cbn [obind]. rewrite (eval_value m1 e len k (fits_other v m m1 e len N A F) ltac:(lia)). cbn [obind].
      eexists. split; [reflexivity|]. cbn beta. rewrite Nat.eqb_refl, V, (value_other v m m1 e k N A), seq_S, map_app. split; [reflexivity|]. intros w Hw. destruct (Nat.eqb_spec w v); [contradiction|auto]. }
  apply K. auto.
Qed.
Print Assumptions C77_construct.

(** C77.  Slices with stride 1 and -1: the end is included and the slice is cyclic.  It has 1 + (end - begin) mod n
    elements (forward) or 1 + (begin - end) mod n (backward), element i is the one i places after, or before, the begin.
    Negative positions count from the end (a negative begin only for stride 1). *)
Theorem C77_slices : forall n b e, (0 < n)%nat -> (Z.of_nat n < 2 ^ 31)%Z -> (- Z.of_nat n < b < Z.of_nat n)%Z -> (- Z.of_nat n < e < Z.of_nat n)%Z ->
  slice_len b e 1 n = (1 + (pos_of n e - pos_of n b) mod Z.of_nat n)%Z /\
  slice_len b e (-1) n = (1 + (pos_of n b - pos_of n e) mod Z.of_nat n)%Z /\
  forall i, (i < n)%nat ->
    Z.of_nat (slice_at b 1 n i) = ((pos_of n b + Z.of_nat i) mod Z.of_nat n)%Z /\
    ((0 <= b)%Z -> Z.of_nat (slice_at b (-1) n i) = ((pos_of n b - Z.of_nat i) mod Z.of_nat n)%Z).
Proof.
  intros n b e Hn Hs Hb He. set (N := Z.of_nat n) in *. assert (N0 : (0 < N)%Z) by lia.
  assert (MP : forall x, (- N < x < N)%Z -> (x mod N = if (x <? 0)%Z then x + N else x)%Z).
  { intros x Hx. destruct (Z.ltb_spec x 0). - rewrite <- (Z_mod_plus_full x 1 N), Z.mul_1_l. apply Z.mod_small. lia. - apply Z.mod_small. lia. }
  assert (PB : (0 <= pos_of n b < N)%Z) by (unfold pos_of; fold N; destruct (Z.ltb_spec b 0); lia).
  assert (PE : (0 <= pos_of n e < N)%Z) by (unfold pos_of; fold N; destruct (Z.ltb_spec e 0); lia).
  split; [|split].
  - rewrite MP by lia. unfold slice_len. fold N. unfold pos_of in *. fold N in PB, PE |- *. cbn [andb Z.ltb Z.compare].
    destruct (Z.ltb_spec 0 b), (Z.ltb_spec 0 e), (Z.ltb_spec b 0), (Z.ltb_spec e 0); try lia; 
    repeat match goal with |- context [Z.ltb ?x ?y] => destruct (Z.ltb_spec x y) end; cbn [andb]; lia.
  - rewrite MP by lia. unfold slice_len. fold N. unfold pos_of in *. fold N in PB, PE |- *. cbn [andb Z.ltb Z.compare].
    destruct (Z.ltb_spec 0 b), (Z.ltb_spec 0 e), (Z.ltb_spec b 0), (Z.ltb_spec e 0); try lia; 
    repeat match goal with |- context [Z.ltb ?x ?y] => destruct (Z.ltb_spec x y) end; cbn [andb]; lia.
  - intros i Hi. assert (NB : forall x, ((pos_of n b + x) mod N = (b + x) mod N)%Z).
    { intros x. unfold pos_of. fold N. destruct (Z.ltb_spec b 0); [|reflexivity]. replace (b + N + x)%Z with (b + x + 1 * N)%Z by ring. apply Z_mod_plus_full. }
    split; [|intros Hb0].
    + destruct (slice_at_value b 1 n i Hn) as (E & _); [fold N; lia|]. rewrite E, Z2Nat.id by (apply Z.mod_pos_bound; auto). fold N. rewrite NB. f_equal. lia.
    + destruct (slice_at_value b (-1) n i Hn) as (E & _); [fold N; lia|]. rewrite E, Z2Nat.id by (apply Z.mod_pos_bound; auto). fold N. unfold Z.sub. rewrite NB. f_equal. lia.
Qed.
Print Assumptions C77_slices.
(** C77.  Other slices do not behave: the stride does not shorten the slice (elements repeat), a backward slice from a
    negative position reads wrong elements once it passes the front, and slice(-n, 0) has n + 1 elements. *)
Theorem C77_slices_refuted :
  (slice_len 0 3 2 4 = 4%Z /\ map (slice_at 0 2 4) [0; 1; 2; 3]%nat = [0; 2; 0; 2]%nat) /\
  (slice_len (-2) (-1) (-1) 3 = 3%Z /\ map (slice_at (-2) (-1) 3) [0; 1; 2]%nat = [1; 0; 0]%nat) /\
  (forall n, slice_len (- Z.of_nat n) 0 1 n = (1 + Z.of_nat n)%Z \/ n = 0%nat).
Proof.
  split; [split; reflexivity|]. split; [split; reflexivity|]. intros n. destruct n as [|n]; [right; reflexivity|left].
  unfold slice_len. destruct (Z.ltb_spec 0 (- Z.of_nat (S n))); [lia|]. cbn [Z.ltb Z.compare andb]. replace (Z.of_nat (S n) + - Z.of_nat (S n))%Z with 0%Z by ring.
  rewrite Z.add_0_r. destruct (Z.ltb_spec 0 (Z.of_nat (S n))); lia.
Qed.
Print Assumptions C77_slices_refuted.
(** C77.  Reversing an array in place through a slice loses elements: a = a[slice(2, 0, -1)] on (1, 2, 3) is (3, 2, 3). *)
Theorem C77_reverse_in_place_refuted : exists m m', m 0%nat = [1; 2; 3] /\ fits m 3 (Slice 0 2 (-1)) /\
  assign set_op 3 0 (Slice 0 2 (-1)) m = Ok m' /\ m' 0%nat = [3; 2; 3].
Proof.
  exists (fun _ => [1; 2; 3]). eexists. split; [reflexivity|]. split. { cbn [fits length]. split; [lia|]. intros i Hi. assert (Q : (i = 0 \/ i = 1 \/ i = 2)%nat) by lia. destruct Q as [->|[->| ->]]; cbn; lia. }
  split; [reflexivity|]. reflexivity.
Qed.
Print Assumptions C77_reverse_in_place_refuted.

(** C77.  Filling a slice writes exactly its positions. *)
Theorem C77_slice_fill : forall b e s v x m, (0 < length (m v))%nat -> exists m', slice_fill b e s v x m = Ok m' /\
  (forall w, w <> v -> m' w = m w) /\ length (m' v) = length (m v) /\
  forall p, nth p (m' v) 0 = if existsb (fun i => (slice_at b s (length (m v)) i =? p)%nat) (seq 0 (Z.to_nat (slice_len b e s (length (m v))))) then x else nth p (m v) 0.
Proof.
  intros b e s v x m Hn. unfold slice_fill. generalize (seq 0 (Z.to_nat (slice_len b e s (length (m v))))) as L.
  assert (K : forall L m1, length (m1 v) = length (m v) -> exists m', fold_left (fun om i => obind om (fun m => put m v (slice_at b s (length (m v)) i) x)) L (Ok m1) = Ok m' /\
    (forall w, w <> v -> m' w = m1 w) /\ length (m' v) = length (m v) /\ forall p, nth p (m' v) 0 = if existsb (fun i => (slice_at b s (length (m v)) i =? p)%nat) L then x else nth p (m1 v) 0).
  { induction L as [|i L IH]; intros m1 H1.
    - exists m1. cbn. auto.
    - cbn [fold_left obind]. unfold put at 2. rewrite H1. assert (B : (slice_at b s (length (m v)) i < length (m v))%nat).
      { unfold slice_at. pose proof (Z.mod_pos_bound ((b + Z.of_nat (length (m v)) + Z.of_nat i * s) mod 2 ^ 64) (Z.of_nat (length (m v))) ltac:(lia)). lia. }
      destruct (Nat.ltb_spec (slice_at b s (length (m v)) i) (length (m v))); [|lia].
      destruct (IH (fun w => if (w =? v)%nat then list_set (m1 v) (slice_at b s (length (m v)) i) x else m1 w)) as (m' & E & A & B' & C).
      { rewrite Nat.eqb_refl, list_set_length. auto. }
      exists m'. split; [exact E|]. split; [|split; [auto|]].
      + intros w Hw. rewrite A by auto. destruct (Nat.eqb_spec w v); [contradiction|auto].
      + intros p. rewrite C. rewrite Nat.eqb_refl, nth_set by lia. cbn [existsb]. rewrite (Nat.eqb_sym p). destruct (existsb _ L), (Nat.eqb_spec (slice_at b s (length (m v)) i) p); auto. }
  intros L. destruct (K L m eq_refl) as (m' & E & A & B & C). exists m'. auto.
Qed.
Print Assumptions C77_slice_fill.

(** C77.  max and min return an element that bounds all others. *)
Lemma fold_max l x : let y := fold_left (fun mx y => if Rlt_dec mx y then y else mx) l x in In y (x :: l) /\ x <= y /\ forall z, In z l -> z <= y.
Proof.
  revert x. induction l as [|a l IH]; intros x; cbn [fold_left]; [split; [left; auto|split; [lra|contradiction]]|].
  destruct (IH (if Rlt_dec x a then a else x)) as (A & B & C). cbv zeta in *. set (y := fold_left _ l _) in *. destruct (Rlt_dec x a).
  - split; [destruct A as [<-|A]; [right; left; auto|right; right; auto]|]. split; [lra|]. intros z [<-|Hz]; auto.
  - split; [destruct A as [<-|A]; [left; auto|right; right; auto]|]. split; [lra|]. intros z [<-|Hz]; [lra|auto].
Qed.
Lemma fold_min l x : let y := fold_left (fun mn y => if Rlt_dec y mn then y else mn) l x in In y (x :: l) /\ y <= x /\ forall z, In z l -> y <= z.
Proof.
  revert x. induction l as [|a l IH]; intros x; cbn [fold_left]; [split; [left; auto|split; [lra|contradiction]]|].
  destruct (IH (if Rlt_dec a x then a else x)) as (A & B & C). cbv zeta in *. set (y := fold_left _ l _) in *. destruct (Rlt_dec a x).
  - split; [destruct A as [<-|A]; [right; left; auto|right; right; auto]|]. split; [lra|]. intros z [<-|Hz]; auto.
  - split; [destruct A as [<-|A]; [left; auto|right; right; auto]|]. split; [lra|]. intros z [<-|Hz]; [lra|auto].
Qed.
Theorem C77_max_min : forall l, l <> [] ->
  (exists y, larray_max l = Ok y /\ In y l /\ forall z, In z l -> z <= y) /\ (exists y, larray_min l = Ok y /\ In y l /\ forall z, In z l -> y <= z).
Proof.
  intros [|x l] H; [contradiction|]. unfold larray_max, larray_min. cbn [aget nth_error obind tl]. split; eexists; (split; [reflexivity|]).
  - destruct (fold_max l x) as (A & B & C). split; [exact A|]. intros z [<-|Hz]; auto.
  - destruct (fold_min l x) as (A & B & C). split; [exact A|]. intros z [<-|Hz]; auto.
Qed.
Print Assumptions C77_max_min.

(** Non-vacuity: v = (v + w) * 2 with itself among the operands. *)
Example C77_case : exists m m', fits m 3 (Bin Rmult (Bin Rplus (Arr 0) (Arr 1)) (Val 2)) /\ (3 <= length (m 0%nat))%nat /\
  no_component_of 0 m 3 (Bin Rmult (Bin Rplus (Arr 0) (Arr 1)) (Val 2)) /\
  assign set_op 3 0 (Bin Rmult (Bin Rplus (Arr 0) (Arr 1)) (Val 2)) m = Ok m' /\ m' 0%nat = [22; 44; 66].
Proof.
  set (m := fun v : nat => match v with O => [1; 2; 3] | _ => [10; 20; 30] end). set (e := Bin Rmult (Bin Rplus (Arr 0) (Arr 1)) (Val 2)).
  destruct (C77_assignment set_op 3 0 e m) as (m' & E & _ & L & V). { cbn; lia. } { cbn; lia. } { cbn; auto. }
  exists m, m'. split; [cbn; lia|]. split; [cbn; lia|]. split; [cbn; auto|]. split; [exact E|].
  pose proof (V 0%nat) as V0. pose proof (V 1%nat) as V1. pose proof (V 2%nat) as V2. cbn in V0, V1, V2, L. unfold set_op in *.
  destruct (m' 0%nat) as [|a [|b [|c [|]]]]; cbn in L; try lia. cbn in V0, V1, V2. f_equal; [lra|]. f_equal; [lra|]. f_equal. lra.
Qed.
