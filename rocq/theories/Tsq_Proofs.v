From Verif Require Import Tsq_Model Tsq_Spec.
From Coq Require Import Lia.
Open Scope Z_scope.
Section P.
Context {A : Type}.
Variable junk : A.
Notation pow2 := power_of_two (only parsing).
Lemma pow2_pos c : pow2 c -> 0 < c. Proof. intros (k & Hk & ->). apply Z.pow_pos_nonneg; lia. Qed.
Lemma pow2_double c : pow2 c -> pow2 (2 * c). Proof. intros (k & Hk & ->). exists (k + 1). split; [lia|]. rewrite Z.pow_add_r by lia. lia. Qed.
Lemma land_mod i c : pow2 c -> Z.land i (c - 1) = i mod c.
Proof. intros (k & Hk & ->). replace (2 ^ k - 1) with (Z.ones k) by (rewrite Z.ones_equiv; lia). apply Z.land_ones. exact Hk. Qed.
Lemma mod_diff i j c : 0 < c -> i < j < i + c -> i mod c <> j mod c.
Proof.
  intros Hc H E. assert (D : (c | j - i)). { apply Z.mod_divide; [lia|]. rewrite Zminus_mod, <- E, Z.sub_diag. apply Z.mod_0_l. lia. }
  destruct D as (q & D). assert (0 < q * c < c) by lia. assert (0 < q) by nia. nia.
Qed.
Lemma push_same (a : arr A) b o : a_pop (a_push a b o) b = o.
Proof. unfold a_pop, a_push. cbn [cells cap]. rewrite Z.eqb_refl. reflexivity. Qed.
Lemma push_other (a : arr A) b o i : pow2 (cap a) -> b - cap a < i < b \/ b < i < b + cap a -> a_pop (a_push a b o) i = a_pop a i.
Proof.
  intros P H. unfold a_pop, a_push. cbn [cells cap]. rewrite !land_mod by exact P. pose proof (pow2_pos _ P). destruct (Z.eqb_spec (i mod cap a) (b mod cap a)) as [E|E]; auto. exfalso.
  destruct H as [H|H]; [apply (mod_diff i b (cap a)); auto; lia|apply (mod_diff b i (cap a)); auto; lia].
Qed.
Lemma copy_cap (old : arr A) n : forall new i, cap (copy old new i n) = cap new.
Proof. induction n as [|n IH]; intros new i; [reflexivity|]. cbn [copy]. rewrite IH. reflexivity. Qed.
Lemma copy_other (old : arr A) n : forall new lo i, pow2 (cap new) -> lo + Z.of_nat n - cap new <= i < lo -> a_pop (copy old new lo n) i = a_pop new i.
Proof.
  induction n as [|n IH]; intros new lo i P H; [reflexivity|]. cbn [copy]. rewrite IH; [apply push_other; auto; left; lia|exact P|cbn [cap a_push]; lia].
Qed.
Lemma copy_in (old : arr A) n : forall new lo i, pow2 (cap new) -> Z.of_nat n <= cap new -> lo <= i < lo + Z.of_nat n -> a_pop (copy old new lo n) i = a_pop old i.
Proof.
  induction n as [|n IH]; intros new lo i P Hn H; [lia|]. cbn [copy]. destruct (Z.eq_dec i lo) as [-> |N].
  - rewrite copy_other; [apply push_same|exact P|cbn [cap a_push]; lia].
  - apply IH; [exact P|cbn [cap a_push]; lia|lia].
Qed.
Lemma resize_in (a : arr A) b t i : pow2 (cap a) -> t <= b -> b - t <= cap a -> t <= i < b -> a_pop (resize junk a b t) i = a_pop a i.
Proof. intros P H1 H2 H. unfold resize. pose proof (pow2_pos _ P). apply copy_in; cbn [cap]; [apply pow2_double; exact P|lia|lia]. Qed.
Lemma resize_cap (a : arr A) b t : cap (resize junk a b t) = 2 * cap a.
Proof. unfold resize. rewrite copy_cap. reflexivity. Qed.
(** Ranges of indices. *)
Definition range (lo hi : Z) : list Z := map (fun i => lo + Z.of_nat i) (seq 0 (Z.to_nat (hi - lo))).
Lemma range_in lo hi i : In i (range lo hi) <-> lo <= i < hi.
Proof.
  unfold range. rewrite in_map_iff. split.
  - intros (n & <- & H). apply in_seq in H. lia.
  - intros H. exists (Z.to_nat (i - lo)). split; [lia|]. apply in_seq. lia.
Qed.
Lemma range_nil lo hi : hi <= lo -> range lo hi = [].
Proof. intros H. unfold range. replace (Z.to_nat (hi - lo)) with 0%nat by lia. reflexivity. Qed.
Lemma range_snoc lo hi : lo <= hi -> range lo (hi + 1) = range lo hi ++ [hi].
Proof. intros H. unfold range. replace (Z.to_nat (hi + 1 - lo)) with (S (Z.to_nat (hi - lo))) by lia. rewrite seq_S, map_app. cbn [map]. do 2 f_equal. lia. Qed.
Lemma range_cons lo hi : lo < hi -> range lo hi = lo :: range (lo + 1) hi.
Proof.
  intros H. unfold range. replace (Z.to_nat (hi - lo)) with (S (Z.to_nat (hi - (lo + 1)))) by lia. cbn [seq map]. f_equal; [lia|]. rewrite <- seq_shift, map_map. apply map_ext. intros i. lia.
Qed.
(** The end of the part of the queue that is still to be taken, and its content. *)
Definition eb (s : state A) : Z := match owner s with Po4 b _ => b + 1 | Po5 b _ t => if t =? b then b + 1 else b | Po6 b _ _ => b + 1 | Po7 b _ => b + 1 | _ => bottom s end.
Definition val (s : state A) (i : Z) : A := a_pop (heap s (cur s)) i.
Definition content (s : state A) : list A := map (val s) (range (top s) (eb s)).
Definition own_inv (s : state A) : Prop := match owner s with
  | OIdle | Pu1 _ | Po1 => True
  | Pu2 _ b => b = bottom s
  | Pu3 _ b t => b = bottom s /\ t <= top s /\ b - t <= cap (heap s (cur s))
  | Pu4 _ b a => b = bottom s /\ (a < next s)%nat /\ b - top s <= cap (heap s a) - 1 /\ forall i, top s <= i < b -> a_pop (heap s a) i = val s i
  | Pu5 _ b a => b = bottom s /\ a = cur s /\ b - top s <= cap (heap s a) - 1
  | Pu6 o b => b = bottom s /\ val s b = o /\ b - top s <= cap (heap s (cur s)) - 1
  | Po2 b => b = bottom s - 1
  | Po3 b a => b = bottom s - 1 /\ a = cur s
  | Po4 b a => b = bottom s /\ a = cur s
  | Po5 b a t => b = bottom s /\ a = cur s /\ t <= top s /\ t <= b
  | Po6 b t x => b = bottom s /\ t = b /\ t <= top s /\ x = val s b
  | Po7 b r => b = bottom s /\ top s = b + 1
  end.
Definition thief_inv (s : state A) (p : thief A) : Prop := match p with
  | SIdle | St1 => True
  | St2 t => t <= top s
  | St3 t => t <= top s /\ (top s = t -> t < eb s)
  | St4 t a => t <= top s /\ (a < next s)%nat /\ (top s = t -> t < eb s /\ a_pop (heap s a) t = val s t)
  | St5 t x => t <= top s /\ (top s = t -> t < eb s /\ x = val s t)
  end.
Record inv (s : state A) : Prop := mkI {
  i_le : top s <= eb s; i_pow : forall j, pow2 (cap (heap s j)); i_cap : eb s - top s <= cap (heap s (cur s)); i_cur : (cur s < next s)%nat;
  i_own : own_inv s; i_thief : forall k, thief_inv s (thieves s k) }.
Lemma thief_pres (s s' : state A) p : thief_inv s p -> top s <= top s' -> (next s <= next s')%nat ->
  (forall t, top s = t -> top s' = t -> t < eb s -> t < eb s' /\ val s' t = val s t /\ forall a, (a < next s)%nat -> a_pop (heap s a) t = val s t -> a_pop (heap s' a) t = val s' t) -> thief_inv s' p.
Proof.
  intros H T N K. destruct p as [| |t|t|t a|t x]; cbn [thief_inv] in *; auto.
  - lia.
  - destruct H as (H1 & H2). split; [lia|]. intros E. assert (Et : top s = t) by lia. destruct (K t Et E (H2 Et)) as (A1 & _). exact A1.
  - destruct H as (H1 & H0 & H2). split; [lia|]. split; [lia|]. intros E. assert (Et : top s = t) by lia. destruct (H2 Et) as (B1 & B2). destruct (K t Et E B1) as (A1 & A2 & A3). split; auto.
  - destruct H as (H1 & H2). split; [lia|]. intros E. assert (Et : top s = t) by lia. destruct (H2 Et) as (B1 & B2). destruct (K t Et E B1) as (A1 & A2 & A3). split; auto. congruence.
Qed.
(** A state that differs only in the owner's place, with the same effective end. *)
Lemma inv_owner (s : state A) o : inv s -> eb (set_owner s o) = eb s -> own_inv (set_owner s o) -> inv (set_owner s o).
Proof.
  intros [H1 H2 H3 H4 H5 H6] E O. constructor; auto; cbn [top heap cur next set_owner]; try (rewrite E; assumption).
  intros k. apply (thief_pres s); [apply H6|reflexivity|reflexivity|]. intros t _ _ Ht. rewrite E. split; auto.
Qed.
Lemma own_pres s s' e : inv s -> own_step junk s = Some (s', e) -> inv s'.
Proof.
  intros I. pose proof I as [H1 H2 H3 H4 H5 H6]. unfold own_step, own_inv in *. destruct (owner s) as [|o|o b|o b t|o b a|o b a|o b| |b|b a|b a|b a t|b t x|b r] eqn:Eo; intros E; try discriminate E.
  - injection E as <- <-. apply inv_owner; [exact I| |]; [unfold eb; cbn; rewrite Eo; reflexivity|reflexivity].
  - injection E as <- <-. assert (Eb : eb s = bottom s) by (unfold eb; rewrite Eo; reflexivity). apply inv_owner; [exact I| |]; [rewrite Eb; reflexivity|]. unfold own_inv; cbn. rewrite Eb in *. lia.
  - assert (Eb : eb s = bottom s) by (unfold eb; rewrite Eo; reflexivity). destruct H5 as (-> & Ht & Hc). destruct (Z.ltb_spec (cap (heap s (cur s)) - 1) (bottom s - t)) as [L|L]; injection E as <- <-.
    + set (a' := resize junk (heap s (cur s)) (bottom s) t). pose proof (pow2_pos _ (H2 (cur s))) as Pc. rewrite Eb in *.
      assert (Nc : Nat.eqb (cur s) (next s) = false) by (apply Nat.eqb_neq; lia).
      constructor; cbn [top heap cur next set_owner alloc owner thieves].
      * exact H1.
      * intros j. destruct (Nat.eqb j (next s)); [unfold a'; rewrite resize_cap; apply pow2_double|]; apply H2.
      * rewrite Nc. exact H3.
      * lia.
      * unfold own_inv. cbn [owner set_owner alloc bottom top next heap cur val]. rewrite Nat.eqb_refl. split; [reflexivity|]. split; [lia|]. split; [unfold a'; rewrite resize_cap; lia|]. intros i Hi. unfold val. cbn [owner set_owner alloc bottom top next heap cur]. rewrite Nc. unfold a'. apply resize_in; auto; lia.
      * intros k. apply (thief_pres s); [apply H6|cbn; lia|cbn; lia|]. intros u _ _ Hu. unfold eb, val. cbn [owner set_owner alloc bottom top next heap cur]. rewrite Nc. rewrite Eb in Hu. split; auto. split; auto. intros a Ha Q.
        assert (Na : Nat.eqb a (next s) = false) by (apply Nat.eqb_neq; lia). rewrite Na. exact Q.
    + apply inv_owner; [exact I|unfold eb; cbn; rewrite Eo; reflexivity|]. unfold own_inv; cbn. split; auto. split; auto. lia.
  - injection E as <- <-. assert (Eb : eb s = bottom s) by (unfold eb; rewrite Eo; reflexivity). destruct H5 as (-> & Ha & Hc & Hv). rewrite Eb in *.
    constructor; cbn [top heap cur next set_owner set_cur owner thieves]; auto.
    + unfold eb; cbn. lia.
    + unfold own_inv; cbn. auto.
    + intros k. apply (thief_pres s); [apply H6|cbn; lia|cbn; lia|]. intros u Hu _ Hl. rewrite Eb in Hl. unfold eb, val. cbn [owner set_owner set_cur bottom top next heap cur]. split; auto. assert (Q : a_pop (heap s a) u = a_pop (heap s (cur s)) u) by (apply Hv; lia). split; [exact Q|]. intros a0 _ Q0. rewrite Q. exact Q0.
  - injection E as <- <-. assert (Eb : eb s = bottom s) by (unfold eb; rewrite Eo; reflexivity). destruct H5 as (-> & -> & Hc). rewrite Eb in *. pose proof (pow2_pos _ (H2 (cur s))) as Pc.
    assert (Ho : forall a i, top s <= i < bottom s -> a_pop (if Nat.eqb a (cur s) then a_push (heap s (cur s)) (bottom s) o else heap s a) i = a_pop (heap s a) i).
    { intros a i Hi. destruct (Nat.eqb_spec a (cur s)) as [-> |N]; auto. apply push_other; auto. left. lia. }
    constructor; cbn [top heap cur next set_owner set_arr owner thieves]; auto.
    + intros j. destruct (Nat.eqb j (cur s)); [cbn [cap a_push]|]; apply H2.
    + rewrite Nat.eqb_refl. cbn [cap a_push]. unfold eb; cbn. exact H3.
    + unfold own_inv, val; cbn. rewrite Nat.eqb_refl. split; auto. split; [apply push_same|cbn [cap a_push]; exact Hc].
    + intros k. apply (thief_pres s); [apply H6|cbn; lia|cbn; lia|]. intros u Hu _ Hl. rewrite Eb in Hl. unfold eb, val. cbn [owner set_owner set_arr bottom top next heap cur]. split; auto.
      split; [apply Ho; lia|]. intros a Ha Q. rewrite Ho by lia. rewrite Ho by lia. exact Q.
  - injection E as <- <-. assert (Eb : eb s = bottom s) by (unfold eb; rewrite Eo; reflexivity). destruct H5 as (-> & Hv & Hc). rewrite Eb in *.
    constructor; cbn [top heap cur next set_owner set_bottom owner thieves]; auto.
    + unfold eb; cbn. lia.
    + unfold eb; cbn. lia.
    + exact Logic.I.
    + intros k. apply (thief_pres s); [apply H6|cbn; lia|cbn; lia|]. intros u Hu _ Hl. rewrite Eb in Hl. unfold eb, val. cbn [owner set_owner set_bottom bottom top next heap cur]. split; [lia|]. auto.
  - injection E as <- <-. apply inv_owner; [exact I| |]; [unfold eb; cbn; rewrite Eo; reflexivity|reflexivity].
  - injection E as <- <-. apply inv_owner; [exact I| |]; [unfold eb; cbn; rewrite Eo; reflexivity|]. unfold own_inv; cbn. auto.
  - injection E as <- <-. assert (Eb : eb s = bottom s) by (unfold eb; rewrite Eo; reflexivity). destruct H5 as (-> & ->). rewrite Eb in *.
    assert (Eb' : eb (set_owner (set_bottom s (bottom s - 1)) (Po4 (bottom s - 1) (cur s))) = bottom s) by (unfold eb; cbn; lia).
    constructor; cbn [top heap cur next set_owner set_bottom owner thieves]; auto; try (rewrite Eb'; assumption).
    + unfold own_inv; cbn. auto.
    + intros k. apply (thief_pres s); [apply H6|cbn; lia|cbn; lia|]. intros u Hu _ Hl. rewrite Eb in Hl. rewrite Eb'. split; [lia|]. auto.
  - assert (Eb : eb s = b + 1) by (unfold eb; rewrite Eo; reflexivity). destruct H5 as (-> & ->). rewrite Eb in *. destruct (Z.leb_spec (top s) (bottom s)) as [L|L]; injection E as <- <-.
    + destruct (Z.eqb_spec (top s) (bottom s)) as [Q|Q].
      * apply inv_owner; [exact I| |]; [unfold eb; cbn; rewrite Eo, (proj2 (Z.eqb_eq _ _) Q); reflexivity|]. unfold own_inv; cbn. repeat split; auto; lia.
      * assert (Eb' : eb (set_owner s (Po5 (bottom s) (cur s) (top s))) = bottom s) by (unfold eb; cbn; rewrite (proj2 (Z.eqb_neq _ _) Q); reflexivity).
        constructor; cbn [top heap cur next set_owner owner thieves]; auto; try (rewrite Eb'; lia).
        -- unfold own_inv; cbn. repeat split; auto; lia.
        -- intros k. apply (thief_pres s); [apply H6|cbn; lia|cbn; lia|]. intros u Hu _ Hl. rewrite Eb'. split; [lia|]. auto.
    + apply inv_owner; [exact I| |]; [unfold eb; cbn; rewrite Eo; reflexivity|]. unfold own_inv; cbn. split; auto. lia.
  - destruct H5 as (-> & -> & Ht & Hb). destruct (Z.eqb_spec t (bottom s)) as [Q|Q]; injection E as <- <-.
    + apply inv_owner; [exact I| |]; [unfold eb; cbn; rewrite Eo, (proj2 (Z.eqb_eq _ _) Q); reflexivity|]. unfold own_inv; cbn. repeat split; auto.
    + apply inv_owner; [exact I| |]; [unfold eb; cbn; rewrite Eo, (proj2 (Z.eqb_neq _ _) Q); reflexivity|exact Logic.I].
  - assert (Eb : eb s = b + 1) by (unfold eb; rewrite Eo; reflexivity). destruct H5 as (-> & -> & Ht & Hx). rewrite Eb in *. destruct (Z.eqb_spec (top s) (bottom s)) as [Q|Q]; injection E as <- <-.
    + constructor; cbn [top heap cur next set_owner set_top owner thieves]; auto.
      * unfold eb; cbn. lia.
      * unfold eb; cbn. lia.
      * unfold own_inv; cbn. auto.
      * intros k. apply (thief_pres s); [apply H6|cbn; lia|cbn; lia|]. intros u Hu Hu' _. cbn in Hu'. lia.
    + apply inv_owner; [exact I| |]; [unfold eb; cbn; rewrite Eo; reflexivity|]. unfold own_inv; cbn. split; auto. lia.
  - injection E as <- <-. assert (Eb : eb s = b + 1) by (unfold eb; rewrite Eo; reflexivity). destruct H5 as (-> & Ht). rewrite Eb in *.
    constructor; cbn [top heap cur next set_owner set_bottom owner thieves]; auto.
    + exact Logic.I.
    + intros k. apply (thief_pres s); [apply H6|cbn; lia|cbn; lia|]. intros u Hu _ Hl. unfold eb, val. cbn. split; [lia|]. auto.
Qed.
Lemma thief_step_pres s s' e k : inv s -> thief_step s k = Some (s', e) -> inv s'.
Proof.
  intros I. pose proof I as [H1 H2 H3 H4 H5 H6]. pose proof (H6 k) as Hk. unfold thief_step. 
  assert (Simple : forall p, thief_inv s p -> inv (set_thief s k p)).
  { intros p Hp. constructor; auto. intros j. cbn [thieves set_thief]. destruct (Nat.eqb j k); [exact Hp|apply H6]. }
  assert (Take : forall t, top s = t -> t < eb s -> inv (set_thief (set_top s (t + 1)) k SIdle)).
  { intros t Ht Hl. constructor; auto; cbn [top heap cur next set_thief set_top owner thieves].
    - change (eb (set_thief (set_top s (t + 1)) k SIdle)) with (eb s). lia.
    - change (eb (set_thief (set_top s (t + 1)) k SIdle)) with (eb s). lia.
    - unfold own_inv in *. cbn [owner set_thief set_top bottom top heap cur next]. unfold eb in Hl, H1. destruct (owner s) as [|o|o b|o b u|o b a|o b a|o b| |b|b a|b a|b a u|b u x|b r]; auto; try (intuition lia).
      + destruct H5 as (X1 & X2 & X3 & X4). repeat split; auto; [lia|]. intros i Hi. unfold val. cbn. apply X4. lia.
    - intros j. destruct (Nat.eqb j k); [exact Logic.I|]. apply (thief_pres s); [apply H6|cbn; lia|cbn; lia|]. intros u Hu Hu' _. cbn in Hu'. lia. }
  destruct (thieves s k) as [| |t|t|t a|t x] eqn:Et; intros E; try discriminate E; cbn [thief_inv] in Hk.
  - injection E as <- <-. apply Simple. cbn. lia.
  - destruct (Z.ltb_spec t (bottom s)) as [L|L]; injection E as <- <-; apply Simple; cbn [thief_inv]; auto. split; auto. intros _. apply Z.lt_le_trans with (bottom s); auto.
    unfold eb, own_inv in *. destruct (owner s); try lia. destruct H5 as (-> & _). destruct (_ =? _); lia.
  - injection E as <- <-. apply Simple. cbn [thief_inv]. destruct Hk as (A1 & A2). split; auto.
  - injection E as <- <-. apply Simple. cbn [thief_inv]. destruct Hk as (A1 & A0 & A2). split; auto.
  - destruct Hk as (A1 & A2). destruct (Z.eqb_spec (top s) t) as [Q|Q]; injection E as <- <-; [apply Take; auto; apply A2; auto|apply Simple; exact Logic.I].
Qed.
End P.
