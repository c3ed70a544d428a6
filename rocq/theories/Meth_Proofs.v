(** Lock-step simulation of the Bulirsch-Stoer and sequent iterators under a linear change of coordinates. *)
From Verif Require Export BS_Proofs3.
From Verif Require Import System_Spec Ctrl_Model Ctrl_Spec.
Open Scope R_scope.

Definition orel {A B} (Rr : A -> B -> Prop) (x : outcome A) (y : outcome B) : Prop :=
  match x, y with Ok a, Ok b => Rr a b | Abort, Abort => True | UB, UB => True | _, _ => False end.
Lemma orel_bind {A B A' B'} (Rr : A -> B -> Prop) (S : A' -> B' -> Prop) x y f g :
  orel Rr x y -> (forall a b, Rr a b -> orel S (f a) (g b)) -> orel S (obind x f) (obind y g).
Proof. destruct x, y; cbn; auto; contradiction. Qed.
Lemma orel_eq {A B} (Rr : A -> B -> Prop) {C} (x : outcome C) f g : (forall a, orel Rr (f a) (g a)) -> orel Rr (obind x f) (obind x g).
Proof. destruct x; cbn; auto. Qed.
Lemma orel_mono {A B} (Rr S : A -> B -> Prop) x y : (forall a b, Rr a b -> S a b) -> orel Rr x y -> orel S x y.
Proof. destruct x, y; cbn; auto. Qed.

Definition comb (c x y : R) : R := x + (x - y) * c.

Definition errQ (err : list R -> list R -> list R -> R) (T : list R -> list R) (a b c : list R) : R := err (T a) (T b) (T c).
Section Bisim.
  Context (M : nat) (kdk : bool) (P Q : Type) (wrP : P -> list R) (wrQ : Q -> list R) (rdP : P -> list R -> outcome P) (rdQ : Q -> list R -> outcome Q)
          (colP : P -> bool -> P) (colQ : Q -> bool -> Q) (runP : P -> R -> nat -> outcome (P * list R)) (runQ : Q -> R -> nat -> outcome (Q * list R))
          (err errq : list R -> list R -> list R -> R) (next lim : nat -> R -> R) (T : list R -> list R) (n : nat) (Rl Rf : P -> Q -> Prop).
  Notation N := (M + 1)%nat.
  Context (Tcomb : forall a b c, length a = n -> length b = n -> T (zipw (comb c) a b) = zipw (comb c) (T a) (T b))
          (Tplus : forall a b, length a = n -> length b = n -> T (zipw Rplus a b) = zipw Rplus (T a) (T b))
          (Hrd : forall p q y, Rl p q -> length y = n -> exists p' q', rdP p (T y) = Ok p' /\ rdQ q y = Ok q' /\ Rl p' q')
          (Hrun : forall p q h k, Rl p q -> (0 < k)%nat -> exists p' q' dy, runQ q h k = Ok (q', dy) /\ length dy = n /\ runP p h k = Ok (p', T dy) /\ Rl p' q')
          (Hcol : forall p q, Rl p q -> Rf (colP p false) (colQ q false))
          (Herr : forall a b c, length a = n -> length b = n -> length c = n -> err (T a) (T b) (T c) = errq a b c).

  Definition Trel (k : nat) (eP eQ : list (list R)) : Prop :=
    length eP = length eQ /\ forall j, (j < k)%nat -> (j < length eQ)%nat -> length (entry eQ j) = n /\ entry eP j = T (entry eQ j).
  Definition Brel (k : nat) (bP bQ : bs) : Prop := exists eP, bP = set_row bQ eP (b_ideal bQ) (b_cpl bQ) /\ Trel k eP (b_ext bQ).

  Lemma aget_oob {A} (l : list A) i : ~ (i < length l)%nat -> aget l i = UB.
  Proof. intros H. unfold aget. destruct (nth_error l i) eqn:E; auto. exfalso. apply H. apply nth_error_Some. congruence. Qed.
  Lemma aset_oob {A} (l : list A) i x : ~ (i < length l)%nat -> aset l i x = UB.
  Proof. intros H. unfold aset. destruct (Nat.ltb_spec i (length l)); auto; lia. Qed.
  Lemma trel_get k eP eQ j : Trel k eP eQ -> (j < k)%nat -> orel (fun a b => length b = n /\ a = T b) (aget eP j) (aget eQ j).
  Proof.
    intros (L & E) Hj. destruct (lt_dec j (length eQ)) as [H|H].
    - rewrite !aget_entry by lia. cbn. apply E; auto.
    - rewrite !aget_oob by lia. cbn. auto.
  Qed.
  Lemma list_set_len {A} (l : list A) i x : (i < length l)%nat -> length (list_set l i x) = length l.
  Proof. intros H. apply list_set_length; auto. Qed.
  Lemma trel_set k eP eQ j a b : Trel k eP eQ -> length b = n -> a = T b -> orel (fun x y => Trel k x y /\ (k = j -> Trel (S j) x y)) (aset eP j a) (aset eQ j b).
  Proof.
    intros (L & E) Lb Ea. destruct (lt_dec j (length eQ)) as [H|H].
    - rewrite !aset_ok by lia. cbn.
      assert (G : forall i, (i < k \/ i = j)%nat -> (i < length eQ)%nat -> length (entry (list_set eQ j b) i) = n /\ entry (list_set eP j a) i = T (entry (list_set eQ j b) i)).
      { intros i Hi Hl. destruct (Nat.eq_dec j i) as [->|Ne].
        - rewrite !entry_set_eq by lia. auto.
        - rewrite !entry_set_neq by auto. apply E; auto. destruct Hi; [auto|congruence]. }
      split; [|intros ->]; (split; [rewrite !list_set_len; lia|]; intros i Hi Hl; rewrite list_set_len in Hl by auto; apply G; auto; lia).
    - rewrite !aset_oob by lia. cbn. auto.
  Qed.
  Lemma extrap_sim k : forall j eP eQ, (j <= k)%nat -> Trel (S k) eP eQ -> orel (Trel (S k)) (extrap_loop N k j eP) (extrap_loop N k j eQ).
  Proof.
    induction j as [|j IH]; intros eP eQ Hj HT; cbn [extrap_loop]; [exact HT|].
    apply orel_eq. intros c. eapply orel_bind; [apply (trel_get _ _ _ (S j) HT); lia|]. intros a1 a2 (La & ->).
    eapply orel_bind; [apply (trel_get _ _ _ j HT); lia|]. intros b1 b2 (Lb & ->).
    eapply orel_bind; [apply (trel_set (S k) eP eQ j) with (b := zipw (comb c) a2 b2); auto|].
    - rewrite zipw_length; lia.
    - symmetry. apply Tcomb; auto.
    - intros x y (H1 & _). apply IH; auto. lia.
  Qed.
  Lemma row_table_sim k bP bQ input dy h : (1 <= k)%nat -> length input = n -> length dy = n -> Brel k bP bQ ->
    orel (fun x y => Brel (S k) (fst x) (fst y) /\ snd x = snd y)
         (row_table M kdk err next bP (T input) (T dy) h k) (row_table M kdk errq next bQ input dy h k).
  Proof.
    intros Hk Li Ld (eP & -> & HT). unfold row_table. cbn [set_row b_ext b_ideal b_cpl].
    eapply orel_bind; [apply (trel_set k _ _ k (T dy) dy HT Ld eq_refl)|]. intros x y (_ & Hx). specialize (Hx eq_refl).
    eapply orel_bind; [apply (extrap_sim k k x y (le_n _) Hx)|]. intros x' y' Hx'.
    eapply orel_bind; [apply (trel_get _ _ _ 1 Hx'); lia|]. intros a1 a2 (La & ->).
    eapply orel_bind; [apply (trel_get _ _ _ 0 Hx'); lia|]. intros b1 b2 (Lb & ->).
    rewrite (Herr input a2 b2) by auto. apply orel_eq. intros ideal. apply orel_eq. intros c. apply orel_eq. intros cpl.
    cbn. split; auto. exists x'. split; auto.
  Qed.
  Lemma set_next_sim b e k : set_next_iteration M kdk (set_row b e (b_ideal b) (b_cpl b)) k =
    obind (set_next_iteration M kdk b k) (fun '(b', h) => Ok (set_row b' e (b_ideal b') (b_cpl b'), h)).
  Proof.
    unfold set_next_iteration, with_step, get_next_step_len, set_rank. cbn [set_row b_ext b_ideal b_cpl b_last b_rank b_rej b_iter b_reject b_first].
    repeat (cbn [obind set_row set_rank b_ext b_ideal b_cpl b_last b_rank b_rej b_iter b_reject b_first];
      match goal with
      | |- context [if ?c then _ else _] => match c with context [if _ then _ else _] => fail 1 | _ => destruct c end
      | |- context [obind ?x _] => match x with context [obind _ _] => fail 1 | context [if _ then _ else _] => fail 1 | _ => destruct x end
      end); try reflexivity.
  Qed.
  Lemma diverged_sim b e x k : is_diverged_anyhow M (set_row b e (b_ideal b) (b_cpl b)) x k = is_diverged_anyhow M b x k.
  Proof. reflexivity. Qed.
  Definition Rres (x : bs * P * rowres) (y : bs * Q * rowres) : Prop :=
    snd x = snd y /\ Brel 0 (fst (fst x)) (fst (fst y)) /\
    match snd y with Accepted _ => Rf (snd (fst x)) (snd (fst y)) | _ => Rl (snd (fst x)) (snd (fst y)) end.
  Lemma brel_0 k x y : Brel k x y -> Brel 0 x y.
  Proof. intros (e & E & L & _). exists e. split; auto. split; auto. intros; lia. Qed.
  Lemma rows_sim input h : length input = n -> forall f k bP bQ p q, (1 <= k)%nat -> Brel k bP bQ -> Rl p q ->
    orel Rres (rows M kdk P rdP colP runP err next lim f k bP p (T input) h) (rows M kdk Q rdQ colQ runQ errq next lim f k bQ q input h).
  Proof.
    intros Li. induction f as [|f IH]; intros k bP bQ p q Hk HB HR; cbn [rows].
    { cbn. split; auto. split; auto. eapply brel_0; eauto. }
    destruct (Hrd p q input HR Li) as (p1 & q1 & -> & -> & R1). cbn [obind].
    unfold bs_h. destruct (Nat.ltb_spec k N) as [Hl|Hl]; [|cbn; auto]. cbn [obind].
    destruct (Hrun p1 q1 h (h_at N k) R1 (h_at_pos M _ (proj1 (Nat.lt_succ_r _ _) (eq_rect _ (fun x => (_ < x)%nat) Hl _ (Nat.add_1_r M))))) as (p2 & q2 & dy & -> & Ld & -> & R2). cbn [obind].
    eapply orel_bind; [apply row_table_sim; eauto|]. intros [b1 e1] [b2 e2] (HB1 & He). cbn [fst snd] in *. subst e2.
    destruct HB1 as (eP & -> & HT).
    assert (HB2 : Brel (S k) (set_row b2 eP (b_ideal b2) (b_cpl b2)) b2) by (exists eP; auto).
    assert (Hrec : orel Rres (rows M kdk P rdP colP runP err next lim f (S k) (set_row b2 eP (b_ideal b2) (b_cpl b2)) p2 (T input) h)
                             (rows M kdk Q rdQ colQ runQ errq next lim f (S k) b2 q2 input h)) by (apply IH; auto).
    change (in_converged_window (set_row b2 eP (b_ideal b2) (b_cpl b2)) k) with (in_converged_window b2 k).
    destruct (in_converged_window b2 k); [|exact Hrec]. destruct (Rle_dec e1 1).
    - cbn [set_row b_ext]. eapply orel_bind; [apply (trel_get _ _ _ 0 HT); lia|]. intros x0 y0 (L0 & ->).
      rewrite <- Tplus by auto. destruct (Hrd p2 q2 (zipw Rplus input y0) R2) as (p3 & q3 & -> & -> & R3); [rewrite zipw_length; lia|]. cbn [obind].
      change (accept1 (set_row b2 eP (b_ideal b2) (b_cpl b2)) e1) with (set_row (accept1 b2 e1) eP (b_ideal (accept1 b2 e1)) (b_cpl (accept1 b2 e1))).
      rewrite set_next_sim. destruct (set_next_iteration M kdk (accept1 b2 e1) k) as [[b3 nh]| |] eqn:E; cbn; auto.
      split; auto. split; [|apply Hcol; auto]. exists eP. split; [reflexivity|].
      destruct (set_next_shape M kdk _ _ _ _ E) as (r' & ->). cbn [not_first set_rank b_ext accept1]. split; [apply HT|]. intros; lia.
    - rewrite diverged_sim. apply orel_eq. intros d. destruct d; [|exact Hrec].
      change (reject1 (set_row b2 eP (b_ideal b2) (b_cpl b2))) with (set_row (reject1 b2) eP (b_ideal (reject1 b2)) (b_cpl (reject1 b2))).
      rewrite set_next_sim. destruct (set_next_iteration M kdk (reject1 b2) k) as [[b3 nh]| |] eqn:E; cbn; auto.
      split; auto. split; [|auto]. exists eP. split; [reflexivity|].
      destruct (set_next_shape M kdk _ _ _ _ E) as (r' & ->). cbn [set_rank b_ext reject1]. split; [apply HT|]. intros; lia.
  Qed.
  Definition Rit (x : bs * P * R) (y : bs * Q * R) : Prop := snd x = snd y /\ Brel 0 (fst (fst x)) (fst (fst y)) /\ Rf (snd (fst x)) (snd (fst y)).
  Lemma attempts_sim input : length input = n -> forall t bP bQ p q h, Brel 0 bP bQ -> Rl p q ->
    orel Rit (attempts M kdk P rdP colP runP err next lim t bP p (T input) h) (attempts M kdk Q rdQ colQ runQ errq next lim t bQ q input h).
  Proof.
    intros Li. induction t as [|t IH]; intros bP bQ p q h HB HR; cbn [attempts]; [exact Logic.I|].
    unfold bs_h. destruct (Nat.ltb_spec 0 N) as [Hl|Hl]; [|cbn; auto]. cbn [obind].
    destruct (Hrun p q h (h_at N 0) HR (h_at_pos M _ (proj1 (Nat.lt_succ_r _ _) (eq_rect _ (fun x => (_ < x)%nat) Hl _ (Nat.add_1_r M))))) as (p2 & q2 & dy & -> & Ld & -> & R2). cbn [obind].
    destruct HB as (eP & -> & HT).
    change (b_ext (count_try (set_row bQ eP (b_ideal bQ) (b_cpl bQ)))) with eP. change (b_ext (count_try bQ)) with (b_ext bQ).
    eapply orel_bind; [apply (trel_set 0 _ _ 0 (T dy) dy HT Ld eq_refl)|]. intros x y (_ & Hx). specialize (Hx eq_refl).
    eapply orel_bind.
    - apply (rows_sim input h Li (b_rank bQ + 1) 1); [lia| |exact R2]. exists x. split; [reflexivity|]. exact Hx.
    - intros [[b1 p3] r1] [[b2 q3] r2] (E & HB & HR3). cbn [fst snd] in *. subst r2. destruct r1.
      + destruct (Hrd p3 q3 input HR3 Li) as (p4 & q4 & -> & -> & R4). cbn [obind]. apply IH; auto.
      + cbn. split; auto.
      + destruct (Hrd p3 q3 input HR3 Li) as (p4 & q4 & -> & -> & R4). cbn [obind]. apply IH; auto.
  Qed.
  (** One call of the iterator. *)
  Lemma iterate_sim t bP bQ p q h : Brel 0 bP bQ -> wrP p = T (wrQ q) -> length (wrQ q) = n -> Rl (colP p true) (colQ q true) ->
    orel Rit (iterate t M kdk P wrP rdP colP runP err next lim bP p h) (iterate t M kdk Q wrQ rdQ colQ runQ errq next lim bQ q h).
  Proof. intros HB E L HR. unfold iterate. cbv zeta. rewrite E. apply attempts_sim; auto. Qed.
End Bisim.
