(** The invariant of the parallel loops: every element is called, held by one task, or still to be handed out. *)
From Coq Require Import ZArith List Bool Lia.
From Verif Require Import Tfe_Model Tfe_Spec.
Import ListNotations.
Open Scope Z_scope.
Inductive kind := KA | KB | KC.
Definition val (c : cfg) (i : Z) : Z := beg c + i * inc c.
Definition b2z (b : bool) : Z := if b then 1 else 0.
Definition CF (kd : kind) (c : cfg) : Prop :=
  0 <= N c /\ 0 <= chunk c /\ 0 <= W c /\ (kd <> KB -> 1 <= chunk c) /\ N c + (W c + 1) * (chunk c + 1) < 2 ^ 64 /\ (iter c = true -> beg c = 0 /\ inc c = 1).
Definition good (kd : kind) (c : cfg) (n : Z) (w : task) : Prop :=
  match at_ w with
  | Load | Fine => kd = KA /\ (iter c = true -> pos w = z w /\ 0 <= z w <= n)
  | Cas s0 => kd = KA /\ 0 <= s0 <= n /\ s0 < N c /\ (iter c = true -> pos w = z w /\ 0 <= z w <= s0)
  | Even items => kd = KB /\ 1 <= items /\ (iter c = true -> pos w = 0 /\ z w = 0)
  | First => kd = KC /\ (iter c = true -> pos w = 0 /\ z w = 0)
  | Run x e0 k =>
      0 <= x /\ x <= e0 /\ e0 <= N c /\ pos w = val c x /\
      match k with
      | KLoad | KFine => kd = KA /\ e0 <= n
      | KDone => kd = KB
      | KTrip s0 => kd = KC /\ iter c = false /\ 0 <= s0 < N c /\ s0 <= x /\ e0 = Z.min (s0 + chunk c) (N c)
      end
  | Items k s0 => kd = KC /\ iter c = true /\ 0 <= s0 < N c /\ z w = s0 /\ pos w = s0 + k /\ 0 <= k <= chunk c /\ pos w <= N c
  | Done => kd = KA -> N c <= n
  end.
Definition owed (c : cfg) (s0 x i : Z) : bool := (x <=? i) && (s0 <=? i) && ((i - s0) mod (W c * chunk c) <? chunk c) && (i <? N c).
Definition pend (c : cfg) (w : task) (i : Z) : Z :=
  match at_ w with
  | Run x e0 (KTrip s0) => b2z (owed c s0 x i)
  | Run x e0 _ => b2z ((x <=? i) && (i <? e0))
  | Items k s0 => b2z (owed c s0 (s0 + k) i)
  | _ => 0
  end.
Definition unc (kd : kind) (c : cfg) (n i : Z) : Z :=
  b2z ((match kd with KC => n <=? i mod (W c * chunk c) | _ => n <=? i end) && (0 <=? i) && (i <? N c)).
Definition toclaim (c : cfg) (w : task) : Z := match at_ w with Even items => items | First => chunk c | _ => 0 end.
Definition cnt (l : list Z) (i : Z) : Z := Z.of_nat (count_occ Z.eq_dec l i).
Definition bound (kd : kind) (c : cfg) (n : Z) (w : task) : Prop :=
  match kd with KA => n + chunk c < 2 ^ 64 | KB => n + toclaim c w <= N c | KC => 0 < toclaim c w -> n + chunk c <= W c * chunk c /\ n < N c end.

Lemma u64_small x : 0 <= x < 2 ^ 64 -> u64 x = x.
Proof. intros; apply Z.mod_small; auto. Qed.
Lemma cnt_nil i : cnt [] i = 0.
Proof. reflexivity. Qed.
Lemma cnt_one x i : cnt [x] i = b2z (x =? i).
Proof. unfold cnt; cbn; destruct (Z.eq_dec x i); destruct (Z.eqb_spec x i); auto; congruence. Qed.
Lemma cnt_app l m i : cnt (l ++ m) i = cnt l i + cnt m i.
Proof. unfold cnt; rewrite count_occ_app; lia. Qed.

Ltac bz := repeat match goal with
  | |- context [?a <=? ?b] => destruct (Z.leb_spec a b)
  | |- context [?a <? ?b] => destruct (Z.ltb_spec a b)
  | |- context [?a =? ?b] => destruct (Z.eqb_spec a b) end; cbn [b2z andb]; try lia.

Lemma mod_far T s0 ck i : 0 <= s0 -> s0 + ck <= T -> 1 <= ck -> 0 <= i -> (s0 <= i mod T < s0 + ck <-> s0 <= i /\ (i - s0) mod T < ck).
Proof.
  intros Hs Ht Hc Hi. assert (HT : 0 < T) by lia.
  pose proof (Z.div_mod i T ltac:(lia)) as D. pose proof (Z.mod_pos_bound i T HT) as B.
  set (a := i / T) in *. set (b := i mod T) in *.
  destruct (Z.le_gt_cases s0 b) as [L|L].
  - assert (E : (i - s0) mod T = b - s0).
    { symmetry; apply (Z.mod_unique_pos (i - s0) T a); lia. }
    rewrite E. split; intros; [split|]; try lia. assert (0 <= a) by (unfold a; apply Z.div_pos; lia). nia.
  - assert (E : (i - s0) mod T = T + b - s0).
    { symmetry; apply (Z.mod_unique_pos (i - s0) T (a - 1)); lia. }
    rewrite E. lia.
Qed.
Lemma owed_next c s0 i : 0 <= s0 -> 1 <= chunk c -> 1 <= W c -> owed c s0 (s0 + chunk c) i = owed c (s0 + W c * chunk c) (s0 + W c * chunk c) i.
Proof.
  intros Hs Hc Hw. unfold owed. set (T := W c * chunk c). assert (HT : chunk c <= T) by (unfold T; nia).
  replace (i - (s0 + T)) with (i - s0 + (-1) * T) by lia. rewrite Z.mod_add by lia.
  destruct (Z.ltb_spec i (s0 + T)) as [L|L].
  - destruct (Z.leb_spec (s0 + chunk c) i); [|bz; reflexivity].
    rewrite Z.mod_small by lia. bz; reflexivity.
  - bz; reflexivity.
Qed.
Lemma owed_over c s0 x i : N c <= x -> b2z (owed c s0 x i) = 0.
Proof. intros; unfold owed; bz; destruct ((i - s0) mod (W c * chunk c) <? chunk c); cbn; auto; lia. Qed.
Lemma owed_in c s0 x i : s0 <= x -> x < s0 + chunk c -> x < N c -> 1 <= chunk c -> 1 <= W c ->
  b2z (owed c s0 x i) = b2z (x =? i) + b2z (owed c s0 (x + 1) i).
Proof.
  intros. unfold owed. destruct (Z.eqb_spec x i) as [->|Ne].
  - rewrite (Z.mod_small (i - s0)) by (split; [lia|nia]). bz.
  - bz; destruct ((i - s0) mod (W c * chunk c) <? chunk c); cbn; lia.
Qed.

Lemma good_mono kd c n n' w : n <= n' -> good kd c n w -> good kd c n' w.
Proof.
  unfold good; intros L; destruct (at_ w) as [| | | | |x e0 [| | |]| |]; intuition lia.
Qed.

Definition did kd c n w w' n' calls : Prop :=
  good kd c n' w' /\ n <= n' /\ (exists idx, calls = map (val c) idx /\ forall i, cnt idx i + pend c w' i + unc kd c n' i = pend c w i + unc kd c n i)
  /\ (kd <> KA -> n' + toclaim c w' = n + toclaim c w)
  /\ (kd = KA -> n' <= Z.max n (N c + chunk c) \/ (at_ w' = Done /\ n' = n + chunk c)).

Lemma decide_did c n w : CF KA c -> 0 <= n -> (iter c = true -> pos w = z w /\ 0 <= z w <= n) -> (forall i, pend c w i = 0) ->
  did KA c n w (mkW (decide c n) (pos w) (z w)) n [].
Proof.
  intros F Hn Hc Hp. unfold did. split; [|split; [lia|split; [|split; [congruence|left; lia]]]].
  - unfold decide, good. bz; cbn [at_ pos z]; intuition lia.
  - exists []. split; auto. intros i. rewrite Hp, cnt_nil. unfold pend, decide. bz; cbn [at_]; lia.
Qed.

Lemma wstep_did kd c q w n : CF kd c -> (kd = KC -> 1 <= W c) -> 0 <= q -> 0 <= n -> good kd c n w -> bound kd c n w ->
  did kd c n w (fst (fst (wstep c q w n))) (snd (fst (wstep c q w n))) (snd (wstep c q w n)).
Proof.
  intros (HN & HC & HW & HC1 & HF & HI) HW1 Hq Hn G B. unfold wstep, good in *.
  assert (HT : 0 <= W c * chunk c) by nia. assert (HT2 : W c * chunk c + chunk c + N c < 2 ^ 64) by nia.
  assert (HTr : trip c = W c * chunk c) by (apply u64_small; lia).
  destruct (at_ w) as [|s0| |items| |x e0 k|k s0|] eqn:A.
  - (* Load *) destruct G as [-> G]. cbn [fst snd]. apply decide_did; unfold CF; auto 10.
    intros; unfold pend; rewrite A; auto.
  - (* Cas *) destruct G as (-> & S1 & S2 & G). specialize (HC1 ltac:(discriminate)). destruct (Z.eqb_spec n s0) as [->|Ne]; cbn [fst snd].
    + set (q' := if q <? chunk c then chunk c else q). assert (Q : chunk c <= q') by (unfold q'; destruct (Z.ltb_spec q (chunk c)); lia).
      set (e0 := if q' <=? N c - s0 then s0 + q' else N c). assert (E : s0 < e0 <= N c) by (unfold e0; destruct (Z.leb_spec q' (N c - s0)); lia).
      clearbody e0. unfold did. split; [|split; [lia|split; [|split; [congruence|intros _; left; lia]]]].
      * unfold good; cbn [at_ pos]. repeat split; try lia. unfold seek, val. destruct (iter c); [|lia]. destruct (HI eq_refl) as [-> ->]; destruct (G eq_refl); lia.
      * exists []. split; auto. intros i. rewrite cnt_nil. unfold pend, unc; rewrite A; cbn [at_]. bz.
    + apply decide_did; unfold CF; auto 10. * intros I; specialize (G I); lia. * intros; unfold pend; rewrite A; auto.
  - (* Fine *) destruct G as (-> & G). specialize (HC1 ltac:(discriminate)). cbn in B. rewrite u64_small by lia.
    destruct (Z.leb_spec (N c) n) as [L|L]; cbn [fst snd]; unfold did.
    + split; [|split; [lia|split; [|split; [congruence|intros _; right; cbn; auto]]]].
      * unfold good; cbn [at_]; intros; lia.
      * exists []. split; auto. intros i. rewrite cnt_nil. unfold pend, unc; rewrite A; cbn [at_]. bz.
    + set (e0 := if chunk c <=? N c - n then n + chunk c else N c). assert (E : n < e0 <= N c /\ e0 = Z.min (n + chunk c) (N c)) by (unfold e0; destruct (Z.leb_spec (chunk c) (N c - n)); lia).
      clearbody e0. split; [|split; [lia|split; [|split; [congruence|intros _; left; lia]]]].
      * unfold good; cbn [at_ pos]. repeat split; try lia. unfold seek, val. destruct (iter c); [|lia]. destruct (HI eq_refl) as [-> ->]; destruct (G eq_refl); lia.
      * exists []. split; auto. intros i. rewrite cnt_nil. unfold pend, unc; rewrite A; cbn [at_]. bz.
  - (* Even *) destruct G as (-> & S1 & G). cbn in B. unfold toclaim in B; rewrite A in B. rewrite u64_small by lia. cbn [fst snd]. unfold did.
    split; [|split; [lia|split; [|split; [|discriminate]]]].
    + unfold good; cbn [at_ pos]. repeat split; try lia. unfold seek, val. destruct (iter c); [|lia]. destruct (HI eq_refl) as [-> ->]; destruct (G eq_refl); lia.
    + exists []. split; auto. intros i. rewrite cnt_nil. unfold pend, unc; rewrite A; cbn [at_]. bz.
    + intros _. unfold toclaim; rewrite A; cbn [at_]. lia.
  - (* First *) destruct G as (-> & G). specialize (HC1 ltac:(discriminate)). specialize (HW1 eq_refl). cbn in B. unfold toclaim in B; rewrite A in B. destruct (B ltac:(lia)) as [B1 B2].
    assert (Hcount : forall i, b2z (owed c n n i) + unc KC c (n + chunk c) i = unc KC c n i).
    { intros i. unfold owed, unc. destruct (Z.leb_spec 0 i) as [P|P]; [|bz].
      pose proof (mod_far (W c * chunk c) n (chunk c) i ltac:(lia) ltac:(lia) ltac:(lia) P) as M.
      pose proof (Z.mod_pos_bound i (W c * chunk c) ltac:(nia)) as MB.
      destruct (Z.ltb_spec i (N c)); [|bz; destruct ((i - n) mod (W c * chunk c) <? chunk c); reflexivity].
      bz; cbn; try lia. }
    rewrite u64_small by lia. destruct (iter c) eqn:I; cbn [fst snd]; unfold did.
    + assert (SK : seek c w n = n) by (unfold seek; rewrite I; destruct (G eq_refl); lia). rewrite SK.
      split; [|split; [lia|split; [|split; [|discriminate]]]].
      * unfold good; cbn [at_ pos z]. repeat split; auto; try lia.
      * exists []. split; auto. intros i. rewrite cnt_nil. unfold pend at 1 2; rewrite A; cbn [at_]. rewrite Z.add_0_r. specialize (Hcount i); lia.
      * intros _. unfold toclaim; rewrite A; cbn [at_]. lia.
    + unfold turn. rewrite u64_small by lia. split; [|split; [lia|split; [|split; [|discriminate]]]].
      * unfold good; cbn [at_ pos]. assert (E : (if N c <? n + chunk c then N c else n + chunk c) = Z.min (n + chunk c) (N c)) by (destruct (Z.ltb_spec (N c) (n + chunk c)); lia).
        rewrite E. repeat split; auto; try lia. unfold seek, val; rewrite I; lia.
      * exists []. split; auto. intros i. rewrite cnt_nil. unfold pend at 1 2; rewrite A; cbn [at_]. specialize (Hcount i); lia.
      * intros _. unfold toclaim; rewrite A; cbn [at_]. lia.
  - (* Run *) destruct G as (S1 & S2 & S3 & P & G).
    assert (WC : forall s0, k = KTrip s0 -> 1 <= chunk c /\ 1 <= W c).
    { intros s0 ->. destruct G as (-> & _). split; [apply HC1; discriminate|apply HW1; auto]. }
    destruct (Z.ltb_spec x e0) as [L|L]; cbn [fst snd].
    + unfold did. split; [|split; [lia|split; [|split; [|left; lia]]]].
      * unfold good; cbn [at_ pos]. repeat split; try lia.
        { rewrite P. unfold val. destruct (iter c); [destruct (HI eq_refl) as [-> ->]|]; lia. }
        destruct k; auto. intuition lia.
      * exists [x]. split; [cbn; rewrite P; auto|]. intros i. rewrite cnt_one. unfold pend; rewrite A; cbn [at_].
        destruct k as [| | |s0].
        1-3: bz.
        destruct (WC _ eq_refl). destruct G as (_ & _ & G1 & G2 & G3). rewrite (owed_in c s0 x i) by lia. lia.
      * intros _. unfold toclaim; rewrite A; cbn [at_]. lia.
    + assert (x = e0) by lia; subst x.
      assert (Z0 : forall k', (forall s0, k' <> KTrip s0) -> forall p zz kd' i, at_ w = Run e0 e0 k' -> cnt [] i + pend c (mkW kd' p zz) i + unc kd c n i = pend c w i + unc kd c n i \/ pend c (mkW kd' p zz) i <> 0).
      { intros k' Hk p zz kd' i Aw. destruct (Z.eq_dec (pend c (mkW kd' p zz) i) 0) as [E|E]; [|right; auto]. left. rewrite E, cnt_nil.
        unfold pend; rewrite Aw. destruct k'; try (bz; fail). destruct (Hk s0); auto. }
      destruct k as [| | |s0]; cbn [fst snd].
      * destruct G as [-> G]. unfold did. split; [|split; [lia|split; [|split; [congruence|left; lia]]]].
        { unfold good; cbn [at_ pos z]. split; auto. intros I. rewrite P. unfold val. destruct (HI I) as [-> ->]; lia. }
        exists []. split; auto. intros i. rewrite cnt_nil. unfold pend; rewrite A; cbn [at_]. bz.
      * destruct G as [-> G]. unfold did. split; [|split; [lia|split; [|split; [congruence|left; lia]]]].
        { unfold good; cbn [at_ pos z]. split; auto. intros I. rewrite P. unfold val. destruct (HI I) as [-> ->]; lia. }
        exists []. split; auto. intros i. rewrite cnt_nil. unfold pend; rewrite A; cbn [at_]. bz.
      * subst kd. unfold did. split; [|split; [lia|split; [|split; [|discriminate]]]].
        { unfold good; cbn [at_ pos z]. discriminate. }
        { exists []. split; auto. intros i. rewrite cnt_nil. unfold pend; rewrite A; cbn [at_]. bz. }
        intros _. unfold toclaim; rewrite A; cbn [at_]. lia.
      * destruct (WC _ eq_refl) as [WC1 WC2]. destruct G as (-> & I & G1 & G2 & G3). unfold after_turn.
        assert (OV : forall i, owed c s0 (s0 + chunk c) i = owed c s0 e0 i \/ N c <= e0).
        { intros i. destruct (Z.eq_dec e0 (N c)); [right; lia|left; replace e0 with (s0 + chunk c) by lia; auto]. }
        assert (FIN : (forall i, b2z (owed c s0 e0 i) = 0) -> did KC c n w (mkW Done (pos w) (z w)) n []).
        { intros FZ. unfold did. split; [|split; [lia|split; [|split; [|discriminate]]]].
          - unfold good; cbn [at_]. discriminate.
          - exists []. split; auto. intros i. rewrite cnt_nil. unfold pend; rewrite A; cbn [at_]. rewrite FZ; lia.
          - intros _. unfold toclaim; rewrite A; cbn [at_]. lia. }
        destruct (Z.eqb_spec e0 (N c)) as [E|E].
        { apply FIN. intros; apply owed_over; lia. }
        rewrite HTr. rewrite u64_small by lia.
        assert (EQ : e0 = s0 + chunk c) by lia. clear G3. subst e0.
        destruct (Z.leb_spec (N c) (s0 + W c * chunk c)) as [L2|L2].
        { apply FIN. intros. rewrite owed_next by lia. apply owed_over; lia. }
        unfold turn. rewrite u64_small by lia. unfold did. split; [|split; [lia|split; [|split; [|discriminate]]]].
        { unfold good; cbn [at_ pos]. set (s1 := s0 + W c * chunk c) in *. assert (0 <= s1) by (unfold s1; lia).
          assert (E1 : (if N c <? s1 + chunk c then N c else s1 + chunk c) = Z.min (s1 + chunk c) (N c)) by (destruct (Z.ltb_spec (N c) (s1 + chunk c)); lia).
          rewrite E1. repeat split; auto; try lia. unfold seek, val; rewrite I; lia. }
        { exists []. split; auto. intros i. rewrite cnt_nil. unfold pend; rewrite A; cbn [at_]. rewrite (owed_next c s0 i) by lia. lia. }
        intros _. unfold toclaim; rewrite A; cbn [at_]. lia.
  - (* Items *) destruct G as (-> & I & G1 & G2 & G3 & G4 & G5). specialize (HC1 ltac:(discriminate)). specialize (HW1 eq_refl).
    destruct (HI I) as [HB HIn].
    destruct (Z.ltb_spec k (chunk c)) as [L|L]; cbn [andb].
    + destruct (Z.eqb_spec (pos w) (N c)) as [E|E]; cbn [negb].
      * replace (k =? chunk c) with false by (symmetry; apply Z.eqb_neq; lia). cbn [negb orb fst snd].
        unfold did. split; [|split; [lia|split; [|split; [|discriminate]]]].
        { unfold good; cbn [at_]. discriminate. }
        { exists []. split; auto. intros i. rewrite cnt_nil. unfold pend; rewrite A; cbn [at_]. rewrite owed_over by lia; lia. }
        intros _. unfold toclaim; rewrite A; cbn [at_]. lia.
      * cbn [fst snd]. unfold did. split; [|split; [lia|split; [|split; [|discriminate]]]].
        { unfold good; cbn [at_ pos z]. repeat split; auto; lia. }
        { exists [s0 + k]. split; [cbn; f_equal; unfold val; rewrite HB, HIn; lia|]. intros i. rewrite cnt_one. unfold pend; rewrite A; cbn [at_].
          rewrite (owed_in c s0 (s0 + k) i) by lia. rewrite Z.add_assoc. lia. }
        intros _. unfold toclaim; rewrite A; cbn [at_]. lia.
    + assert (k = chunk c) by lia. subst k. rewrite Z.eqb_refl. cbn [negb orb]. rewrite HTr. rewrite u64_small by lia.
      destruct (Z.leb_spec (N c) (s0 + W c * chunk c)) as [L2|L2]; cbn [fst snd]; unfold did; (split; [|split; [lia|split; [|split; [|discriminate]]]]).
      * unfold good; cbn [at_]. discriminate.
      * exists []. split; auto. intros i. rewrite cnt_nil. unfold pend; rewrite A; cbn [at_]. rewrite owed_next by lia. rewrite owed_over by lia; lia.
      * intros _. unfold toclaim; rewrite A; cbn [at_]. lia.
      * unfold good; cbn [at_ pos z]. repeat split; auto; lia.
      * exists []. split; auto. intros i. rewrite cnt_nil. unfold pend; rewrite A; cbn [at_]. rewrite (owed_next c s0 i) by lia. rewrite Z.add_0_r. lia.
      * intros _. unfold toclaim; rewrite A; cbn [at_]. lia.
  - (* Done *) cbn [fst snd]. unfold did. split; [unfold good; rewrite A; auto|split; [lia|split; [|split; [lia|left; lia]]]].
    exists []. split; auto.
Qed.
