(** The invariant of the parallel reductions: every element is in the result, in the sum of one task, held by one task, or still to be handed out. *)
From Coq Require Import ZArith List Bool Lia Permutation.
From Verif Require Import Tre_Model Tre_Spec.
Import ListNotations.
Open Scope Z_scope.
Inductive kind := KA | KB.
Definition b2z (b : bool) : Z := if b then 1 else 0.
Definition cnt (l : list Z) (i : Z) : Z := Z.of_nat (count_occ Z.eq_dec l i).
Lemma u64_small x : 0 <= x < 2 ^ 64 -> u64 x = x.
Proof. intros; apply Z.mod_small; auto. Qed.
Lemma cnt_nil i : cnt [] i = 0.
Proof. reflexivity. Qed.
Lemma cnt_one x i : cnt [x] i = b2z (x =? i).
Proof. unfold cnt; cbn; destruct (Z.eq_dec x i); destruct (Z.eqb_spec x i); auto; congruence. Qed.
Lemma cnt_app l m i : cnt (l ++ m) i = cnt l i + cnt m i.
Proof. unfold cnt; rewrite count_occ_app; lia. Qed.
Lemma cnt_nonneg l i : 0 <= cnt l i.
Proof. unfold cnt; lia. Qed.
Lemma cnt_cons x l i : cnt (x :: l) i = b2z (x =? i) + cnt l i.
Proof. change (x :: l) with ([x] ++ l). rewrite cnt_app, cnt_one. auto. Qed.
Lemma b2z_01 b : 0 <= b2z b <= 1.
Proof. destruct b; cbn; lia. Qed.
Ltac bz := repeat match goal with
  | |- context [?a <=? ?b] => destruct (Z.leb_spec a b)
  | |- context [?a <? ?b] => destruct (Z.ltb_spec a b)
  | |- context [?a =? ?b] => destruct (Z.eqb_spec a b) end; cbn [b2z andb]; try lia.
Section Proofs.
Variable A : Type.
Variable o : A -> A -> A.
Variable v : Z -> A.
Hypothesis assoc : associative o.
Variable init : A.
Definition red (a : A) (l : list Z) : A := fold_left (fun a i => o a (v i)) l a.
Definition issum (x : A) (g : list Z) : Prop := exists h t, g = h :: t /\ x = red (v h) t.
Lemma red_app a l m : red a (l ++ m) = red (red a l) m.
Proof. apply fold_left_app. Qed.
Lemma red_o a b l : red (o a b) l = o a (red b l).
Proof. revert b. induction l as [|x l IH]; intros b; cbn; auto. rewrite <- assoc. apply IH. Qed.
Lemma red_sum a x g : issum x g -> red a g = o a x.
Proof. intros (h & t & -> & ->). cbn. apply red_o. Qed.
Lemma issum_snoc x g i : issum x g -> issum (o x (v i)) (g ++ [i]).
Proof. intros (h & t & -> & ->). exists h, (t ++ [i]). split; auto. rewrite red_app. reflexivity. Qed.
Definition CF (kd : kind) (c : cfg) : Prop := 0 <= N c /\ 0 <= C c /\ 0 <= W c /\ (kd = KA -> 1 <= C c) /\ N c + (W c + 1) * (C c + 2) < 2 ^ 64.
Definition good (kd : kind) (c : cfg) (n : Z) (w : task A) (g : list Z) : Prop :=
  match at_ A w with
  | Start _ => kd = KA /\ pos A w = 0 /\ g = []
  | Even _ items => kd = KB /\ 1 <= items /\ pos A w = 0 /\ g = []
  | Load _ | Fine _ => kd = KA /\ pos A w = z A w /\ 0 <= z A w <= n /\ issum (sum A w) g
  | Cas _ s0 => kd = KA /\ 0 <= s0 <= n /\ s0 < N c /\ pos A w = z A w /\ 0 <= z A w <= s0 /\ issum (sum A w) g
  | Run _ x e0 k => 0 <= x /\ x <= e0 /\ e0 <= N c /\ pos A w = x /\ issum (sum A w) g /\ match k with KLoad | KFine => kd = KA /\ e0 <= n | KEnd => kd = KB end
  | Seq _ => kd = KB /\ 0 <= pos A w <= N c /\ g = []
  | Want _ | Got _ | Put _ _ => issum (sum A w) g /\ (kd = KA -> N c <= n)
  | Rel _ | Done _ => g = [] /\ (kd = KA -> N c <= n)
  end.
Definition pend (c : cfg) (w : task A) (i : Z) : Z :=
  match at_ A w with Run _ x e0 _ => b2z ((x <=? i) && (i <? e0)) | Seq _ => b2z ((pos A w <=? i) && (i <? N c)) | _ => 0 end.
Definition unc (c : cfg) (n i : Z) : Z := b2z ((n <=? i) && (0 <=? i) && (i <? N c)).
Definition toclaim (w : task A) : Z := match at_ A w with Even _ items => items | _ => 0 end.
Definition hold (w : task A) : Z := match at_ A w with Seq _ | Got _ | Put _ _ | Rel _ => 1 | _ => 0 end.
Definition past (w : task A) : Z := match at_ A w with Want _ | Got _ | Put _ _ | Rel _ | Done _ => 1 | _ => 0 end.
Lemma past_01 w : 0 <= past w <= 1.
Proof. unfold past; destruct (at_ A w); lia. Qed.
Definition putok (r : A) (w : task A) : Prop := match at_ A w with Put _ y => y = o r (sum A w) | _ => True end.
Definition bound (kd : kind) (c : cfg) (n : Z) (w : task A) : Prop := match kd with KA => past w = 0 -> n + C c + 2 < 2 ^ 64 | KB => n + toclaim w <= N c end.
Lemma good_mono kd c n n' w g : n <= n' -> good kd c n w g -> good kd c n' w g.
Proof. unfold good; intros L; destruct (at_ A w) as [| | | | |x e0 [| |]| | | | | |]; intuition lia. Qed.
Definition did kd c n r k (w : task A) g w' n' r' k' g' dx : Prop :=
  good kd c n' w' g' /\ n <= n' /\ red r dx = r' /\ (forall i, cnt dx i + cnt g' i + pend c w' i + unc c n' i = cnt g i + pend c w i + unc c n i)
  /\ (dx = [] \/ hold w = 1) /\ hold w' + b2z k = hold w + b2z k' /\ putok r' w' /\ (kd = KB -> n' + toclaim w' = n + toclaim w)
  /\ (kd = KA -> (n' <= Z.max n (N c + C c + 2) /\ past w <= past w') \/ (past w = 0 /\ past w' = 1 /\ n' <= n + C c + 2)).
Lemma decide_did c n r k w g p : CF KA c -> 0 <= n -> pos A w = z A w -> 0 <= z A w <= n -> issum (sum A w) g -> at_ A w = p -> (p = Load A \/ exists s0, p = Cas A s0) ->
  did KA c n r k w g (mkW A (decide A c n) (pos A w) (z A w) (sum A w)) n r k g [].
Proof.
  intros F Hn P Z1 S E Hp. unfold did.
  assert (X : pend c w = (fun _ => 0) /\ hold w = 0 /\ past w = 0) by (unfold pend, hold, past; rewrite E; destruct Hp as [->|[s0 ->]]; auto).
  destruct X as (X1 & X2 & X3). rewrite X1, X2, X3. repeat split; auto; try lia.
  - unfold decide, good. bz; cbn [at_ pos z sum]; intuition lia.
  - intros i. rewrite cnt_nil. unfold pend, decide. bz; cbn [at_]; lia.
  - unfold hold, decide. bz; cbn [at_]; lia.
  - unfold putok, decide. bz; cbn [at_]; auto.
  - discriminate.
  - intros _. left. split; [lia|]. destruct (past_01 (mkW A (decide A c n) (pos A w) (z A w) (sum A w))); lia.
Qed.
Ltac fin E := unfold hold, past, toclaim, putok, pend, unc; rewrite ?E; cbn [at_ sum].
Lemma wstep_did kd c q w n r k w' n' r' k' g : CF kd c -> 0 <= q -> 0 <= n -> good kd c n w g -> bound kd c n w -> putok r w ->
  (hold w = 1 -> k = true) ->
  wstep A o v c q w n r k = Some (w', n', r', k') -> exists g' dx, did kd c n r k w g w' n' r' k' g' dx.
Proof.
  intros F Hq Hn G B P HL E. pose proof F as (HN & HC & HW & HC1 & HF). assert (HP : 0 <= W c * (C c + 2)) by nia.
  unfold wstep, good in *. destruct (at_ A w) as [| |s0| |items|x e0 j| | | |y| |] eqn:Aw.
  - (* Start *) destruct G as (-> & P0 & ->). specialize (HC1 eq_refl). assert (BB : n + C c + 2 < 2 ^ 64) by (apply B; unfold past; rewrite Aw; auto).
    rewrite P0, Z.add_0_l in E. rewrite u64_small in E by lia.
    destruct (Z.leb_spec (N c) n); [|destruct (Z.eqb_spec (N c - n) 1)]; injection E as <- <- <- <-.
    + exists [], []. unfold did, good; cbn [at_]. fin Aw. repeat split; auto; try lia. 1: intros i; rewrite cnt_nil; bz. discriminate.
    + exists [n], []. unfold did, good; cbn [at_ sum]. fin Aw. repeat split; auto; try lia.
      * exists n, []. auto.
      * intros i. rewrite cnt_nil, cnt_one. bz.
      * discriminate.
    + exists [n; n + 1], []. unfold did. split; [|split; [lia|split; [auto|split; [|split; [auto|split; [|split; [|split; [discriminate|]]]]]]]].
      * assert (IS : issum (o (v n) (v (n + 1))) [n; n + 1]) by (exists n, [n + 1]; auto).
        unfold good; cbn [at_ pos z sum]. destruct (guided c); (split; [auto|split; [lia|split; [lia|auto]]]).
      * intros i. rewrite cnt_nil. rewrite cnt_cons, cnt_one. fin Aw. destruct (guided c); bz.
      * fin Aw. destruct (guided c); lia.
      * fin Aw. destruct (guided c); auto.
      * intros _. left. fin Aw. destruct (guided c); lia.
  - (* Load *) destruct G as (-> & G1 & G2 & G3). injection E as <- <- <- <-. exists g, []. apply (decide_did c n r k w g (Load A)); auto.
  - (* Cas *) destruct G as (-> & G0 & G1 & G2 & G3 & G4). specialize (HC1 eq_refl).
    destruct (Z.eqb_spec n s0) as [->|Ne]; injection E as <- <- <- <-.
    + set (q' := if q <? C c then C c else q) in *. assert (Q : C c <= q') by (unfold q'; destruct (Z.ltb_spec q (C c)); lia).
      set (e0 := if q' <=? N c - s0 then s0 + q' else N c) in *. assert (Q2 : s0 < e0 <= N c) by (unfold e0; destruct (Z.leb_spec q' (N c - s0)); lia).
      clearbody e0. exists g, []. unfold did. split; [|split; [lia|split; [auto|split; [|split; [auto|split; [|split; [|split; [discriminate|]]]]]]]].
      * unfold good; cbn [at_ pos sum]. repeat split; auto; try lia. unfold advance. lia.
      * intros i. rewrite cnt_nil. fin Aw. bz.
      * fin Aw. lia.
      * fin Aw. auto.
      * intros _. left. fin Aw. lia.
    + exists g, []. apply (decide_did c n r k w g (Cas A s0)); eauto. lia.
  - (* Fine *) destruct G as (-> & G1 & G2 & G3). specialize (HC1 eq_refl). assert (BB : n + C c + 2 < 2 ^ 64) by (apply B; unfold past; rewrite Aw; auto).
    rewrite u64_small in E by lia. destruct (Z.leb_spec (N c) n); injection E as <- <- <- <-.
    + exists g, []. unfold did, good; cbn [at_ sum]. fin Aw. repeat split; auto; try lia. 1: intros i; rewrite cnt_nil; bz. discriminate.
    + set (e0 := if C c <=? N c - n then n + C c else N c) in *. assert (Q2 : n < e0 <= N c /\ e0 = Z.min (n + C c) (N c)) by (unfold e0; destruct (Z.leb_spec (C c) (N c - n)); lia).
      clearbody e0. exists g, []. unfold did. split; [|split; [lia|split; [auto|split; [|split; [auto|split; [|split; [|split; [discriminate|]]]]]]]].
      * unfold good; cbn [at_ pos sum]. repeat split; auto; try lia. unfold advance. lia.
      * intros i. rewrite cnt_nil. fin Aw. bz.
      * fin Aw. lia.
      * fin Aw. auto.
      * intros _. left. fin Aw. lia.
  - (* Even *) destruct G as (-> & G1 & P0 & ->). cbn in B. unfold toclaim in B; rewrite Aw in B. rewrite P0, Z.add_0_l in E. rewrite u64_small in E by lia.
    destruct (Z.eqb_spec items 1); injection E as <- <- <- <-.
    + exists [n], []. unfold did, good; cbn [at_ sum]. fin Aw. repeat split; auto; try lia.
      * exists n, []. auto.
      * discriminate.
      * intros i. rewrite cnt_nil, cnt_one. bz.
    + exists [n; n + 1], []. unfold did. split; [|split; [lia|split; [auto|split; [|split; [auto|split; [|split; [|split; [|discriminate]]]]]]]].
      * unfold good; cbn [at_ pos z sum]. repeat split; auto; try lia. exists n, [n + 1]; auto.
      * intros i. rewrite cnt_nil. rewrite cnt_cons, cnt_one. fin Aw. bz.
      * fin Aw. lia.
      * fin Aw. auto.
      * fin Aw. lia.
  - (* Run *) destruct G as (G1 & G2 & G3 & G4 & G5 & G6). destruct (Z.ltb_spec x e0).
    + injection E as <- <- <- <-. exists (g ++ [x]), []. unfold did. split; [|split; [lia|split; [auto|split; [|split; [auto|split; [|split; [|split]]]]]]].
      * unfold good; cbn [at_ pos z sum]. repeat split; auto; try lia. rewrite G4. apply issum_snoc; auto.
      * intros i. rewrite cnt_nil, cnt_app, cnt_one. fin Aw. bz.
      * fin Aw. lia.
      * fin Aw. auto.
      * fin Aw. lia.
      * intros _. left. fin Aw. lia.
    + assert (x = e0) by lia. subst x. destruct j; injection E as <- <- <- <-; exists g, []; unfold did; (split; [|split; [lia|split; [auto|split; [|split; [auto|split; [|split; [|split]]]]]]]).
      all: try (intros i; rewrite cnt_nil; fin Aw; bz; fail). all: try (fin Aw; lia; fail). all: try (fin Aw; auto; fail).
      all: try (intros ->; left; fin Aw; lia).
      all: try (unfold good; cbn [at_ pos z sum]; destruct G6; repeat split; auto; lia).
      all: try (unfold good; cbn [at_ pos z sum]; subst kd; split; [auto|discriminate]).
      all: try (intros ->; discriminate).
  - (* Seq *) destruct G as (-> & G1 & ->). destruct (Z.eqb_spec (pos A w) (N c)); injection E as <- <- <- <-.
    + exists [], []. assert (HK : k = true) by (apply HL; unfold hold; rewrite Aw; auto). subst k. unfold did, good; cbn [at_]. fin Aw. repeat split; auto; try lia; try discriminate. intros i; rewrite cnt_nil; bz.
    + exists [], [pos A w]. unfold did, good; cbn [at_]. fin Aw. repeat split; auto; try lia; try discriminate; cbn [pos at_]; try lia. intros i. rewrite cnt_one, cnt_nil. cbn [pos at_]. bz.
  - (* Want *) destruct G as (G1 & G2). destruct k; [discriminate|]. injection E as <- <- <- <-. exists g, []. unfold did, good; cbn [at_ sum]. fin Aw. cbn [b2z]. repeat split; auto; try lia.
  - (* Got *) destruct G as (G1 & G2). injection E as <- <- <- <-. exists g, []. unfold did, good; cbn [at_ sum]. fin Aw. repeat split; auto; try lia.
  - (* Put *) destruct G as (G1 & G2). injection E as <- <- <- <-. unfold putok in P. rewrite Aw in P. subst y. exists [], g. unfold did, good; cbn [at_ sum]. fin Aw. repeat split; auto; try lia.
    + apply red_sum; auto.
    + intros i. rewrite cnt_nil. lia.
  - (* Rel *) destruct G as (-> & G2). injection E as <- <- <- <-. assert (HK : k = true) by (apply HL; unfold hold; rewrite Aw; auto). subst k.
    exists [], []. unfold did, good; cbn [at_ sum]. fin Aw. cbn [b2z]. repeat split; auto; try lia.
  - discriminate.
Qed.
End Proofs.
