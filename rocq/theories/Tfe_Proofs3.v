(** Every step of a task lowers a measure: the loops stop whatever the schedule. *)
From Coq Require Import ZArith List Bool Lia Permutation.
From Verif Require Import Tfe_Model Tfe_Spec Tfe_Proofs Tfe_Proofs2.
Import ListNotations.
Open Scope Z_scope.
Definition kw (c : cfg) (k : kont) : Z := match k with KLoad => N c + 3 | KFine => 2 | KDone => 0 | KTrip s0 => (chunk c + 3) * (N c - s0) end.
Definition wt (c : cfg) (w : task) : Z :=
  match at_ w with
  | Load => N c + 3 | Cas s0 => 2 + (N c - s0) | Fine => 2 | Even items => items + 2
  | First => chunk c + 2 + (chunk c + 3) * N c
  | Run x e0 k => e0 - x + 1 + kw c k
  | Items k s0 => chunk c - k + 1 + (chunk c + 3) * (N c - s0)
  | Done => 0
  end.
Definition left_ (c : cfg) (n : Z) : Z := (N c + 8) * (N c - Z.min n (N c)).
Lemma wt_decide c n : (if n <? N c then wt c (mkW (decide c n) 0 0) <= 2 + (N c - n) else wt c (mkW (decide c n) 0 0) = 0).
Proof. unfold decide. bz; cbn [wt at_]; lia. Qed.
Lemma wt_at c w p q : wt c (mkW (at_ w) p q) = wt c w.
Proof. reflexivity. Qed.
Lemma wt_nonneg kd c n w : CF kd c -> good kd c n w -> 0 <= wt c w.
Proof.
  intros (F1 & F2 & F3 & _) G. unfold good, wt in *. destruct (at_ w) as [| | | | |x e0 [| | |]| |]; cbn [kw]; try lia; try nia.
Qed.
Lemma wstep_less kd c q w n : CF kd c -> (kd = KC -> 1 <= W c) -> 0 <= q -> 0 <= n -> good kd c n w -> bound kd c n w -> at_ w <> Done ->
  left_ c (snd (fst (wstep c q w n))) + wt c (fst (fst (wstep c q w n))) + 1 <= left_ c n + wt c w.
Proof.
  intros F HW1 Hq Hn G B ND. pose proof (wstep_did kd c q w n F HW1 Hq Hn G B) as (_ & MN & _).
  destruct F as (HN & HC & HW & HC1 & HF & HI). unfold wstep, good in *.
  assert (HT : 0 <= W c * chunk c) by nia. assert (HT2 : W c * chunk c + chunk c + N c < 2 ^ 64) by nia.
  assert (HTr : trip c = W c * chunk c) by (apply u64_small; lia).
  assert (LM : forall a b, a <= b -> left_ c b <= left_ c a) by (intros; unfold left_; nia).
  assert (LD : forall a b d, a + d <= Z.min b (N c) -> 0 <= d -> left_ c b + (N c + 8) * d <= left_ c a) by (intros; unfold left_; nia).
  pose proof (wt_decide c n) as DEC.
  destruct (at_ w) as [|s0| |items| |x e0 k|k s0|] eqn:A; try congruence.
  - cbn [fst snd]. change (wt c (mkW (decide c n) (pos w) (z w))) with (wt c (mkW (decide c n) 0 0)). unfold wt at 2; rewrite A. destruct (Z.ltb_spec n (N c)); lia.
  - destruct G as (-> & S1 & S2 & G). specialize (HC1 ltac:(discriminate)). unfold wt at 2; rewrite A. destruct (Z.eqb_spec n s0) as [->|Ne]; cbn [fst snd].
    + set (q' := if q <? chunk c then chunk c else q). assert (Q : chunk c <= q') by (unfold q'; destruct (Z.ltb_spec q (chunk c)); lia).
      set (e0 := if q' <=? N c - s0 then s0 + q' else N c). assert (E : s0 < e0 <= N c) by (unfold e0; destruct (Z.leb_spec q' (N c - s0)); lia).
      clearbody e0. cbn [wt at_ kw]. pose proof (LD s0 e0 (e0 - s0) ltac:(lia) ltac:(lia)). nia.
    + change (wt c (mkW (decide c n) (pos w) (z w))) with (wt c (mkW (decide c n) 0 0)). destruct (Z.ltb_spec n (N c)); lia.
  - destruct G as (-> & G). specialize (HC1 ltac:(discriminate)). cbn in B. rewrite u64_small by lia. unfold wt at 2; rewrite A.
    destruct (Z.leb_spec (N c) n) as [L|L]; cbn [fst snd].
    + cbn [wt at_]. specialize (LM n (n + chunk c) ltac:(lia)). lia.
    + set (e0 := if chunk c <=? N c - n then n + chunk c else N c). assert (E : n < e0 <= N c /\ e0 = Z.min (n + chunk c) (N c)) by (unfold e0; destruct (Z.leb_spec (chunk c) (N c - n)); lia).
      clearbody e0. cbn [wt at_ kw]. pose proof (LD n (n + chunk c) (e0 - n) ltac:(lia) ltac:(lia)). nia.
  - cbn [fst snd] in *. unfold wt; rewrite A; cbn [at_ kw]. specialize (LM n _ MN). lia.
  - destruct G as (-> & G). specialize (HC1 ltac:(discriminate)). cbn in B. unfold toclaim in B; rewrite A in B. destruct (B ltac:(lia)) as [B1 B2].
    rewrite u64_small in * by lia. specialize (LM n (n + chunk c) ltac:(lia)).
    assert (0 <= (chunk c + 3) * n) by nia.
    destruct (iter c) eqn:I; cbn [fst snd]; unfold wt at 2; rewrite A.
    + cbn [wt at_]. lia.
    + unfold turn. rewrite u64_small by lia. cbn [wt at_ kw]. destruct (Z.ltb_spec (N c) (n + chunk c)); lia.
  - destruct G as (S1 & S2 & S3 & P & G). unfold wt at 2; rewrite A. destruct (Z.ltb_spec x e0) as [L|L]; cbn [fst snd].
    + cbn [wt at_]. lia.
    + destruct k as [| | |s0]; cbn [fst snd wt at_ kw]; try lia.
      destruct G as (-> & I & G1 & G2 & G3). specialize (HC1 ltac:(discriminate)). specialize (HW1 eq_refl). unfold after_turn.
      assert (0 <= (chunk c + 3) * (N c - s0)) by (apply Z.mul_nonneg_nonneg; lia).
      destruct (Z.eqb_spec e0 (N c)) as [E|E]; [cbn [wt at_]; lia|].
      rewrite HTr, u64_small by lia. destruct (Z.leb_spec (N c) (s0 + W c * chunk c)) as [L2|L2]; [cbn [wt at_]; lia|].
      unfold turn. rewrite u64_small by lia. cbn [wt at_ kw].
      assert (chunk c + 3 <= (chunk c + 3) * (W c * chunk c)) by (apply Z.le_mul_diag_r; [lia|apply (Z.mul_le_mono_nonneg 1 _ 1); lia]).
      destruct (Z.ltb_spec (N c) (s0 + W c * chunk c + chunk c)); lia.
  - destruct G as (-> & I & G1 & G2 & G3 & G4 & G5). specialize (HC1 ltac:(discriminate)). specialize (HW1 eq_refl).
    assert (0 <= (chunk c + 3) * (N c - s0)) by (apply Z.mul_nonneg_nonneg; lia).
    unfold wt at 2; rewrite A. destruct ((k <? chunk c) && negb (pos w =? N c)) eqn:Q; cbn [fst snd wt at_].
    + lia.
    + rewrite HTr, u64_small by lia. destruct (negb (k =? chunk c) || (N c <=? s0 + W c * chunk c)) eqn:R; cbn [fst snd wt at_]; [lia|].
      apply orb_false_elim in R. destruct R as [R1 R2]. apply negb_false_iff, Z.eqb_eq in R1. apply Z.leb_gt in R2. subst k.
      assert (chunk c + 3 <= (chunk c + 3) * (W c * chunk c)) by (apply Z.le_mul_diag_r; [lia|apply (Z.mul_le_mono_nonneg 1 _ 1); lia]). lia.
Qed.
Definition mu (c : cfg) (s : st) : Z := left_ c (next s) + zsum (wt c) (ws s).
Lemma inv_bound kd c K n l1 w l2 lg : CF kd c -> Inv kd c K (mkS n (l1 ++ w :: l2) lg) -> at_ w <> Done -> good kd c n w /\ 0 <= n /\ bound kd c n w /\ (kd = KC -> 1 <= W c).
Proof.
  intros F (Hn & G & Gl & _) ND. cbn [next ws] in *.
  assert (Gw : good kd c n w) by (rewrite Forall_forall in G; apply G, in_elt).
  assert (TN : 0 <= zsum (toclaim c) l1 /\ 0 <= zsum (toclaim c) l2).
  { rewrite Forall_forall in G. split; apply zsum_nonneg; intros; eapply toclaim_nonneg; eauto; apply G, in_or_app; cbn; auto. }
  assert (Dn : 0 <= zsum ovr l1 <= Z.of_nat (length l1) /\ 0 <= zsum ovr l2 <= Z.of_nat (length l2)).
  { repeat split; try (apply zsum_nonneg; intros; apply ovr_01); apply zsum_le; intros; apply ovr_01. }
  assert (Ow : ovr w = 0) by (unfold ovr; destruct (at_ w); congruence).
  pose proof F as (F1 & F2 & F3 & F4 & F5 & F6).
  split; [auto|split; [auto|split]].
  { unfold bound, glob in *. cbn [ws next] in Gl. destruct kd.
    - destruct Gl as (Gl1 & Gl2 & _). rewrite zsum_mid in Gl2. rewrite app_length in Gl1; cbn [length] in Gl1.
      assert (1 + (zsum ovr l1 + ovr w + zsum ovr l2) <= W c) by lia. nia.
    - rewrite zsum_mid in Gl. lia.
    - intros P. destruct Gl as (Gl & G2 & G3 & G4 & G5). rewrite zsum_mid in Gl.
      assert (PC : toclaim c w = chunk c). { unfold toclaim, good in *. destruct (at_ w); try lia. destruct Gw; discriminate. }
      split; nia. }
  intros ->. destruct Gl; tauto.
Qed.
Lemma step_less kd c K s s' : CF kd c -> Inv kd c K s -> step c s s' -> mu c s' + 1 <= mu c s.
Proof.
  intros F I St. destruct St as [q u l1 w l2 n lg w' n' calls Hq ND E ->].
  destruct (inv_bound kd c K n l1 w l2 lg F I ND) as (G & Hn & B & HW1).
  pose proof (wstep_less kd c q w n F HW1 Hq Hn G B ND) as D. rewrite E in D. cbn [fst snd] in D.
  unfold mu; cbn [next ws]. rewrite !zsum_mid. lia.
Qed.
Lemma mu_nonneg kd c K s : CF kd c -> Inv kd c K s -> 0 <= mu c s.
Proof.
  intros F (Hn & G & _). unfold mu. assert (0 <= left_ c (next s)) by (destruct F as (F1 & _); unfold left_; nia).
  assert (0 <= zsum (wt c) (ws s)); [|lia]. apply zsum_nonneg. rewrite Forall_forall in G. intros; eapply wt_nonneg; eauto.
Qed.
Lemma steps_less kd c K k s s' : CF kd c -> Inv kd c K s -> steps c k s s' -> Z.of_nat k <= mu c s - mu c s'.
Proof.
  intros F I S. induction S as [s|k s u v S IH T]; [lia|]. pose proof (steps_inv kd c K k s u F I S) as J. pose proof (step_less kd c K u v F J T). specialize (IH I). lia.
Qed.
Lemma stuck_joined c s : (forall s', ~ step c s s') -> joined s.
Proof.
  intros H w Hw. destruct (at_ w) eqn:A; auto; exfalso; apply in_split in Hw; destruct Hw as (l1 & l2 & E); destruct s as [nx l lg]; cbn [ws] in E; subst l.
  all: destruct (wstep c 0 w nx) as [[w' n'] calls] eqn:R; eapply H; apply (go c 0 _ l1 w l2 nx lg w' n' calls); auto; try lia; congruence.
Qed.
(** The range of an index loop. *)
Lemma distance_elements b e a n : is_range_invalid b e a = false -> distance b e a = Some n ->
  0 <= n /\ forall v, In v (elements b a n) <-> visits b e a v.
Proof.
  unfold is_range_invalid, distance. intros V D. destruct (Z.eqb_spec a 0) as [Z0|NZ]; [discriminate|]. injection D as D.
  cbn [andb orb] in V. apply orb_false_elim in V. destruct V as [V1 V2].
  assert (B : 0 <= n /\ forall i, 0 <= i -> (i < n <-> if 0 <? a then b + i * a < e else e < b + i * a)).
  { destruct (Z.ltb_spec 0 a) as [P|P].
    - assert (b <= e) by (destruct (Z.ltb_spec e b); [|lia]; destruct (Z.leb_spec 0 a); cbn in V2; [discriminate|lia]).
      rewrite Z.quot_div_nonneg in D by lia. pose proof (Z.div_mod (e - b + a + -1) a ltac:(lia)). pose proof (Z.mod_pos_bound (e - b + a + -1) a P). rewrite D in *.
      split; [nia|]. intros i Hi. split; intros; nia.
    - assert (e <= b) by (destruct (Z.ltb_spec b e); [|lia]; destruct (Z.leb_spec a 0); cbn in V1; [discriminate|lia]).
      assert (D' : (b - e + (- a) + -1) / (- a) = n).
      { rewrite <- D. rewrite <- Z.quot_opp_opp by lia. rewrite Z.quot_div_nonneg by lia. f_equal; lia. }
      pose proof (Z.div_mod (b - e + - a + -1) (- a) ltac:(lia)). pose proof (Z.mod_pos_bound (b - e + - a + -1) (- a) ltac:(lia)). rewrite D' in *.
      split; [nia|]. intros i Hi. split; intros; nia. }
  destruct B as [Hn B]. split; auto. intros v. unfold elements, visits. rewrite in_map_iff. split.
  - intros (k & <- & K). rewrite in_seq in K. exists (Z.of_nat k). split; [lia|split; [lia|]]. apply B; lia.
  - intros (i & Hi & -> & L). apply B in L; auto. exists (Z.to_nat i). rewrite in_seq. split; [rewrite Z2Nat.id by lia; lia|lia].
Qed.
Lemma elements_nodup b a n : a <> 0 -> NoDup (elements b a n).
Proof.
  intros NZ. unfold elements. apply FinFun.Injective_map_NoDup; [|apply seq_NoDup]. intros x y E.
  assert ((Z.of_nat x - Z.of_nat y) * a = 0) by lia. apply Z.mul_eq_0 in H. lia.
Qed.
