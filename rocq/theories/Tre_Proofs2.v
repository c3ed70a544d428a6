(** The invariant holds at the launch and along every execution; a measure; no deadlock at the mutex. *)
From Coq Require Import ZArith List Bool Lia Permutation.
From Verif Require Import Tre_Model Tre_Spec Tre_Proofs.
Import ListNotations.
Open Scope Z_scope.
Definition zsum {T} (f : T -> Z) (l : list T) : Z := fold_right (fun w a => f w + a) 0 l.
Lemma zsum_app {T} (f : T -> Z) l m : zsum f (l ++ m) = zsum f l + zsum f m.
Proof. unfold zsum; induction l as [|w l IH]; cbn; [lia|]. rewrite IH; lia. Qed.
Lemma zsum_mid {T} (f : T -> Z) l w m : zsum f (l ++ w :: m) = zsum f l + f w + zsum f m.
Proof. rewrite zsum_app. cbn. fold (zsum f m). lia. Qed.
Lemma zsum_nonneg {T} (f : T -> Z) l : (forall w, In w l -> 0 <= f w) -> 0 <= zsum f l.
Proof. induction l as [|w l IH]; cbn; intros; [lia|]. specialize (IH ltac:(auto)). fold (zsum f l). assert (0 <= f w) by auto. lia. Qed.
Lemma zsum_zero {T} (f : T -> Z) l : (forall w, In w l -> f w = 0) -> zsum f l = 0.
Proof. induction l as [|w l IH]; cbn; intros; [lia|]. specialize (IH ltac:(auto)). fold (zsum f l). rewrite H by auto. lia. Qed.
Lemma zsum_le {T} (f : T -> Z) l : (forall w, In w l -> f w <= 1) -> zsum f l <= Z.of_nat (length l).
Proof. induction l as [|w l IH]; cbn [zsum fold_right length]; intros; [lia|]. specialize (IH ltac:(cbn in *; auto)). fold (zsum f l). assert (f w <= 1) by (cbn in *; auto). lia. Qed.
Lemma zsum_repeat {T} (f : T -> Z) w k : zsum f (repeat w k) = Z.of_nat k * f w.
Proof. induction k as [|k IH]; [cbn; lia|]. cbn [repeat zsum fold_right]. fold (zsum f (repeat w k)). rewrite IH. lia. Qed.
Lemma forall2_impl {S T} (P Q : S -> T -> Prop) l m : (forall a b, P a b -> Q a b) -> Forall2 P l m -> Forall2 Q l m.
Proof. intros H F. induction F; constructor; auto. Qed.
Section Proofs.
Variable A : Type.
Variable o : A -> A -> A.
Variable v : Z -> A.
Hypothesis assoc : associative o.
Variable init : A.
Notation red := (red A o v).
Notation good := (good A o v).
Notation pend := (pend A).
Notation toclaim := (toclaim A).
Notation hold := (hold A).
Notation past := (past A).
Notation putok := (putok A o).
Definition glob (kd : kind) (c : cfg) (s : st A) : Prop :=
  match kd with
  | KA => Z.of_nat (length (ws A s)) <= W c /\ next A s <= N c + (C c + 2) * (1 + zsum past (ws A s)) /\ ws A s <> []
  | KB => next A s + zsum toclaim (ws A s) = N c
  end.
Definition Inv (kd : kind) (c : cfg) (s : st A) : Prop :=
  0 <= next A s /\ glob kd c s /\ zsum hold (ws A s) = b2z (locked A s) /\ Forall (putok (res A s)) (ws A s) /\
  exists idx gs, Forall2 (good kd c (next A s)) (ws A s) gs /\ res A s = red init idx /\
    forall i, cnt idx i + cnt (concat gs) i + zsum (fun w => pend c w i) (ws A s) + unc c (next A s) i = b2z ((0 <=? i) && (i <? N c)).
Lemma hold_01 w : 0 <= hold w <= 1.
Proof. unfold Tre_Proofs.hold; destruct (at_ A w); lia. Qed.
Lemma holds l : 0 <= zsum hold l.
Proof. apply zsum_nonneg; intros; apply hold_01. Qed.
Lemma toclaim_nonneg kd c n w g : good kd c n w g -> 0 <= toclaim w.
Proof. unfold Tre_Proofs.toclaim, Tre_Proofs.good. destruct (at_ A w); lia. Qed.
Lemma forall2_toclaim kd c n l gs : Forall2 (good kd c n) l gs -> 0 <= zsum toclaim l.
Proof. induction 1; cbn; [lia|]. apply toclaim_nonneg in H. fold (zsum toclaim l). lia. Qed.
Lemma inv_here kd c n r k l1 w l2 : CF kd c -> Inv kd c (mkS A n r k (l1 ++ w :: l2)) ->
  exists idx g1 g g2, 0 <= n /\ Forall2 (good kd c n) l1 g1 /\ good kd c n w g /\ Forall2 (good kd c n) l2 g2 /\ r = red init idx /\ bound A kd c n w /\ putok r w /\ (hold w = 1 -> k = true /\ zsum hold l1 = 0 /\ zsum hold l2 = 0)
  /\ (forall i, cnt idx i + cnt (concat (g1 ++ g :: g2)) i + zsum (fun w => pend c w i) (l1 ++ w :: l2) + unc c n i = b2z ((0 <=? i) && (i <? N c))).
Proof.
  intros (F1 & F2 & F3 & F4 & F5) (Hn & Gl & HH & PO & idx & gs & G & R & CT). cbn [next ws res locked] in *.
  apply Forall2_app_inv_l in G. destruct G as (g1 & gr & Ga & Gb & ->). inversion Gb as [|w_ g l_ g2 Gw G2]; subst.
  exists idx, g1, g, g2. do 5 (split; [auto|]). pose proof (holds l1). pose proof (holds l2).
  split; [|split; [|split; [|auto]]].
  - unfold bound, glob in *. cbn [ws next] in Gl. destruct kd.
    + intros P0. destruct Gl as (Gl1 & Gl2 & _). rewrite zsum_mid in Gl2. rewrite app_length in Gl1; cbn [length] in Gl1.
      assert (zsum past l1 <= Z.of_nat (length l1)) by (apply zsum_le; intros; apply past_01).
      assert (zsum past l2 <= Z.of_nat (length l2)) by (apply zsum_le; intros; apply past_01).
      assert (1 + (zsum past l1 + past w + zsum past l2) <= W c) by lia. nia.
    + rewrite zsum_mid in Gl. apply forall2_toclaim in Ga, G2. lia.
  - rewrite Forall_app in PO. destruct PO as [_ PO]. inversion PO; auto.
  - intros H1. rewrite zsum_mid in HH. destruct k; cbn [b2z] in HH; [|lia]. split; auto. lia.
Qed.
Lemma putok_free r w : hold w = 0 -> putok r w.
Proof. unfold Tre_Proofs.hold, Tre_Proofs.putok. destruct (at_ A w); auto; discriminate. Qed.
Lemma putok_others r r' l : (r' = r \/ zsum hold l = 0) -> Forall (putok r) l -> Forall (putok r') l.
Proof.
  intros [->|Z0] F; auto. clear F. induction l as [|w l IH]; constructor; cbn in Z0; fold (zsum hold l) in Z0; pose proof (hold_01 w); pose proof (holds l).
  - apply putok_free; lia.
  - apply IH; lia.
Qed.
Lemma step_inv kd c s s' : CF kd c -> Inv kd c s -> step A o v c s s' -> Inv kd c s'.
Proof.
  intros F I St. destruct St as [q l1 w l2 n r k w' n' r' k' u Hq E ->].
  destruct (inv_here kd c n r k l1 w l2 F I) as (idx & g1 & g & g2 & Hn & Ga & Gw & Gb & R & B & P & HL & CT).
  destruct (wstep_did A o v assoc kd c q w n r k w' n' r' k' g F Hq Hn Gw B P ltac:(intros Q; apply HL; auto) E) as (g' & dx & D1 & D2 & D3 & D4 & D5 & D6 & D7 & D8 & D9).
  destruct I as (_ & Gl & HH & PO & _). cbn [next ws res locked] in *.
  unfold Inv; cbn [next ws res locked]. split; [lia|split; [|split; [|split]]].
  - unfold glob in *; cbn [ws next] in *. destruct kd.
    + destruct Gl as (Gl1 & Gl2 & _). split; [rewrite app_length in *; cbn [length] in *; lia|split; [|destruct l1; discriminate]].
      destruct F as (F1 & F2 & F3 & _). pose proof (past_01 A w). pose proof (past_01 A w').
      assert (0 <= zsum past l1) by (apply zsum_nonneg; intros; apply past_01). assert (0 <= zsum past l2) by (apply zsum_nonneg; intros; apply past_01).
      rewrite zsum_mid in *. destruct (D9 eq_refl) as [[Q1 Q2]|(Q1 & Q2 & Q3)].
      * assert (0 <= (C c + 2) * (zsum past l1 + past w' + zsum past l2)) by nia.
        assert ((C c + 2) * (zsum past l1 + past w + zsum past l2) <= (C c + 2) * (zsum past l1 + past w' + zsum past l2)) by nia. nia.
      * rewrite Q1 in Gl2. rewrite Q2. nia.
    + rewrite zsum_mid in *. specialize (D8 eq_refl). lia.
  - rewrite zsum_mid in *. lia.
  - rewrite Forall_app in *. destruct PO as [P1 P2]. apply Forall_inv_tail in P2.
    assert (O : r' = r \/ (zsum hold l1 = 0 /\ zsum hold l2 = 0)).
    { destruct D5 as [Dx|Dx]; [left; subst dx; rewrite <- D3; reflexivity|right; apply HL; auto]. }
    split; [|constructor; [exact D7|]]; eapply putok_others; try eassumption; tauto.
  - exists (idx ++ dx), (g1 ++ g' :: g2). split; [|split].
    + apply Forall2_app; [|constructor; auto]; eapply forall2_impl; try eassumption; intros; eapply good_mono; eauto.
    + rewrite red_app, <- R. auto.
    + intros i. specialize (CT i). specialize (D4 i). rewrite zsum_mid in *. rewrite concat_app in *. cbn [concat] in *. rewrite !cnt_app in *. lia.
Qed.
Lemma steps_inv kd c m s s' : CF kd c -> Inv kd c s -> steps A o v c m s s' -> Inv kd c s'.
Proof. intros F I S. induction S as [s|m s u x S IH T]; [exact I|]. exact (step_inv kd c u x F (IH I) T). Qed.

Lemma red_perm a l m : commutative o -> Permutation l m -> red a l = red a m.
Proof.
  intros CM P. revert a. induction P; intros a; cbn; auto.
  - apply IHP.
  - unfold Tre_Proofs.red. f_equal. rewrite <- !assoc. f_equal. apply CM.
  - rewrite IHP1. apply IHP2.
Qed.
Lemma cnt_range idx m : (forall i, cnt idx i = b2z ((0 <=? i) && (i <? m))) -> Permutation idx (map Z.of_nat (seq 0 (Z.to_nat m))).
Proof.
  intros H. apply NoDup_Permutation.
  - apply (proj2 (NoDup_count_occ Z.eq_dec idx)). intros x. specialize (H x). unfold cnt in H. destruct ((0 <=? x) && (x <? m)); cbn [b2z] in H; lia.
  - apply FinFun.Injective_map_NoDup; [intros x y; lia|apply seq_NoDup].
  - intros x. rewrite (count_occ_In Z.eq_dec). specialize (H x). unfold cnt in H. rewrite in_map_iff. split.
    + intros P. exists (Z.to_nat x). rewrite in_seq. revert H. bz.
    + intros (k & <- & K). rewrite in_seq in K. revert H. bz.
Qed.
Lemma red_sequential n : red init (map Z.of_nat (seq 0 (Z.to_nat n))) = sequential o v init n.
Proof. unfold sequential, Tre_Proofs.red. generalize init. induction (seq 0 (Z.to_nat n)) as [|x l IH]; intros a; cbn; auto. Qed.
Lemma inv_order kd c s : CF kd c -> Inv kd c s -> joined A s -> exists idx, Permutation idx (map Z.of_nat (seq 0 (Z.to_nat (N c)))) /\ res A s = red init idx.
Proof.
  intros F (Hn & Gl & _ & _ & idx & gs & G & R & CT) J. exists idx. split; [|exact R]. apply cnt_range. intros i. rewrite <- CT.
  assert (Z1 : zsum (fun w => pend c w i) (ws A s) = 0) by (apply zsum_zero; intros w Hw; unfold Tre_Proofs.pend; rewrite (J w Hw); auto).
  assert (Z2 : zsum toclaim (ws A s) = 0) by (apply zsum_zero; intros w Hw; unfold Tre_Proofs.toclaim; rewrite (J w Hw); auto).
  assert (Z3 : concat gs = [] /\ (ws A s <> [] -> kd = KA -> N c <= next A s)).
  { clear -G J. unfold joined in J. induction G as [|w g l gs Gw G IH]; [split; auto; congruence|].
    assert (AD : at_ A w = Done A) by (apply J; left; auto). unfold Tre_Proofs.good in Gw; rewrite AD in Gw. destruct Gw as [-> Gk].
    destruct IH as [Ec _]; [intros; apply J; right; auto|]. split; [cbn; exact Ec|auto]. }
  destruct Z3 as [-> Z3]. rewrite Z1, cnt_nil. enough (unc c (next A s) i = 0) by lia. unfold glob in Gl; unfold unc. destruct kd.
  - destruct Gl as (_ & _ & NE). specialize (Z3 NE eq_refl). bz.
  - bz.
Qed.
Lemma inv_end kd c s : CF kd c -> commutative o -> Inv kd c s -> joined A s -> res A s = sequential o v init (N c).
Proof. intros F CM I J. destruct (inv_order kd c s F I J) as (idx & P & ->). rewrite <- red_sequential. apply red_perm; auto. Qed.

(** The launch. *)
Lemma spawn_even c : 1 <= W c -> 0 <= N c -> forall k i, 0 <= i -> i + Z.of_nat k = W c ->
  zsum toclaim (spawn A (even A c init) k i) = Z.of_nat k * (N c / W c) + Z.max 0 (N c mod W c - i) /\
  Forall (fun w => exists m, 1 <= m /\ w = mkW A (Even A m) 0 0 init) (spawn A (even A c init) k i).
Proof.
  intros HW HN. pose proof (Z.mod_pos_bound (N c) (W c) ltac:(lia)) as MB. assert (DB : 0 <= N c / W c) by (apply Z.div_pos; lia).
  induction k as [|k IH]; intros i Hi E; cbn [spawn].
  - split; [cbn; lia|constructor].
  - unfold even at 1 3. set (it := if i <? N c mod W c then N c / W c + 1 else N c / W c).
    assert (IT : it = N c / W c + b2z (i <? N c mod W c)) by (unfold it; destruct (i <? N c mod W c); cbn; lia).
    destruct (Z.eqb_spec it 0) as [Z0|Z0].
    + split; [|constructor]. change (zsum toclaim []) with 0. destruct (Z.ltb_spec i (N c mod W c)); cbn [b2z] in IT; [lia|].
      assert (Q0 : N c / W c = 0) by lia. rewrite Q0. lia.
    + destruct (IH (i + 1) ltac:(lia) ltac:(lia)) as [S1 S2]. split.
      * cbn [zsum fold_right]. fold (zsum toclaim (spawn A (even A c init) k (i + 1))). rewrite S1. unfold Tre_Proofs.toclaim; cbn [at_]. rewrite IT. bz; nia.
      * constructor; auto. exists it. split; auto. destruct (i <? N c mod W c); cbn in IT; lia.
Qed.
Lemma spawn_pair c : 0 <= N c -> 2 * W c + 2 < 2 ^ 64 -> forall k i, 0 <= i -> i + Z.of_nat k = W c ->
  exists m, 0 <= m <= Z.of_nat k /\ spawn A (pair A c init) k i = repeat (mkW A (Start A) 0 0 init) (Z.to_nat m) /\ (i * 2 < N c -> 0 < Z.of_nat k -> 0 < m).
Proof.
  intros HN HF. induction k as [|k IH]; intros i Hi E; cbn [spawn].
  - exists 0. repeat split; try lia.
  - unfold pair at 1. rewrite u64_small by lia. destruct (Z.leb_spec (N c) (i * 2)).
    + exists 0. repeat split; try lia.
    + destruct (IH (i + 1) ltac:(lia) ltac:(lia)) as (m & M1 & M2 & _). exists (m + 1). split; [lia|split; [|lia]].
      rewrite M2. replace (Z.to_nat (m + 1)) with (S (Z.to_nat m)) by lia. reflexivity.
Qed.
Lemma forall2_same (P : task A -> Prop) (R : task A -> list Z -> Prop) l : (forall w, P w -> R w []) -> Forall P l -> exists gs, Forall2 R l gs /\ concat gs = [].
Proof. intros H F. induction F as [|w l Pw F IH]; [exists []; auto|]. destruct IH as (gs & G & E). exists ([] :: gs). split; [constructor; auto|auto]. Qed.
Lemma launch_inv p n nw h : fits n nw h ->
  let c := fst (launch A p n nw h init) in let s := snd (launch A p n nw h init) in N c = n /\ exists kd, CF kd c /\ Inv kd c s.
Proof.
  intros (H1 & H2 & H3 & H4). set (c := fst (launch A p n nw h init)). set (s := snd (launch A p n nw h init)). cbn zeta.
  assert (CE : N c = n /\ 0 <= W c <= nw /\ 0 <= C c <= h + 1).
  { unfold c, launch; destruct p; cbn; repeat split; auto; try lia; try (destruct (Z.ltb_spec n nw); lia); destruct (Z.eqb_spec h 0); lia. }
  destruct CE as (EN & EW & EC). split; auto.
  assert (BD : N c + (W c + 1) * (C c + 2) < 2 ^ 64) by nia.
  assert (CB : CF KB c) by (unfold CF; repeat split; try lia; discriminate).
  assert (ALONE : Inv KB c (alone A c init)).
  { unfold Inv, alone; cbn [next ws res locked]. split; [lia|split; [cbn; lia|split; [reflexivity|split; [constructor; cbn; auto|]]]].
    exists [], [[]]. split; [constructor; auto; unfold Tre_Proofs.good; cbn; rewrite EN; repeat split; lia|split; auto].
    intros i. cbn. rewrite ?cnt_nil. unfold Tre_Proofs.pend, unc; cbn. bz. }
  assert (NONE : n = 0 -> Inv KB c (mkS A 0 init false [])).
  { intros Z0. unfold Inv; cbn [next ws res locked]. split; [lia|split; [cbn; lia|split; [reflexivity|split; [constructor|]]]].
    exists [], []. split; [constructor|split; auto]. intros i. cbn. rewrite ?cnt_nil. unfold unc; rewrite EN. bz. }
  unfold s; clear s. destruct p.
  1, 2: cbn [launch snd]; cbv zeta; match goal with |- context [mkC ?a ?b ?d ?e] => change (mkC a b d e) with c end.
  1, 2: destruct (Z.eqb_spec n 0) as [E0|E0]; [exists KB; split; [exact CB|apply NONE; auto]|].
  1, 2: destruct ((nw <=? 1) || (n <=? (if h =? 0 then 1 else h))) eqn:E1; [exists KB; split; [exact CB|exact ALONE]|].
  1, 2: assert (CP : 1 <= C c) by (unfold c; cbn; destruct (Z.eqb_spec h 0); lia).
  1, 2: apply orb_false_elim in E1; destruct E1 as [E1 E2]; apply Z.leb_gt in E1.
  1, 2: assert (WP : 1 <= W c) by (unfold c; cbn; destruct (Z.ltb_spec n nw); lia).
  1, 2: clearbody c; exists KA; split; [unfold CF; repeat split; try lia; auto|].
  1, 2: destruct (spawn_pair c ltac:(lia) ltac:(nia) (Z.to_nat (W c)) 0 ltac:(lia) ltac:(lia)) as (m & M1 & M2 & M3); rewrite M2; specialize (M3 ltac:(lia) ltac:(lia)).
  1, 2: unfold Inv; cbn [next ws res locked]; split; [lia|split; [|split; [|split]]].
  1, 5: unfold glob; cbn [ws next]; rewrite repeat_length, zsum_repeat; unfold Tre_Proofs.past; cbn [at_]; rewrite Z.mul_0_r; split; [lia|split; [lia|]]; destruct (Z.to_nat m) eqn:Q; [lia|discriminate].
  1, 4: rewrite zsum_repeat; unfold Tre_Proofs.hold; cbn [at_ b2z]; lia.
  1, 3: apply Forall_forall; intros w Hw; apply repeat_spec in Hw; subst w; exact Logic.I.
  1, 2: destruct (forall2_same (fun w => w = mkW A (Start A) 0 0 init) (good KA c 0) (repeat (mkW A (Start A) 0 0 init) (Z.to_nat m))) as (gs & G & Eg);
    [intros w ->; unfold Tre_Proofs.good; cbn; auto|apply Forall_forall; intros w Hw; apply repeat_spec in Hw; auto|].
  1, 2: exists [], gs; split; [exact G|split; [reflexivity|]]; intros i; rewrite Eg, !cnt_nil, zsum_repeat; unfold Tre_Proofs.pend, unc; cbn [at_]; bz.
  cbn [launch snd]; cbv zeta; change (mkC n nw 0 false) with c.
  destruct (Z.eqb_spec n 0) as [E0|E0]; [exists KB; split; [exact CB|apply NONE; auto]|].
  destruct ((nw <=? 1) || (n <=? 0)) eqn:E1; [exists KB; split; [exact CB|exact ALONE]|].
  apply orb_false_elim in E1; destruct E1 as [E1 E2]; apply Z.leb_gt in E1. assert (CW : W c = nw) by reflexivity. clearbody c.
  exists KB. split; [exact CB|]. destruct (spawn_even c ltac:(lia) ltac:(lia) (Z.to_nat nw) 0 ltac:(lia) ltac:(lia)) as [S1 S2].
  assert (S3 : forall (f : task A -> Z), (forall m, f (mkW A (Even A m) 0 0 init) = 0) -> zsum f (spawn A (even A c init) (Z.to_nat nw) 0) = 0).
  { intros f Hf. apply zsum_zero. intros w Hw. rewrite Forall_forall in S2. destruct (S2 w Hw) as (m & _ & ->). auto. }
  unfold Inv; cbn [next ws res locked]; split; [lia|split; [|split; [|split]]].
  - unfold glob; cbn [ws next]. rewrite S1. pose proof (Z.mod_pos_bound (N c) (W c) ltac:(lia)). pose proof (Z.div_mod (N c) (W c) ltac:(lia)). lia.
  - apply S3. auto.
  - eapply Forall_impl; [|exact S2]. intros w (m & _ & ->). exact Logic.I.
  - destruct (forall2_same (fun w => exists m, 1 <= m /\ w = mkW A (Even A m) 0 0 init) (good KB c 0) _ ltac:(intros w (m & Hm & ->); unfold Tre_Proofs.good; cbn; auto) S2) as (gs & G & Eg).
    exists [], gs. split; [exact G|split; [reflexivity|]]. intros i. rewrite Eg, !cnt_nil, S3 by reflexivity. unfold unc. bz.
Qed.

(** The measure. *)
Definition kw (c : cfg) (k : kont) : Z := match k with KLoad => N c + 6 | KFine => 5 | KEnd => 4 end.
Definition wt (c : cfg) (w : task A) : Z :=
  match at_ A w with
  | Start _ => N c + 7 | Load _ => N c + 6 | Cas _ s0 => 5 + (N c - s0) | Fine _ => 5 | Even _ items => items + 6
  | Run _ x e0 k => e0 - x + 1 + kw c k | Seq _ => N c - pos A w + 1 | Want _ => 4 | Got _ => 3 | Put _ _ => 2 | Rel _ => 1 | Done _ => 0
  end.
Definition left_ (c : cfg) (n : Z) : Z := (N c + 10) * (N c - Z.min n (N c)).
Lemma wt_nonneg kd c n w g : CF kd c -> good kd c n w g -> 0 <= wt c w.
Proof. intros (F1 & _) G. unfold Tre_Proofs.good, wt in *. destruct (at_ A w) as [| | | | |x e0 [| |]| | | | | |]; cbn [kw]; lia. Qed.
Lemma wt_decide c n p q x : (if n <? N c then wt c (mkW A (decide A c n) p q x) <= 5 + (N c - n) /\ wt c (mkW A (decide A c n) p q x) <= 5 + (N c - n) else wt c (mkW A (decide A c n) p q x) = 4).
Proof. unfold decide. bz; cbn [wt at_]; lia. Qed.
Lemma wstep_less kd c q w n r k w' n' r' k' g : CF kd c -> 0 <= q -> 0 <= n -> good kd c n w g -> bound A kd c n w -> n <= n' ->
  wstep A o v c q w n r k = Some (w', n', r', k') -> left_ c n' + wt c w' + 1 <= left_ c n + wt c w.
Proof.
  intros F Hq Hn G B MN E. pose proof F as (HN & HC & HW & HC1 & HF). assert (HP : 0 <= W c * (C c + 2)) by nia.
  assert (LM : forall a b, a <= b -> left_ c b <= left_ c a) by (intros; unfold left_; nia).
  assert (LD : forall a b d, a + d <= Z.min b (N c) -> 0 <= d -> left_ c b + (N c + 10) * d <= left_ c a) by (intros; unfold left_; nia).
  specialize (LM n n' MN).
  unfold wstep, Tre_Proofs.good in *. destruct (at_ A w) as [| |s0| |items|x e0 j| | | |y| |] eqn:Aw.
  - unfold wt at 2; rewrite Aw. destruct (N c <=? n); [|destruct (N c - n =? 1)]; injection E as <- <- <- <-; cbn [wt at_]; try lia. unfold wt; cbn [at_]. destruct (guided c); lia.
  - injection E as <- <- <- <-. unfold wt at 2; rewrite Aw. pose proof (wt_decide c n (pos A w) (z A w) (sum A w)). destruct (Z.ltb_spec n (N c)); lia.
  - destruct G as (-> & G0 & G1 & G2 & G3 & G4). specialize (HC1 eq_refl). unfold wt at 2; rewrite Aw.
    destruct (Z.eqb_spec n s0) as [->|Ne]; injection E as <- <- <- <-.
    + set (q' := if q <? C c then C c else q) in *. assert (Q : C c <= q') by (unfold q'; destruct (Z.ltb_spec q (C c)); lia).
      set (e0 := if q' <=? N c - s0 then s0 + q' else N c) in *. assert (Q2 : s0 < e0 <= N c) by (unfold e0; destruct (Z.leb_spec q' (N c - s0)); lia).
      clearbody e0. cbn [wt at_ kw]. pose proof (LD s0 e0 (e0 - s0) ltac:(lia) ltac:(lia)). nia.
    + pose proof (wt_decide c n (pos A w) (z A w) (sum A w)). destruct (Z.ltb_spec n (N c)); lia.
  - destruct G as (-> & G1 & G2 & G3). specialize (HC1 eq_refl). assert (BB : n + C c + 2 < 2 ^ 64) by (apply B; unfold Tre_Proofs.past; rewrite Aw; auto).
    rewrite u64_small in E by lia. unfold wt at 2; rewrite Aw. destruct (Z.leb_spec (N c) n); injection E as <- <- <- <-; cbn [wt at_ kw]; [lia|].
    set (e0 := if C c <=? N c - n then n + C c else N c) in *. assert (Q2 : n < e0 <= N c /\ e0 = Z.min (n + C c) (N c)) by (unfold e0; destruct (Z.leb_spec (C c) (N c - n)); lia).
    clearbody e0. pose proof (LD n (n + C c) (e0 - n) ltac:(lia) ltac:(lia)). nia.
  - unfold wt at 2; rewrite Aw. destruct (items =? 1); injection E as <- <- <- <-; cbn [wt at_ kw]; lia.
  - unfold wt at 2; rewrite Aw. destruct (Z.ltb_spec x e0); [|destruct j]; injection E as <- <- <- <-; cbn [wt at_ kw]; lia.
  - unfold wt at 2; rewrite Aw. destruct (Z.eqb_spec (pos A w) (N c)); injection E as <- <- <- <-; cbn [wt at_ pos]; lia.
  - unfold wt at 2; rewrite Aw. destruct k; [discriminate|]. injection E as <- <- <- <-; cbn [wt at_]; lia.
  - unfold wt at 2; rewrite Aw. injection E as <- <- <- <-; cbn [wt at_]; lia.
  - unfold wt at 2; rewrite Aw. injection E as <- <- <- <-; cbn [wt at_]; lia.
  - unfold wt at 2; rewrite Aw. injection E as <- <- <- <-; cbn [wt at_]; lia.
  - discriminate.
Qed.
Definition mu (c : cfg) (s : st A) : Z := left_ c (next A s) + zsum (wt c) (ws A s).
Lemma step_less kd c s s' : CF kd c -> Inv kd c s -> step A o v c s s' -> mu c s' + 1 <= mu c s.
Proof.
  intros F I St. destruct St as [q l1 w l2 n r k w' n' r' k' u Hq E ->].
  destruct (inv_here kd c n r k l1 w l2 F I) as (idx & g1 & g & g2 & Hn & Ga & Gw & Gb & R & B & P & HL & CT).
  destruct (wstep_did A o v assoc kd c q w n r k w' n' r' k' g F Hq Hn Gw B P ltac:(intros Q; apply HL; auto) E) as (g' & dx & D1 & D2 & _).
  pose proof (wstep_less kd c q w n r k w' n' r' k' g F Hq Hn Gw B D2 E). unfold mu; cbn [next ws]. rewrite !zsum_mid. lia.
Qed.
Lemma mu_nonneg kd c s : CF kd c -> Inv kd c s -> 0 <= mu c s.
Proof.
  intros F (Hn & _ & _ & _ & idx & gs & G & _). unfold mu. assert (0 <= left_ c (next A s)) by (destruct F as (F1 & _); unfold left_; nia).
  assert (0 <= zsum (wt c) (ws A s)); [|lia]. clear -F G. induction G; cbn; [lia|]. fold (zsum (wt c) l). pose proof (wt_nonneg _ _ _ _ _ F H). lia.
Qed.
Lemma steps_less kd c m s s' : CF kd c -> Inv kd c s -> steps A o v c m s s' -> Z.of_nat m <= mu c s - mu c s'.
Proof.
  intros F I S. induction S as [s|m s u x S IH T]; [lia|]. pose proof (steps_inv kd c m s u F I S) as J. pose proof (step_less kd c u x F J T). specialize (IH I). lia.
Qed.
Lemma can_step c w n r k : at_ A w <> Done A -> (at_ A w = Want A -> k = false) -> exists x, wstep A o v c 0 w n r k = Some x.
Proof.
  intros ND HK. unfold wstep. destruct (at_ A w) as [| |s0| |items|x e0 j| | | |y| |]; eauto; try congruence.
  - destruct (N c <=? n); [|destruct (N c - n =? 1)]; eauto.
  - destruct (n =? s0); eauto.
  - destruct (N c <=? n); eauto.
  - destruct (items =? 1); eauto.
  - destruct (x <? e0); [|destruct j]; eauto.
  - destruct (pos A w =? N c); eauto.
  - rewrite HK by auto. eauto.
Qed.
Lemma holder l : 0 < zsum hold l -> exists w, In w l /\ hold w = 1.
Proof.
  induction l as [|w l IH]; cbn; [lia|]. fold (zsum hold l). intros H. pose proof (hold_01 w). destruct (Z.eq_dec (hold w) 1); [eauto|].
  destruct IH as (x & Hx & E); [lia|eauto].
Qed.
Lemma stuck_joined kd c s : Inv kd c s -> (forall s', ~ step A o v c s s') -> joined A s.
Proof.
  intros (_ & _ & HH & _) H. destruct s as [n r k l]. cbn [ws locked] in HH.
  assert (NS : forall w, In w l -> at_ A w <> Done A -> (at_ A w = Want A -> k = false) -> False).
  { intros w Hw ND HK. destruct (can_step c w n r k ND HK) as ([[[w' n'] r'] k'] & E). apply in_split in Hw. destruct Hw as (l1 & l2 & ->).
    eapply H. eapply (go A o v c 0 l1 w l2 n r k w' n' r' k' _); eauto. lia. }
  assert (KF : k = false).
  { destruct k; auto. exfalso. destruct (holder l) as (w & Hw & E); [rewrite HH; cbn; lia|]. apply (NS w Hw); intros Q; unfold Tre_Proofs.hold in E; rewrite Q in E; discriminate. }
  intros w Hw. cbn [ws] in Hw. destruct (at_ A w) eqn:Q; auto; exfalso; apply (NS w Hw); rewrite ?Q; auto; discriminate.
Qed.
End Proofs.
