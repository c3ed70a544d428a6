(** The invariant holds at the launch and along every execution. *)
From Coq Require Import ZArith List Bool Lia Permutation.
From Verif Require Import Tfe_Model Tfe_Spec Tfe_Proofs.
Import ListNotations.
Open Scope Z_scope.
Definition zsum (f : task -> Z) (l : list task) : Z := fold_right (fun w a => f w + a) 0 l.
Definition ovr (w : task) : Z := match at_ w with Done => 1 | _ => 0 end.
Lemma zsum_app f l m : zsum f (l ++ m) = zsum f l + zsum f m.
Proof. unfold zsum; induction l as [|w l IH]; cbn; [lia|]. rewrite IH; lia. Qed.
Lemma zsum_mid f l w m : zsum f (l ++ w :: m) = zsum f l + f w + zsum f m.
Proof. rewrite zsum_app. cbn. fold (zsum f m). lia. Qed.
Lemma zsum_nonneg f l : (forall w, In w l -> 0 <= f w) -> 0 <= zsum f l.
Proof. induction l as [|w l IH]; cbn; intros; [lia|]. specialize (IH ltac:(auto)). fold (zsum f l). assert (0 <= f w) by auto. lia. Qed.
Lemma zsum_zero f l : (forall w, In w l -> f w = 0) -> zsum f l = 0.
Proof. induction l as [|w l IH]; cbn; intros; [lia|]. specialize (IH ltac:(auto)). fold (zsum f l). rewrite H by auto. lia. Qed.
Lemma zsum_le f l : (forall w, In w l -> f w <= 1) -> zsum f l <= Z.of_nat (length l).
Proof. induction l as [|w l IH]; cbn [zsum fold_right length]; intros; [lia|]. specialize (IH ltac:(cbn in *; auto)). fold (zsum f l). assert (f w <= 1) by (cbn in *; auto). lia. Qed.
Lemma ovr_01 w : 0 <= ovr w <= 1.
Proof. unfold ovr; destruct (at_ w); lia. Qed.
(** [K]: number of tasks spawned. *)
Definition glob (kd : kind) (c : cfg) (K : Z) (s : st) : Prop :=
  match kd with
  | KA => Z.of_nat (length (ws s)) <= W c /\ next s <= N c + chunk c * (1 + zsum ovr (ws s)) /\ ws s <> []
  | KB => next s + zsum (toclaim c) (ws s) = N c
  | KC => next s + zsum (toclaim c) (ws s) = K * chunk c /\ 1 <= W c /\ K <= W c /\ (K - 1) * chunk c < N c /\ (K = W c \/ N c <= K * chunk c)
  end.
Definition Inv (kd : kind) (c : cfg) (K : Z) (s : st) : Prop :=
  0 <= next s /\ Forall (good kd c (next s)) (ws s) /\ glob kd c K s /\
  exists idx, log s = map (val c) idx /\ forall i, cnt idx i + zsum (fun w => pend c w i) (ws s) + unc kd c (next s) i = b2z ((0 <=? i) && (i <? N c)).
Lemma toclaim_nonneg kd c n w : CF kd c -> good kd c n w -> 0 <= toclaim c w.
Proof. intros (H1 & H2 & _) G. unfold toclaim, good in *. destruct (at_ w); lia. Qed.

Lemma step_inv kd c K s s' : CF kd c -> Inv kd c K s -> step c s s' -> Inv kd c K s'.
Proof.
  intros F (Hn & G & Gl & idx & L & C) St. destruct St as [q u l1 w l2 n lg w' n' calls Hq ND E ->]. cbn [next ws log] in *.
  assert (Gw : good kd c n w) by (rewrite Forall_forall in G; apply G, in_elt).
  assert (TN : 0 <= zsum (toclaim c) l1 /\ 0 <= zsum (toclaim c) l2).
  { rewrite Forall_forall in G. split; apply zsum_nonneg; intros; eapply toclaim_nonneg; eauto; apply G, in_or_app; cbn; auto. }
  assert (Dn : 0 <= zsum ovr l1 <= Z.of_nat (length l1) /\ 0 <= zsum ovr l2 <= Z.of_nat (length l2)).
  { repeat split; try (apply zsum_nonneg; intros; apply ovr_01); apply zsum_le; intros; apply ovr_01. }
  assert (Ow : ovr w = 0) by (unfold ovr; destruct (at_ w); congruence).
  pose proof F as (F1 & F2 & F3 & F4 & F5 & F6).
  assert (B : bound kd c n w).
  { unfold bound, glob in *. cbn [ws next] in Gl. destruct kd.
    - destruct Gl as (Gl1 & Gl2 & _). rewrite zsum_mid in Gl2. rewrite app_length in Gl1; cbn [length] in Gl1.
      assert (1 + (zsum ovr l1 + ovr w + zsum ovr l2) <= W c) by lia. nia.
    - rewrite zsum_mid in Gl. lia.
    - intros P. destruct Gl as (Gl & G2 & G3 & G4 & G5). rewrite zsum_mid in Gl.
      assert (PC : toclaim c w = chunk c). { unfold toclaim, good in *. destruct (at_ w); try lia. destruct Gw; discriminate. }
      split; nia. }
  pose proof (wstep_did kd c q w n F) as D. rewrite E in D. cbn [fst snd] in D.
  destruct D as (D1 & D2 & (ix & Dc & Di) & D3 & D4); auto.
  { intros ->. destruct Gl; tauto. }
  assert (W' : 0 <= ovr w' <= 1) by apply ovr_01.
  unfold Inv; cbn [next ws log]. split; [lia|split; [|split]].
  - rewrite Forall_app in *. destruct G as [Ga Gb]. inversion Gb; subst. split; [|constructor; auto]; eapply Forall_impl; try eassumption; intros; eapply good_mono; eauto.
  - unfold glob in *; cbn [ws next] in *. destruct kd.
    + destruct Gl as (Gl1 & Gl2 & _). split; [|split; [|destruct l1; discriminate]].
      * rewrite app_length in *; cbn [length] in *; lia.
      * rewrite zsum_mid in *. destruct (D4 eq_refl) as [Q|[Q1 Q2]].
        { assert (0 <= chunk c * (zsum ovr l1 + ovr w' + zsum ovr l2)) by nia. assert (chunk c * (zsum ovr l1 + zsum ovr l2) <= chunk c * (zsum ovr l1 + ovr w' + zsum ovr l2)) by nia. nia. }
        { assert (ovr w' = 1) by (unfold ovr; rewrite Q1; auto). nia. }
    + rewrite zsum_mid in *. specialize (D3 ltac:(discriminate)). lia.
    + rewrite zsum_mid in *. specialize (D3 ltac:(discriminate)). destruct Gl as (Gl & G2). split; [lia|auto].
  - exists (idx ++ ix). split; [rewrite map_app; congruence|]. intros i. specialize (C i). specialize (Di i). rewrite zsum_mid in *. rewrite cnt_app. lia.
Qed.
Lemma steps_inv kd c K k s s' : CF kd c -> Inv kd c K s -> steps c k s s' -> Inv kd c K s'.
Proof. intros F I S. induction S as [s|k s u v S IH T]; [exact I|]. exact (step_inv kd c K u v F (IH I) T). Qed.

(** The launch. *)
Lemma spawn_even c : 1 <= W c -> 0 <= N c -> forall k i, 0 <= i -> i + Z.of_nat k = W c ->
  zsum (toclaim c) (spawn (even c) k i) = Z.of_nat k * (N c / W c) + Z.max 0 (N c mod W c - i) /\
  Forall (fun w => exists m, 1 <= m /\ w = fresh c (Even m)) (spawn (even c) k i).
Proof.
  intros HW HN. pose proof (Z.mod_pos_bound (N c) (W c) ltac:(lia)) as MB. assert (DB : 0 <= N c / W c) by (apply Z.div_pos; lia).
  induction k as [|k IH]; intros i Hi E; cbn [spawn].
  - split; [cbn; lia|constructor].
  - unfold even at 1 3. set (it := if i <? N c mod W c then N c / W c + 1 else N c / W c).
    assert (IT : it = N c / W c + b2z (i <? N c mod W c)) by (unfold it; destruct (i <? N c mod W c); cbn; lia).
    destruct (Z.eqb_spec it 0) as [Z0|Z0].
    + split; [|constructor]. change (zsum (toclaim c) []) with 0. destruct (Z.ltb_spec i (N c mod W c)); cbn [b2z] in IT; [lia|].
      assert (Q0 : N c / W c = 0) by lia. rewrite Q0. lia.
    + destruct (IH (i + 1) ltac:(lia) ltac:(lia)) as [S1 S2]. split.
      * cbn [zsum fold_right]. fold (zsum (toclaim c) (spawn (even c) k (i + 1))). rewrite S1. unfold toclaim, fresh; cbn [at_]. rewrite IT. bz; nia.
      * constructor; auto. exists it. split; auto. destruct (i <? N c mod W c); cbn in IT; lia.
Qed.
Lemma spawn_first c : 0 <= N c -> 1 <= chunk c -> 0 <= W c -> N c + (W c + 1) * (chunk c + 1) < 2 ^ 64 -> forall k i, 0 <= i -> i + Z.of_nat k = W c ->
  exists m, 0 <= m <= Z.of_nat k /\ spawn (first c) k i = repeat (fresh c First) (Z.to_nat m) /\ (0 < m -> (i + m - 1) * chunk c < N c) /\ (m = Z.of_nat k \/ N c <= (i + m) * chunk c).
Proof.
  intros HN HC HW HF. induction k as [|k IH]; intros i Hi E; cbn [spawn].
  - exists 0. repeat split; try lia.
  - unfold first at 1. rewrite u64_small by nia. destruct (Z.leb_spec (N c) (i * chunk c)).
    + exists 0. repeat split; try lia.
    + destruct (IH (i + 1) ltac:(lia) ltac:(lia)) as (m & M1 & M2 & M3 & M4). exists (m + 1). split; [lia|split; [|split]].
      * rewrite M2. replace (Z.to_nat (m + 1)) with (S (Z.to_nat m)) by lia. reflexivity.
      * intros _. destruct (Z.eq_dec m 0); [subst; replace (i + (0 + 1) - 1) with i by lia; auto|]. replace (i + (m + 1) - 1) with (i + 1 + m - 1) by lia. apply M3; lia.
      * destruct M4; [left; lia|right]. replace (i + (m + 1)) with (i + 1 + m) by lia. auto.
Qed.
Lemma zsum_repeat f w k : zsum f (repeat w k) = Z.of_nat k * f w.
Proof. induction k as [|k IH]; [cbn; lia|]. cbn [repeat zsum fold_right]. fold (zsum f (repeat w k)). rewrite IH. lia. Qed.

Lemma launch_inv p it b a n nw h : fits n nw h -> named it b a ->
  let c := fst (launch p it b a n nw h) in let s := snd (launch p it b a n nw h) in
  N c = n /\ iter c = it /\ beg c = b /\ inc c = a /\ exists kd K, CF kd c /\ Inv kd c K s.
Proof.
  intros (H1 & H2 & H3 & H4) Hnm.
  set (c := fst (launch p it b a n nw h)). set (s := snd (launch p it b a n nw h)). cbn zeta.
  assert (CE : N c = n /\ iter c = it /\ beg c = b /\ inc c = a /\ 0 <= W c <= nw /\ 0 <= chunk c <= h + 1).
  { unfold c, launch; destruct p; cbn; repeat split; auto; try lia; try (destruct (Z.ltb_spec n nw); lia); destruct (Z.eqb_spec h 0); lia. }
  destruct CE as (EN & EI & EB & EA & EW & EC). do 4 (split; auto).
  assert (CFX : forall kd, (kd <> KB -> 1 <= chunk c) -> N c + (W c + 1) * (chunk c + 1) < 2 ^ 64 -> CF kd c).
  { intros kd HX HY. assert (IB : iter c = true -> beg c = 0 /\ inc c = 1) by (rewrite EI, EB, EA; exact Hnm).
    unfold CF. do 3 (split; [lia|]). split; [exact HX|split; [exact HY|exact IB]]. }
  assert (BD : N c + (W c + 1) * (chunk c + 1) < 2 ^ 64).
  { unfold c, launch; destruct p; cbn; try nia. all: destruct (Z.eqb_spec h 0); destruct (Z.ltb_spec n nw); nia. }
  assert (ALONE : Inv KB c 0 (alone c)).
  { unfold Inv, alone; cbn [next ws log]. split; [lia|split; [|split]].
    - constructor; auto. unfold good; cbn. rewrite EN. repeat split; try lia. unfold val. rewrite EI, EB, EA. destruct it; [destruct (Hnm eq_refl)|]; lia.
    - cbn. lia.
    - exists []. split; auto. intros i. rewrite cnt_nil. cbn. unfold pend, unc; cbn. bz. }
  assert (NONE : n = 0 -> Inv KB c 0 (mkS 0 [] [])).
  { intros Z0. unfold Inv; cbn [next ws log]. split; [lia|split; [constructor|split]].
    - cbn; lia.
    - exists []. split; auto. intros i. rewrite cnt_nil. cbn. unfold unc; rewrite EN. bz. }
  unfold s; clear s. destruct p.
  1, 2: cbn [launch snd]; cbv zeta; change (mkC it b a n (if n <? nw then n else nw) (if h =? 0 then 1 else h)) with c.
  1, 2: destruct (it && (n =? 0)) eqn:E0; [exists KB, 0; split; [apply CFX; auto; congruence|apply NONE; apply andb_prop in E0; lia]|].
  1, 2: destruct ((nw <=? 1) || (n <=? (if h =? 0 then 1 else h))) eqn:E1; [exists KB, 0; split; [apply CFX; auto; congruence|exact ALONE]|].
  1, 2: assert (CK : chunk c = if h =? 0 then 1 else h) by reflexivity; rewrite <- CK in E1; assert (CP : 1 <= chunk c) by (rewrite CK; destruct (Z.eqb_spec h 0); lia).
  1, 2: apply orb_false_elim in E1; destruct E1 as [E1 E2]; apply Z.leb_gt in E1, E2.
  1, 2: assert (WP : 1 <= W c) by (unfold c; cbn; destruct (Z.ltb_spec n nw); lia).
  1, 2: clearbody c; exists KA, 0; split; [apply CFX; auto|].
  1, 2: unfold Inv; cbn [next ws log]; split; [lia|split; [|split]].
  1, 4: apply Forall_forall; intros w Hw; apply repeat_spec in Hw; subst w; unfold good, fresh; cbn; rewrite EI; split; auto; intros ->; lia.
  1, 3: unfold glob; cbn [ws next]; rewrite repeat_length, zsum_repeat; unfold ovr, fresh; cbn [at_]; rewrite Z.mul_0_r; split; [lia|split; [lia|]]; destruct (Z.to_nat (W c)) eqn:Q; [lia|discriminate].
  1, 2: exists []; split; auto; intros i; rewrite cnt_nil, zsum_repeat; unfold pend, unc; cbn; bz.
  cbn [launch snd]; cbv zeta; change (mkC it b a n nw h) with c.
  destruct (it && (n =? 0)) eqn:E0; [exists KB, 0; split; [apply CFX; auto; congruence|apply NONE; apply andb_prop in E0; lia]|].
  destruct ((nw <=? 1) || (n <=? h)) eqn:E1; [exists KB, 0; split; [apply CFX; auto; congruence|exact ALONE]|].
  assert (CK : chunk c = h) by reflexivity. assert (CW : W c = nw) by reflexivity. clearbody c.
  apply orb_false_elim in E1; destruct E1 as [E1 E2]; apply Z.leb_gt in E1, E2. 
  destruct (Z.eqb_spec h 0) as [Z0|Z0].
  - exists KB, 0. split; [apply CFX; auto; congruence|].
    destruct (spawn_even c ltac:(lia) ltac:(lia) (Z.to_nat nw) 0 ltac:(lia) ltac:(lia)) as [S1 S2].
    unfold Inv; cbn [next ws log]; split; [lia|split; [|split]].
    + eapply Forall_impl; [|exact S2]. intros w (m & M & ->). unfold good, fresh; cbn. split; auto. split; auto. rewrite EI; intros ->; auto.
    + unfold glob; cbn [ws next]. rewrite S1. pose proof (Z.mod_pos_bound (N c) (W c) ltac:(lia)). pose proof (Z.div_mod (N c) (W c) ltac:(lia)). lia.
    + exists []. split; auto. intros i. rewrite cnt_nil. rewrite zsum_zero; [unfold unc; bz|].
      intros w Hw. rewrite Forall_forall in S2. destruct (S2 w Hw) as (m & _ & ->). reflexivity.
  - destruct (spawn_first c ltac:(lia) ltac:(lia) ltac:(lia) BD (Z.to_nat nw) 0 ltac:(lia) ltac:(lia)) as (m & M1 & M2 & M3 & M4).
    assert (MP : 0 < m) by (destruct M4; nia).
    exists KC, m. split; [apply CFX; auto; lia|]. rewrite M2.
    unfold Inv; cbn [next ws log]; split; [lia|split; [|split]].
    + apply Forall_forall; intros w Hw; apply repeat_spec in Hw; subst w; unfold good, fresh; cbn; rewrite EI; split; auto; intros ->; lia.
    + unfold glob; cbn [ws next]. rewrite zsum_repeat. unfold toclaim, fresh; cbn [at_]. specialize (M3 MP). repeat split; try lia.
    + exists []. split; auto. intros i. rewrite cnt_nil, zsum_repeat. unfold pend, unc; cbn. destruct (Z.leb_spec 0 i); [|bz].
      pose proof (Z.mod_pos_bound i (W c * chunk c) ltac:(nia)). bz.
Qed.

(** Elements as positions. *)
Lemma cnt_range idx m : (forall i, cnt idx i = b2z ((0 <=? i) && (i <? m))) -> Permutation idx (map Z.of_nat (seq 0 (Z.to_nat m))).
Proof.
  intros H. apply NoDup_Permutation.
  - apply (proj2 (NoDup_count_occ Z.eq_dec idx)). intros x. specialize (H x). unfold cnt in H. destruct ((0 <=? x) && (x <? m)); cbn in H; lia.
  - apply FinFun.Injective_map_NoDup; [intros x y; lia|apply seq_NoDup].
  - intros x. rewrite (count_occ_In Z.eq_dec). specialize (H x). unfold cnt in H. rewrite in_map_iff. split.
    + intros P. exists (Z.to_nat x). rewrite in_seq. revert H. bz.
    + intros (k & <- & K). rewrite in_seq in K. revert H. bz.
Qed.
Lemma elements_val c m : map (val c) (map Z.of_nat (seq 0 (Z.to_nat m))) = elements (beg c) (inc c) m.
Proof. unfold elements. rewrite map_map. reflexivity. Qed.

Lemma b2z_nonneg b : 0 <= b2z b.
Proof. destruct b; cbn; lia. Qed.
Lemma pend_01 c w i : 0 <= pend c w i.
Proof. unfold pend, b2z; destruct (at_ w) as [| | | | |x e0 [| | |]| |]; try lia; try (destruct (_ && _); lia). all: destruct (owed _ _ _ _); lia. Qed.

Lemma inv_prefix kd c K s : 0 <= N c -> Inv kd c K s -> exists rest, Permutation (log s ++ rest) (elements (beg c) (inc c) (N c)).
Proof.
  intros HN (Hn & _ & _ & idx & L & C).
  set (more := filter (fun i => negb (if in_dec Z.eq_dec i idx then true else false)) (map Z.of_nat (seq 0 (Z.to_nat (N c))))).
  exists (map (val c) more). rewrite L, <- map_app, <- elements_val. apply Permutation_map. apply NoDup_Permutation.
  - apply (proj2 (NoDup_count_occ Z.eq_dec _)). intros x. rewrite count_occ_app. specialize (C x). unfold cnt in C.
    assert (0 <= zsum (fun w => pend c w x) (ws s)) by (apply zsum_nonneg; intros; apply pend_01).
    assert (0 <= unc kd c (next s) x) by apply b2z_nonneg.
    assert (NM : NoDup more) by (apply NoDup_filter; apply FinFun.Injective_map_NoDup; [intros u v; lia|apply seq_NoDup]).
    pose proof (proj1 (NoDup_count_occ Z.eq_dec more) NM x) as M1.
    destruct (in_dec Z.eq_dec x idx) as [I|I].
    + assert (count_occ Z.eq_dec more x = 0)%nat.
      { apply count_occ_not_In. unfold more. rewrite filter_In. intros [_ Q]. destruct (in_dec Z.eq_dec x idx); [discriminate|tauto]. }
      destruct ((0 <=? x) && (x <? N c)); cbn in C; lia.
    + rewrite (proj1 (count_occ_not_In Z.eq_dec idx x) I). lia.
  - apply FinFun.Injective_map_NoDup; [intros x y; lia|apply seq_NoDup].
  - intros x. rewrite in_app_iff. unfold more. rewrite filter_In. split.
    + intros [I|[I _]]; auto. rewrite (count_occ_In Z.eq_dec) in I. specialize (C x). unfold cnt in C.
      assert (0 <= zsum (fun w => pend c w x) (ws s)) by (apply zsum_nonneg; intros; apply pend_01).
      assert (0 <= unc kd c (next s) x) by apply b2z_nonneg.
      rewrite in_map_iff. exists (Z.to_nat x). rewrite in_seq. revert C. bz.
    + intros I. destruct (in_dec Z.eq_dec x idx); auto.
Qed.
Lemma inv_end kd c K s : CF kd c -> Inv kd c K s -> joined s -> Permutation (log s) (elements (beg c) (inc c) (N c)).
Proof.
  intros F (Hn & G & Gl & idx & L & C) J. rewrite L, <- elements_val. apply Permutation_map, cnt_range. intros i. rewrite <- C.
  assert (Z1 : zsum (fun w => pend c w i) (ws s) = 0) by (apply zsum_zero; intros w Hw; unfold pend; rewrite (J w Hw); auto).
  assert (Z2 : zsum (toclaim c) (ws s) = 0) by (apply zsum_zero; intros w Hw; unfold toclaim; rewrite (J w Hw); auto).
  rewrite Z1. destruct F as (F1 & F2 & F3 & F4 & F5 & F6).
  enough (unc kd c (next s) i = 0) by lia. unfold glob in Gl; unfold unc. destruct kd.
  - destruct Gl as (_ & _ & NE). destruct (ws s) as [|w l] eqn:Ew; [congruence|]. inversion G; subst.
    assert (AD : at_ w = Done) by (apply J; rewrite Ew; left; auto).
    unfold good in H1; rewrite AD in H1. specialize (H1 eq_refl). bz.
  - bz.
  - specialize (F4 ltac:(discriminate)). destruct Gl as (Q & Q1 & Q2 & Q3 & Q4).
    destruct (Z.leb_spec 0 i); [|bz]. pose proof (Z.mod_pos_bound i (W c * chunk c) ltac:(nia)). pose proof (Z.mod_le i (W c * chunk c) ltac:(lia) ltac:(nia)).
    destruct Q4; [subst K|]; bz.
Qed.
