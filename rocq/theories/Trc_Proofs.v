(** Chunk-by-chunk reductions: every element is in the result, in the sum of one task, owed by one task, or still to be handed out; a measure; no deadlock. *)
From Coq Require Import ZArith List Bool Lia Permutation.
From Verif Require Import Trc_Model Trc_Spec Tre_Spec.
From Verif Require Tfe_Model Tfe_Proofs.
From Verif Require Import Tre_Proofs Tre_Proofs2.
From Verif Require Import Trc_Model.
Import ListNotations.
Open Scope Z_scope.
Inductive kind := KB | KC.
Lemma u64_small x : 0 <= x < 2 ^ 64 -> Trc_Model.u64 x = x.
Proof. intros; apply Z.mod_small; auto. Qed.
Definition tc (c : cfg) : Tfe_Model.cfg := Tfe_Model.mkC true 0 1 (N c) (W c) (C c).
Definition owed (c : cfg) (s0 x i : Z) : Z := b2z (Tfe_Proofs.owed (tc c) s0 x i).
Lemma owed_next c s0 i : 0 <= s0 -> 1 <= C c -> 1 <= W c -> owed c s0 (s0 + C c) i = owed c (s0 + W c * C c) (s0 + W c * C c) i.
Proof. intros. unfold owed. f_equal. apply (Tfe_Proofs.owed_next (tc c)); auto. Qed.
Lemma owed_over c s0 x i : N c <= x -> owed c s0 x i = 0.
Proof. intros. apply (Tfe_Proofs.owed_over (tc c)); auto. Qed.
Lemma owed_in c s0 x i : s0 <= x -> x < s0 + C c -> x < N c -> 1 <= C c -> 1 <= W c -> owed c s0 x i = b2z (x =? i) + owed c s0 (x + 1) i.
Proof. intros. apply (Tfe_Proofs.owed_in (tc c)); auto. Qed.
Section Proofs.
Variable A : Type.
Variable o : A -> A -> A.
Variable v : Z -> A.
Hypothesis assoc : associative o.
Variable init : A.
Notation red := (red A o v).
Notation issum := (issum A o v).
Definition CF (c : cfg) : Prop := 0 <= N c /\ 1 <= C c /\ 0 <= W c /\ N c + 3 * (W c + 1) * (C c + 1) < 2 ^ 64.
Definition good (kd : kind) (c : cfg) (w : task A) (g : list Z) : Prop :=
  match at_ A w with
  | First _ => kd = KC /\ b A w = 0 /\ g = []
  | Items _ i s0 f => kd = KC /\ 0 <= s0 < N c /\ 0 <= i <= C c /\ pos A w = s0 + i /\ pos A w <= N c /\ b A w = s0 + (if f then 2 else 0) /\ issum (sum A w) g
  | Seq _ => kd = KB /\ 0 <= pos A w <= N c /\ g = []
  | Want _ | Got _ | Put _ _ => issum (sum A w) g
  | Rel _ | Done _ => g = []
  end.
Definition pend (c : cfg) (w : task A) (i : Z) : Z :=
  match at_ A w with Items _ k s0 _ => owed c s0 (s0 + k) i | Seq _ => b2z ((pos A w <=? i) && (i <? N c)) | _ => 0 end.
Definition unc (kd : kind) (c : cfg) (n i : Z) : Z := b2z ((match kd with KC => n <=? i mod (W c * C c) | _ => n <=? i end) && (0 <=? i) && (i <? N c)).
Definition toclaim (c : cfg) (w : task A) : Z := match at_ A w with First _ => C c | _ => 0 end.
Definition hold (w : task A) : Z := match at_ A w with Seq _ | Got _ | Put _ _ | Rel _ => 1 | _ => 0 end.
Definition putok (r : A) (w : task A) : Prop := match at_ A w with Put _ y => y = o r (sum A w) | _ => True end.
Definition wt (c : cfg) (w : task A) : Z :=
  match at_ A w with
  | First _ => C c + 9 + (C c + 6) * N c | Items _ i s0 _ => C c - i + 5 + (C c + 6) * (N c - s0) | Seq _ => N c - pos A w + 1 | Want _ => 4 | Got _ => 3 | Put _ _ => 2 | Rel _ => 1 | Done _ => 0
  end.
Definition did kd c n r k (w : task A) g w' n' r' k' g' dx : Prop :=
  good kd c w' g' /\ n <= n' /\ red r dx = r' /\ (forall i, cnt dx i + cnt g' i + pend c w' i + unc kd c n' i = cnt g i + pend c w i + unc kd c n i)
  /\ (dx = [] \/ hold w = 1) /\ hold w' + b2z k = hold w + b2z k' /\ putok r' w' /\ n' + toclaim c w' = n + toclaim c w /\ wt c w' + 1 <= wt c w.
Ltac fin E := unfold hold, toclaim, putok, pend, wt; rewrite ?E; cbn [at_ sum pos].
Lemma count_first c n i : 1 <= C c -> 1 <= W c -> 0 <= n -> n + C c <= W c * C c -> n < N c -> owed c n n i + unc KC c (n + C c) i = unc KC c n i.
Proof.
  intros HC HW Hn B1 B2. unfold owed, Tfe_Proofs.owed, unc, tc; cbn [Tfe_Model.W Tfe_Model.chunk Tfe_Model.N]. destruct (Z.leb_spec 0 i) as [P|P]; [|bz].
  pose proof (Tfe_Proofs.mod_far (W c * C c) n (C c) i ltac:(lia) ltac:(lia) ltac:(lia) P) as M.
  pose proof (Z.mod_pos_bound i (W c * C c) ltac:(nia)) as MB.
  destruct (Z.ltb_spec i (N c)); [|bz; destruct ((i - n) mod (W c * C c) <? C c); reflexivity].
  bz; cbn; try lia.
Qed.
Lemma wstep_did kd c w n r k w' n' r' k' g : CF c -> (kd = KC -> 1 <= W c) -> 0 <= n -> good kd c w g -> (0 < toclaim c w -> n + C c <= W c * C c /\ n < N c) -> putok r w ->
  (hold w = 1 -> k = true) ->
  wstep A o v c w n r k = Some (w', n', r', k') -> exists g' dx, did kd c n r k w g w' n' r' k' g' dx.
Proof.
  intros (HN & HC & HW & HF) HW1 Hn G B P HL E. assert (HP : 0 <= W c * C c) by (apply Z.mul_nonneg_nonneg; lia).
  assert (HT2 : 3 * (W c * C c) + C c + N c + 2 < 2 ^ 64) by nia.
  assert (HTr : trip c = W c * C c) by (apply u64_small; lia).
  unfold wstep, good in *. destruct (at_ A w) as [|j s0 f| | | |y| |] eqn:Aw.
  - destruct G as (-> & P0 & ->). specialize (HW1 eq_refl). unfold toclaim in B; rewrite Aw in B. destruct (B ltac:(lia)) as [B1 B2].
    pose proof (fun i => count_first c n i HC HW1 Hn B1 B2) as CT.
    assert (HD : 0 <= (C c + 6) * n) by (apply Z.mul_nonneg_nonneg; lia).
    assert (HS : 1 <= W c * C c) by (apply (Z.mul_le_mono_nonneg 1 _ 1); lia).
    assert (HE : 0 <= (C c + 6) * (W c * C c)) by (apply Z.mul_nonneg_nonneg; lia).
    assert (HG : 0 <= (C c + 6) * N c) by (apply Z.mul_nonneg_nonneg; lia).
    rewrite P0, Z.add_0_l, HTr in E. rewrite !u64_small in E by lia.
    destruct (Z.eqb_spec (C c) 1) as [C1|C1].
    + assert (ON : forall i, owed c n n i = b2z (n =? i) + owed c (n + W c * C c) (n + W c * C c) i).
      { intros i. rewrite owed_in by lia. rewrite <- owed_next by lia. rewrite C1. auto. }
      destruct (Z.leb_spec (N c) (n + W c * C c)) as [L1|L1]; [|destruct (Z.leb_spec (N c) (n + W c * C c * 2)) as [L2|L2]]; injection E as <- <- <- <-.
      * exists [n], []. unfold did, good; cbn [at_ sum]. fin Aw. repeat split; auto; try lia. { exists n, []; auto. }
        intros i. rewrite cnt_nil, cnt_one. specialize (CT i). rewrite ON, (owed_over c (n + W c * C c)) in CT by lia. lia.
      * exists [n; n + W c * C c], []. unfold did, good; cbn [at_ sum]. fin Aw. repeat split; auto; try lia. { exists n, [n + W c * C c]; auto. }
        intros i. rewrite cnt_nil, cnt_cons, cnt_one. specialize (CT i). rewrite ON in CT. rewrite (owed_in c (n + W c * C c)) in CT by lia.
        replace (n + W c * C c + 1) with (n + W c * C c + C c) in CT by lia. rewrite owed_next, owed_over in CT by lia. lia.
      * exists [n; n + W c * C c], []. unfold did, good; cbn [at_ sum pos b]. fin Aw. repeat split; auto; try lia; try nia. { exists n, [n + W c * C c]; auto. }
        intros i. rewrite cnt_nil, cnt_cons, cnt_one. specialize (CT i). rewrite ON in CT. rewrite (owed_in c (n + W c * C c)) in CT by lia.
        replace (n + W c * C c + 1) with (n + W c * C c + C c) in CT by lia. rewrite owed_next in CT by lia.
        replace (n + W c * C c + W c * C c) with (n + W c * C c * 2) in CT by lia. rewrite Z.add_0_r. lia.
    + destruct (Z.eqb_spec (N c - n) 1) as [L1|L1]; injection E as <- <- <- <-.
      * exists [n], []. unfold did, good; cbn [at_ sum]. fin Aw. repeat split; auto; try lia. { exists n, []; auto. }
        intros i. rewrite cnt_nil, cnt_one. specialize (CT i). rewrite owed_in, owed_over in CT by lia. lia.
      * exists [n; n + 1], []. unfold did, good; cbn [at_ sum pos b]. fin Aw. repeat split; auto; try lia. { exists n, [n + 1]; auto. }
        intros i. rewrite cnt_nil, cnt_cons, cnt_one. specialize (CT i). rewrite owed_in, owed_in in CT by lia. replace (n + 1 + 1) with (n + 2) in CT by lia. lia.
  - destruct G as (-> & G1 & G2 & G3 & G4 & G5 & G6). specialize (HW1 eq_refl).
    assert (HS : 1 <= W c * C c) by (apply (Z.mul_le_mono_nonneg 1 _ 1); lia).
    assert (HE : C c + 6 <= (C c + 6) * (W c * C c)) by (apply Z.le_mul_diag_r; lia).
    assert (HG : 0 <= (C c + 6) * (N c - s0)) by (apply Z.mul_nonneg_nonneg; lia).
    destruct ((j <? C c) && negb (pos A w =? N c)) eqn:Q.
    + apply andb_prop in Q. destruct Q as [Q1 Q2]. apply Z.ltb_lt in Q1. apply negb_true_iff, Z.eqb_neq in Q2. injection E as <- <- <- <-.
      exists (g ++ [pos A w]), []. unfold did, good; cbn [at_ sum pos b]. fin Aw. repeat split; auto; try lia. { apply issum_snoc; auto. }
      intros i. rewrite cnt_nil, cnt_app, cnt_one. rewrite G3. rewrite (owed_in c s0 (s0 + j)) by lia. replace (s0 + j + 1) with (s0 + (j + 1)) by lia. lia.
    + rewrite HTr, u64_small in E by lia. destruct (negb (j =? C c) || (N c <=? s0 + W c * C c)) eqn:R; injection E as <- <- <- <-.
      * exists g, []. unfold did, good; cbn [at_ sum pos b]. fin Aw. repeat split; auto; try lia. intros i. rewrite cnt_nil.
        assert (Z0 : owed c s0 (s0 + j) i = 0); [|lia].
        destruct (Z.eqb_spec j (C c)) as [->|NJ].
        { cbn in R. apply Z.leb_le in R. rewrite owed_next by lia. apply owed_over; lia. }
        assert (pos A w = N c). { apply andb_false_iff in Q. destruct Q as [Q|Q]; [apply Z.ltb_ge in Q; lia|apply negb_false_iff, Z.eqb_eq in Q; auto]. }
        apply owed_over; lia.
      * apply orb_false_elim in R. destruct R as [R1 R2]. apply negb_false_iff, Z.eqb_eq in R1. apply Z.leb_gt in R2. subst j.
        exists g, []. unfold did, good; cbn [at_ sum pos b]. fin Aw. repeat split; auto; try lia; try (destruct f; lia).
        intros i. rewrite cnt_nil. rewrite (owed_next c s0) by lia. rewrite Z.add_0_r. lia.
  - destruct G as (-> & G1 & ->). destruct (Z.eqb_spec (pos A w) (N c)); injection E as <- <- <- <-.
    + exists [], []. assert (HK : k = true) by (apply HL; unfold hold; rewrite Aw; auto). subst k. unfold did, good; cbn [at_]. fin Aw. cbn [b2z]. repeat split; auto; try lia. intros i; rewrite cnt_nil; unfold unc; bz.
    + exists [], [pos A w]. unfold did, good; cbn [at_ pos]. fin Aw. repeat split; auto; try lia. intros i. rewrite cnt_one, cnt_nil. unfold unc. bz.
  - destruct k; [discriminate|]. injection E as <- <- <- <-. exists g, []. unfold did, good; cbn [at_ sum]. fin Aw. cbn [b2z]. repeat split; auto; try lia.
  - injection E as <- <- <- <-. exists g, []. unfold did, good; cbn [at_ sum]. fin Aw. repeat split; auto; try lia.
  - injection E as <- <- <- <-. unfold putok in P. rewrite Aw in P. subst y. exists [], g. unfold did, good; cbn [at_ sum]. fin Aw. repeat split; auto; try lia.
    + apply red_sum; auto.
    + intros i. rewrite cnt_nil. lia.
  - injection E as <- <- <- <-. assert (HK : k = true) by (apply HL; unfold hold; rewrite Aw; auto). subst k. subst g.
    exists [], []. unfold did, good; cbn [at_ sum]. fin Aw. cbn [b2z]. repeat split; auto; try lia.
  - discriminate.
Qed.
Definition glob (kd : kind) (c : cfg) (K : Z) (s : st A) : Prop :=
  match kd with
  | KB => next A s + zsum (toclaim c) (ws A s) = N c
  | KC => next A s + zsum (toclaim c) (ws A s) = K * C c /\ 1 <= W c /\ K <= W c /\ (K - 1) * C c < N c /\ (K = W c \/ N c <= K * C c)
  end.
Definition Inv (kd : kind) (c : cfg) (K : Z) (s : st A) : Prop :=
  0 <= next A s /\ glob kd c K s /\ zsum hold (ws A s) = b2z (locked A s) /\ Forall (putok (res A s)) (ws A s) /\
  exists idx gs, Forall2 (good kd c) (ws A s) gs /\ res A s = red init idx /\
    forall i, cnt idx i + cnt (concat gs) i + zsum (fun w => pend c w i) (ws A s) + unc kd c (next A s) i = b2z ((0 <=? i) && (i <? N c)).
Lemma hold_01 w : 0 <= hold w <= 1.
Proof. unfold hold; destruct (at_ A w); lia. Qed.
Lemma holds l : 0 <= zsum hold l.
Proof. apply zsum_nonneg; intros; apply hold_01. Qed.
Lemma toclaims c l : CF c -> 0 <= zsum (toclaim c) l.
Proof. intros (_ & H & _). apply zsum_nonneg. intros w _. unfold toclaim. destruct (at_ A w); lia. Qed.
Lemma putok_others r r' l : (r' = r \/ zsum hold l = 0) -> Forall (putok r) l -> Forall (putok r') l.
Proof.
  intros [->|Z0] F; auto. clear F. induction l as [|w l IH]; constructor; cbn in Z0; fold (zsum hold l) in Z0; pose proof (hold_01 w); pose proof (holds l).
  - assert (hold w = 0) by lia. unfold hold, putok in *. destruct (at_ A w); auto; discriminate.
  - apply IH; lia.
Qed.
Definition mu (c : cfg) (s : st A) : Z := zsum (wt c) (ws A s).
Lemma step_inv kd c K s s' : CF c -> Inv kd c K s -> step A o v c s s' -> Inv kd c K s' /\ mu c s' + 1 <= mu c s.
Proof.
  intros F (Hn & Gl & HH & PO & idx & gs & G & R & CT) St. destruct St as [l1 w l2 n r k w' n' r' k' u E ->]. cbn [next ws res locked] in *.
  apply Forall2_app_inv_l in G. destruct G as (g1 & gr & Ga & Gb & ->). inversion Gb as [|w_ g l_ g2 Gw G2]; subst w_ l_ gr.
  pose proof (holds l1). pose proof (holds l2). pose proof (toclaims c l1 F). pose proof (toclaims c l2 F). pose proof F as (F1 & F2 & F3 & F4).
  assert (HL : hold w = 1 -> k = true /\ zsum hold l1 = 0 /\ zsum hold l2 = 0).
  { intros H3. rewrite zsum_mid in HH. destruct k; cbn [b2z] in HH; [|lia]. split; auto. lia. }
  rewrite Forall_app in PO. destruct PO as [P1 P2]. pose proof (Forall_inv P2) as Pw. apply Forall_inv_tail in P2.
  assert (B : 0 < toclaim c w -> n + C c <= W c * C c /\ n < N c).
  { intros P. unfold glob in Gl; cbn [ws next] in Gl. assert (PC : toclaim c w = C c /\ kd = KC). { unfold toclaim, good in *. destruct (at_ A w); try lia. tauto. }
    destruct PC as [PC ->]. destruct Gl as (Gl & Q2 & Q3 & Q4 & Q5). rewrite zsum_mid in Gl. split; nia. }
  destruct (wstep_did kd c w n r k w' n' r' k' g F ltac:(intros ->; destruct Gl; tauto) Hn Gw B Pw ltac:(intros Q; apply HL; auto) E) as (g' & dx & D1 & D2 & D3 & D4 & D5 & D6 & D7 & D8 & D9).
  split; [|unfold mu; cbn [ws]; rewrite !zsum_mid; lia].
  unfold Inv; cbn [next ws res locked]. split; [lia|split; [|split; [|split]]].
  - unfold glob in *; cbn [ws next] in *. destruct kd; rewrite zsum_mid in *; [lia|]. destruct Gl as (Gl & Q2). split; [lia|auto].
  - rewrite zsum_mid in *. lia.
  - assert (O : r' = r \/ (zsum hold l1 = 0 /\ zsum hold l2 = 0)).
    { destruct D5 as [Dx|Dx]; [left; subst dx; rewrite <- D3; reflexivity|right; apply HL; auto]. }
    apply Forall_app. split; [|constructor; [exact D7|]]; eapply putok_others; try eassumption; tauto.
  - exists (idx ++ dx), (g1 ++ g' :: g2). split; [|split].
    + apply Forall2_app; [auto|constructor; auto].
    + rewrite red_app, <- R. auto.
    + intros i. specialize (CT i). specialize (D4 i). rewrite zsum_mid in *. rewrite concat_app in *. cbn [concat] in *. rewrite !cnt_app in *. lia.
Qed.
Lemma steps_inv kd c K m s s' : CF c -> Inv kd c K s -> steps A o v c m s s' -> Inv kd c K s' /\ Z.of_nat m <= mu c s - mu c s'.
Proof. intros F I S. induction S as [s|m s u x S IH T]; [split; [exact I|lia]|]. destruct (IH I) as [J L]. destruct (step_inv kd c K u x F J T) as [J2 L2]. split; [exact J2|lia]. Qed.
Lemma mu_nonneg kd c K s : CF c -> Inv kd c K s -> 0 <= mu c s.
Proof.
  intros (F1 & F2 & _) (_ & _ & _ & _ & idx & gs & G & _). unfold mu. induction G as [|w g l gs Gw G IH]; cbn; [lia|]. fold (zsum (wt c) l).
  assert (0 <= wt c w); [|lia]. assert (HG : 0 <= (C c + 6) * N c) by (apply Z.mul_nonneg_nonneg; lia). unfold good, wt in *. destruct (at_ A w); try lia.
  destruct Gw as (_ & Gw & Gi & _). assert (0 <= (C c + 6) * (N c - s0)) by (apply Z.mul_nonneg_nonneg; lia). lia.
Qed.
Lemma inv_order kd c K s : CF c -> Inv kd c K s -> joined A s -> exists idx, Permutation idx (map Z.of_nat (seq 0 (Z.to_nat (N c)))) /\ res A s = red init idx.
Proof.
  intros F (Hn & Gl & _ & _ & idx & gs & G & R & CT) J. exists idx. split; [|exact R]. apply cnt_range. intros i. rewrite <- CT.
  assert (Z1 : zsum (fun w => pend c w i) (ws A s) = 0) by (apply zsum_zero; intros w Hw; unfold pend; rewrite (J w Hw); auto).
  assert (Z2 : zsum (toclaim c) (ws A s) = 0) by (apply zsum_zero; intros w Hw; unfold toclaim; rewrite (J w Hw); auto).
  assert (Z3 : concat gs = []).
  { clear -G J. unfold joined in J. induction G as [|w g l gs Gw G IH]; auto. assert (AD : at_ A w = Done A) by (apply J; left; auto).
    unfold good in Gw; rewrite AD in Gw. subst g. cbn. apply IH. intros; apply J; right; auto. }
  rewrite Z1, Z3, cnt_nil. enough (unc kd c (next A s) i = 0) by lia. unfold glob in Gl; unfold unc. destruct kd; [bz|].
  destruct F as (F1 & F2 & F3 & F4). destruct Gl as (Q & Q1 & Q2 & Q3 & Q4).
  destruct (Z.leb_spec 0 i); [|bz]. pose proof (Z.mod_pos_bound i (W c * C c) ltac:(nia)). pose proof (Z.mod_le i (W c * C c) ltac:(lia) ltac:(nia)).
  destruct Q4; [subst K|]; bz.
Qed.
Lemma spawn_first c : CF c -> forall k i, 0 <= i -> i + Z.of_nat k = W c ->
  exists m, 0 <= m <= Z.of_nat k /\ spawn A c init k i = repeat (mkW A (First A) 0 0 init) (Z.to_nat m) /\ (0 < m -> (i + m - 1) * C c < N c) /\ (m = Z.of_nat k \/ N c <= (i + m) * C c).
Proof.
  intros (HN & HC & HW & HF). induction k as [|k IH]; intros i Hi E; cbn [spawn].
  - exists 0. repeat split; try lia.
  - rewrite u64_small by nia. destruct (Z.leb_spec (N c) (i * C c)).
    + exists 0. repeat split; try lia.
    + destruct (IH (i + 1) ltac:(lia) ltac:(lia)) as (m & M1 & M2 & M3 & M4). exists (m + 1). split; [lia|split; [|split]].
      * rewrite M2. replace (Z.to_nat (m + 1)) with (S (Z.to_nat m)) by lia. reflexivity.
      * intros _. destruct (Z.eq_dec m 0); [subst; replace (i + (0 + 1) - 1) with i by lia; auto|]. replace (i + (m + 1) - 1) with (i + 1 + m - 1) by lia. apply M3; lia.
      * destruct M4; [left; lia|right]. replace (i + (m + 1)) with (i + 1 + m) by lia. auto.
Qed.
Lemma launch_inv n nw h : fits_chunks n nw h ->
  let c := fst (launch A n nw h init) in let s := snd (launch A n nw h init) in N c = n /\ CF c /\ exists kd K, Inv kd c K s.
Proof.
  intros (H1 & H2 & H3 & H4). cbn [launch fst snd]. cbv zeta. set (c := mkC n nw h).
  assert (EN : N c = n) by reflexivity. assert (EW : W c = nw) by reflexivity. assert (EC : C c = h) by reflexivity. clearbody c.
  assert (F : CF c) by (unfold CF; rewrite EN, EW, EC; lia). split; auto. split; auto.
  destruct (Z.eqb_spec n 0) as [E0|E0].
  { exists KB, 0. unfold Inv; cbn [next ws res locked]. split; [lia|split; [cbn; lia|split; [reflexivity|split; [constructor|]]]].
    exists [], []. split; [constructor|split; auto]. intros i. cbn. unfold unc; rewrite EN. bz. }
  destruct ((nw <=? 1) || (n <=? h)) eqn:E1.
  { exists KB, 0. unfold Inv; cbn [next ws res locked]. split; [lia|split; [cbn; lia|split; [reflexivity|split; [constructor; cbn; auto|]]]].
    exists [], [[]]. split; [constructor; auto; unfold good; cbn; rewrite EN; repeat split; lia|split; auto].
    intros i. cbn. unfold pend, unc; cbn. bz. }
  apply orb_false_elim in E1; destruct E1 as [E1 E2]; apply Z.leb_gt in E1, E2.
  destruct (spawn_first c F (Z.to_nat nw) 0 ltac:(lia) ltac:(lia)) as (m & M1 & M2 & M3 & M4).
  assert (MP : 0 < m) by (destruct M4; nia).
  exists KC, m. rewrite M2. unfold Inv; cbn [next ws res locked]; split; [lia|split; [|split; [|split]]].
  - unfold glob; cbn [ws next]. rewrite zsum_repeat. unfold toclaim; cbn [at_]. specialize (M3 MP). repeat split; try lia.
  - rewrite zsum_repeat. unfold hold; cbn [at_ b2z]. lia.
  - apply Forall_forall; intros w Hw; apply repeat_spec in Hw; subst w; exact Logic.I.
  - assert (GX : forall x, exists gs, Forall2 (good KC c) (repeat (mkW A (First A) 0 0 init) x) gs /\ concat gs = []).
    { clear. induction x as [|x (gs & G & Eg)]; [exists []; split; [constructor|auto]|]. exists ([] :: gs). split; [|exact Eg]. cbn [repeat]. constructor; auto. unfold good; cbn; auto. }
    destruct (GX (Z.to_nat m)) as (gs & G & Eg). exists [], gs. split; [exact G|split; [reflexivity|]]. intros i. rewrite Eg, !cnt_nil, zsum_repeat. unfold pend, unc; cbn [at_].
    destruct (Z.leb_spec 0 i); [|bz]. pose proof (Z.mod_pos_bound i (W c * C c) ltac:(nia)). bz.
Qed.
Lemma holder l : 0 < zsum hold l -> exists w, In w l /\ hold w = 1.
Proof.
  induction l as [|w l IH]; cbn; [lia|]. fold (zsum hold l). intros H. pose proof (hold_01 w). destruct (Z.eq_dec (hold w) 1); [eauto|].
  destruct IH as (x & Hx & E); [lia|eauto].
Qed.
Lemma can_step c w n r k : at_ A w <> Done A -> (at_ A w = Want A -> k = false) -> exists x, wstep A o v c w n r k = Some x.
Proof.
  intros ND HK. unfold wstep. destruct (at_ A w) as [|j s0 f| | | |y| |]; eauto; try congruence.
  - destruct (C c =? 1); [destruct (N c <=? _); [|destruct (N c <=? _)]|destruct (N c - n =? 1)]; eauto.
  - destruct (_ && _); [|destruct (_ || _)]; eauto.
  - destruct (pos A w =? N c); eauto.
  - rewrite HK by auto. eauto.
Qed.
Lemma stuck_joined kd c K s : Inv kd c K s -> (forall s', ~ step A o v c s s') -> joined A s.
Proof.
  intros (_ & _ & HH & _) H. destruct s as [n r k l]. cbn [ws locked] in HH.
  assert (NS : forall w, In w l -> at_ A w <> Done A -> (at_ A w = Want A -> k = false) -> False).
  { intros w Hw ND HK. destruct (can_step c w n r k ND HK) as ([[[w' n'] r'] k'] & E). apply in_split in Hw. destruct Hw as (l1 & l2 & ->).
    eapply H. eapply (go A o v c l1 w l2 n r k w' n' r' k' _); eauto. }
  assert (KF : k = false).
  { destruct k; auto. exfalso. destruct (holder l) as (w & Hw & E); [rewrite HH; cbn; lia|]. apply (NS w Hw); intros Q; unfold hold in E; rewrite Q in E; discriminate. }
  intros w Hw. cbn [ws] in Hw. destruct (at_ A w) eqn:Q; auto; exfalso; apply (NS w Hw); rewrite ?Q; auto; discriminate.
Qed.
End Proofs.
