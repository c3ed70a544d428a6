From Coq Require Import Permutation.
From Verif Require Import Fnewt_Model Fnewt_Spec Kahan_Proofs Fsim_Proofs Fsim_Proofs4 Fchain_Proofs Fchain_Proofs2 Force_Proofs Fnewt_Proofs Fnewt_Proofs2.
From Flocq Require Import Relative Ulp.
From Coq Require Import Lra Lia.
Open Scope R_scope.

(** * The chain loops *)
(** The calls for a list of pairs of places with displacements [D]. *)
Definition disp_calls (idx : nat -> nat) (D : nat -> nat -> vec) (l : list (nat * nat)) : list fcall := map (fun ab => (D (fst ab) (snd ab), idx (fst ab), idx (snd ab))) l.

Lemma norm_vneg v : norm (vneg v) = norm v. Proof. apply norm_neg. Qed.
Lemma co_vneg x v : co x (vneg v) = - co x v. Proof. destruct x; cbn [co vneg vx vy vz]; ring. Qed.

Section One.
Variables (n : nat) (m : nat -> R) (idx : nat -> nat) (D : nat -> nat -> vec) (x : axis).
Hypothesis Hidx : index_ok n idx.
Lemma idx_inj i j : (i < n)%nat -> (j < n)%nat -> idx i = idx j -> i = j.
Proof. apply (index_fun_inj n idx Hidx). Qed.
Lemma idx_lt i : (i < n)%nat -> (idx i < n)%nat.
Proof. apply (index_fun_inj n idx Hidx). Qed.
Lemma one_part_disp p a b : (a < b < n)%nat -> (p < n)%nat ->
  one_part m x (idx p) (D a b, idx a, idx b) = (if (p =? a)%nat then dpull m idx D x a b else 0) + (if (p =? b)%nat then dpull m idx D x b a else 0).
Proof.
  intros H Hp. unfold one_part, dpull, oriented.
  assert (Ea : (idx p =? idx a)%nat = (p =? a)%nat).
  { destruct (Nat.eqb_spec p a) as [->|Ne]; [apply Nat.eqb_refl|]. apply Nat.eqb_neq. intros Q. apply Ne, idx_inj; auto; lia. }
  assert (Eb : (idx p =? idx b)%nat = (p =? b)%nat).
  { destruct (Nat.eqb_spec p b) as [->|Ne]; [apply Nat.eqb_refl|]. apply Nat.eqb_neq. intros Q. apply Ne, idx_inj; auto; lia. }
  rewrite Ea, Eb. destruct (Nat.ltb_spec a b); [|lia]. destruct (Nat.ltb_spec b a); [lia|]. rewrite norm_vneg, co_vneg.
  destruct (p =? a)%nat, (p =? b)%nat; unfold Rdiv; ring.
Qed.
Lemma parts_lsum k l : parts m x k l = lsumR (one_part m x k) l.
Proof. induction l as [|c l IH]; cbn [parts lsumR]; auto. rewrite IH. reflexivity. Qed.
Lemma abs_parts_lsum k l : abs_parts m x k l = lsumR (fun c => Rabs (one_part m x k c)) l.
Proof. induction l as [|c l IH]; cbn [abs_parts lsumR]; auto. rewrite IH. reflexivity. Qed.
Lemma concerns_lsum k l : INR (concerns k l) = lsumR (fun c => if orb (k =? fc_i c)%nat (k =? fc_j c)%nat then 1 else 0) l.
Proof. induction l as [|c l IH]; auto. rewrite concerns_cons, plus_INR, IH. cbn [lsumR]. destruct (orb _ _); reflexivity. Qed.

Lemma parts_disp p L : Permutation L (all_pairs n) -> (p < n)%nat -> parts m x (idx p) (disp_calls idx D L) = disp_acc n m idx D x p.
Proof.
  intros P Hp. rewrite parts_lsum. unfold disp_calls. rewrite lsumR_map. rewrite (lsumR_perm _ _ _ P). unfold disp_acc. rewrite <- (pairs_sum (dpull m idx D x) n p Hp).
  apply lsumR_ext. intros [a b] Hab. apply all_pairs_in in Hab. cbn [fst snd]. apply one_part_disp; auto.
Qed.
Lemma abs_parts_disp p L : Permutation L (all_pairs n) -> (p < n)%nat -> abs_parts m x (idx p) (disp_calls idx D L) = abs_disp_acc n m idx D x p.
Proof.
  intros P Hp. rewrite abs_parts_lsum. unfold disp_calls. rewrite lsumR_map. rewrite (lsumR_perm _ _ _ P). unfold abs_disp_acc. rewrite <- (pairs_sum (fun a b => Rabs (dpull m idx D x a b)) n p Hp).
  apply lsumR_ext. intros [a b] Hab. apply all_pairs_in in Hab. cbn [fst snd]. rewrite one_part_disp by auto.
  destruct (Nat.eqb_spec p a), (Nat.eqb_spec p b); subst; try lia; rewrite ?Rplus_0_r, ?Rplus_0_l, ?Rabs_R0; auto.
Qed.
Lemma concerns_disp p L : Permutation L (all_pairs n) -> (p < n)%nat -> concerns (idx p) (disp_calls idx D L) = (n - 1)%nat.
Proof.
  intros P Hp. apply INR_eq. rewrite concerns_lsum. unfold disp_calls. rewrite lsumR_map, (lsumR_perm _ _ _ P).
  pose proof (concerns_true (mkS n (fun _ => 0) (fun _ => vzero) (fun _ => vzero)) p Hp) as Q. cbn [sn] in Q. rewrite <- Q, concerns_lsum. unfold true_calls. cbn [sn]. rewrite lsumR_map.
  apply lsumR_ext. intros [a b] Hab. apply all_pairs_in in Hab. unfold fc_i, fc_j. cbn [fst snd].
  assert (Ea : (idx p =? idx a)%nat = (p =? a)%nat).
  { destruct (Nat.eqb_spec p a) as [->|Ne]; [apply Nat.eqb_refl|]. apply Nat.eqb_neq. intros Q1. apply Ne, idx_inj; auto; lia. }
  assert (Eb : (idx p =? idx b)%nat = (p =? b)%nat).
  { destruct (Nat.eqb_spec p b) as [->|Ne]; [apply Nat.eqb_refl|]. apply Nat.eqb_neq. intros Q1. apply Ne, idx_inj; auto; lia. }
  rewrite Ea, Eb. reflexivity.
Qed.
End One.

Section P.
Variables (emin prec : Z) (choice : Z -> bool).
Context { prec_gt_0_ : Prec_gt_0 prec }.

Lemma fchained_disp s c : (2 <= sn s)%nat ->
  fchained emin prec choice s c = disp_calls (ch_idx c) (chain_disp emin prec choice s c) (far_pairs (sn s) ++ second_pairs (sn s) ++ near_pairs (sn s)).
Proof.
  intros Hn. unfold fchained, disp_calls. rewrite !map_app. f_equal; [|f_equal].
  - unfold far_pairs. rewrite map_flat_map. apply flat_map_ext. intros i. rewrite map_map. apply map_ext_in. intros j Hj. apply in_seq in Hj. cbn [fst snd]. unfold chain_disp.
    destruct (Nat.eqb_spec j (i + 1)); [lia|]. destruct (Nat.eqb_spec j (i + 2)); [lia|]. reflexivity.
  - unfold second_pairs. rewrite map_map. apply map_ext. intros i. cbn [fst snd]. unfold chain_disp. destruct (Nat.eqb_spec (i + 2) (i + 1)); [lia|]. rewrite Nat.eqb_refl. reflexivity.
  - unfold near_pairs. rewrite map_map. apply map_ext. intros i. cbn [fst snd]. unfold chain_disp. rewrite Nat.eqb_refl. reflexivity.
Qed.

Lemma chained_err E e s c T acc p x : (0 <= E)%Z -> (emin + prec - 1 <= - (5 * E + 3))%Z -> (2 <= sn s)%nat -> index_ok (sn s) (ch_idx c) -> (forall i, (i < sn s)%nat -> tame E (sm s i)) ->
  (forall a b, (a < b < sn s)%nat -> T a b <> vzero /\ forall y, tame E (co y (chain_disp emin prec choice s c a b)) /\ within prec e (co y (chain_disp emin prec choice s c a b)) (co y (T a b))) ->
  (p < sn s)%nat -> fmt emin prec (co x (acc (ch_idx c p))) ->
  Rabs (co x (fadd_acc emin prec choice (sm s) (fchained emin prec choice s c) acc (ch_idx c p)) - (co x (acc (ch_idx c p)) + disp_acc (sn s) (sm s) (ch_idx c) T x p)) <=
  (w prec ^ (sn s + 13 + 4 * e) - 1) * (Rabs (co x (acc (ch_idx c p))) + abs_disp_acc (sn s) (sm s) (ch_idx c) T x p).
Proof.
  intros E0 HE Hn Hi Hm HT Hp F. rewrite fchained_disp by auto. set (L := far_pairs (sn s) ++ second_pairs (sn s) ++ near_pairs (sn s)). set (A := co x (acc (ch_idx c p))).
  assert (PL : Permutation L (all_pairs (sn s))) by (apply positions_perm; auto). pose proof (w1 prec) as W1.
  assert (In_L : forall a b, In (a, b) L -> (a < b < sn s)%nat) by (intros a b H; apply all_pairs_in; eapply Permutation_in; eauto).
  destruct (calls_err emin prec choice E E0 HE (sm s) e (ch_idx c p) x (disp_calls (ch_idx c) (chain_disp emin prec choice s c) L) (disp_calls (ch_idx c) T L)) with (acc := acc) (n := (4 * e + 14)%nat) (A := A) (S := Rabs A) as (_ & B); auto; try lra.
  - clearbody L. unfold disp_calls. clear PL. induction L as [|[a b] L IH]; cbn [map]; constructor; [|apply IH; intros; apply In_L; right; auto].
    pose proof (In_L a b (or_introl eq_refl)) as Hab. destruct (HT a b Hab) as (Nz & Ht). unfold call_near, fc_i, fc_j, fc_dr. cbn [fst snd].
    split; [reflexivity|]. split; [reflexivity|]. split; [|split; [exact Nz|]].
    + intros Q. apply (idx_inj _ _ Hi) in Q; lia.
    + intros y. destruct (Ht y) as (H1 & H2). split; [exact H2|exact H1].
  - unfold disp_calls. apply Forall_forall. intros C HC. apply in_map_iff in HC as ([a b] & <- & Hab). apply In_L in Hab. unfold fc_i, fc_j. cbn [fst snd]. split; apply Hm; apply (idx_lt _ _ Hi); lia.
  - rewrite Rminus_diag_eq, Rabs_R0 by reflexivity. apply Rmult_le_pos; [|apply Rabs_pos]. pose proof (Wk (w prec) W1 (4 * e + 14)). lra.
  - rewrite (parts_disp _ _ _ _ _ Hi), (abs_parts_disp _ _ _ _ _ Hi), (concerns_disp _ _ _ Hi) in B by auto.
    replace (4 * e + 14 + (sn s - 1))%nat with (sn s + 13 + 4 * e)%nat in B by lia. exact B.
Qed.

(** With the true displacements the sum is the true acceleration. *)
Lemma disp_true s c x p : index_ok (sn s) (ch_idx c) -> (p < sn s)%nat ->
  disp_acc (sn s) (sm s) (ch_idx c) (fun a b => vsub (sp s (ch_idx c b)) (sp s (ch_idx c a))) x p = true_acc s x (ch_idx c p) /\
  abs_disp_acc (sn s) (sm s) (ch_idx c) (fun a b => vsub (sp s (ch_idx c b)) (sp s (ch_idx c a))) x p = abs_acc s x (ch_idx c p).
Proof.
  intros Hi Hp. set (T := fun a b => vsub (sp s (ch_idx c b)) (sp s (ch_idx c a))).
  assert (G : forall q, (q < sn s)%nat -> dpull (sm s) (ch_idx c) T x p q = gpull s x (ch_idx c p) (ch_idx c q)).
  { intros q Hq. unfold dpull, gpull, oriented, T. destruct (p <? q)%nat; [reflexivity|]. rewrite <- vsub_anti. reflexivity. }
  assert (Eq : forall q, (q < sn s)%nat -> (ch_idx c q =? ch_idx c p)%nat = (q =? p)%nat).
  { intros q Hq. destruct (Nat.eqb_spec q p) as [->|Ne]; [apply Nat.eqb_refl|]. apply Nat.eqb_neq. intros Q1. apply Ne, (idx_inj _ _ Hi); auto. }
  unfold disp_acc, abs_disp_acc, true_acc, abs_acc. rewrite !rsum_lsumR.
  rewrite <- (lsumR_perm (fun j => if (j =? ch_idx c p)%nat then 0 else gpull s x (ch_idx c p) j) _ _ Hi), <- (lsumR_perm (fun j => if (j =? ch_idx c p)%nat then 0 else Rabs (gpull s x (ch_idx c p) j)) _ _ Hi), !lsumR_map.
  split; apply lsumR_ext; intros q Hq; apply in_seq in Hq; rewrite Eq by lia; destruct (q =? p)%nat; auto; rewrite G by lia; reflexivity.
Qed.
End P.
