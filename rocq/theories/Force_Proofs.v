From Coq Require Import Permutation FinFun.
From Verif Require Import Force_Model Force_Spec Chain_Spec Chain_Proofs.
Open Scope R_scope.

(** * List sums *)
Fixpoint lsumR {A} (f : A -> R) (l : list A) : R :=
  match l with [] => 0 | a :: t => f a + lsumR f t end.

Ltac vgen := repeat match goal with
  | |- context [lsum ?f ?l] => generalize (lsum f l); intro
  | |- context [vsum ?f ?l] => generalize (vsum f l); intro end.

Lemma lsum_ext {A} (f g : A -> vec) l : (forall x, In x l -> f x = g x) -> lsum f l = lsum g l.
Proof. induction l; simpl; intros H; auto. rewrite H, IHl; auto. Qed.
Lemma lsumR_ext {A} (f g : A -> R) l : (forall x, In x l -> f x = g x) -> lsumR f l = lsumR g l.
Proof. induction l; simpl; intros H; auto. rewrite H, IHl; auto. Qed.
Lemma lsum_app {A} (f : A -> vec) l m : lsum f (l ++ m) = vadd (lsum f l) (lsum f m).
Proof. induction l; simpl. - rewrite vadd_0_l; auto. - rewrite IHl, vadd_assoc; auto. Qed.
Lemma lsumR_app {A} (f : A -> R) l m : lsumR f (l ++ m) = lsumR f l + lsumR f m.
Proof. induction l; simpl; [ring|]. rewrite IHl; ring. Qed.
Lemma lsum_perm {A} (f : A -> vec) l m : Permutation l m -> lsum f l = lsum f m.
Proof.
  induction 1; simpl; auto; try congruence. rewrite !vadd_assoc. f_equal. apply vadd_comm.
Qed.
Lemma lsumR_perm {A} (f : A -> R) l m : Permutation l m -> lsumR f l = lsumR f m.
Proof. induction 1; simpl; auto; try congruence. ring. Qed.
Lemma lsum_map {A B} (f : B -> vec) (g : A -> B) l : lsum f (map g l) = lsum (fun x => f (g x)) l.
Proof. induction l; simpl; congruence. Qed.
Lemma lsumR_map {A B} (f : B -> R) (g : A -> B) l : lsumR f (map g l) = lsumR (fun x => f (g x)) l.
Proof. induction l; simpl; congruence. Qed.
Lemma lsum_flat {A B} (f : B -> vec) (g : A -> list B) l : lsum f (flat_map g l) = lsum (fun x => lsum f (g x)) l.
Proof. induction l; simpl; auto. rewrite lsum_app. congruence. Qed.
Lemma lsumR_flat {A B} (f : B -> R) (g : A -> list B) l : lsumR f (flat_map g l) = lsumR (fun x => lsumR f (g x)) l.
Proof. induction l; simpl; auto. rewrite lsumR_app. congruence. Qed.
Lemma lsum_zero {A} (f : A -> vec) l : (forall x, In x l -> f x = vzero) -> lsum f l = vzero.
Proof. induction l; simpl; intros H; auto. rewrite H, IHl by auto. vring. Qed.
Lemma lsum_add {A} (f g : A -> vec) l : lsum (fun x => vadd (f x) (g x)) l = vadd (lsum f l) (lsum g l).
Proof. induction l; simpl; [vring|]. rewrite IHl. generalize (f a), (g a). vgen. intros; vring. Qed.
Lemma vsum_lsum f n : vsum f n = lsum f (seq 0 n).
Proof. induction n; auto. rewrite seq_S, lsum_app, <- IHn. simpl. rewrite vadd_0_r. auto. Qed.
Lemma rsum_lsumR f n : rsum f n = lsumR f (seq 0 n).
Proof. induction n; auto. rewrite seq_S, lsumR_app, <- IHn. simpl. ring. Qed.
Lemma vsum_lsum_swap {A} (f : nat -> A -> vec) n l :
  vsum (fun k => lsum (f k) l) n = lsum (fun x => vsum (fun k => f k x) n) l.
Proof.
  induction l as [|a l IH]; simpl; [apply vsum_zero|]. rewrite vsum_add, IH. auto.
Qed.
Lemma vsum_delta n i (x : vec) : (i < n)%nat -> vsum (fun k => if (k =? i)%nat then x else vzero) n = x.
Proof.
  intros H. induction n; [lia|]. simpl. destruct (Nat.eqb_spec n i) as [->|].
  - rewrite (vsum_ext _ (fun _ => vzero)), vsum_zero; [vring|].
    intros k Hk. destruct (Nat.eqb_spec k i); auto; lia.
  - rewrite IHn by lia. vring.
Qed.
Lemma lvsum_lsum {A} (f : A -> vec) l : lvsum f l = lsum f l.
Proof.
  unfold lvsum. assert (H : forall a, fold_left (fun a x => vadd a (f x)) l a = vadd a (lsum f l)).
  { induction l as [|x l IH]; simpl; intros a; [vring|]. rewrite IH. generalize (f x). vgen. intros; vring. }
  rewrite H. vgen. vring.
Qed.
Lemma lrsum_lsumR {A} (f : A -> R) l : lrsum f l = lsumR f l.
Proof.
  unfold lrsum. assert (H : forall a, fold_left (fun a x => a + f x) l a = a + lsumR f l).
  { induction l as [|x l IH]; simpl; intros a; [ring|]. rewrite IH. ring. }
  rewrite H. ring.
Qed.

(** * Pairs *)
Lemma all_pairs_in n i j : In (i, j) (all_pairs n) <-> (i < j < n)%nat.
Proof.
  unfold all_pairs. rewrite in_flat_map. split.
  - intros (a & Ha & H). apply in_map_iff in H as (b & E & Hb). injection E as -> ->. apply in_seq in Ha, Hb. lia.
  - intros H. exists i. split; [apply in_seq; lia|]. apply in_map_iff. exists j. split; auto. apply in_seq. lia.
Qed.
Lemma all_pairs_nodup n : NoDup (all_pairs n).
Proof. apply NoDup_flat_pairs; intros; apply seq_NoDup. Qed.

Lemma lsum_pairs (h : nat -> nat -> vec) n :
  lsum (fun ij => h (fst ij) (snd ij)) (all_pairs n) =
  vsum (fun i => vsum (fun j => if (i <? j)%nat then h i j else vzero) n) n.
Proof.
  unfold all_pairs. rewrite lsum_flat, vsum_lsum. apply lsum_ext. intros i Hi. apply in_seq in Hi.
  rewrite lsum_map. simpl. rewrite vsum_lsum.
  replace n with ((i + 1) + (n - (i + 1)))%nat at 2 by lia. rewrite seq_app, lsum_app.
  rewrite (lsum_zero _ (seq 0 (i + 1))), vadd_0_l.
  - simpl. apply lsum_ext. intros j Hj. apply in_seq in Hj. destruct (Nat.ltb_spec i j); auto; lia.
  - intros j Hj. apply in_seq in Hj. destruct (Nat.ltb_spec i j); auto; lia.
Qed.

(** * Accumulation *)
Definition contrib (F : pair_force) (c : call) (k : nat) : vec :=
  vadd (if (k =? c_i c)%nat then fst (F (c_dr c) (c_dv c) (c_i c) (c_j c)) else vzero)
       (if (k =? c_j c)%nat then snd (F (c_dr c) (c_dv c) (c_i c) (c_j c)) else vzero).

Lemma apply_pair_spec F acc c k : c_i c <> c_j c -> apply_pair F acc c k = vadd (acc k) (contrib F c k).
Proof.
  intros Hne. unfold apply_pair, contrib, upd. destruct (F _ _ _ _) as [fi fj]; simpl.
  destruct (Nat.eqb_spec k (c_j c)) as [->|].
  - destruct (Nat.eqb_spec (c_j c) (c_i c)); [congruence|]. generalize (acc (c_j c)); intros; vring.
  - destruct (Nat.eqb_spec k (c_i c)) as [->|].
    + generalize (acc (c_i c)); intros; vring.
    + generalize (acc k); intros; vring.
Qed.

Lemma add_acc_spec F calls : forall acc k, Forall (fun c => c_i c <> c_j c) calls ->
  add_acc F calls acc k = vadd (acc k) (lsum (fun c => contrib F c k) calls).
Proof.
  unfold add_acc. induction calls as [|c calls IH]; simpl; intros acc k H.
  - rewrite vadd_0_r; auto.
  - apply Forall_cons_iff in H as [H1 H2]. rewrite IH by auto. rewrite apply_pair_spec by auto.
    rewrite vadd_assoc. auto.
Qed.

Lemma direct_calls_ne s : Forall (fun c => c_i c <> c_j c) (direct_calls s).
Proof.
  apply Forall_forall. intros c H. apply in_map_iff in H as ([i j] & <- & H). apply all_pairs_in in H. simpl. lia.
Qed.

Definition pull (F : pair_force) (s : sys) (k j : nat) : vec :=
  fst (F (vsub (sp s j) (sp s k)) (vsub (sv s j) (sv s k)) k j).

Lemma vsub_anti a b : vsub a b = vneg (vsub b a). Proof. vring. Qed.

Lemma pull_snd F s i j : exchange_symmetric F ->
  snd (F (vsub (sp s j) (sp s i)) (vsub (sv s j) (sv s i)) i j) = pull F s j i.
Proof.
  intros E. unfold pull. rewrite (vsub_anti (sp s i)), (vsub_anti (sv s i)), E. auto.
Qed.

Lemma direct_sum F s acc k : exchange_symmetric F -> (k < sn s)%nat ->
  add_acc F (direct_calls s) acc k =
  vadd (acc k) (vsum (fun j => if (j =? k)%nat then vzero else pull F s k j) (sn s)).
Proof.
  intros E Hk. rewrite add_acc_spec by apply direct_calls_ne. f_equal.
  unfold direct_calls. rewrite lsum_map.
  pose (h := fun i j => vadd (if (k =? i)%nat then pull F s i j else vzero)
     (if (k =? j)%nat then pull F s j i else vzero)).
  rewrite (lsum_ext _ (fun ij => h (fst ij) (snd ij))).
  2: { intros [i j] _. unfold contrib, h. simpl. rewrite pull_snd by auto. auto. }
  rewrite lsum_pairs. unfold h. clear h.
  rewrite (vsum_ext _ (fun i => vadd (if (i =? k)%nat then vsum (fun j => if (k <? j)%nat then pull F s k j else vzero) (sn s) else vzero)
     (if (i <? k)%nat then pull F s k i else vzero))).
  - rewrite vsum_add, vsum_delta by auto. rewrite <- vsum_add. apply vsum_ext. intros j Hj.
    generalize (pull F s k j). intros w.
    destruct (Nat.eqb_spec j k), (Nat.ltb_spec k j), (Nat.ltb_spec j k); try lia; vring.
  - intros i Hi. 
    rewrite (vsum_ext _ (fun j => vadd (if (i <? j)%nat then (if (k =? i)%nat then pull F s i j else vzero) else vzero)
       (if (j =? k)%nat then (if (i <? k)%nat then pull F s k i else vzero) else vzero))).
    + rewrite vsum_add, vsum_delta by auto. f_equal. rewrite (Nat.eqb_sym i k). destruct (Nat.eqb_spec k i) as [->|]; auto.
      rewrite (vsum_ext _ (fun _ => vzero)), vsum_zero; auto. intros j _. destruct (i <? j)%nat; auto.
    + intros j Hj. rewrite (Nat.eqb_sym k j). destruct (Nat.eqb_spec j k) as [->|].
      * destruct (Nat.ltb_spec i k); [|vring]. generalize (pull F s k i). destruct (k =? i)%nat; intros; auto.
      * destruct (Nat.ltb_spec i j); auto. vring.
Qed.

(** Action and reaction. *)
Lemma linear_sum F s acc (L : nat -> vec -> vec) calls :
  (forall k a b, L k (vadd a b) = vadd (L k a) (L k b)) -> (forall k, L k vzero = vzero) ->
  Forall (fun c => c_i c <> c_j c /\ (c_i c < sn s)%nat /\ (c_j c < sn s)%nat /\
     vadd (L (c_i c) (fst (F (c_dr c) (c_dv c) (c_i c) (c_j c)))) (L (c_j c) (snd (F (c_dr c) (c_dv c) (c_i c) (c_j c)))) = vzero) calls ->
  vsum (fun k => L k (add_acc F calls acc k)) (sn s) = vsum (fun k => L k (acc k)) (sn s).
Proof.
  intros Ladd L0 H.
  assert (Hne : Forall (fun c => c_i c <> c_j c) calls) by (eapply Forall_impl; [|exact H]; simpl; tauto).
  assert (Llsum : forall k (f : call -> vec) l, L k (lsum f l) = lsum (fun c => L k (f c)) l).
  { intros k f l. induction l; simpl; auto. rewrite Ladd, IHl. auto. }
  rewrite (vsum_ext _ (fun k => vadd (L k (acc k)) (lsum (fun c => L k (contrib F c k)) calls))).
  - rewrite vsum_add, vsum_lsum_swap. rewrite (lsum_zero _ calls); [vgen; vring|].
    intros c Hc. rewrite Forall_forall in H. destruct (H c Hc) as (H1 & H2 & H3 & H4). rewrite <- H4.
    unfold contrib. rewrite (vsum_ext _ (fun k => vadd
       (if (k =? c_i c)%nat then L (c_i c) (fst (F (c_dr c) (c_dv c) (c_i c) (c_j c))) else vzero)
       (if (k =? c_j c)%nat then L (c_j c) (snd (F (c_dr c) (c_dv c) (c_i c) (c_j c))) else vzero))).
    + rewrite vsum_add, !vsum_delta by auto. auto.
    + intros k _. rewrite Ladd. f_equal.
      * destruct (Nat.eqb_spec k (c_i c)) as [->|]; auto.
      * destruct (Nat.eqb_spec k (c_j c)) as [->|]; auto.
  - intros k _. rewrite add_acc_spec by auto. rewrite Ladd, Llsum. auto.
Qed.

(** * Chain loops *)
Definition link (s : sys) (c : chn) (ab : nat * nat) : call := true_call s (ch_idx c (fst ab), ch_idx c (snd ab)).

(** Positions in the chain: near, second, far pairs together are all pairs. *)
Definition near_pairs n := map (fun i => (i, i + 1)%nat) (seq 0 (n - 1)).
Definition second_pairs n := map (fun i => (i, i + 2)%nat) (seq 0 (n - 2)).
Definition far_pairs n := flat_map (fun i => map (fun j => (i, j)) (seq (i + 3) (n - (i + 3)))) (seq 0 n).

Lemma far_in n i j : In (i, j) (far_pairs n) <-> (i + 3 <= j < n)%nat.
Proof.
  unfold far_pairs. rewrite in_flat_map. split.
  - intros (a & Ha & H). apply in_map_iff in H as (b & E & Hb). injection E as -> ->. apply in_seq in Ha, Hb. lia.
  - intros H. exists i. split; [apply in_seq; lia|]. apply in_map_iff. exists j. split; auto. apply in_seq. lia.
Qed.
Lemma near_in n i j : In (i, j) (near_pairs n) <-> (j = i + 1 /\ i < n - 1)%nat.
Proof.
  unfold near_pairs. rewrite in_map_iff. split.
  - intros (a & E & H). injection E as -> <-. apply in_seq in H. lia.
  - intros [-> H]. exists i. split; auto. apply in_seq. lia.
Qed.
Lemma second_in n i j : In (i, j) (second_pairs n) <-> (j = i + 2 /\ i < n - 2)%nat.
Proof.
  unfold second_pairs. rewrite in_map_iff. split.
  - intros (a & E & H). injection E as -> <-. apply in_seq in H. lia.
  - intros [-> H]. exists i. split; auto. apply in_seq. lia.
Qed.

Lemma positions_perm n : (2 <= n)%nat -> Permutation (far_pairs n ++ second_pairs n ++ near_pairs n) (all_pairs n).
Proof.
  intros Hn. apply NoDup_Permutation.
  - apply NoDup_app_intro; [|apply NoDup_app_intro|].
    + apply NoDup_flat_pairs; intros; apply seq_NoDup.
    + apply Injective_map_NoDup; [|apply seq_NoDup]. intros a b E. congruence.
    + apply Injective_map_NoDup; [|apply seq_NoDup]. intros a b E. congruence.
    + intros [i j] H1 H2. apply second_in in H1. apply near_in in H2. lia.
    + intros [i j] H1 H2. apply far_in in H1. apply in_app_or in H2 as [H2|H2]; [apply second_in in H2|apply near_in in H2]; lia.
  - apply all_pairs_nodup.
  - intros [i j]. rewrite all_pairs_in, !in_app_iff, far_in, second_in, near_in. lia.
Qed.

Lemma map_flat_map {A B C} (f : B -> C) (g : A -> list B) l : map f (flat_map g l) = flat_map (fun x => map f (g x)) l.
Proof. induction l; simpl; auto. rewrite map_app, IHl. auto. Qed.

Lemma chain_calls_links s c : (2 <= sn s)%nat -> chain_consistent s c ->
  exists l, chain_calls s c = Ok (map (link s c) (far_pairs (sn s)) ++ map (link s c) (second_pairs (sn s)) ++ map (link s c) (near_pairs (sn s))) /\
  chain_calls' s c = Ok (map (link s c) (near_pairs (sn s)) ++ map (link s c) (second_pairs (sn s)) ++ map (link s c) (far_pairs (sn s))) /\ l = tt.
Proof.
  intros Hn [Hi Hc]. exists tt.
  assert (Ef : chain_far s c = map (link s c) (far_pairs (sn s))).
  { unfold chain_far, far_pairs. rewrite map_flat_map. apply flat_map_ext. intros i. rewrite map_map. apply map_ext. reflexivity. }
  assert (En : chain_near s c = Ok (map (link s c) (near_pairs (sn s)))).
  { unfold chain_near, size_minus. destruct (Nat.ltb_spec (sn s) 1); [lia|]. unfold bounded_loop, near_pairs.
    f_equal. rewrite map_map. apply map_ext_in. intros i H1. apply in_seq in H1. unfold link, true_call. simpl.
    destruct (Hc i) as [-> ->]; [lia|]. auto. }
  assert (Es : chain_second s c = Ok (map (link s c) (second_pairs (sn s)))).
  { unfold chain_second, size_minus. destruct (Nat.ltb_spec (sn s) 2); [lia|]. unfold bounded_loop, second_pairs.
    f_equal. rewrite map_map. apply map_ext_in. intros i H1. apply in_seq in H1. unfold link, true_call. simpl.
    destruct (Hc i) as [-> ->]; [lia|]. destruct (Hc (i + 1)%nat) as [-> ->]; [lia|].
    replace (i + 1 + 1)%nat with (i + 2)%nat by lia. f_equal.
    - generalize (sp s (ch_idx c (i + 2))), (sp s (ch_idx c (i+1))), (sp s (ch_idx c i)). intros; vring.
    - generalize (sv s (ch_idx c (i + 2))), (sv s (ch_idx c (i+1))), (sv s (ch_idx c i)). intros; vring. }
  unfold chain_calls, chain_calls'. rewrite En, Es, Ef. cbn [obind]. auto.
Qed.

Lemma index_fun_inj n (ix : nat -> nat) : is_index n (map ix (seq 0 n)) ->
  (forall i, (i < n)%nat -> (ix i < n)%nat) /\ (forall i j, (i < n)%nat -> (j < n)%nat -> ix i = ix j -> i = j) /\
  (forall p, (p < n)%nat -> exists i, (i < n)%nat /\ ix i = p).
Proof.
  intros H.
  assert (N : forall i, (i < n)%nat -> nth i (map ix (seq 0 n)) 0%nat = ix i).
  { intros i Hi. rewrite (nth_indep _ _ (ix 0%nat)) by (rewrite map_length, seq_length; auto).
    rewrite map_nth, seq_nth by auto. auto. }
  split; [|split].
  - intros i Hi. rewrite <- N by auto. apply is_index_lt; auto.
  - intros i j Hi Hj E. rewrite <- !N in E by auto. eapply is_index_inj; eauto.
  - intros p Hp. destruct (is_index_surj n _ p H Hp) as (i & Hi & E). rewrite N in E by auto. eauto.
Qed.

Lemma map_NoDup_in {A B} (f : A -> B) l : (forall x y, In x l -> In y l -> f x = f y -> x = y) -> NoDup l -> NoDup (map f l).
Proof.
  induction l as [|a l IH]; simpl; intros Hf H; [constructor|]. apply NoDup_cons_iff in H as [Ha H]. constructor.
  - intros Hin. apply in_map_iff in Hin as (b & E & Hb). apply Hf in E; auto. congruence.
  - apply IH; auto.
Qed.

Lemma links_perm n (ix : nat -> nat) : is_index n (map ix (seq 0 n)) ->
  Permutation (map (fun ab => upair (ix (fst ab)) (ix (snd ab))) (all_pairs n)) (all_pairs n).
Proof.
  intros H. destruct (index_fun_inj n ix H) as (Hlt & Hinj & Hsur).
  apply NoDup_Permutation.
  - apply map_NoDup_in; [|apply all_pairs_nodup].
    intros [a b] [a' b'] H1 H2 E. apply all_pairs_in in H1, H2. unfold upair in E. simpl in E. injection E as E1 E2.
    assert (Hab : ix a <> ix b) by (intros X; apply Hinj in X; lia).
    assert (Hab' : ix a' <> ix b') by (intros X; apply Hinj in X; lia).
    assert ((ix a = ix a' /\ ix b = ix b') \/ (ix a = ix b' /\ ix b = ix a')) as [[X Y]|[X Y]] by lia.
    + apply Hinj in X; [|lia|lia]. apply Hinj in Y; [|lia|lia]. congruence.
    + apply Hinj in X; [|lia|lia]. apply Hinj in Y; [|lia|lia]. lia.
  - apply all_pairs_nodup.
  - intros [p q]. rewrite all_pairs_in, in_map_iff. split.
    + intros ([a b] & E & Hin). apply all_pairs_in in Hin. simpl in E. unfold upair in E. injection E as <- <-.
      assert (Hab : ix a <> ix b) by (intros X; apply Hinj in X; lia).
      pose proof (Hlt a ltac:(lia)). pose proof (Hlt b ltac:(lia)). lia.
    + intros Hpq. destruct (Hsur p ltac:(lia)) as (a & Ha & Ea). destruct (Hsur q ltac:(lia)) as (b & Hb & Eb).
      destruct (Nat.lt_total a b) as [L|[->|L]]; [|lia|].
      * exists (a, b). split; [|apply all_pairs_in; lia]. simpl. rewrite Ea, Eb. unfold upair. f_equal; lia.
      * exists (b, a). split; [|apply all_pairs_in; lia]. simpl. rewrite Ea, Eb. unfold upair. f_equal; lia.
Qed.

Lemma contrib_swap F s i j k : exchange_symmetric F ->
  contrib F (true_call s (i, j)) k = contrib F (true_call s (j, i)) k.
Proof.
  intros E. unfold contrib, true_call. simpl.
  rewrite (vsub_anti (sp s i)), (vsub_anti (sv s i)), E. simpl. apply vadd_comm.
Qed.

Lemma contrib_upair F s i j k : exchange_symmetric F ->
  contrib F (true_call s (i, j)) k = contrib F (true_call s (upair i j)) k.
Proof.
  intros E. unfold upair. destruct (Nat.le_ge_cases i j).
  - rewrite Nat.min_l, Nat.max_r by auto. auto.
  - rewrite Nat.min_r, Nat.max_l by auto. apply contrib_swap; auto.
Qed.

Lemma link_ne s c ab : chain_consistent s c -> In ab (all_pairs (sn s)) -> c_i (link s c ab) <> c_j (link s c ab).
Proof.
  intros [Hi _] H. destruct ab as [a b]. apply all_pairs_in in H. simpl.
  destruct (index_fun_inj _ _ Hi) as (_ & Hinj & _). intros X. apply Hinj in X; lia.
Qed.

Lemma chain_any_order F s c acc k L : exchange_symmetric F -> chain_consistent s c ->
  Permutation L (all_pairs (sn s)) ->
  add_acc F (map (link s c) L) acc k = add_acc F (direct_calls s) acc k.
Proof.
  intros E Hc P.
  rewrite !add_acc_spec.
  - f_equal. rewrite (lsum_perm _ _ _ (Permutation_map (link s c) P)).
    unfold direct_calls. rewrite lsum_map.
    pose (g := fun ij => contrib F (true_call s ij) k).
    rewrite (lsum_ext _ (fun ab => g (upair (ch_idx c (fst ab)) (ch_idx c (snd ab))))).
    + rewrite <- (lsum_map g (fun ab => upair (ch_idx c (fst ab)) (ch_idx c (snd ab)))).
      rewrite (lsum_perm _ _ _ (links_perm _ _ (proj1 Hc))), lsum_map. auto.
    + intros ab _. unfold link. apply contrib_upair; auto.
  - apply direct_calls_ne.
  - apply Forall_forall. intros x Hx. apply in_map_iff in Hx as (ab & <- & Hab). apply link_ne; auto.
    eapply Permutation_in; eauto.
Qed.

Lemma chain_acc_eq F s c : exchange_symmetric F -> (2 <= sn s)%nat -> chain_consistent s c ->
  exists l l', chain_calls s c = Ok l /\ chain_calls' s c = Ok l' /\ forall acc k,
    add_acc F l acc k = add_acc F (direct_calls s) acc k /\ add_acc F l' acc k = add_acc F (direct_calls s) acc k.
Proof.
  intros E Hn Hc. destruct (chain_calls_links s c Hn Hc) as (_ & E1 & E2 & _).
  eexists. eexists. split; [exact E1|]. split; [exact E2|]. intros acc k. rewrite <- !map_app.
  pose proof (positions_perm (sn s) Hn) as P. split; apply chain_any_order; auto.
  eapply perm_trans; [|exact P]. rewrite !app_assoc. eapply perm_trans; [apply Permutation_app_comm|].
  rewrite <- app_assoc. apply Permutation_app_head. apply Permutation_app_comm.
Qed.

Lemma chain_pairs_once s c : (2 <= sn s)%nat -> chain_consistent s c ->
  exists l, chain_calls s c = Ok l /\ Permutation (map (fun x => upair (c_i x) (c_j x)) l) (all_pairs (sn s)) /\
    Forall (fun x => c_dr x = vsub (sp s (c_j x)) (sp s (c_i x)) /\ c_dv x = vsub (sv s (c_j x)) (sv s (c_i x))) l.
Proof.
  intros Hn Hc. destruct (chain_calls_links s c Hn Hc) as (_ & E1 & _ & _). eexists. split; [exact E1|].
  rewrite <- !map_app. split.
  - rewrite map_map. eapply perm_trans; [apply Permutation_map, positions_perm; auto|]. apply (links_perm _ _ (proj1 Hc)).
  - apply Forall_forall. intros x Hx. apply in_map_iff in Hx as (ab & <- & _). simpl. auto.
Qed.

Lemma pe_fold m calls : forall e, fold_left (fun e c => e - m (c_i c) * m (c_j c) / norm (c_dr c)) calls e =
  e - lsumR (fun c => m (c_i c) * m (c_j c) / norm (c_dr c)) calls.
Proof. induction calls as [|c l IH]; simpl; intros e; [ring|]. rewrite IH. ring. Qed.
Lemma pe_fold_direct s L : forall e, fold_left (fun e ij => e - sm s (fst ij) * sm s (snd ij) / norm (vsub (sp s (fst ij)) (sp s (snd ij)))) L e =
  e - lsumR (fun ij => sm s (fst ij) * sm s (snd ij) / norm (vsub (sp s (fst ij)) (sp s (snd ij)))) L.
Proof. induction L as [|c l IH]; simpl; intros e; [ring|]. rewrite IH. ring. Qed.

Lemma norm_anti a b : norm (vsub a b) = norm (vsub b a).
Proof. rewrite vsub_anti, norm_neg. auto. Qed.

Lemma chain_pe_eq s c : (2 <= sn s)%nat -> chain_consistent s c -> chain_potential_energy s c = Ok (potential_energy s).
Proof.
  intros Hn Hc. destruct (chain_calls_links s c Hn Hc) as (_ & _ & E2 & _).
  unfold chain_potential_energy. rewrite E2. cbn [obind]. f_equal. unfold pe_calls, potential_energy.
  rewrite pe_fold, pe_fold_direct. f_equal. f_equal. rewrite <- !map_app.
  set (g := fun ij : nat * nat => sm s (fst ij) * sm s (snd ij) / norm (vsub (sp s (fst ij)) (sp s (snd ij)))).
  assert (P : Permutation (near_pairs (sn s) ++ second_pairs (sn s) ++ far_pairs (sn s)) (all_pairs (sn s))).
  { eapply perm_trans; [|exact (positions_perm (sn s) Hn)]. rewrite !app_assoc. eapply perm_trans; [apply Permutation_app_comm|].
    rewrite <- app_assoc. apply Permutation_app_head. apply Permutation_app_comm. }
  rewrite (lsumR_perm _ _ _ (Permutation_map (link s c) P)), lsumR_map.
  rewrite (lsumR_ext _ (fun ab => g (upair (ch_idx c (fst ab)) (ch_idx c (snd ab))))).
  - rewrite <- (lsumR_map g (fun ab => upair (ch_idx c (fst ab)) (ch_idx c (snd ab)))).
    apply lsumR_perm. apply (links_perm _ _ (proj1 Hc)).
  - intros [a b] _. unfold g, upair, link, true_call. simpl.
    destruct (Nat.le_ge_cases (ch_idx c a) (ch_idx c b)).
    + rewrite Nat.min_l, Nat.max_r by auto. rewrite norm_anti. auto.
    + rewrite Nat.min_r, Nat.max_l by auto. rewrite (Rmult_comm (sm s (ch_idx c a))). auto.
Qed.

Lemma chain_too_small s c : (sn s < 2)%nat -> chain_calls s c = UB /\ chain_calls' s c = UB /\ chain_potential_energy s c = UB.
Proof.
  intros H. unfold chain_potential_energy, chain_calls', chain_calls, chain_second, chain_near, size_minus.
  destruct (Nat.ltb_spec (sn s) 2); [|lia]. destruct (Nat.ltb_spec (sn s) 1); simpl; auto.
Qed.

(** * The concrete pair terms *)
Lemma newton_pair_eq m dr dv i j : newton_pair m dr dv i j =
  (vscal (m j / (norm dr * norm dr * norm dr)) dr, vneg (vscal (m i / (norm dr * norm dr * norm dr)) dr)).
Proof. unfold newton_pair, Rdiv. cbv zeta. generalize (/ (norm dr * norm dr * norm dr)). intros q. f_equal; destruct dr; vring. Qed.

Lemma newton_exchange m : exchange_symmetric (newton_pair m).
Proof.
  intros dr dv i j. rewrite !newton_pair_eq, norm_neg. simpl. f_equal; generalize (norm dr * norm dr * norm dr); intros; vring.
Qed.

Lemma tidal_exchange m k tau rad : exchange_symmetric (tidal_pair m k tau rad).
Proof.
  intros dr dv i j. unfold tidal_pair. rewrite norm_neg.
  replace (dot (vneg dv) (vneg dr)) with (dot dv dr) by vring. cbv zeta. cbn [fst snd].
  set (r2 := norm dr * norm dr). set (rv := dot dv dr).
  set (ci := if Req_EM_T (k i) 0 then _ else _). set (cj := if Req_EM_T (k j) 0 then _ else _).
  f_equal; generalize (ci / m i), (ci / m j), (cj / m i), (cj / m j); intros; vring.
Qed.

Ltac pn_start dr := unfold pn1_pair, pn2_pair, pn25_pair; cbv zeta;
  replace (norm2 (vneg dr)) with (norm2 dr) by vring;
  replace (vneg (vneg dr)) with dr by vring.

Lemma pn1_exchange ic m v : exchange_symmetric (pn1_pair ic m v).
Proof.
  intros dr dv i j. pn_start dr. cbn [fst snd].
  generalize (/ sqrt (norm2 dr)) as ir, (Gc * m i / sqrt (norm2 dr)), (Gc * m j / sqrt (norm2 dr)), (Gc / norm2 dr * (ic * ic)), (m i), (m j), (v i), (v j).
  intros. f_equal; vring.
Qed.
Lemma pn25_exchange ic m : exchange_symmetric (pn25_pair ic m).
Proof.
  intros dr dv i j. pn_start dr. replace (norm2 (vneg dv)) with (norm2 dv) by vring. cbn [fst snd].
  replace (0.8 * Gc * Gc * m j * m i) with (0.8 * Gc * Gc * m i * m j) by ring.
  generalize (/ sqrt (norm2 dr)) as ir, (Gc * m i / sqrt (norm2 dr)), (Gc * m j / sqrt (norm2 dr)), (0.8 * Gc * Gc * m i * m j / (norm2 dr * sqrt (norm2 dr)) * (ic * ic * (ic * (ic * ic)))).
  intros. f_equal; vring.
Qed.

(** Momentum and angular momentum for a force along the line of centres. *)
Lemma newton_momentum s acc : vsum (fun k => vscal (sm s k) (add_acc (newton_pair (sm s)) (direct_calls s) acc k)) (sn s)
  = vsum (fun k => vscal (sm s k) (acc k)) (sn s).
Proof.
  apply (linear_sum _ s acc (fun k a => vscal (sm s k) a)); [intros; apply vscal_vadd|intros; apply vscal_0|].
  apply Forall_forall. intros c H. apply in_map_iff in H as ([i j] & <- & H). apply all_pairs_in in H. cbn [true_call c_i c_j c_dr c_dv].
  split; [lia|]. split; [lia|]. split; [lia|]. rewrite newton_pair_eq. cbn [fst snd]. unfold Rdiv.
  generalize (/ (norm (vsub (sp s j) (sp s i)) * norm (vsub (sp s j) (sp s i)) * norm (vsub (sp s j) (sp s i)))), (vsub (sp s j) (sp s i)).
  intros; vring.
Qed.

Lemma newton_torque s acc : vsum (fun k => vscal (sm s k) (cross (sp s k) (add_acc (newton_pair (sm s)) (direct_calls s) acc k))) (sn s)
  = vsum (fun k => vscal (sm s k) (cross (sp s k) (acc k))) (sn s).
Proof.
  apply (linear_sum _ s acc (fun k a => vscal (sm s k) (cross (sp s k) a)));
    [intros; rewrite cross_vadd_r; apply vscal_vadd|intros; rewrite cross_0_r; apply vscal_0|].
  apply Forall_forall. intros c H. apply in_map_iff in H as ([i j] & <- & H). apply all_pairs_in in H. cbn [true_call c_i c_j c_dr c_dv].
  split; [lia|]. split; [lia|]. split; [lia|]. rewrite newton_pair_eq. cbn [fst snd]. unfold Rdiv.
  generalize (/ (norm (vsub (sp s j) (sp s i)) * norm (vsub (sp s j) (sp s i)) * norm (vsub (sp s j) (sp s i)))), (sm s i), (sm s j), (sp s i), (sp s j).
  intros; vring.
Qed.

Lemma tidal_momentum s k tau rad acc : (forall i, (i < sn s)%nat -> sm s i <> 0) ->
  vsum (fun q => vscal (sm s q) (add_acc (tidal_pair (sm s) k tau rad) (direct_calls s) acc q)) (sn s)
  = vsum (fun q => vscal (sm s q) (acc q)) (sn s).
Proof.
  intros Hm. apply (linear_sum _ s acc (fun k a => vscal (sm s k) a)); [intros; apply vscal_vadd|intros; apply vscal_0|].
  apply Forall_forall. intros c H. apply in_map_iff in H as ([i j] & <- & H). apply all_pairs_in in H. cbn [true_call c_i c_j c_dr c_dv].
  split; [lia|]. split; [lia|]. split; [lia|]. unfold tidal_pair. cbv zeta. cbn [fst snd].
  set (ci := if Req_EM_T (k i) 0 then _ else _). set (cj := if Req_EM_T (k j) 0 then _ else _).
  pose proof (Hm i ltac:(lia)). pose proof (Hm j ltac:(lia)).
  generalize ci, cj, (vsub (sp s j) (sp s i)). intros x y v. apply vec_eq; vunf; field; auto.
Qed.

Lemma tidal_torque s k tau rad acc : (forall i, (i < sn s)%nat -> sm s i <> 0) ->
  vsum (fun q => vscal (sm s q) (cross (sp s q) (add_acc (tidal_pair (sm s) k tau rad) (direct_calls s) acc q))) (sn s)
  = vsum (fun q => vscal (sm s q) (cross (sp s q) (acc q))) (sn s).
Proof.
  intros Hm. apply (linear_sum _ s acc (fun k a => vscal (sm s k) (cross (sp s k) a)));
    [intros; rewrite cross_vadd_r; apply vscal_vadd|intros; rewrite cross_0_r; apply vscal_0|].
  apply Forall_forall. intros c H. apply in_map_iff in H as ([i j] & <- & H). apply all_pairs_in in H. cbn [true_call c_i c_j c_dr c_dv].
  split; [lia|]. split; [lia|]. split; [lia|]. unfold tidal_pair. cbv zeta. cbn [fst snd].
  set (ci := if Req_EM_T (k i) 0 then _ else _). set (cj := if Req_EM_T (k j) 0 then _ else _).
  pose proof (Hm i ltac:(lia)). pose proof (Hm j ltac:(lia)).
  generalize ci, cj. intros x y. generalize (sp s i), (sp s j). intros a b. apply vec_eq; vunf; field; auto.
Qed.

Lemma tidal_zero m k tau rad dr dv i j : k i = 0 -> k j = 0 -> tidal_pair m k tau rad dr dv i j = (vzero, vzero).
Proof.
  intros Hi Hj. unfold tidal_pair. cbv zeta. destruct (Req_EM_T (k i) 0); [|congruence]. destruct (Req_EM_T (k j) 0); [|congruence].
  unfold Rdiv. rewrite !Rmult_0_l. f_equal; vring.
Qed.

(** * Relabelling *)
Lemma vsum_reindex n (pi : nat -> nat) f : Permutation (map pi (seq 0 n)) (seq 0 n) ->
  vsum (fun k => f (pi k)) n = vsum f n.
Proof. intros P. rewrite !vsum_lsum. rewrite <- (lsum_map f pi). apply lsum_perm; auto. Qed.

Lemma relabel_acc (F : sys -> pair_force) pi s acc k :
  (forall s, exchange_symmetric (F s)) ->
  (forall k j, pull (F (relabel pi s)) (relabel pi s) k j = pull (F s) s (pi k) (pi j)) ->
  Permutation (map pi (seq 0 (sn s))) (seq 0 (sn s)) -> (k < sn s)%nat ->
  add_acc (F (relabel pi s)) (direct_calls (relabel pi s)) (fun k => acc (pi k)) k =
  add_acc (F s) (direct_calls s) acc (pi k).
Proof.
  intros E HF P Hk. destruct (index_fun_inj _ _ P) as (Hlt & Hinj & _).
  rewrite direct_sum by (auto; simpl; auto). rewrite direct_sum by (auto).
  f_equal. rewrite <- (vsum_reindex (sn s) pi (fun j => if (j =? pi k)%nat then vzero else pull (F s) s (pi k) j)) by auto.
  change (sn (relabel pi s)) with (sn s). apply vsum_ext. intros j Hj.
  destruct (Nat.eqb_spec j k) as [->|Hne].
  - rewrite Nat.eqb_refl. auto.
  - destruct (Nat.eqb_spec (pi j) (pi k)) as [X|]; [apply Hinj in X; auto; congruence|]. apply HF.
Qed.

(** * Drag *)
Lemma add_gas_drag_spec s c cs acc k : add_gas_drag s c cs acc k =
  if (k <? sn s)%nat then vadd (acc k) (gas_drag_acc (sm s) c cs (sv s) k) else acc k.
Proof.
  unfold add_gas_drag. generalize (sn s) as n. induction n as [|n IH]; auto.
  rewrite seq_S, fold_left_app. cbn [fold_left Nat.add]. unfold upd at 1.
  destruct (Nat.eqb_spec k n) as [->|]; rewrite IH.
  - destruct (Nat.ltb_spec n n), (Nat.ltb_spec n (S n)); auto; lia.
  - destruct (Nat.ltb_spec k n), (Nat.ltb_spec k (S n)); auto; lia.
Qed.

Lemma gas_drag_antiparallel m c cs v i : 0 <= m i -> 0 <= c i -> 0 <= cs i ->
  exists q, 0 <= q /\ gas_drag_acc m c cs v i = vscal (- q) (v i).
Proof.
  intros Hm Hc Hcs. unfold gas_drag_acc. cbv zeta.
  destruct (Rlt_dec _ _) as [L|L].
  - exists (c i * m i). split; [nra|]. generalize (v i); intros; vring.
  - exists (3 * sqrt (PI / 2) * c i * cs i * cs i * cs i * m i / (norm (v i) * norm (v i) * norm (v i))).
    split; [|generalize (v i), (3 * sqrt (PI / 2) * c i * cs i * cs i * cs i * m i / (norm (v i) * norm (v i) * norm (v i))); intros; vring].
    pose proof (sqrt_pos (PI / 2)). pose proof (norm_nonneg (v i)) as Hu.
    unfold Rdiv. apply Rmult_le_pos.
    + repeat apply Rmult_le_pos; auto; lra.
    + destruct Hu as [Hu|<-].
      * left. apply Rinv_0_lt_compat. repeat apply Rmult_lt_0_compat; auto.
      * rewrite !Rmult_0_l, Rinv_0. lra.
Qed.

Lemma vsub_as_add a b : vsub a b = vadd a (vneg b). Proof. vring. Qed.

Lemma add_disk_spec s f v_rel : forall L acc k, Forall (fun i => i <> 0%nat) L ->
  fold_left (fun a i => let a1 := upd a i (vsub (a i) (disk_term (f i) (v_rel i) (sm s i))) in
      upd a1 0 (vadd (a1 0%nat) (disk_term (f i) (v_rel i) (sm s 0%nat)))) L acc k =
  vadd (acc k) (lsum (fun i => vadd (if (k =? i)%nat then vneg (disk_term (f i) (v_rel i) (sm s i)) else vzero)
                                    (if (k =? 0)%nat then disk_term (f i) (v_rel i) (sm s 0%nat) else vzero)) L).
Proof.
  induction L as [|i L IH]; intros acc k H; simpl; [rewrite vadd_0_r; auto|].
  apply Forall_cons_iff in H as [H1 H2]. rewrite IH by auto. rewrite vadd_assoc. f_equal.
  unfold upd. destruct (Nat.eqb_spec k 0) as [->|].
  - destruct (Nat.eqb_spec 0 i); [congruence|]. generalize (acc 0%nat), (disk_term (f i) (v_rel i) (sm s 0%nat)). intros; vring.
  - destruct (Nat.eqb_spec k i) as [->|].
    + generalize (acc i), (disk_term (f i) (v_rel i) (sm s i)). intros; vring.
    + generalize (acc k). intros; vring.
Qed.

Lemma disk_momentum s f v_rel acc : (1 <= sn s)%nat -> (forall i, (i < sn s)%nat -> sm s i <> 0) ->
  vsum (fun k => vscal (sm s k) (add_disk s f v_rel acc k)) (sn s) = vsum (fun k => vscal (sm s k) (acc k)) (sn s).
Proof.
  intros Hn Hm. unfold add_disk.
  assert (Hne : Forall (fun i => i <> 0%nat) (seq 1 (sn s - 1))).
  { apply Forall_forall. intros i Hi. apply in_seq in Hi. lia. }
  set (g := fun k i => vscal (sm s k) (vadd (if (k =? i)%nat then vneg (disk_term (f i) (v_rel i) (sm s i)) else vzero)
                                    (if (k =? 0)%nat then disk_term (f i) (v_rel i) (sm s 0%nat) else vzero))).
  rewrite (vsum_ext _ (fun k => vadd (vscal (sm s k) (acc k)) (lsum (g k) (seq 1 (sn s - 1))))).
  - rewrite vsum_add, vsum_lsum_swap. rewrite (lsum_zero _ (seq 1 (sn s - 1))); [vgen; vring|].
    intros i Hi. apply in_seq in Hi. unfold g.
    rewrite (vsum_ext _ (fun k => vadd (if (k =? i)%nat then vscal (sm s i) (vneg (disk_term (f i) (v_rel i) (sm s i))) else vzero)
                                       (if (k =? 0)%nat then vscal (sm s 0%nat) (disk_term (f i) (v_rel i) (sm s 0%nat)) else vzero))).
    + rewrite vsum_add, !vsum_delta by lia. unfold disk_term.
      pose proof (Hm i ltac:(lia)). pose proof (Hm 0%nat ltac:(lia)).
      generalize (vscal (/ sqrt (dot (v_rel i) (v_rel i))) (vscal (f i) (v_rel i))). intros w. apply vec_eq; vunf; field; auto.
    + intros k _. rewrite vscal_vadd. f_equal.
      * destruct (Nat.eqb_spec k i) as [->|]; auto. apply vscal_0.
      * destruct (Nat.eqb_spec k 0) as [->|]; auto. apply vscal_0.
  - intros k _. rewrite add_disk_spec by auto. rewrite vscal_vadd. f_equal. unfold g.
    induction (seq 1 (sn s - 1)) as [|i L IH]; simpl; [apply vscal_0|]. rewrite vscal_vadd.
    apply Forall_cons_iff in Hne as [_ Hne]. rewrite IH by auto. auto.
Qed.

Lemma disk_star s f v_rel acc i : (1 <= i < sn s)%nat ->
  add_disk s f v_rel acc i = vsub (acc i) (disk_term (f i) (v_rel i) (sm s i)).
Proof.
  intros Hi. unfold add_disk. rewrite add_disk_spec.
  - rewrite vsub_as_add. f_equal. rewrite (lsum_ext _ (fun j => if (j =? i)%nat then vneg (disk_term (f i) (v_rel i) (sm s i)) else vzero)).
    + apply eq_trans with (vsum (fun j => if (j =? i)%nat then vneg (disk_term (f i) (v_rel i) (sm s i)) else vzero) (sn s)).
      * rewrite vsum_lsum. destruct (sn s) as [|n] eqn:En; [lia|]. replace (S n - 1)%nat with n by lia. cbn [seq lsum].
        destruct (Nat.eqb_spec 0 i); [lia|]. rewrite vadd_0_l. auto.
      * apply vsum_delta. lia.
    + intros j Hj. apply in_seq in Hj. destruct (Nat.eqb_spec i 0); [lia|]. rewrite (Nat.eqb_sym i j), vadd_0_r.
      destruct (Nat.eqb_spec j i) as [->|]; auto.
  - apply Forall_forall. intros j Hj. apply in_seq in Hj. lia.
Qed.

Lemma disk_term_parallel f w m : 0 <= f -> 0 < m -> exists q, 0 <= q /\ disk_term f w m = vscal q w.
Proof.
  intros Hf Hm. exists (/ m * (/ sqrt (dot w w) * f)). split.
  - apply Rmult_le_pos; [left; apply Rinv_0_lt_compat; auto|]. apply Rmult_le_pos; auto.
    destruct (sqrt_pos (dot w w)) as [H|<-]; [left; apply Rinv_0_lt_compat; auto|rewrite Rinv_0; lra].
  - unfold disk_term. rewrite !vscal_vscal. f_equal. ring.
Qed.

Lemma disk_rho_nonneg r M : 0 <= M -> 0 <= disk_rho r M.
Proof.
  intros HM. unfold disk_rho. cbv zeta. apply Rmult_le_pos; [|left; apply exp_pos].
  set (RR := sqrt (vx r * vx r + vy r * vy r)). pose proof (sqrt_pos (vx r * vx r + vy r * vy r)) as HR. fold RR in HR.
  pose proof PI_RGT_0. unfold Rdiv. apply Rmult_le_pos; auto.
  destruct HR as [HR|HR].
  - left. apply Rinv_0_lt_compat. clearbody RR.
    replace (2 * 1 * PI * RR * RR * RR) with ((2 * PI) * (RR * (RR * RR))) by ring.
    apply Rmult_lt_0_compat; [lra|]. apply Rmult_lt_0_compat; auto. apply Rmult_lt_0_compat; auto.
  - rewrite <- HR. rewrite !Rmult_0_r, Rinv_0. lra.
Qed.

Lemma capture_f_nonneg s rad i : 0 <= sm s 0%nat -> 0 <= capture_f s rad i.
Proof.
  intros HM. unfold capture_f. pose proof (disk_rho_nonneg (vsub (sp s i) (sp s 0%nat)) _ HM). pose proof PI_RGT_0.
  pose proof (norm2_nonneg (capture_v_rel s i)) as Hn. unfold norm2 in Hn.
  apply Rmult_le_pos; [apply Rmult_le_pos|]; auto.
  replace (PI * rad i * rad i) with (PI * (rad i * rad i)) by ring.
  assert (0 <= rad i * rad i) by nra. apply Rmult_le_pos; lra.
Qed.

(** * Interaction list *)
Lemma additive_term f s acc k : additive f -> f_add f s acc k = vadd (acc k) (term f s k).
Proof. intros [g H]. unfold term. rewrite !H. generalize (acc k), (g s k). intros; vring. Qed.

Lemma add_all_spec fs s k : Forall additive fs -> forall acc, add_all fs s acc k = vadd (acc k) (fsum fs s k).
Proof.
  unfold add_all, fsum. induction fs as [|f fs IH]; simpl; intros H acc; [rewrite vadd_0_r; auto|].
  apply Forall_cons_iff in H as [H1 H2]. rewrite IH by auto. rewrite additive_term by auto. rewrite vadd_assoc. auto.
Qed.
Lemma invoke_dep_spec fs s k : Forall additive fs -> forall acc,
  invoke_vel_dep fs s acc k = vadd (acc k) (fsum (filter f_veldep fs) s k).
Proof.
  unfold fsum. induction fs as [|f fs IH]; simpl; intros H acc; [rewrite vadd_0_r; auto|].
  apply Forall_cons_iff in H as [H1 H2]. rewrite IH by auto. destruct (f_veldep f); simpl; auto.
  rewrite additive_term by auto. rewrite vadd_assoc. auto.
Qed.
Lemma invoke_indep_spec fs s k : Forall additive fs -> forall acc,
  invoke_vel_indep fs s acc k = vadd (acc k) (fsum (filter (fun f => negb (f_veldep f)) fs) s k).
Proof.
  unfold fsum. induction fs as [|f fs IH]; simpl; intros H acc; [rewrite vadd_0_r; auto|].
  apply Forall_cons_iff in H as [H1 H2]. rewrite IH by auto. destruct (negb (f_veldep f)); simpl; auto.
  rewrite additive_term by auto. rewrite vadd_assoc. auto.
Qed.
Lemma no_filter {A} (p : A -> bool) l : existsb p l = false -> filter p l = [].
Proof. induction l; simpl; auto. destruct (p a); simpl; [discriminate|auto]. Qed.
Lemma fsum_split fs s k : fsum fs s k = vadd (fsum (filter f_veldep fs) s k) (fsum (filter (fun f => negb (f_veldep f)) fs) s k).
Proof.
  unfold fsum. induction fs as [|f fs IH]; simpl; [vring|]. rewrite IH. destruct (f_veldep f); simpl; vgen; generalize (term f s k); intros; vring.
Qed.

Lemma eval_extra_spec fs s acc k : Forall additive fs -> fs <> [] ->
  eval_extra_acc fs s acc k = fsum fs s k.
Proof.
  intros H Hne. unfold eval_extra_acc. rewrite fsum_split.
  assert (X : ext_vel_dep fs || ext_vel_indep fs = true).
  { destruct fs as [|f fs]; [congruence|]. unfold ext_vel_dep, ext_vel_indep. simpl. destruct (f_veldep f); simpl; auto. apply orb_true_r. }
  rewrite X. destruct (ext_vel_dep fs) eqn:E1; destruct (ext_vel_indep fs) eqn:E2; try discriminate;
    unfold ext_vel_dep, ext_vel_indep in *; rewrite ?invoke_indep_spec, ?invoke_dep_spec by auto;
    rewrite ?(no_filter _ _ E1), ?(no_filter _ _ E2); unfold set_zero; change (fsum [] s k) with vzero;
    repeat match goal with |- context [fsum ?l s k] => generalize (fsum l s k); intro end; vring.
Qed.
