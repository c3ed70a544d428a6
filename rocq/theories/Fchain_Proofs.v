From Verif Require Import Fchain_Model Fchain_Spec Kahan_Proofs Fsim_Proofs Chain_Proofs.
From Flocq Require Import Sterbenz Plus_error Relative Ulp.
From Coq Require Import Lra Lia.
Open Scope R_scope.

Section P.
Variables (emin prec : Z) (choice : Z -> bool).
Context { prec_gt_0_ : Prec_gt_0 prec }.
Notation fmt := (fmt emin prec).
Notation rnd := (rnd emin prec choice).
Notation fvadd := (fvadd emin prec choice).
Notation fvsub := (fvsub emin prec choice).
Notation fto_chain := (fto_chain emin prec choice).
Notation fto_cartesian := (fto_cartesian emin prec choice).
Notation fget_new_node := (fget_new_node emin prec choice).
Notation fupdate_chain := (fupdate_chain emin prec choice).
Notation u := (u prec).

Lemma u_uro : u = uro prec. Proof. apply u_eq. Qed.
Lemma co_fvadd a v w : co a (fvadd v w) = rnd (co a v + co a w). Proof. destruct a; reflexivity. Qed.
Lemma co_fvsub a v w : co a (fvsub v w) = rnd (co a v - co a w). Proof. destruct a; reflexivity. Qed.
Lemma co_vneg a v : co a (vneg v) = - co a v. Proof. destruct a; reflexivity. Qed.
Lemma co_vadd a v w : co a (vadd v w) = co a v + co a w. Proof. destruct a; reflexivity. Qed.
Lemma co_vsub a v w : co a (vsub v w) = co a v - co a w. Proof. destruct a; reflexivity. Qed.
Lemma co_ext v w : (forall a, co a v = co a w) -> v = w.
Proof. intros H. pose proof (H X). pose proof (H Y). pose proof (H Z3). destruct v as [p1 p2 p3], w as [q1 q2 q3]; cbn [co vx vy vz] in *. congruence. Qed.
Lemma stored_nth l i a : stored emin prec l -> fmt (co a (nth i l vzero)).
Proof.
  intros H. destruct (Nat.lt_ge_cases i (length l)) as [L|L]; [apply H, nth_In; auto|].
  rewrite nth_overflow by auto. replace (co a vzero) with 0 by (destruct a; reflexivity). apply fmt_0.
Qed.

(** Value of chain entry [i]. *)
Definition fchain_at (cart : list vec) (idx : list nat) (n i : nat) : vec :=
  if (i =? n - 1)%nat then nth (nth 0 idx 0%nat) cart vzero
  else fvsub (nth (nth (i + 1) idx 0%nat) cart vzero) (nth (nth i idx 0%nat) cart vzero).

Lemma fto_chain_ok n idx cart ch0 : (1 <= n)%nat -> is_index n idx -> length cart = n -> length ch0 = n ->
  exists ch, fto_chain cart ch0 idx = Ok ch /\ length ch = n /\
    forall i, (i < n)%nat -> nth i ch vzero = fchain_at cart idx n i.
Proof.
  intros Hn Hi Hc H0. pose proof (is_index_len n idx Hi) as Hl. unfold Fchain_Model.fto_chain. rewrite Hc.
  destruct n as [|n1]; [lia|].
  rewrite (aget_ok idx 0 0%nat) by lia. cbn [obind].
  rewrite (aget_ok cart _ vzero) by (rewrite Hc; apply is_index_lt; auto; lia). cbn [obind].
  unfold aset at 1. destruct (Nat.ltb_spec n1 (length ch0)); [|lia]. cbn [obind].
  destruct (for_up_inv (fun i ch => length ch = S n1 /\ nth n1 ch vzero = fchain_at cart idx (S n1) n1 /\
     forall j, (j < i)%nat -> nth j ch vzero = fchain_at cart idx (S n1) j)
    (fun i chain => obind (aget idx (i + 1)) (fun a => obind (aget cart a) (fun ca =>
      obind (aget idx i) (fun b => obind (aget cart b) (fun cb => aset chain i (fvsub ca cb))))))
    n1 0%nat (list_set ch0 n1 (nth (nth 0 idx 0%nat) cart vzero))) as (ch & E & A & B & C).
  - rewrite list_set_length, nth_list_set_eq by lia. split; auto. split; [|intros; lia].
    unfold fchain_at. replace (S n1 - 1)%nat with n1 by lia. rewrite Nat.eqb_refl. auto.
  - intros i ch Hi' (A & B & C). eexists.
    rewrite (aget_ok idx (i+1) 0%nat), (aget_ok idx i 0%nat) by lia. cbn [obind].
    rewrite !(aget_ok cart _ vzero) by (rewrite Hc; apply is_index_lt; auto; lia). cbn [obind].
    unfold aset. destruct (Nat.ltb_spec i (length ch)); [|lia]. split; [reflexivity|].
    rewrite list_set_length. split; auto. split.
    + rewrite nth_list_set_neq by lia; auto.
    + intros j Hj. destruct (Nat.eq_dec i j) as [<-|].
      * rewrite nth_list_set_eq by lia. unfold fchain_at. destruct (Nat.eqb_spec i (S n1 - 1)); [lia|]. auto.
      * rewrite nth_list_set_neq by auto. apply C. lia.
  - exists ch. rewrite E. split; auto. split; auto. intros i Hi'. destruct (Nat.eq_dec i n1) as [->|]; auto. apply C; lia.
Qed.

(** Position of chain member [i]. *)
Fixpoint fcart_at (ch : list vec) (n i : nat) : vec :=
  match i with O => nth (n - 1) ch vzero | S k => fvadd (fcart_at ch n k) (nth k ch vzero) end.

Lemma fto_cartesian_ok n idx ch cart0 : (1 <= n)%nat -> is_index n idx -> length ch = n -> length cart0 = n ->
  exists cart, fto_cartesian ch cart0 idx = Ok cart /\ length cart = n /\
    forall i, (i < n)%nat -> nth (nth i idx 0%nat) cart vzero = fcart_at ch n i.
Proof.
  intros Hn Hi Hc H0. pose proof (is_index_len n idx Hi) as Hl. unfold Fchain_Model.fto_cartesian. rewrite H0.
  destruct n as [|n1]; [lia|].
  rewrite (aget_ok idx 0 0%nat) by lia. cbn [obind].
  rewrite (aget_ok ch n1 vzero) by lia. cbn [obind].
  assert (Hi0 : (nth 0 idx 0 < S n1)%nat) by (apply is_index_lt; auto).
  unfold aset at 1. destruct (Nat.ltb_spec (nth 0 idx 0%nat) (length cart0)); [|lia]. cbn [obind].
  destruct (for_up_inv (fun i cart => length cart = S n1 /\
     forall j, (j < i)%nat -> nth (nth j idx 0%nat) cart vzero = fcart_at ch (S n1) j)
    (fun i cart => obind (aget idx i) (fun a => obind (aget idx (i - 1)) (fun b =>
      obind (aget cart b) (fun cb => obind (aget ch (i - 1)) (fun d => aset cart a (fvadd cb d))))))
    n1 1%nat (list_set cart0 (nth 0 idx 0%nat) (nth n1 ch vzero))) as (cart & E & A & C).
  - rewrite list_set_length. split; auto. intros j Hj. replace j with 0%nat by lia. rewrite nth_list_set_eq by lia.
    cbn [fcart_at]. replace (S n1 - 1)%nat with n1 by lia. auto.
  - intros i cart Hi' (A & C). eexists.
    rewrite (aget_ok idx i 0%nat), (aget_ok idx (i - 1) 0%nat) by lia. cbn [obind].
    assert ((nth (i - 1) idx 0 < S n1)%nat) by (apply is_index_lt; auto; lia).
    assert ((nth i idx 0 < S n1)%nat) by (apply is_index_lt; auto; lia).
    rewrite (aget_ok cart _ vzero) by lia. cbn [obind]. rewrite (aget_ok ch _ vzero) by lia. cbn [obind].
    unfold aset. destruct (Nat.ltb_spec (nth i idx 0%nat) (length cart)); [|lia]. split; [reflexivity|].
    rewrite list_set_length. split; auto.
    intros j Hj. destruct (Nat.eq_dec i j) as [<-|].
    + rewrite nth_list_set_eq by lia. rewrite C by lia. destruct i; [lia|]. replace (S i - 1)%nat with i by lia. auto.
    + rewrite nth_list_set_neq; [apply C; lia|]. intros X. apply (is_index_inj (S n1)) in X; auto; lia.
  - exists cart. rewrite E. split; auto.
Qed.

(** A link is the true separation up to one rounding. *)
Lemma link_err cart idx n i a : stored emin prec cart -> (i < n - 1)%nat ->
  let d := co a (fchain_at cart idx n i) in
  fmt d /\ d = rnd (gap cart idx a i (i + 1)) /\ Rabs (d - gap cart idx a i (i + 1)) <= u * Rabs (gap cart idx a i (i + 1)).
Proof.
  intros S Hi d. unfold d, fchain_at. destruct (Nat.eqb_spec i (n - 1)); [lia|]. rewrite co_fvsub. fold (at_place cart idx (i + 1)) (at_place cart idx i).
  unfold gap. split; [apply rnd_fmt; auto|]. split; auto. apply rnd_sub_err; auto; apply stored_nth; auto.
Qed.

Lemma rabs_tri x y e : Rabs (x - y) <= e -> Rabs x <= Rabs y + e.
Proof. intros H. pose proof (Rabs_triang (x - y) y). replace (x - y + y) with x in H0 by ring. lra. Qed.

(** One more link: error of the sum of a number known up to [e] and a link known up to [u] relative. *)
Lemma add_link s t d g e M : fmt s -> fmt d -> Rabs (s - t) <= e -> Rabs (d - g) <= u * Rabs g -> Rabs (t + g) <= M ->
  Rabs (rnd (s + d) - (t + g)) <= (1 + u) * (e + u * Rabs g) + u * M.
Proof.
  intros Fs Fd Hs Hd HM. pose proof (rnd_add_err emin prec choice s d Fs Fd) as H. pose proof (u_pos prec) as U.
  assert (A : Rabs (s + d - (t + g)) <= e + u * Rabs g).
  { replace (s + d - (t + g)) with ((s - t) + (d - g)) by ring. eapply Rle_trans; [apply Rabs_triang|lra]. }
  assert (B : Rabs (s + d) <= M + (e + u * Rabs g)) by (apply rabs_tri in A; lra).
  replace (rnd (s + d) - (t + g)) with ((rnd (s + d) - (s + d)) + (s + d - (t + g))) by ring.
  eapply Rle_trans; [apply Rabs_triang|]. assert (u * Rabs (s + d) <= u * (M + (e + u * Rabs g))) by (apply Rmult_le_compat_l; lra). lra.
Qed.
Lemma sub_link s t d g e M : fmt s -> fmt d -> Rabs (s - t) <= e -> Rabs (d - g) <= u * Rabs g -> Rabs (t - g) <= M ->
  Rabs (rnd (s - d) - (t - g)) <= (1 + u) * (e + u * Rabs g) + u * M.
Proof.
  intros Fs Fd Hs Hd HM. pose proof (add_link s t (- d) (- g) e M) as H. rewrite Rabs_Ropp in H. apply H; auto.
  - apply fmt_opp; auto.
  - replace (- d - - g) with (- (d - g)) by ring. rewrite Rabs_Ropp. auto.
Qed.

(** Conversion to the chain and back. *)
Lemma trip_err n idx cart ch a M : is_index n idx -> stored emin prec cart -> (1 <= n)%nat ->
  (forall i, (i < n)%nat -> nth i ch vzero = fchain_at cart idx n i) ->
  (forall i, (i < n)%nat -> Rabs (co a (at_place cart idx i)) <= M) ->
  forall i, (i < n)%nat -> fmt (co a (fcart_at ch n i)) /\
    Rabs (co a (fcart_at ch n i) - co a (at_place cart idx i)) <= ((1 + u) ^ i - 1) * ((3 + 2 * u) * M).
Proof.
  intros Hx S Hn V HM. pose proof (u_pos prec) as U. assert (M0 : 0 <= M) by (specialize (HM 0%nat ltac:(lia)); pose proof (Rabs_pos (co a (at_place cart idx 0))); lra).
  induction i as [|i IH]; intros Hi.
  - cbn [fcart_at]. rewrite V by lia. unfold fchain_at. rewrite Nat.eqb_refl. split; [apply stored_nth; auto|].
    fold (at_place cart idx 0). rewrite Rminus_diag_eq by auto. rewrite Rabs_R0. cbn [pow]. lra.
  - destruct (IH ltac:(lia)) as (F & E). cbn [fcart_at]. rewrite co_fvadd. split; [apply rnd_fmt; auto|].
    destruct (link_err cart idx n i a S ltac:(lia)) as (Fd & _ & Ed). cbv zeta in *. rewrite <- V in Fd, Ed by lia. unfold gap in Ed. replace (i + 1)%nat with (Datatypes.S i) in Ed by lia.
    set (t := co a (at_place cart idx i)) in *. set (t' := co a (at_place cart idx (Datatypes.S i))) in *.
    pose proof (add_link _ t _ (t' - t) _ M F Fd E Ed) as H. replace (t + (t' - t)) with t' in H by ring. specialize (H (HM (Datatypes.S i) Hi)).
    eapply Rle_trans; [exact H|]. set (p := ((1 + u) ^ i)). replace ((1 + u) ^ Datatypes.S i) with ((1 + u) * p) by reflexivity.
    assert (G : Rabs (t' - t) <= 2 * M).
    { unfold Rminus. eapply Rle_trans; [apply Rabs_triang|]. rewrite Rabs_Ropp. pose proof (HM i ltac:(lia)). pose proof (HM (Datatypes.S i) Hi). fold t in H0. fold t' in H1. lra. }
    assert (u * (1 + u) * Rabs (t' - t) <= u * (1 + u) * (2 * M)) by (apply Rmult_le_compat_l; [apply Rmult_le_pos; lra|auto]).
    replace (((1 + u) * p - 1) * ((3 + 2 * u) * M)) with ((1 + u) * ((p - 1) * ((3 + 2 * u) * M)) + (u * (1 + u) * (2 * M) + u * M)) by ring. lra.
Qed.

(** Links summed by the re-indexing. *)
Lemma path_nonneg cart idx a i k : 0 <= path cart idx a i k.
Proof. induction k; cbn [path]; [lra|]. pose proof (Rabs_pos (gap cart idx a (i + k) (i + k + 1))). lra. Qed.
Lemma gap_path cart idx a i k : Rabs (gap cart idx a i (i + k)) <= path cart idx a i k.
Proof.
  induction k; cbn [path]; [rewrite Nat.add_0_r; unfold gap; rewrite Rminus_diag_eq, Rabs_R0 by auto; lra|].
  replace (gap cart idx a i (i + S k)) with (gap cart idx a i (i + k) + gap cart idx a (i + k) (i + k + 1)).
  - eapply Rle_trans; [apply Rabs_triang|lra].
  - unfold gap. replace (i + S k)%nat with (i + k + 1)%nat by lia. ring.
Qed.

Lemma path_step p q m : 1 <= m -> p = p -> 0 <= q -> 0 <= p ->
  (1 + u) * (((1 + u) ^ 1 * m - 1) * p + u * q) + u * (p + q) <= ((1 + u) * ((1 + u) * m) - 1) * (p + q).
Proof.
  intros Hm _ Hq Hp. pose proof (u_pos prec) as U. cbn [pow]. rewrite Rmult_1_r.
  assert (0 <= ((1 + u) * (1 + u) * (m - 1)) * q) by (apply Rmult_le_pos; auto; apply Rmult_le_pos; [apply Rmult_le_pos|]; lra).
  ring_simplify. ring_simplify in H. lra.
Qed.

Lemma fget_new_node_ok n idx cart ch f g : stored emin prec cart -> is_index n idx -> length ch = n -> length cart = n ->
  (forall i, (i < n)%nat -> nth i ch vzero = fchain_at cart idx n i) -> (f < n)%nat -> (g < n)%nat -> f <> g ->
  exists d, fget_new_node ch f g = Ok d /\ forall a, fmt (co a d) /\
    Rabs (co a d - gap cart idx a f g) <= ((1 + u) ^ (Nat.max f g - Nat.min f g) - 1) * path cart idx a (Nat.min f g) (Nat.max f g - Nat.min f g).
Proof.
  intros St Hi Hl Hc V Hf Hg Hne. pose proof (u_pos prec) as U.
  assert (L : forall i a, (i < n - 1)%nat -> fmt (co a (nth i ch vzero)) /\ Rabs (co a (nth i ch vzero) - gap cart idx a i (i + 1)) <= u * Rabs (gap cart idx a i (i + 1))).
  { intros i a H. rewrite V by lia. destruct (link_err cart idx n i a St H) as (A & _ & B). auto. }
  assert (Up : forall a b, (a < b)%nat -> (b < n)%nat ->
     (exists s, for_up (a + 1) (b - (a + 1)) (fun j nd => obind (aget ch j) (fun d => Ok (fvadd nd d))) (nth a ch vzero) = Ok s /\
       forall x, fmt (co x s) /\ Rabs (co x s - gap cart idx x a b) <= ((1 + u) ^ (b - a) - 1) * path cart idx x a (b - a)) /\
     (exists s, for_up (a + 1) (b - (a + 1)) (fun j nd => obind (aget ch j) (fun d => Ok (fvsub nd d))) (vneg (nth a ch vzero)) = Ok s /\
       forall x, fmt (co x s) /\ Rabs (co x s - gap cart idx x b a) <= ((1 + u) ^ (b - a) - 1) * path cart idx x a (b - a))).
  { intros a b Hab Hb. split.
    - destruct (for_up_inv (fun j s => (a < j)%nat /\ forall x, fmt (co x s) /\ Rabs (co x s - gap cart idx x a j) <= ((1 + u) ^ (j - a) - 1) * path cart idx x a (j - a))
        (fun j nd => obind (aget ch j) (fun d => Ok (fvadd nd d))) (b - (a + 1)) (a + 1) (nth a ch vzero)) as (s & E & _ & P).
      + split; [lia|]. intros x. destruct (L a x ltac:(lia)) as (A & B). split; auto. replace (a + 1 - a)%nat with 1%nat by lia. cbn [path pow]. rewrite Nat.add_0_r. lra.
      + intros j s Hj (Haj & P). rewrite (aget_ok ch j vzero) by lia. cbn [obind]. eexists. split; [reflexivity|]. split; [lia|]. intros x. rewrite co_fvadd. split; [apply rnd_fmt; auto|].
        destruct (P x) as (F & B). destruct (L j x ltac:(lia)) as (F' & B').
        assert (K : exists k, (j - a = S k)%nat) by (exists (j - a - 1)%nat; lia). destruct K as (k & K).
        replace (S j - a)%nat with (S (j - a)) by lia. cbn [path]. replace (a + (j - a))%nat with j by lia.
        pose proof (add_link _ _ _ _ _ (path cart idx x a (j - a) + Rabs (gap cart idx x j (j + 1))) F F' B B') as H.
        replace (gap cart idx x a (S j)) with (gap cart idx x a j + gap cart idx x j (j + 1)) by (unfold gap; replace (j + 1)%nat with (S j) by lia; ring).
        eapply Rle_trans; [apply H|].
        * eapply Rle_trans; [apply Rabs_triang|]. pose proof (gap_path cart idx x a (j - a)) as G. replace (a + (j - a))%nat with j in G by lia. lra.
        * assert (m1 : 1 <= (1 + u) ^ k) by (apply pow_R1_Rle; lra).
          pose proof (path_step (path cart idx x a (j - a)) (Rabs (gap cart idx x j (j + 1))) ((1 + u) ^ k) m1 eq_refl (Rabs_pos _) (path_nonneg _ _ _ _ _)) as Q.
          rewrite K in *. cbn [pow] in *. rewrite Rmult_1_r in Q. exact Q.
      + replace (a + 1 + (b - (a + 1)))%nat with b in P by lia. eauto.
    - destruct (for_up_inv (fun j s => (a < j)%nat /\ forall x, fmt (co x s) /\ Rabs (co x s - gap cart idx x j a) <= ((1 + u) ^ (j - a) - 1) * path cart idx x a (j - a))
        (fun j nd => obind (aget ch j) (fun d => Ok (fvsub nd d))) (b - (a + 1)) (a + 1) (vneg (nth a ch vzero))) as (s & E & _ & P).
      + split; [lia|]. intros x. destruct (L a x ltac:(lia)) as (A & B). rewrite co_vneg. split; [apply fmt_opp; auto|]. replace (a + 1 - a)%nat with 1%nat by lia. cbn [path pow]. rewrite Nat.add_0_r.
        replace (- co x (nth a ch vzero) - gap cart idx x (a + 1) a) with (- (co x (nth a ch vzero) - gap cart idx x a (a + 1))) by (unfold gap; ring). rewrite Rabs_Ropp. lra.
      + intros j s Hj (Haj & P). rewrite (aget_ok ch j vzero) by lia. cbn [obind]. eexists. split; [reflexivity|]. split; [lia|]. intros x. rewrite co_fvsub. split; [apply rnd_fmt; auto|].
        destruct (P x) as (F & B). destruct (L j x ltac:(lia)) as (F' & B').
        assert (K : exists k, (j - a = S k)%nat) by (exists (j - a - 1)%nat; lia). destruct K as (k & K).
        replace (S j - a)%nat with (S (j - a)) by lia. cbn [path]. replace (a + (j - a))%nat with j by lia.
        pose proof (sub_link _ _ _ _ _ (path cart idx x a (j - a) + Rabs (gap cart idx x j (j + 1))) F F' B B') as H.
        replace (gap cart idx x (S j) a) with (gap cart idx x j a - gap cart idx x j (j + 1)) by (unfold gap; replace (j + 1)%nat with (S j) by lia; ring).
        eapply Rle_trans; [apply H|].
        * unfold Rminus. eapply Rle_trans; [apply Rabs_triang|]. rewrite Rabs_Ropp. pose proof (gap_path cart idx x a (j - a)) as G. replace (a + (j - a))%nat with j in G by lia.
          replace (gap cart idx x j a) with (- gap cart idx x a j) by (unfold gap; ring). rewrite Rabs_Ropp. lra.
        * assert (m1 : 1 <= (1 + u) ^ k) by (apply pow_R1_Rle; lra).
          pose proof (path_step (path cart idx x a (j - a)) (Rabs (gap cart idx x j (j + 1))) ((1 + u) ^ k) m1 eq_refl (Rabs_pos _) (path_nonneg _ _ _ _ _)) as Q.
          rewrite K in *. cbn [pow] in *. rewrite Rmult_1_r in Q. exact Q.
      + replace (a + 1 + (b - (a + 1)))%nat with b in P by lia. eauto. }
  unfold Fchain_Model.fget_new_node. destruct (Nat.ltb_spec g f) as [Hlt|Hge].
  - rewrite (aget_ok ch g vzero) by lia. cbn [obind]. rewrite Nat.max_l, Nat.min_r by lia. apply (Up g f); auto.
  - rewrite (aget_ok ch f vzero) by lia. cbn [obind]. rewrite Nat.max_r, Nat.min_l by lia. apply (Up f g); auto. lia.
Qed.
End P.
