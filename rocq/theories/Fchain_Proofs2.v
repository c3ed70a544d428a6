From Verif Require Import Fchain_Model Fchain_Spec Kahan_Proofs Fsim_Proofs Fsim_Proofs4 Chain_Proofs Fchain_Proofs.
From Flocq Require Import Sterbenz Plus_error Relative Ulp.
From Coq Require Import Lra Lia.
Open Scope R_scope.

Section P.
Variables (emin prec : Z) (choice : Z -> bool).
Context { prec_gt_0_ : Prec_gt_0 prec }.
Notation fmt := (fmt emin prec).
Notation rnd := (rnd emin prec choice).
Notation fvadd := (fvadd emin prec choice).
Notation fvsub := (fvsub emin prec choice).
Notation fto_chain := (fto_chain emin prec choice).
Notation fto_cartesian := (fto_cartesian emin prec choice).
Notation fget_new_node := (fget_new_node emin prec choice).
Notation fupdate_chain := (fupdate_chain emin prec choice).
Notation fchain_at := (fchain_at emin prec choice).
Notation fcart_at := (fcart_at emin prec choice).
Notation u := (u prec).

(** The whole re-indexing, given what one node is. *)
Lemma fupdate_ok (P : nat -> nat -> vec -> Prop) n idx new_idx cart ch : (1 <= n)%nat -> is_index n idx -> is_index n new_idx -> length cart = n -> length ch = n ->
  (forall f g, (f < n)%nat -> (g < n)%nat -> f <> g -> exists d, fget_new_node ch f g = Ok d /\ P f g d) ->
  exists ch', fupdate_chain ch cart idx new_idx = Ok ch' /\ length ch' = n /\
    nth (n - 1) ch' vzero = nth (nth 0 new_idx 0%nat) cart vzero /\
    forall i f g, (i < n - 1)%nat -> (f < n)%nat -> (g < n)%nat -> nth f idx 0%nat = nth i new_idx 0%nat -> nth g idx 0%nat = nth (i + 1) new_idx 0%nat ->
      P f g (nth i ch' vzero).
Proof.
  intros Hn Hi Hi' Hc L HP. pose proof (is_index_len n idx Hi) as Hl. pose proof (is_index_len n new_idx Hi') as Hl'.
  unfold Fchain_Model.fupdate_chain. rewrite L. destruct n as [|n1]; [lia|].
  destruct (for_up_inv (fun i nc => length nc = i /\ forall k f g, (k < i)%nat -> (f < S n1)%nat -> (g < S n1)%nat -> nth f idx 0%nat = nth k new_idx 0%nat -> nth g idx 0%nat = nth (k + 1) new_idx 0%nat ->
      P f g (nth k nc vzero))
    (fun i new_chain => obind (aget new_idx i) (fun a => obind (aget new_idx (i + 1)) (fun b =>
        obind (fget_new_node ch (find_pos idx a) (find_pos idx b)) (fun d => Ok (new_chain ++ [d])))))
    n1 0%nat []) as (nc & En & Ln & Q).
  - split; auto. intros; lia.
  - intros i s Hi2 (Ls & Q). rewrite (aget_ok new_idx i 0%nat), (aget_ok new_idx (i+1) 0%nat) by lia. cbn [obind].
    destruct (is_index_surj (S n1) idx (nth i new_idx 0%nat) Hi) as (a & Ha & Ea); [apply is_index_lt; auto; lia|].
    destruct (is_index_surj (S n1) idx (nth (i+1) new_idx 0%nat) Hi) as (b & Hb & Eb); [apply is_index_lt; auto; lia|].
    rewrite <- Ea, <- Eb. pose proof (is_index_nodup _ _ Hi). rewrite !find_pos_spec by (auto; lia).
    destruct (HP a b) as (d & Ed & Pd); auto.
    { intros ->. rewrite Ea in Eb. apply (is_index_inj (S n1)) in Eb; auto; lia. }
    rewrite Ed. cbn [obind]. eexists. split; [reflexivity|]. split; [rewrite app_length; cbn [length]; lia|].
    intros k f g Hk Hf Hg Ef Eg. destruct (Nat.eq_dec k i) as [->|].
    + rewrite app_nth2 by lia. rewrite Ls, Nat.sub_diag. cbn [nth]. replace f with a by (apply (is_index_inj (S n1) idx); auto; congruence). replace g with b by (apply (is_index_inj (S n1) idx); auto; congruence). auto.
    + rewrite app_nth1 by lia. apply Q; auto. lia.
  - rewrite En. cbn [obind]. rewrite (aget_ok new_idx 0 0%nat) by lia. cbn [obind].
    rewrite (aget_ok cart _ vzero) by (rewrite Hc; apply is_index_lt; auto; lia). cbn [obind].
    eexists. split; [reflexivity|]. split; [rewrite app_length, Ln; cbn [length]; lia|]. split.
    + replace (S n1 - 1)%nat with n1 by lia. rewrite app_nth2 by lia. replace (n1 - length nc)%nat with 0%nat by lia. reflexivity.
    + intros i f g Hi2 Hf Hg Ef Eg. rewrite app_nth1 by lia. apply Q; auto. lia.
Qed.

(** * Exactness *)
Lemma gap_fmt n cart idx a i j : gaps_stored emin prec cart -> is_index n idx -> length cart = n -> (i < n)%nat -> (j < n)%nat -> fmt (gap cart idx a i j).
Proof. intros G Hi Hc H1 H2. unfold gap. apply G; apply nth_In; rewrite Hc; apply is_index_lt; auto. Qed.

Lemma fchain_exact n cart idx i : gaps_stored emin prec cart -> is_index n idx -> length cart = n -> (i < n)%nat -> fchain_at cart idx n i = chain_at cart idx n i.
Proof.
  intros G Hi Hc H. unfold Fchain_Proofs.fchain_at, chain_at. destruct (Nat.eqb_spec i (n - 1)); auto.
  apply co_ext. intros a. rewrite co_fvsub, co_vsub. apply rnd_id. apply (gap_fmt n cart idx a i (i + 1)); auto; lia.
Qed.

Lemma fto_chain_exact n idx cart ch0 : (1 <= n)%nat -> is_index n idx -> length cart = n -> length ch0 = n -> gaps_stored emin prec cart ->
  fto_chain cart ch0 idx = to_chain cart ch0 idx.
Proof.
  intros Hn Hi Hc H0 G. destruct (fto_chain_ok emin prec choice n idx cart ch0 Hn Hi Hc H0) as (ch & E & L & V).
  destruct (to_chain_ok n idx cart ch0 Hn Hi Hc H0) as (ch' & E' & L' & V'). rewrite E, E'. f_equal.
  apply (nth_ext_v _ _ n); auto. intros i H. rewrite V, V' by auto. apply fchain_exact; auto.
Qed.

Lemma fcart_exact n idx cart ch : stored emin prec cart -> is_index n idx -> length cart = n ->
  (forall i, (i < n)%nat -> nth i ch vzero = chain_at cart idx n i) ->
  forall i, (i < n)%nat -> fcart_at ch n i = nth (nth i idx 0%nat) cart vzero.
Proof.
  intros S Hi Hc V. induction i as [|i IH]; intros H; cbn [Fchain_Proofs.fcart_at].
  - rewrite V by lia. unfold chain_at. rewrite Nat.eqb_refl. auto.
  - rewrite IH, V by lia. unfold chain_at. destruct (Nat.eqb_spec i (n - 1)); [lia|]. replace (i + 1)%nat with (Datatypes.S i) by lia.
    apply co_ext. intros a. rewrite co_fvadd, co_vsub.
    replace (co a (nth (nth i idx 0%nat) cart vzero) + (co a (nth (nth (Datatypes.S i) idx 0%nat) cart vzero) - co a (nth (nth i idx 0%nat) cart vzero)))
      with (co a (nth (nth (Datatypes.S i) idx 0%nat) cart vzero)) by ring. apply rnd_id. apply stored_nth; auto.
Qed.

Lemma fto_cartesian_exact n idx cart ch0 cart0 ch : (1 <= n)%nat -> is_index n idx -> length cart = n -> length ch0 = n -> length cart0 = n ->
  stored emin prec cart -> to_chain cart ch0 idx = Ok ch -> fto_cartesian ch cart0 idx = Ok cart.
Proof.
  intros Hn Hi Hc H0 H1 S E. destruct (to_chain_ok n idx cart ch0 Hn Hi Hc H0) as (ch' & E' & L & V). rewrite E in E'. injection E' as <-.
  destruct (fto_cartesian_ok emin prec choice n idx ch cart0 Hn Hi L H1) as (cart' & E' & L' & V'). rewrite E'. f_equal.
  apply (nth_ext_v _ _ n); auto. intros p Hp. destruct (is_index_surj n idx p Hi Hp) as (i & Hi' & <-). rewrite V' by auto. apply fcart_exact; auto.
Qed.

Lemma fget_exact n idx cart ch f g : gaps_stored emin prec cart -> is_index n idx -> length ch = n -> length cart = n ->
  (forall i, (i < n)%nat -> nth i ch vzero = chain_at cart idx n i) -> (f < n)%nat -> (g < n)%nat -> f <> g ->
  fget_new_node ch f g = Ok (vsub (at_place cart idx g) (at_place cart idx f)).
Proof.
  intros G Hi Hl Hc V Hf Hg Hne.
  assert (S0 : forall i, (i < n - 1)%nat -> nth i ch vzero = vsub (at_place cart idx (S i)) (at_place cart idx i)).
  { intros i Hi'. rewrite V by lia. unfold chain_at. destruct (Nat.eqb_spec i (n - 1)); [lia|]. replace (i + 1)%nat with (S i) by lia. auto. }
  assert (Up : forall a b, (a < b)%nat -> (b < n)%nat ->
     for_up (a + 1) (b - (a + 1)) (fun j nd => obind (aget ch j) (fun d => Ok (fvadd nd d))) (nth a ch vzero) = Ok (vsub (at_place cart idx b) (at_place cart idx a)) /\
     for_up (a + 1) (b - (a + 1)) (fun j nd => obind (aget ch j) (fun d => Ok (fvsub nd d))) (vneg (nth a ch vzero)) = Ok (vsub (at_place cart idx a) (at_place cart idx b))).
  { intros a b Hab Hb. split.
    - destruct (for_up_inv (fun j s => s = vsub (at_place cart idx j) (at_place cart idx a))
        (fun j nd => obind (aget ch j) (fun d => Ok (fvadd nd d))) (b - (a + 1)) (a + 1) (nth a ch vzero)) as (s & E & ->).
      + rewrite S0 by lia. replace (a + 1)%nat with (S a) by lia. auto.
      + intros j s Hj ->. rewrite (aget_ok ch j vzero) by lia. cbn [obind]. eexists. split; [reflexivity|].
        rewrite S0 by lia. apply co_ext. intros x. rewrite co_fvadd, !co_vsub.
        replace (co x (at_place cart idx j) - co x (at_place cart idx a) + (co x (at_place cart idx (S j)) - co x (at_place cart idx j))) with (gap cart idx x a (S j)) by (unfold gap; ring).
        apply rnd_id. apply (gap_fmt n); auto; lia.
      + rewrite E. replace (a + 1 + (b - (a + 1)))%nat with b by lia. auto.
    - destruct (for_up_inv (fun j s => s = vsub (at_place cart idx a) (at_place cart idx j))
        (fun j nd => obind (aget ch j) (fun d => Ok (fvsub nd d))) (b - (a + 1)) (a + 1) (vneg (nth a ch vzero))) as (s & E & ->).
      + rewrite S0 by lia. replace (a + 1)%nat with (S a) by lia. apply co_ext. intros x. rewrite co_vneg, !co_vsub. ring.
      + intros j s Hj ->. rewrite (aget_ok ch j vzero) by lia. cbn [obind]. eexists. split; [reflexivity|].
        rewrite S0 by lia. apply co_ext. intros x. rewrite co_fvsub, !co_vsub.
        replace (co x (at_place cart idx a) - co x (at_place cart idx j) - (co x (at_place cart idx (S j)) - co x (at_place cart idx j))) with (gap cart idx x (S j) a) by (unfold gap; ring).
        apply rnd_id. apply (gap_fmt n); auto; lia.
      + rewrite E. replace (a + 1 + (b - (a + 1)))%nat with b by lia. auto. }
  unfold Fchain_Model.fget_new_node. destruct (Nat.ltb_spec g f) as [Hlt|Hge].
  - rewrite (aget_ok ch g vzero) by lia. cbn [obind]. apply (Up g f); auto.
  - rewrite (aget_ok ch f vzero) by lia. cbn [obind]. apply (Up f g); auto. lia.
Qed.

Lemma fupdate_exact n idx new_idx cart ch ch0 ch1 : (1 <= n)%nat -> is_index n idx -> is_index n new_idx -> length cart = n -> length ch0 = n -> length ch1 = n ->
  gaps_stored emin prec cart -> to_chain cart ch0 idx = Ok ch -> fupdate_chain ch cart idx new_idx = to_chain cart ch1 new_idx.
Proof.
  intros Hn Hi Hi' Hc H0 H1 G E. destruct (to_chain_ok n idx cart ch0 Hn Hi Hc H0) as (ch' & E' & L & V). rewrite E in E'. injection E' as <-.
  destruct (fupdate_ok (fun f g d => d = vsub (at_place cart idx g) (at_place cart idx f)) n idx new_idx cart ch Hn Hi Hi' Hc L) as (ch2 & E2 & L2 & Hd & Q).
  { intros f g Hf Hg Hne. eexists. split; [exact (fget_exact n idx cart ch f g G Hi L Hc V Hf Hg Hne)|reflexivity]. }
  destruct (to_chain_ok n new_idx cart ch1 Hn Hi' Hc H1) as (ch3 & E3 & L3 & V3). rewrite E2, E3. f_equal. apply (nth_ext_v _ _ n); auto.
  intros i Hin. rewrite V3 by auto. unfold chain_at. destruct (Nat.eqb_spec i (n - 1)) as [->|]; auto.
  destruct (is_index_surj n idx (nth i new_idx 0%nat) Hi) as (f & Hf & Ef); [apply is_index_lt; auto; lia|].
  destruct (is_index_surj n idx (nth (i + 1) new_idx 0%nat) Hi) as (g & Hg & Eg); [apply is_index_lt; auto; lia|].
  rewrite (Q i f g) by (auto; lia). unfold at_place. rewrite Ef, Eg. auto.
Qed.

(** Grids. *)
Lemma fmt_grid m e : (emin <= e)%Z -> (Z.abs m <= 2 ^ prec)%Z -> fmt (IZR m * bpow radix2 e).
Proof.
  intros He Hm. red in prec_gt_0_. destruct (Z.eq_dec (Z.abs m) (2 ^ prec)) as [E|NE].
  - assert (B : fmt (IZR (2 ^ prec) * bpow radix2 e)).
    { change (2 ^ prec)%Z with (Zpower radix2 prec). rewrite (IZR_Zpower radix2 prec) by lia. rewrite <- bpow_plus. unfold Kahan_Model.fmt. apply generic_format_bpow. unfold FLT_exp. lia. }
    destruct (Z.abs_eq_or_opp m) as [A|A]; rewrite A in E.
    + rewrite E. auto.
    + replace m with (- (2 ^ prec))%Z by lia. rewrite opp_IZR. replace (- IZR (2 ^ prec) * bpow radix2 e) with (- (IZR (2 ^ prec) * bpow radix2 e)) by ring. apply fmt_opp; auto.
  - unfold Kahan_Model.fmt. apply generic_format_FLT. apply (FLT_spec _ _ _ _ (Float radix2 m e)); cbn [Fnum Fexp]; auto. change (radix2 ^ prec)%Z with (2 ^ prec)%Z. lia.
Qed.
Lemma grid_stored e l : (emin <= e)%Z -> on_grid prec e l -> stored emin prec l /\ gaps_stored emin prec l.
Proof.
  intros He H. assert (P2 : (2 ^ prec = 2 * 2 ^ (prec - 1))%Z) by (red in prec_gt_0_; rewrite <- Z.pow_succ_r by lia; f_equal; lia). split.
  - intros v a Hv. destruct (H v a Hv) as (m & -> & Hm). apply fmt_grid; auto. lia.
  - intros v w a Hv Hw. destruct (H v a Hv) as (m & -> & Hm). destruct (H w a Hw) as (m' & -> & Hm').
    replace (IZR m * bpow radix2 e - IZR m' * bpow radix2 e) with (IZR (m - m') * bpow radix2 e) by (rewrite minus_IZR; ring). apply fmt_grid; auto. lia.
Qed.

(** Within a factor of two, the difference is exact. *)
Lemma factor_two x y : fmt x -> fmt y -> y / 2 <= x <= 2 * y -> fmt (x - y).
Proof. intros Fx Fy H. apply sterbenz; auto. apply FLT_exp_valid; auto. apply FLT_exp_monotone. Qed.

(** * A small coordinate next to 1 *)
Definition tiny : R := bpow radix2 (- prec - 2).
Hypothesis Hemin : (emin <= - prec - 2)%Z.
Lemma tiny_pos : 0 < tiny. Proof. apply bpow_gt_0. Qed.
Lemma tiny_fmt : fmt tiny.
Proof. unfold Kahan_Model.fmt, tiny. apply generic_format_bpow. unfold FLT_exp. red in prec_gt_0_. lia. Qed.
Lemma one_fmt : fmt 1.
Proof. change 1 with (bpow radix2 0). apply generic_format_bpow. unfold FLT_exp. red in prec_gt_0_. lia. Qed.
End P.

Section Q.
Variables (emin prec : Z).
Context { prec_gt_0_ : Prec_gt_0 prec }.
Hypothesis Hemin : (emin <= - prec - 2)%Z.
Lemma tiny_absorbed choice : rnd emin prec choice (1 + - tiny prec) = 1.
Proof.
  apply absorbed; auto.
  - apply one_fmt; auto.
  - lra.
  - rewrite Rabs_Ropp, Rabs_pos_eq by (pose proof (tiny_pos prec); lra). change 1 with (bpow radix2 0). rewrite ulp_bpow. unfold FLT_exp, tiny.
    replace (4 * bpow radix2 (- prec - 2)) with (bpow radix2 (- prec)); [|change 4 with (bpow radix2 2); rewrite <- bpow_plus; f_equal; ring].
    apply bpow_lt. red in prec_gt_0_. lia.
Qed.
Lemma tiny_minus_one choice : rnd emin prec choice (tiny prec - 1) = - (1).
Proof. replace (tiny prec - 1) with (- (1 + - tiny prec)) by ring. rewrite rnd_opp by auto. rewrite tiny_absorbed. reflexivity. Qed.
End Q.
