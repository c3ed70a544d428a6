(** C90: chain coordinates in floating-point arithmetic. *)
From Verif Require Import Fchain_Model Fchain_Spec Kahan_Proofs Fsim_Proofs Chain_Proofs Fchain_Proofs Fchain_Proofs2.
From Coq Require Import Lra Lia.
Open Scope R_scope.

Section C90.
Variables (emin prec : Z) (choice : Z -> bool).
Context { prec_gt_0_ : Prec_gt_0 prec }.
Notation fto_chain := (fto_chain emin prec choice).
Notation fto_cartesian := (fto_cartesian emin prec choice).
Notation fupdate_chain := (fupdate_chain emin prec choice).
Notation u := (uro prec).

(** Converting to the chain: the head is exact, every link is the correctly rounded separation of its two particles, hence right to a relative error of [u],
    and exact when the two coordinates are within a factor of two of each other. *)
Theorem C90_links n idx cart ch0 : (1 <= n)%nat -> is_index n idx -> length cart = n -> length ch0 = n -> stored emin prec cart ->
  exists ch, fto_chain cart ch0 idx = Ok ch /\ length ch = n /\ stored emin prec ch /\ nth (n - 1) ch vzero = at_place cart idx 0 /\
    forall i a, (i < n - 1)%nat -> let g := gap cart idx a i (i + 1) in
      co a (nth i ch vzero) = rnd emin prec choice g /\ Rabs (co a (nth i ch vzero) - g) <= u * Rabs g /\
      (co a (at_place cart idx i) / 2 <= co a (at_place cart idx (i + 1)) <= 2 * co a (at_place cart idx i) -> co a (nth i ch vzero) = g).
Proof.
  intros Hn Hi Hc H0 S. destruct (fto_chain_ok emin prec choice n idx cart ch0 Hn Hi Hc H0) as (ch & E & L & V).
  assert (Hd : nth (n - 1) ch vzero = at_place cart idx 0) by (rewrite V by lia; unfold fchain_at; rewrite Nat.eqb_refl; auto).
  exists ch. split; auto. split; auto. split; [|split; auto].
  - intros v a Hv. apply (In_nth _ _ vzero) in Hv as (i & Hin & <-). rewrite L in Hin. destruct (Nat.eq_dec i (n - 1)) as [->|].
    + rewrite Hd. apply stored_nth; auto.
    + rewrite V by auto. apply (link_err emin prec choice cart idx n i a S). lia.
  - intros i a Hin g. destruct (link_err emin prec choice cart idx n i a S Hin) as (_ & A & B). rewrite V by lia. rewrite <- u_uro. split; auto. split; auto.
    intros T. rewrite A. apply rnd_id. unfold g, gap. apply factor_two; auto; apply stored_nth; auto.
Qed.

(** To the chain and back: the particle at place [i] of the chain returns with an error of at most about [3 i] roundings of the largest coordinate. *)
Theorem C90_round_trip n idx cart ch0 cart0 ch : (1 <= n)%nat -> is_index n idx -> length cart = n -> length ch0 = n -> length cart0 = n -> stored emin prec cart ->
  fto_chain cart ch0 idx = Ok ch ->
  exists back, fto_cartesian ch cart0 idx = Ok back /\ length back = n /\ stored emin prec back /\ at_place back idx 0 = at_place cart idx 0 /\
    forall a M, (forall i, (i < n)%nat -> Rabs (co a (at_place cart idx i)) <= M) ->
    forall i, (i < n)%nat -> Rabs (co a (at_place back idx i) - co a (at_place cart idx i)) <= ((1 + u) ^ i - 1) * ((3 + 2 * u) * M).
Proof.
  intros Hn Hi Hc H0 H1 S E. destruct (fto_chain_ok emin prec choice n idx cart ch0 Hn Hi Hc H0) as (ch' & E' & L & V). rewrite E in E'. injection E' as <-.
  destruct (fto_cartesian_ok emin prec choice n idx ch cart0 Hn Hi L H1) as (back & E' & L' & V'). exists back. split; auto. split; auto.
  assert (B : forall a M, (forall i, (i < n)%nat -> Rabs (co a (at_place cart idx i)) <= M) ->
    forall i, (i < n)%nat -> fmt emin prec (co a (at_place back idx i)) /\ Rabs (co a (at_place back idx i) - co a (at_place cart idx i)) <= ((1 + u) ^ i - 1) * ((3 + 2 * u) * M)).
  { intros a M HM i Hin. unfold at_place at 1 2. rewrite V' by auto. rewrite <- u_uro. apply trip_err; auto. }
  assert (Bd : forall a, exists M, forall i, (i < n)%nat -> Rabs (co a (at_place cart idx i)) <= M).
  { intros a. clear - S. induction n as [|m IH]; [exists 0; lia|]. destruct IH as (M & HM). exists (Rmax M (Rabs (co a (at_place cart idx m)))).
    intros i Hin. destruct (Nat.eq_dec i m) as [->|]; [apply Rmax_r|]. eapply Rle_trans; [apply HM; lia|apply Rmax_l]. }
  split; [|split].
  - intros v a Hv. apply (In_nth _ _ vzero) in Hv as (p & Hp & <-). rewrite L' in Hp. destruct (is_index_surj n idx p Hi Hp) as (i & Hin & <-).
    destruct (Bd a) as (M & HM). apply (B a M HM i Hin).
  - unfold at_place at 1. rewrite V' by lia. cbn [fcart_at]. rewrite V by lia. unfold fchain_at. rewrite Nat.eqb_refl. reflexivity.
  - intros a M HM i Hin. apply B; auto.
Qed.

(** Re-indexing: a new link is right up to [k] roundings of the length of the old path between its two particles, [k] the number of old links on it;
    the head is exact. *)
Theorem C90_reindex n idx new_idx cart ch0 ch : (1 <= n)%nat -> is_index n idx -> is_index n new_idx -> length cart = n -> length ch0 = n -> stored emin prec cart ->
  fto_chain cart ch0 idx = Ok ch ->
  exists ch', fupdate_chain ch cart idx new_idx = Ok ch' /\ length ch' = n /\ nth (n - 1) ch' vzero = at_place cart new_idx 0 /\
    forall i f g a, (i < n - 1)%nat -> (f < n)%nat -> (g < n)%nat -> nth f idx 0%nat = nth i new_idx 0%nat -> nth g idx 0%nat = nth (i + 1) new_idx 0%nat ->
      let lo := Nat.min f g in let k := (Nat.max f g - lo)%nat in
      Rabs (co a (nth i ch' vzero) - gap cart new_idx a i (i + 1)) <= ((1 + u) ^ k - 1) * path cart idx a lo k.
Proof.
  intros Hn Hi Hi' Hc H0 S E. destruct (fto_chain_ok emin prec choice n idx cart ch0 Hn Hi Hc H0) as (ch' & E' & L & V). rewrite E in E'. injection E' as <-.
  destruct (fupdate_ok emin prec choice _ n idx new_idx cart ch Hn Hi Hi' Hc L (fun f g Hf Hg Hne => fget_new_node_ok emin prec choice n idx cart ch f g S Hi L Hc V Hf Hg Hne))
    as (ch2 & E2 & L2 & Hd & Q).
  exists ch2. split; auto. split; auto. split; auto. intros i f g a Hin Hf Hg Ef Eg. cbv zeta. destruct (Q i f g Hin Hf Hg Ef Eg a) as (_ & B). rewrite u_uro in B.
  unfold gap, at_place in *. rewrite <- Ef, <- Eg. exact B.
Qed.

(** When every separation of two particles is a number of the format the three functions are exact: the round trip returns the positions it was given and
    re-indexing gives the chain of the new order. *)
Theorem C90_exact n idx new_idx cart ch0 ch1 cart0 : (1 <= n)%nat -> is_index n idx -> is_index n new_idx ->
  length cart = n -> length ch0 = n -> length ch1 = n -> length cart0 = n -> stored emin prec cart -> gaps_stored emin prec cart ->
  exists ch, fto_chain cart ch0 idx = Ok ch /\ (forall i a, (i < n - 1)%nat -> co a (nth i ch vzero) = gap cart idx a i (i + 1)) /\
    fto_cartesian ch cart0 idx = Ok cart /\ fupdate_chain ch cart idx new_idx = fto_chain cart ch1 new_idx.
Proof.
  intros Hn Hi Hi' Hc H0 H1 H2 S G. destruct (to_chain_ok n idx cart ch0 Hn Hi Hc H0) as (ch & E & L & V).
  exists ch. split; [rewrite (fto_chain_exact emin prec choice n); auto|]. split; [|split].
  - intros i a Hin. rewrite V by lia. unfold chain_at. destruct (Nat.eqb_spec i (n - 1)); [lia|]. rewrite co_vsub. reflexivity.
  - exact (fto_cartesian_exact emin prec choice n idx cart ch0 cart0 ch Hn Hi Hc H0 H2 S E).
  - rewrite (fto_chain_exact emin prec choice n) by auto. exact (fupdate_exact emin prec choice n idx new_idx cart ch ch0 ch1 Hn Hi Hi' Hc H0 H1 G E).
Qed.

(** In particular for positions on a grid of 2^prec cells. *)
Theorem C90_grid e cart : (emin <= e)%Z -> on_grid prec e cart -> stored emin prec cart /\ gaps_stored emin prec cart.
Proof. intros; apply (grid_stored emin prec e); auto. Qed.

(** The round trip is not exact, for no format and no tie rule: a particle next to the origin, reached over a link of length one, comes back at the origin.
    The order of the chain is the one the code computes. *)
Theorem C90_round_trip_refuted : (emin <= - prec - 2)%Z ->
  exists cart ch back, stored emin prec cart /\ calc_chain_index 10 cart (Ok (Some [0; 1]%nat)) /\
    fto_chain cart [vzero; vzero] [0; 1]%nat = Ok ch /\ fto_cartesian ch [vzero; vzero] [0; 1]%nat = Ok back /\
    nth 1 back vzero = vzero /\ nth 1 cart vzero <> vzero.
Proof.
  intros He. set (t := tiny prec). set (cart := [mkV 1 0 0; mkV t 0 0]).
  assert (R0 : forall x, rnd emin prec choice (x - x) = 0) by (intros x; rewrite Rminus_diag_eq by auto; apply Fsim_Proofs.rnd_0; auto).
  exists cart, [mkV (- (1)) 0 0; mkV 1 0 0], [mkV 1 0 0; vzero].
  split; [|split; [|split; [|split; [|split]]]].
  - intros v a [<-|[<-|[]]]; destruct a; cbn [co vx vy vz]; try (apply fmt_0; auto). apply one_fmt; auto. apply tiny_fmt; auto.
  - exists [dist_node cart 0 1]. split; [split; [apply Permutation_refl|constructor; constructor]|reflexivity].
  - unfold Fchain_Model.fto_chain, cart. cbn [length aget nth_error obind aset Nat.ltb Nat.leb list_set for_up Nat.add].
    unfold fvsub, fsub. cbn [vx vy vz]. rewrite R0. unfold t. rewrite tiny_minus_one by auto. reflexivity.
  - unfold Fchain_Model.fto_cartesian. cbn [length aget nth_error obind aset Nat.ltb Nat.leb list_set for_up Nat.add Nat.sub].
    unfold fvadd, fadd. cbn [vx vy vz]. replace (1 + - (1)) with (1 - 1) by ring. replace (0 + 0) with (0 - 0) by ring. rewrite !R0. reflexivity.
  - reflexivity.
  - unfold cart. cbn [nth]. intros H. assert (K : t = 0) by exact (f_equal vx H). pose proof (tiny_pos prec). unfold t in K. lra.
Qed.

(** Re-indexing can lose a separation altogether: two particles that were linked over a third one far away become neighbours in the new chain, their positions
    differ, and the re-indexed chain has them at distance zero; converted afresh from the positions the link would be right.
    The new order is the one the code computes for these positions. *)
Theorem C90_reindex_refuted : (emin <= - prec - 2)%Z ->
  exists cart ch ch' ch2, stored emin prec cart /\ nth 0 cart vzero <> nth 2 cart vzero /\
    calc_chain_index 50 cart (Ok (Some [0; 2; 1]%nat)) /\
    fto_chain cart [vzero; vzero; vzero] [0; 1; 2]%nat = Ok ch /\
    fupdate_chain ch cart [0; 1; 2]%nat [0; 2; 1]%nat = Ok ch' /\ nth 0 ch' vzero = vzero /\
    fto_chain cart [vzero; vzero; vzero] [0; 2; 1]%nat = Ok ch2 /\ nth 0 ch2 vzero = vsub (nth 2 cart vzero) (nth 0 cart vzero).
Proof.
  intros He. set (t := tiny prec). set (cart := [vzero; mkV 1 0 0; mkV t 0 0]). pose proof (tiny_pos prec) as T0. fold t in T0.
  assert (T1 : t <= / 4).
  { unfold t, tiny. change (/ 4) with (bpow radix2 (-2)). apply bpow_le. red in prec_gt_0_. lia. }
  assert (F1 : fmt emin prec 1) by (apply one_fmt; auto). assert (Ft : fmt emin prec t) by (apply tiny_fmt; auto).
  assert (R0 : rnd emin prec choice 0 = 0) by (apply Fsim_Proofs.rnd_0; auto).
  exists cart, [mkV 1 0 0; mkV (- (1)) 0 0; vzero], [vzero; mkV 1 0 0; vzero], [mkV t 0 0; mkV (rnd emin prec choice (1 - t)) 0 0; vzero].
  split; [|split; [|split; [|split; [|split; [|split; [|split]]]]]].
  - intros v a [<-|[<-|[<-|[]]]]; destruct a; cbn [co vx vy vz vzero]; auto; apply fmt_0; auto.
  - unfold cart. cbn [nth]. intros H. assert (K : 0 = t) by exact (f_equal vx H). lra.
  - exists [dist_node cart 0 2; dist_node cart 1 2; dist_node cart 0 1]. split; [split|reflexivity].
    + unfold create_distances_array, cart. cbn [length seq flat_map map app Nat.add Nat.sub].
      eapply perm_trans; [apply perm_swap|]. apply perm_skip. apply perm_swap.
    + unfold dist_node, cart. cbn [nth]. repeat (constructor; [|repeat (constructor; [cbn [nd_r vsub vx vy vz vzero]; nra|]); constructor]). constructor.
  - unfold Fchain_Model.fto_chain, cart. cbn [length aget nth_error obind aset Nat.ltb Nat.leb list_set for_up Nat.add].
    unfold fvsub, fsub. cbn [vx vy vz vzero]. rewrite !Rminus_0_r, R0, (rnd_id emin prec choice 1 F1). unfold t. rewrite tiny_minus_one by auto. reflexivity.
  - unfold Fchain_Model.fupdate_chain, fget_new_node, cart. cbn [length aget nth_error obind find_pos Nat.eqb Nat.ltb Nat.leb for_up Nat.add Nat.sub app].
    unfold fvadd, fvsub, fadd, fsub, vneg. cbn [vx vy vz vzero]. replace (1 + - (1)) with 0 by ring. rewrite Rplus_0_r, R0, Ropp_0, Ropp_involutive. reflexivity.
  - reflexivity.
  - unfold Fchain_Model.fto_chain, cart. cbn [length aget nth_error obind aset Nat.ltb Nat.leb list_set for_up Nat.add].
    unfold fvsub, fsub. cbn [vx vy vz vzero]. rewrite !Rminus_0_r, R0, (rnd_id emin prec choice t Ft). reflexivity.
  - unfold cart, vsub. cbn [nth vx vy vz vzero]. rewrite !Rminus_0_r. reflexivity.
Qed.
End C90.
Print Assumptions C90_links.
Print Assumptions C90_round_trip.
Print Assumptions C90_reindex.
Print Assumptions C90_exact.
Print Assumptions C90_grid.
Print Assumptions C90_round_trip_refuted.
Print Assumptions C90_reindex_refuted.

(** Four particles on a grid of spacing 1/4 in binary64: the hypotheses of the theorems hold. *)
Example C90_example : on_grid 53 (-2) [mkV 1 0 0; mkV (3 / 4) 1 0; mkV (-2) 0 5; mkV 100 (1 / 2) 0] /\ is_index 4 [2; 1; 0; 3]%nat /\ (-1074 <= -2)%Z.
Proof.
  assert (B : bpow radix2 (-2) = / 4) by reflexivity. split; [|split; [|lia]].
  - intros v a Hv. assert (K : exists m, co a v = IZR m * / 4 /\ (Z.abs m <= 400)%Z).
    { destruct Hv as [<-|[<-|[<-|[<-|[]]]]]; destruct a; cbn [co vx vy vz];
      first [exists 4%Z; split; [lra|lia]|exists 0%Z; split; [lra|lia]|exists 3%Z; split; [lra|lia]|exists (-8)%Z; split; [lra|lia]|exists 20%Z; split; [lra|lia]|exists 400%Z; split; [lra|lia]|exists 2%Z; split; [lra|lia]]. }
    destruct K as (m & K1 & K2). exists m. rewrite B. split; auto. assert (512 <= 2 ^ (53 - 1))%Z by (change 512%Z with (2 ^ 9)%Z; apply Z.pow_le_mono_r; lia). lia.
  - unfold is_index. cbn [seq]. apply NoDup_Permutation; [repeat (constructor; [cbn [In]; lia|]); constructor|repeat (constructor; [cbn [In]; lia|]); constructor|]. intros x. cbn [In]. lia.
Qed.
Example C90_binary64 : (-1074 <= - 53 - 2)%Z. Proof. lia. Qed.
