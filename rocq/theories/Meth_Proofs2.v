(** The chain systems under the Bulirsch-Stoer iterator: they do what the Cartesian systems do. *)
From Verif Require Export Meth_Spec Meth_Proofs Build_Proofs.
From Verif Require Import System_Spec Chain_Spec Chain_Proofs System_Proofs System_Proofs2 System_Proofs3 System_Proofs4.
Open Scope R_scope.

Lemma skipn_skip {A} (i j : nat) (l : list A) : skipn i (skipn j l) = skipn (i + j) l.
Proof. revert l; induction j as [|j IH]; intros l; [rewrite Nat.add_0_r; reflexivity|]. rewrite Nat.add_succ_r. destruct l; [rewrite !skipn_nil; reflexivity|]. cbn [skipn]. apply IH. Qed.
(** * the chain form of arrays *)
Lemma chain_form_length idx a : length (chain_form idx a) = length a.
Proof. unfold chain_form. rewrite map_length, seq_length. reflexivity. Qed.
Lemma chain_form_nth idx a i : (i < length a)%nat -> nth i (chain_form idx a) vzero = chain_at a idx (length a) i.
Proof.
  intros H. unfold chain_form. set (f := fun i => _). rewrite nth_indep with (d' := f 0%nat) by (rewrite map_length, seq_length; auto).
  rewrite map_nth, seq_nth by auto. cbn [Nat.add]. unfold f, chain_at.
  destruct (Nat.ltb_spec (i + 1) (length a)), (Nat.eqb_spec i (length a - 1)); auto; lia.
Qed.
Lemma chain_of_form n idx a : (1 <= n)%nat -> is_index n idx -> length a = n -> chain_of n idx a = Ok (chain_form idx a).
Proof.
  intros H1 H2 H3. destruct (chain_of_ok n idx a H1 H2 H3) as (ca & E & L). rewrite E. f_equal.
  destruct (chain_of_nth n idx a ca H1 H2 H3 E) as (_ & V). apply (nth_ext_v _ _ n); auto; [rewrite chain_form_length; auto|].
  intros i Hi. rewrite V, chain_form_nth, H3 by lia. reflexivity.
Qed.
Lemma pack_parts t a b c tl n : length a = n -> length b = n ->
  nth 0 (pack t a b c tl) 0 = t /\ to_vecs n (skipn 1 (pack t a b c tl)) = a /\ to_vecs n (skipn (3 * n + 1) (pack t a b c tl)) = b /\
  skipn (6 * n + 1) (pack t a b c tl) = coords c ++ tl.
Proof.
  intros La Lb. split; [reflexivity|].
  assert (A1 : skipn 1 (pack t a b c tl) = coords a ++ coords b ++ coords c ++ tl) by reflexivity.
  assert (A2 : skipn (3 * n + 1) (pack t a b c tl) = coords b ++ coords c ++ tl).
  { rewrite Nat.add_1_r. cbn [skipn pack]. rewrite skipn_app, skipn_all2 by (rewrite coords_length; lia). rewrite coords_length.
    replace (3 * n - 3 * length a)%nat with 0%nat by lia. reflexivity. }
  assert (A3 : skipn (6 * n + 1) (pack t a b c tl) = coords c ++ tl).
  { rewrite Nat.add_1_r. cbn [skipn pack]. rewrite skipn_app, skipn_all2 by (rewrite coords_length; lia). rewrite coords_length. cbn [app].
    rewrite skipn_app, skipn_all2 by (rewrite coords_length; lia). rewrite coords_length. cbn [app].
    replace (6 * n - 3 * length a - 3 * length b)%nat with 0%nat by lia. reflexivity. }
  rewrite A1, A2. split; [|split; auto].
  - rewrite <- La. apply to_vecs_coords.
  - rewrite <- Lb. apply to_vecs_coords.
Qed.
Lemma chain_array_pack I n idx t a b c tl : length a = n -> length b = n -> (I_dep I = true -> length c = n) ->
  chain_array I n idx (pack t a b (auxl I c) tl) = pack t (chain_form idx a) (chain_form idx b) (auxl I (chain_form idx c)) tl.
Proof.
  intros La Lb Lc. destruct (pack_parts t a b (auxl I c) tl n La Lb) as (E1 & E2 & E3 & E4).
  unfold chain_array. rewrite E1, E2, E3, E4. unfold pack, auxl in *. f_equal. f_equal. f_equal.
  unfold omega_offset. destruct (I_dep I); cbn [Nat.b2n].
  - f_equal.
    + rewrite <- (Lc eq_refl) at 1. rewrite to_vecs_coords. reflexivity.
    + replace (n * 3 * (2 + 1) + 1)%nat with (3 * n + (6 * n + 1))%nat by lia. rewrite <- skipn_skip, E4.
      rewrite skipn_app, skipn_all2 by (rewrite coords_length, Lc; auto). rewrite coords_length, Lc by auto.
      rewrite Nat.sub_diag. reflexivity.
  - cbn [coords flat_map app] in *. replace (n * 3 * (2 + 0) + 1)%nat with (6 * n + 1)%nat by lia. rewrite E4. reflexivity.
Qed.
(** zipping packs *)
Definition vzip (f : R -> R -> R) (a b : list vec) : list vec :=
  map (fun xy => mkV (f (vx (fst xy)) (vx (snd xy))) (f (vy (fst xy)) (vy (snd xy))) (f (vz (fst xy)) (vz (snd xy)))) (combine a b).
Lemma vzip_length f a b : length b = length a -> length (vzip f a b) = length a.
Proof. intros H. unfold vzip. rewrite map_length, combine_length. lia. Qed.
Lemma vzip_nth f a b i : length b = length a -> (i < length a)%nat -> nth i (vzip f a b) vzero =
  mkV (f (vx (nth i a vzero)) (vx (nth i b vzero))) (f (vy (nth i a vzero)) (vy (nth i b vzero))) (f (vz (nth i a vzero)) (vz (nth i b vzero))).
Proof.
  revert b i; induction a as [|x a IH]; intros [|y b] i H Hi; simpl in *; try lia. destruct i; simpl; auto. apply IH; lia.
Qed.
Lemma zipw_app f a b c d : length a = length c -> zipw f (a ++ b) (c ++ d) = zipw f a c ++ zipw f b d.
Proof. revert c; induction a as [|x a IH]; intros [|y c] H; simpl in *; try lia; auto. unfold zipw in *. simpl. f_equal. apply IH; lia. Qed.
Lemma zipw_coords f a b : length a = length b -> zipw f (coords a) (coords b) = coords (vzip f a b).
Proof. revert b; induction a as [|x a IH]; intros [|y b] H; simpl in *; try lia; auto. unfold zipw in *. simpl. do 3 f_equal. apply IH; lia. Qed.
Lemma zipw_pack f t a b c tl t' a' b' c' tl' : length a = length a' -> length b = length b' -> length c = length c' -> length tl = length tl' ->
  zipw f (pack t a b c tl) (pack t' a' b' c' tl') = pack (f t t') (vzip f a a') (vzip f b b') (vzip f c c') (zipw f tl tl').
Proof.
  intros H1 H2 H3 H4. unfold pack. change (zipw f (t :: ?x) (t' :: ?y)) with (f t t' :: zipw f x y). f_equal.
  rewrite !zipw_app by (rewrite !coords_length; lia). rewrite !zipw_coords by auto. reflexivity.
Qed.
Lemma chain_form_vzip f idx a b : (forall x y x' y', f (x - y) (x' - y') = f x x' - f y y') -> is_index (length a) idx -> (1 <= length a)%nat -> length b = length a ->
  chain_form idx (vzip f a b) = vzip f (chain_form idx a) (chain_form idx b).
Proof.
  intros Hf Hi H1 L. apply (nth_ext_v _ _ (length a)); rewrite ?chain_form_length, ?vzip_length; rewrite ?chain_form_length; auto.
  intros i Hil. rewrite chain_form_nth by (rewrite vzip_length; auto). rewrite vzip_nth by (rewrite ?chain_form_length; auto).
  rewrite !chain_form_nth by lia. rewrite vzip_length, L by auto.
  assert (IDX : forall j, (j < length a)%nat -> (nth j idx 0 < length a)%nat) by (intros; apply is_index_lt; auto).
  unfold chain_at. destruct (Nat.eqb_spec i (length a - 1)).
  - rewrite vzip_nth by (auto; apply IDX; lia). reflexivity.
  - rewrite !vzip_nth by (auto; apply IDX; lia). unfold vsub. cbn [vx vy vz]. rewrite !Hf. reflexivity.
Qed.
Lemma chain_array_zip I e n idx f x y : (e = 1 \/ e = 3)%nat -> (1 <= n)%nat -> is_index n idx -> (forall x y x' y', f (x - y) (x' - y') = f x x' - f y y') ->
  length x = variable_number I e n -> length y = variable_number I e n ->
  chain_array I n idx (zipw f x y) = zipw f (chain_array I n idx x) (chain_array I n idx y).
Proof.
  intros He Hn Hi Hf Lx Ly.
  destruct (unpack I e n x) as (t & a & b & c & tl & -> & La & Lb & Lc & Lt); [lia|auto|].
  destruct (unpack I e n y) as (t' & a' & b' & c' & tl' & -> & La' & Lb' & Lc' & Lt'); [lia|auto|].
  assert (HA : length (auxl I c) = length (auxl I c')) by (unfold auxl; destruct (I_dep I); auto; lia).
  rewrite zipw_pack by lia.
  assert (EA : vzip f (auxl I c) (auxl I c') = auxl I (vzip f c c')) by (unfold auxl; destruct (I_dep I); reflexivity).
  rewrite EA, !chain_array_pack by (rewrite ?vzip_length; intros; lia).
  rewrite !chain_form_vzip by (rewrite ?La, ?Lb, ?Lc; auto; lia).
  rewrite zipw_pack; rewrite ?chain_form_length; try lia.
  - f_equal. unfold auxl. destruct (I_dep I); reflexivity.
  - unfold auxl. destruct (I_dep I); [rewrite !chain_form_length; lia|reflexivity].
Qed.
Lemma chain_array_length I e n idx y : (1 <= e)%nat -> length y = variable_number I e n -> length (chain_array I n idx y) = variable_number I e n.
Proof.
  intros He L. destruct (unpack I e n y) as (t & a & b & c & tl & -> & La & Lb & Lc & Lt); auto.
  rewrite chain_array_pack by auto. rewrite pack_varnum with (n := n); rewrite ?chain_form_length; auto. f_equal; lia.
Qed.
(** consistent systems write the chain form of what their Cartesian part writes *)
Lemma gcwrite_form I e c : consistent I c -> gcwrite I e c = chain_array I (npart (c_st c)) (c_idx c) (gwrite I e (c_st c)).
Proof.
  intros (H1 & H2 & Hp & Hv & Ep & Ev & Hw). unfold gcwrite, gwrite. rewrite chain_array_pack; auto; [|intros; apply Hw; auto].
  rewrite chain_of_form in Ep by auto. rewrite chain_of_form in Ev by auto. injection Ep as <-. injection Ev as <-.
  f_equal. unfold auxl. destruct (I_dep I); auto. destruct (Hw eq_refl) as (Lw & Ew). rewrite chain_of_form in Ew by auto. congruence.
Qed.

(** * in lock-step *)
Definition Lock (I : inter) (e n : nat) (idx : list nat) (c : cst) (s : st) : Prop :=
  consistent I c /\ c_idx c = idx /\ strip (c_st c) = strip s /\ npart s = n /\ well_sized I e s /\
  length (s_inc (c_st c)) = variable_number I e n /\ s_sync (c_st c) = true /\ s_sync s = true.

(** The same without the collection flags, and without the increments of the chain system. *)
Definition Mate0 (I : inter) (n e : nat) (idx : list nat) (c : cst) (s : st) : Prop :=
  consistent I c /\ c_idx c = idx /\ strip (c_st c) = strip s /\ npart s = n /\ well_sized I e s.
Definition Mate (I : inter) (n e : nat) (idx : list nat) (c : cst) (s : st) : Prop :=
  consistent I c /\ c_idx c = idx /\ strip (c_st c) = strip s /\ npart s = n /\ well_sized I e s /\ length (s_inc (c_st c)) = variable_number I e n.
Lemma strip_gwrite I e s s' : strip s = strip s' -> gwrite I e s = gwrite I e s'.
Proof. intros H. change (gwrite I e s) with (gwrite I e (strip s)). rewrite H. reflexivity. Qed.
Lemma zip_cancel a x y : length x = length a -> length y = length a -> zip_add a x = zip_add a y -> x = y.
Proof.
  revert x y; induction a as [|u a IH]; intros [|x xs] [|y ys] H1 H2 E; simpl in *; try lia; auto.
  injection E as E1 E2. f_equal; [lra|]. apply IH; auto; lia.
Qed.
Definition grd (I : inter) (e : nat) (s : st) (y : list R) : outcome st := if (e =? 3)%nat then rread I s y else read I s y.
Lemma fin_read I e n idx c s y : (e = 1 \/ e = 3)%nat -> (1 <= n)%nat -> Mate0 I n e idx c s -> length y = variable_number I e n ->
  exists c' s', cread_gen I e c (chain_array I n idx y) = Ok c' /\ grd I e s y = Ok s' /\ Mate0 I n e idx c' s' /\ s_inc (c_st c') = s_inc (c_st c) /\
    s_sync (c_st c') = s_sync (c_st c) /\ s_sync s' = s_sync s.
Proof.
  intros He Hn (C & Ei & Es & Ns & W) L.
  destruct (unpack I e n y) as (t & a & b & w & tl & -> & La & Lb & Lc & Lt); [lia|auto|].
  pose proof C as (H1 & H2 & Hp & Hv & Ep & Ev & Hw).
  assert (Nc : npart (c_st c) = n) by (rewrite <- npart_strip, Es, npart_strip; auto). rewrite Nc in *.
  assert (Hi : is_index n idx) by (rewrite <- Ei; auto).
  rewrite chain_array_pack by auto.
  assert (RD := cread_gen_pack I e c (chain_form idx a) (chain_form idx b) (chain_form idx w) a b w t tl He). cbv zeta in RD. rewrite Nc, Ei in RD.
  rewrite RD; auto; try (intros; apply Hw; auto); try (apply chain_of_form; auto); try (intros; apply chain_of_form; auto). clear RD.
  set (s1 := mkSt (s_m s) t a b w (nth 0 tl 0) (nth 1 tl 0) 0 (s_inc s) true).
  assert (W1 : well_sized I e s1) by (unfold well_sized; destruct W as (_ & _ & _ & Q); unfold npart in *; rewrite Ns in Q; cbn; rewrite La, Lb, Lc, Ns; repeat split; auto).
  assert (GW : gwrite I e s1 = pack t a b (auxl I w) tl).
  { unfold gwrite, s1. cbn [s_t s_p s_v s_w s_om s_be]. f_equal. destruct He; subst e; cbn [Nat.eqb]; [destruct tl; simpl in Lt; auto; lia|].
    destruct tl as [|x [|z [|]]]; simpl in Lt; try lia. reflexivity. }
  assert (CC : forall aux om be sc, consistent I (mkCst (mkSt (s_m (c_st c)) t a b (if I_dep I then w else aux) om be sc (s_inc (c_st c)) (s_sync (c_st c)))
     (chain_form idx a) (chain_form idx b) (if I_dep I then chain_form idx w else c_cw c) idx)).
  { intros. unfold consistent. unfold npart in *. cbn [c_st c_cp c_cv c_cw c_idx s_m s_p s_v s_w]. rewrite Nc. split; [auto|]. split; [auto|]. split; [auto|]. split; [auto|].
    split; [apply chain_of_form; auto|]. split; [apply chain_of_form; auto|]. intros Hd; rewrite Hd. split; auto. apply chain_of_form; auto. }
  assert (ES : forall A (f : st -> A), f (strip (c_st c)) = f (strip s)) by (intros; rewrite Es; auto).
  pose proof (ES _ s_m) as E1. pose proof (ES _ s_w) as E2. pose proof (ES _ s_om) as E3. pose proof (ES _ s_be) as E4. pose proof (ES _ s_sc) as E5. cbn in E1, E2, E3, E4, E5.
  destruct He; subst e; cbn [Nat.eqb grd].
  - rewrite <- GW, gwrite1. unfold grd. cbn [Nat.eqb]. rewrite (read_write I s1 s W1 eq_refl). eexists. eexists. split; [reflexivity|]. split; [reflexivity|].
    split; [|repeat split; reflexivity]. split; [|split; [reflexivity|]].
    + apply CC.
    + unfold s1. cbn. split; [unfold strip; cbn; rewrite E1, E2, E3, E4, E5; reflexivity|]. split; [exact Ns|].
      destruct W1 as (X1 & X2 & X3 & X4). unfold well_sized, npart in *. cbn in *. repeat split; auto. intros Hd. rewrite Hd. auto.
  - rewrite <- GW, gwrite3. unfold grd. cbn [Nat.eqb]. rewrite (rread_rwrite I s1 s W1 eq_refl). eexists. eexists. split; [reflexivity|]. split; [reflexivity|].
    split; [|repeat split; reflexivity]. split; [|split; [reflexivity|]].
    + apply CC.
    + unfold s1. cbn. split; [unfold strip; cbn; rewrite E1, E2, E5; reflexivity|]. split; [exact Ns|].
      destruct W1 as (X1 & X2 & X3 & X4). unfold well_sized, npart in *. cbn in *. repeat split; auto. intros Hd. rewrite Hd. auto.
Qed.

Lemma lock_read I e n idx c s y : (e = 1 \/ e = 3)%nat -> (1 <= n)%nat -> Lock I e n idx c s -> length y = variable_number I e n ->
  exists c' s', cread_gen I e c (chain_array I n idx y) = Ok c' /\ grd I e s y = Ok s' /\ Lock I e n idx c' s'.
Proof.
  intros He Hn (C & Ei & Es & Ns & W & Li & S1 & S2) L.
  destruct (fin_read I e n idx c s y He Hn) as (c' & s' & X1 & X2 & (C' & Ei' & Es' & Ns' & W') & X3 & X4 & X5); [exact (conj C (conj Ei (conj Es (conj Ns W))))|auto|].
  exists c', s'. split; auto. split; auto. split; auto. split; auto. split; auto. split; auto. split; auto. split; [congruence|]. split; congruence.
Qed.

(** * one sub-stepped run *)
Lemma gw_length I e (He : (e = 1 \/ e = 3)%nat) s : well_sized I e s -> length (gwrite I e s) = variable_number I e (npart s).
Proof. intros (P & V & W & L). unfold gwrite. rewrite pack_varnum with (n := npart s); auto. destruct He; subst; reflexivity. Qed.
Section Run.
  Context (I : inter) (e : nat) (He : (e = 1 \/ e = 3)%nat) (HI : sized I) (n : nat) (Hn : (1 <= n)%nat) (idx : list nat)
          (dr ki : st -> R -> st) (cdr cki : cst -> R -> outcome cst).
  Context (Sdr : forall s h, strip (dr s h) = dr (strip s) h) (Ski : forall s h, strip (ki s h) = ki (strip s) h).
  Context (Ndr : forall s h, npart (dr s h) = npart s) (Nki : forall s h, npart (ki s h) = npart s).
  Context (Wdr : forall s h, well_sized I e s -> well_sized I e (dr s h)) (Wki : forall s h, well_sized I e s -> well_sized I e (ki s h)).
  Context (Tdr : forall y s h, well_sized I e s -> tracks I e y s -> tracks I e y (dr s h)) (Tki : forall y s h, well_sized I e s -> tracks I e y s -> tracks I e y (ki s h)).
  Context (Cdr : forall c h, consistent I c -> npart (c_st c) = n -> simulates I (cdr c h) (strip (dr (c_st c) h)) (c_idx c)).
  Context (Cki : forall c h, consistent I c -> npart (c_st c) = n -> simulates I (cki c h) (strip (ki (c_st c) h)) (c_idx c)).
  Context (CTdr : forall y c h c', consistent I c -> npart (c_st c) = n -> cdr c h = Ok c' -> ctracks I e y c -> ctracks I e y c').
  Context (CTki : forall y c h c', consistent I c -> npart (c_st c) = n -> cki c h = Ok c' -> ctracks I e y c -> ctracks I e y c').
  Lemma add_diff x y x' y' : Rplus (x - y) (x' - y') = Rplus x x' - Rplus y y'. Proof. ring. Qed.
  Lemma lock_run kdk c s h k : Lock I e n idx c s ->
    exists c' s' dy, integrate dr ki (nsteps_ops kdk k) (clear_increment s) (h / INR k) = s' /\ dy = s_inc s' /\ length dy = variable_number I e n /\
      crun cdr cki kdk c h k = Ok (c', chain_array I n idx dy) /\ Lock I e n idx c' s'.
  Proof.
    intros (C & Ei & Es & Ns & W & Li & S1 & S2).
    assert (Nc : npart (c_st c) = n) by (rewrite <- npart_strip, Es, npart_strip; auto).
    assert (Hi : is_index n idx) by (destruct C as (_ & X & _); rewrite Nc, Ei in X; exact X).
    set (l := nsteps_ops kdk k). set (hh := h / INR k). set (s' := integrate dr ki l (clear_increment s) hh).
    destruct (clear_tracks I e s He W S2) as [T0 W0].
    destruct (cclear_tracks I e c He C) as [CT0 C0]; [rewrite Nc; auto|auto|].
    assert (Q : well_sized I e s' /\ tracks I e (gwrite I e s) s' /\ npart s' = n).
    { apply (integrate_P dr ki (fun z => well_sized I e z /\ tracks I e (gwrite I e s) z /\ npart z = n)); auto.
      - intros z x (A & B & D). rewrite Ndr. auto.
      - intros z x (A & B & D). rewrite Nki. auto. }
    destruct Q as (W' & T' & N').
    destruct (ointegrate_sim I n cdr cki dr ki l (cclear c) hh) as (c' & E & (C' & Sc') & X'); auto.
    assert (Es' : strip (c_st c') = strip s').
    { rewrite Sc'. unfold s'. rewrite !strip_integrate by auto. f_equal. exact Es. }
    assert (Nc' : npart (c_st c') = n) by (rewrite <- npart_strip, Es', npart_strip; auto).
    assert (CT : ctracks I e (gcwrite I e c) c').
    { refine (proj2 (proj2 (ointegrate_inv (fun z => consistent I z /\ npart (c_st z) = n /\ ctracks I e (gcwrite I e c) z) cdr cki l (cclear c) hh c' _ _ _ E))).
      - intros z x (A & B & D). destruct (Cdr z x A B) as (z' & Ez & (Az & Sz) & _). exists z'. split; auto. split; auto. split.
        + rewrite <- npart_strip, Sz, npart_strip, Ndr. auto.
        + exact (CTdr _ z x z' A B Ez D).
      - intros z x (A & B & D). destruct (Cki z x A B) as (z' & Ez & (Az & Sz) & _). exists z'. split; auto. split; auto. split.
        + rewrite <- npart_strip, Sz, npart_strip, Nki. auto.
        + exact (CTki _ z x z' A B Ez D).
      - auto. }
    assert (Lw : length (gwrite I e s) = variable_number I e n) by (rewrite (gw_length I e He s W), Ns; auto).
    assert (Lc : length (gcwrite I e c) = variable_number I e n) by (rewrite (gcwrite_length I e c He C), Nc; auto).
    destruct T' as (T1 & T2 & T3). destruct CT as (D1 & D2 & D3).
    assert (Ei' : c_idx c' = idx) by (rewrite X'; exact Ei).
    assert (DY : s_inc (c_st c') = chain_array I n idx (s_inc s')).
    { apply (zip_cancel (gcwrite I e c)).
      - congruence.
      - rewrite (chain_array_length I e); [congruence|lia|congruence].
      - rewrite <- D3. rewrite (gcwrite_form I e c' C'), Nc', Ei', (strip_gwrite I e _ s' Es'), T3.
        rewrite (gcwrite_form I e c C), Nc, Ei, (strip_gwrite I e _ s Es). rewrite <- !zipw_plus.
        apply (chain_array_zip I e); auto; [apply add_diff|congruence]. }
    exists c', s', (s_inc s'). split; [reflexivity|]. split; [reflexivity|]. split; [congruence|].
    split.
    - unfold crun. fold l. fold hh. change (cclear_increment c) with (cclear c). rewrite E. cbn [obind]. rewrite DY. reflexivity.
    - split; auto. split; auto. split; auto. split; auto. split; auto. split; [congruence|]. auto.
  Qed.
End Run.
Lemma lock_run_chain I CI n idx kdk c s h k : sized I -> agree I CI n -> (1 <= n)%nat -> Lock I 1 n idx c s ->
  exists c' s' dy, simple_run I kdk s h k = Ok (s', dy) /\ length dy = variable_number I 1 n /\
    chain_run I CI kdk c h k = Ok (c', chain_array I n idx dy) /\ Lock I 1 n idx c' s'.
Proof.
  intros HI A Hn L.
  destruct (lock_run I 1 (or_introl eq_refl) n Hn idx drift (kick I) cdrift (ckick I CI)) with (kdk := kdk) (c := c) (s := s) (h := h) (k := k)
    as (c' & s' & dy & E1 & E2 & E3 & E4 & E5); auto.
  - intros; apply strip_kick.
  - intros; apply npart_kick.
  - intros; apply ws_drift; auto.
  - intros; apply ws_kick; auto.
  - intros; apply tracks_drift; auto.
  - intros; apply tracks_kick; auto.
  - intros; apply cdrift_sim; auto.
  - intros c0 h0 C0 N0. apply ckick_sim; auto. rewrite N0; auto.
  - intros y c0 h0 c1 C0 N0 E T. eapply ctracks_drift; eauto.
  - intros y c0 h0 c1 C0 N0 E T. eapply (ctracks_kick I CI 1 y c0 h0 c1); eauto. rewrite N0; auto.
  - exists c', s', dy. split; [unfold simple_run; rewrite E1; subst dy; reflexivity|]. auto.
Qed.
Lemma lock_run_archain I CI r n idx kdk c s h k : sized I -> agree I CI n -> (2 <= n)%nat -> Lock I 3 n idx c s ->
  exists c' s' dy, regu_run I r kdk s h k = Ok (s', dy) /\ length dy = variable_number I 3 n /\
    archain_run I CI r kdk c h k = Ok (c', chain_array I n idx dy) /\ Lock I 3 n idx c' s'.
Proof.
  intros HI A Hn L. assert (H1 : (1 <= n)%nat) by lia.
  destruct (lock_run I 3 (or_intror eq_refl) n H1 idx (rdrift r) (rkick I r) (ardrift r) (arkick I CI r)) with (kdk := kdk) (c := c) (s := s) (h := h) (k := k)
    as (c' & s' & dy & E1 & E2 & E3 & E4 & E5); auto.
  - intros; apply strip_rdrift.
  - intros; apply strip_rkick.
  - intros; apply npart_rdrift.
  - intros; apply npart_rkick.
  - intros; apply ws_rdrift; auto.
  - intros; apply ws_rkick; auto.
  - intros; apply tracks_rdrift; auto.
  - intros; apply tracks_rkick; auto.
  - intros; apply ardrift_sim; auto.
  - intros c0 h0 C0 N0. apply arkick_sim; auto; rewrite N0; auto.
  - intros y c0 h0 c1 C0 N0 E T. eapply ctracks_ardrift; eauto.
  - intros y c0 h0 c1 C0 N0 E T. eapply (ctracks_arkick I CI r y c0 h0 c1); eauto; rewrite N0; auto.
  - exists c', s', dy. split; [unfold regu_run; rewrite E1; subst dy; reflexivity|]. auto.
Qed.
