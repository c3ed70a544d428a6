From Verif Require Import Chain_Model Chain_Spec.

(** * Scan *)
Definition key (n : node) := (nd_i n, nd_j n).
Definition navail (d : list node) : nat := length (filter nd_avail d).

Lemma not_in_list_spec l x : not_in_list l x = true <-> ~ In x l.
Proof.
  unfold not_in_list. rewrite negb_true_iff. split.
  - intros H Hin. assert (existsb (Nat.eqb x) l = true) by (apply existsb_exists; exists x; split; auto; apply Nat.eqb_refl). congruence.
  - intros H. destruct (existsb _ _) eqn:E; auto. apply existsb_exists in E as (y & Hy & E). apply Nat.eqb_eq in E; subst; tauto.
Qed.

Lemma not_in_list_false l x : not_in_list l x = false -> In x l.
Proof.
  intros H. destruct (in_dec Nat.eq_dec x l); auto. apply not_in_list_spec in n. congruence.
Qed.

Definition ends (l : list nat) (h t : nat) : Prop := exists m, l = h :: m ++ [t].

Lemma ends_back l h t : ends l h t -> exists m, l = m ++ [t].
Proof. intros [m ->]. exists (h :: m). reflexivity. Qed.
Lemma ends_in l h t : ends l h t -> In h l /\ In t l.
Proof. intros [m ->]. split; [left; auto|]. right. apply in_or_app. right; left; auto. Qed.

Lemma can_attach_iff l h t nd : ends l h t -> nd_i nd <> nd_j nd ->
  (can_attach l nd <-> ((nd_i nd = h \/ nd_i nd = t) /\ ~ In (nd_j nd) l) \/
                       ((nd_j nd = h \/ nd_j nd = t) /\ ~ In (nd_i nd) l)).
Proof.
  intros [m E] Hne. split.
  - intros [l' A]. destruct A as [a b q Hk El Hb | a b q Hk El Hb].
    + assert (a = h) by congruence. subst a. destruct Hk as [[-> ->]|[-> ->]]; auto.
    + assert (a = t). { rewrite E in El. change (h :: m ++ [t]) with ((h :: m) ++ [t]) in El. apply app_inj_tail in El as [_ ?]; auto. }
      subst a. destruct Hk as [[-> ->]|[-> ->]]; auto.
  - intros [[[H|H] Hn]|[[H|H] Hn]].
    + eexists. eapply at_front; [left; split; [exact H|reflexivity]|exact E|auto].
    + eexists. eapply (at_back l nd t _ (h :: m)); [left; split; [exact H|reflexivity]|exact E|auto].
    + eexists. eapply at_front; [right; split; [reflexivity|exact H]|exact E|auto].
    + eexists. eapply (at_back l nd t _ (h :: m)); [right; split; [reflexivity|exact H]|exact E|auto].
Qed.

Lemma NoDup_snoc {A} (l : list A) x : NoDup l -> ~ In x l -> NoDup (l ++ [x]).
Proof.
  intros H Hn. apply (Permutation_NoDup (l := x :: l)). apply Permutation_cons_append. constructor; auto.
Qed.

Lemma try_add_spec l h t nd num : ends l h t -> NoDup l -> (forall x, In x l -> x < num)%nat ->
  (nd_i nd < nd_j nd < num)%nat ->
  let '(cl, ins, l', h', t') := try_add_to_chain l h t nd in
  if ins then cl = true /\ attach l nd l' /\ ends l' h' t' /\ NoDup l' /\ (forall x, In x l' -> x < num)%nat /\
              incl l l' /\ In (nd_i nd) l' /\ In (nd_j nd) l' /\ length l' = S (length l)
  else l' = l /\ h' = h /\ t' = t /\ ~ can_attach l nd /\ (cl = true -> In (nd_i nd) l /\ In (nd_j nd) l).
Proof.
  intros He Hnd Hlt Hij. assert (Hne : nd_i nd <> nd_j nd) by lia.
  pose proof (can_attach_iff l h t nd He Hne) as CA. pose proof (ends_in l h t He) as [Ih It].
  destruct (ends_back l h t He) as [mb Eb]. destruct He as [m E].
  assert (Front : forall a b, nd_i nd = a /\ nd_j nd = b \/ nd_i nd = b /\ nd_j nd = a -> a = h -> ~ In b l ->
    true = true /\ attach l nd (b :: l) /\ ends (b :: l) b t /\ NoDup (b :: l) /\ (forall x, In x (b :: l) -> x < num)%nat /\
    incl l (b :: l) /\ In (nd_i nd) (b :: l) /\ In (nd_j nd) (b :: l) /\ length (b :: l) = S (length l)).
  { intros a b Hk -> Hb. split; auto. split; [eapply at_front; eauto|]. split; [exists mb; rewrite Eb; auto|].
    split; [constructor; auto|]. split; [intros x [<-|Hx]; [destruct Hk as [[? ?]|[? ?]]; lia|auto]|].
    split; [intros x; right; auto|]. destruct Hk as [[K1 K2]|[K1 K2]]; rewrite K1, K2; simpl; tauto. }
  assert (Back : forall a b, nd_i nd = a /\ nd_j nd = b \/ nd_i nd = b /\ nd_j nd = a -> a = t -> ~ In b l ->
    true = true /\ attach l nd (l ++ [b]) /\ ends (l ++ [b]) h b /\ NoDup (l ++ [b]) /\ (forall x, In x (l ++ [b]) -> x < num)%nat /\
    incl l (l ++ [b]) /\ In (nd_i nd) (l ++ [b]) /\ In (nd_j nd) (l ++ [b]) /\ length (l ++ [b]) = S (length l)).
  { intros a b Hk -> Hb. split; auto. split; [eapply at_back; eauto|]. split; [exists (m ++ [t]); rewrite E; auto|].
    split; [apply NoDup_snoc; auto|].
    split; [intros x Hx; apply in_app_or in Hx as [Hx|[<-|[]]]; [auto|destruct Hk as [[? ?]|[? ?]]; lia]|].
    split; [intros x Hx; apply in_or_app; auto|]. rewrite app_length. simpl.
    split; [|split; [|lia]]; apply in_or_app; destruct Hk as [[K1 K2]|[K1 K2]]; rewrite ?K1, ?K2; simpl; auto. }
  unfold try_add_to_chain.
  destruct (Nat.eqb_spec h (nd_i nd)) as [E1|N1].
  { destruct (not_in_list l (nd_j nd)) eqn:En.
    - apply not_in_list_spec in En. apply Front with (a := nd_i nd); auto.
    - apply not_in_list_false in En. do 3 (split; auto). rewrite <- E1. split; auto. rewrite CA, <- E1. intuition congruence. }
  destruct (Nat.eqb_spec h (nd_j nd)) as [E2|N2].
  { destruct (not_in_list l (nd_i nd)) eqn:En.
    - apply not_in_list_spec in En. apply Front with (a := nd_j nd); auto.
    - apply not_in_list_false in En. do 3 (split; auto). rewrite <- E2. split; auto. rewrite CA, <- E2. intuition congruence. }
  destruct (Nat.eqb_spec t (nd_i nd)) as [E3|N3].
  { destruct (not_in_list l (nd_j nd)) eqn:En.
    - apply not_in_list_spec in En. apply Back with (a := nd_i nd); auto.
    - apply not_in_list_false in En. do 3 (split; auto). rewrite <- E3. split; auto. rewrite CA, <- E3. intuition congruence. }
  destruct (Nat.eqb_spec t (nd_j nd)) as [E4|N4].
  { destruct (not_in_list l (nd_i nd)) eqn:En.
    - apply not_in_list_spec in En. apply Back with (a := nd_j nd); auto.
    - apply not_in_list_false in En. do 3 (split; auto). rewrite <- E4. split; auto. rewrite CA, <- E4. intuition congruence. }
  do 3 (split; auto). split; [|discriminate]. rewrite CA. intuition congruence.
Qed.

Record SInv (d dist : list node) (l : list nat) (h t chained num lo k : nat) : Prop := {
  si_keys : map key dist = map key d;
  si_nd : NoDup (map key d);
  si_pairs : forall a b, In (a, b) (map key d) <-> (a < b < num)%nat;
  si_ends : ends l h t;
  si_nodup : NoDup l;
  si_lt : forall x, In x l -> (x < num)%nat;
  si_len : length l = S chained;
  si_unav : forall q nd, nth_error dist q = Some nd -> nd_avail nd = false -> In (nd_i nd) l /\ In (nd_j nd) l;
  si_zero : exists n0, nth_error dist 0 = Some n0 /\ nd_avail n0 = false;
  si_lo : (1 <= lo <= 2)%nat;
  si_scan : forall q nd, (lo <= q < k)%nat -> nth_error d q = Some nd -> ~ can_attach l nd
}.

Lemma attach_ext l l' nd nd' : key nd = key nd' -> attach l nd l' -> attach l nd' l'.
Proof.
  unfold key. intros E A. injection E as E1 E2. destruct A as [a b m H|a b m H].
  - apply (at_front l nd' a b m); auto. rewrite <- E1, <- E2; auto.
  - apply (at_back l nd' a b m); auto. rewrite <- E1, <- E2; auto.
Qed.

Lemma keys_nth d dist q : map key dist = map key d -> forall nd, nth_error dist q = Some nd ->
  exists nd0, nth_error d q = Some nd0 /\ key nd0 = key nd.
Proof.
  intros E nd H. assert (X : nth_error (map key dist) q = Some (key nd)) by (rewrite nth_error_map, H; auto).
  rewrite E, nth_error_map in X. destruct (nth_error d q) as [nd0|]; [|discriminate]. exists nd0. split; auto. unfold option_map in X. congruence.
Qed.

Lemma list_set_map {A B} (f : A -> B) l i x y : nth_error l i = Some y -> f x = f y -> map f (list_set l i x) = map f l.
Proof.
  revert i; induction l as [|a l IH]; intros [|i] H E; simpl in *; try discriminate.
  - injection H as ->. congruence.
  - f_equal; eauto.
Qed.

Lemma navail_clear d : forall k nd, nth_error d k = Some nd -> nd_avail nd = true ->
  S (navail (list_set d k (clear_avail nd))) = navail d.
Proof.
  unfold navail. induction d as [|a d IH]; intros [|k] nd H Ha; simpl in *; try discriminate.
  - injection H as ->. rewrite Ha. reflexivity.
  - destruct (nd_avail a); simpl; erewrite <- IH; eauto.
Qed.

Lemma all_listed d dist l h t c num lo k : SInv d dist l h t c num lo k -> (1 <= c)%nat -> (length dist <= k)%nat ->
  is_index num l.
Proof.
  intros I Hc Hk. destruct I.
  assert (All : forall p, (p < num)%nat -> In p l).
  { intros p Hp. destruct (in_dec Nat.eq_dec p l) as [|Hn]; auto. exfalso.
    assert (Hht : h <> t).
    { destruct si_ends0 as [m ->]. intros ->. apply NoDup_cons_iff in si_nodup0 as [X _]. apply X, in_or_app; right; left; auto. }
    destruct (ends_in _ _ _ si_ends0) as [Ih It].
    assert (P : forall e, In e l -> e = h \/ e = t -> exists q nd, nth_error d q = Some nd /\ can_attach l nd /\
       (nd_i nd = e \/ nd_j nd = e) /\ q <> 0%nat /\ (key nd = (e, p) \/ key nd = (p, e))).
    { intros e Hin He. assert (Hep : e <> p) by congruence. pose proof (si_lt0 e Hin).
      assert (X : exists nd, In nd d /\ (key nd = (e, p) \/ key nd = (p, e))).
      { destruct (Nat.lt_total e p) as [Hlt|[?|Hlt]]; [|lia|].
        - assert (Y : In (e, p) (map key d)) by (apply si_pairs0; lia). apply in_map_iff in Y as (nd & Y & Z). eauto.
        - assert (Y : In (p, e) (map key d)) by (apply si_pairs0; lia). apply in_map_iff in Y as (nd & Y & Z). eauto. }
      destruct X as (nd & Hnd & Hkey). apply In_nth_error in Hnd as [q Hq]. exists q, nd. split; auto.
      assert (Hne : nd_i nd <> nd_j nd) by (unfold key in Hkey; destruct Hkey as [K|K]; injection K as K1 K2; congruence).
      split; [|split; [|split; [|auto]]].
      - apply (can_attach_iff l h t nd si_ends0 Hne). unfold key in Hkey.
        destruct Hkey as [K|K]; injection K as K1 K2; rewrite K1, K2; auto.
      - unfold key in Hkey; destruct Hkey as [K|K]; injection K as K1 K2; auto.
      - intros ->. destruct si_zero0 as (n0 & Hn0 & Ha). pose proof (si_unav0 0%nat n0 Hn0 Ha) as [U1 U2].
        destruct (keys_nth d dist 0 si_keys0 n0 Hn0) as (n1 & Hn1 & Kn). rewrite Hq in Hn1. injection Hn1 as <-.
        unfold key in *. injection Kn as Kn1 Kn2. rewrite <- Kn1 in U1. rewrite <- Kn2 in U2.
        destruct Hkey as [K|K]; injection K as K1 K2; congruence. }
    destruct (P h Ih (or_introl eq_refl)) as (q1 & n1 & A1 & B1 & C1 & D1 & E1).
    destruct (P t It (or_intror eq_refl)) as (q2 & n2 & A2 & B2 & C2 & D2 & E2).
    assert (Lk : length dist = length d) by (rewrite <- (map_length key dist), si_keys0, map_length; auto).
    assert (L1 : (q1 < length d)%nat) by (apply nth_error_Some; congruence).
    assert (L2 : (q2 < length d)%nat) by (apply nth_error_Some; congruence).
    assert (Hq : q1 <> q2).
    { intros ->. rewrite A1 in A2. injection A2 as <-. assert (h <> p) by congruence. assert (t <> p) by congruence.
      destruct E1 as [E1|E1], E2 as [E2|E2]; congruence. }
    destruct (le_lt_dec lo q1) as [G1|G1]; [apply (si_scan0 q1 n1); auto; lia|].
    destruct (le_lt_dec lo q2) as [G2|G2]; [apply (si_scan0 q2 n2); auto; lia|].
    lia. }
  unfold is_index. apply NoDup_Permutation; auto; [apply seq_NoDup|].
  intros x. rewrite in_seq. split; [intros Hx; apply si_lt0 in Hx; lia|intros Hx; apply All; lia].
Qed.

Lemma scan_ok fuel : forall d dist l h t c num lo k, SInv d dist l h t c num lo k -> (1 <= c)%nat ->
  (lo <= k)%nat -> (navail dist * S (length dist) + (length dist - k) < fuel)%nat ->
  exists idx, chain_scan fuel dist l h t c num k = Some idx /\ is_index num idx /\ greedy d lo l idx.
Proof.
  induction fuel as [|fuel IH]; intros d dist l h t c num lo k I Hc Hlk Hm; [lia|]. cbn [chain_scan].
  pose proof I as I0. destruct I.
  assert (Ld : length dist = length d) by (rewrite <- (map_length key dist), si_keys0, map_length; auto).
  destruct (Nat.ltb_spec k (length dist)) as [Hk|Hk].
  2: { exists l. split; auto. split; [eapply all_listed; eauto|]. apply g_done. intros q nd Hq Hn.
       apply si_scan0 with q; auto. split; auto. apply Nat.lt_le_trans with (length d); [|lia]. apply nth_error_Some. congruence. }
  destruct (nth_error dist k) as [nd|] eqn:En; [|apply nth_error_None in En; lia].
  destruct (keys_nth d dist k si_keys0 nd En) as (nd0 & En0 & Kn).
  assert (Hij : (nd_i nd < nd_j nd < num)%nat).
  { apply si_pairs0. rewrite <- si_keys0. change (nd_i nd, nd_j nd) with (key nd). apply in_map. eapply nth_error_In; eauto. }
  destruct (nd_avail nd) eqn:Ea.
  - pose proof (try_add_spec l h t nd num si_ends0 si_nodup0 si_lt0 Hij) as T.
    destruct (try_add_to_chain l h t nd) as [[[[cl ins] l'] h'] t'] eqn:Et.
    destruct ins.
    + destruct T as (-> & A & He & Hnd & Hlt & Hincl & Ini & Inj & Hlen).
      assert (Hc' : (S c =? num)%nat = false).
      { apply Nat.eqb_neq. intros Ec. assert (length l' <= length (seq 0 num))%nat.
        { apply NoDup_incl_length; auto. intros x Hx. apply in_seq. pose proof (Hlt x Hx). lia. }
        rewrite seq_length in H. lia. }
      rewrite Hc'.
      pose proof (navail_clear dist k nd En Ea) as Nv.
      assert (Hk0 : k <> 0%nat) by lia.
      destruct (IH d (list_set dist k (clear_avail nd)) l' h' t' (S c) num 2%nat 2%nat) as (idx & R1 & R2 & R3).
      * constructor; auto; try lia.
        -- rewrite <- si_keys0. eapply list_set_map; eauto.
        -- intros q nq Hq Hav. destruct (Nat.eq_dec k q) as [<-|Hne].
           ++ rewrite nth_error_list_set_eq in Hq by auto. injection Hq as <-. simpl. auto.
           ++ rewrite nth_error_list_set_neq in Hq by auto. destruct (si_unav0 q nq Hq Hav). split; apply Hincl; auto.
        -- destruct si_zero0 as (n0 & Hn0 & Ha0). exists n0. rewrite nth_error_list_set_neq by auto. auto.
      * lia.
      * lia.
      * rewrite list_set_length. nia.
      * exists idx. split; auto. split; auto. eapply (g_step d lo l k nd0 l' idx); eauto.
        eapply attach_ext; [symmetry; exact Kn|auto].
    + destruct T as (-> & -> & -> & Hna & Hcl).
      set (dist' := if cl then list_set dist k (clear_avail nd) else dist).
      assert (Hlen' : length dist' = length dist) by (unfold dist'; destruct cl; auto using list_set_length).
      assert (Hnv : (navail dist' <= navail dist)%nat).
      { unfold dist'; destruct cl; auto. rewrite <- (navail_clear dist k nd En Ea). lia. }
      apply IH; auto; try lia.
      * constructor; auto.
        -- unfold dist'; destruct cl; auto. rewrite <- si_keys0. eapply list_set_map; eauto.
        -- intros q nq Hq Hav. unfold dist' in Hq. destruct cl; eauto. destruct (Nat.eq_dec k q) as [<-|Hne].
           ++ rewrite nth_error_list_set_eq in Hq by auto. injection Hq as <-. simpl. auto.
           ++ rewrite nth_error_list_set_neq in Hq by auto. eauto.
        -- destruct si_zero0 as (n0 & Hn0 & Ha0). exists n0. unfold dist'; destruct cl; auto. rewrite nth_error_list_set_neq by lia. auto.
        -- intros q nq Hq Hn. destruct (Nat.eq_dec q k) as [->|]; [|apply (si_scan0 q); auto; lia].
           assert (nq = nd0) by congruence. subst nq. intros [l2 A]. apply Hna. exists l2. eapply attach_ext; eauto.
      * rewrite Hlen'. nia.
  - apply IH; auto; try lia.
    constructor; auto.
    intros q nq Hq Hn. destruct (Nat.eq_dec q k) as [->|]; [|apply (si_scan0 q); auto; lia].
    assert (nq = nd0) by congruence. subst nq. intros CA.
    apply (can_attach_iff l h t nd0 si_ends0) in CA.
    + destruct (si_unav0 k nd En Ea). unfold key in Kn. injection Kn as K1 K2. rewrite K1, K2 in CA. tauto.
    + unfold key in Kn. injection Kn as K1 K2. lia.
Qed.

(** Distances array: exactly the pairs, once each. *)
Lemma dist_keys pos : map key (create_distances_array pos) =
  flat_map (fun i => map (fun j => (i, j)) (seq (i + 1) (length pos - (i + 1)))) (seq 0 (length pos)).
Proof.
  unfold create_distances_array. generalize (seq 0 (length pos)) as L. induction L as [|a L IH]; simpl; auto.
  rewrite map_app, IH. f_equal. rewrite map_map. apply map_ext. reflexivity.
Qed.

Lemma NoDup_app_intro {A} (l m : list A) : NoDup l -> NoDup m -> (forall x, In x l -> ~ In x m) -> NoDup (l ++ m).
Proof.
  induction l as [|a l IH]; simpl; intros Hl Hm Hd; auto. apply NoDup_cons_iff in Hl as [Ha Hl].
  constructor; [|apply IH; auto]. intros H. apply in_app_or in H as [H|H]; auto. apply (Hd a); auto.
Qed.

Lemma NoDup_flat_pairs (f : nat -> list nat) L : NoDup L -> (forall i, In i L -> NoDup (f i)) ->
  NoDup (flat_map (fun i => map (fun j => (i, j)) (f i)) L).
Proof.
  induction L as [|a L IH]; simpl; intros H Hf; [constructor|]. apply NoDup_cons_iff in H as [Ha HL].
  apply NoDup_app_intro; auto.
  - apply FinFun.Injective_map_NoDup; auto. intros x y E; congruence.
  - intros p Hp Hq. apply in_map_iff in Hp as (j & <- & _). apply in_flat_map in Hq as (i & Hi & Hq).
    apply in_map_iff in Hq as (j' & E & _). injection E as -> _. auto.
Qed.

Lemma dist_keys_nodup pos : NoDup (map key (create_distances_array pos)).
Proof. rewrite dist_keys. apply NoDup_flat_pairs; intros; apply seq_NoDup. Qed.
Lemma dist_keys_in pos a b : In (a, b) (map key (create_distances_array pos)) <-> (a < b < length pos)%nat.
Proof.
  rewrite dist_keys, in_flat_map. split.
  - intros (i & Hi & H). apply in_map_iff in H as (j & E & Hj). injection E as -> ->. apply in_seq in Hi, Hj. lia.
  - intros H. exists a. split; [apply in_seq; lia|]. apply in_map_iff. exists b. split; auto. apply in_seq. lia.
Qed.
Lemma dist_avail pos nd : In nd (create_distances_array pos) ->
  nd_avail nd = true /\ nd_r nd = dist2 pos (nd_i nd) (nd_j nd).
Proof.
  unfold create_distances_array. intros H. apply in_flat_map in H as (i & Hi & H). apply in_map_iff in H as (j & <- & _).
  simpl. split; auto. unfold dist2. generalize (nth i pos vzero), (nth j pos vzero). intros; vring.
Qed.

Definition enough_fuel (d : list node) : nat := (S (length d) * S (length d) + 1)%nat.

Lemma create_index_ok pos d fuel : (2 <= length pos)%nat -> is_sorted_version (create_distances_array pos) d ->
  (enough_fuel d <= fuel)%nat -> exists n0 idx, nth_error d 0 = Some n0 /\
   create_index_from_dist_array fuel d (length pos) = Ok (Some idx) /\ is_index (length pos) idx /\
   greedy d 1 [nd_i n0; nd_j n0] idx.
Proof.
  intros Hn [Hp Hs] Hf.
  assert (Hk : Permutation (map key (create_distances_array pos)) (map key d)) by (apply Permutation_map; auto).
  assert (Hin : forall a b, In (a, b) (map key d) <-> (a < b < length pos)%nat).
  { intros a b. rewrite <- dist_keys_in. split; apply Permutation_in; auto using Permutation_sym. }
  destruct d as [|n0 d].
  { exfalso. assert (In (0, 1)%nat (map key [])) by (apply Hin; lia). auto. }
  exists n0. unfold create_index_from_dist_array. unfold aget; simpl (nth_error _ 0). cbn [obind list_set].
  assert (Hij : (nd_i n0 < nd_j n0 < length pos)%nat).
  { apply Hin. left. reflexivity. }
  destruct (scan_ok fuel (n0 :: d) (clear_avail n0 :: d) [nd_i n0; nd_j n0] (nd_i n0) (nd_j n0) 1 (length pos) 1 1) as (idx & R1 & R2 & R3); auto.
  - constructor; auto.
    + apply (Permutation_NoDup Hk). apply dist_keys_nodup.
    + exists []. reflexivity.
    + constructor; [|constructor; [|constructor]]; simpl; intuition lia.
    + simpl; intuition lia.
    + intros q nd Hq Ha. destruct q as [|q]; simpl in Hq.
      * injection Hq as <-. simpl. auto.
      * exfalso. apply nth_error_In in Hq.
        assert (X : In nd (create_distances_array pos)).
        { eapply Permutation_in; [apply Permutation_sym; exact Hp|right; auto]. }
        apply dist_avail in X. destruct X; congruence.
    + simpl. eauto.
    + lia.
  - unfold enough_fuel in Hf. cbn [length] in *. assert (navail (clear_avail n0 :: d) <= length d)%nat.
    { unfold navail. simpl. clear. induction d as [|a d IH]; simpl; auto. destruct (nd_avail a); simpl; lia. }
    nia.
  - exists idx. rewrite R1. auto.
Qed.

Lemma calc_chain_index_perm pos : (2 <= length pos)%nat -> exists N, forall fuel r, (N <= fuel)%nat ->
  calc_chain_index fuel pos r -> exists idx, r = Ok (Some idx) /\ is_index (length pos) idx.
Proof.
  intros Hn. exists (enough_fuel (create_distances_array pos)). intros fuel r Hf (d & Hs & ->).
  assert (E : enough_fuel d = enough_fuel (create_distances_array pos)).
  { unfold enough_fuel. rewrite (Permutation_length (proj1 Hs)). auto. }
  destruct (create_index_ok pos d fuel Hn Hs ltac:(lia)) as (n0 & idx & _ & H1 & H2 & _). eauto.
Qed.

(** Larger fuel does not change a result. *)
Lemma chain_scan_mono f : forall d l h t c num k r f', chain_scan f d l h t c num k = Some r -> (f <= f')%nat ->
  chain_scan f' d l h t c num k = Some r.
Proof.
  induction f as [|f IH]; intros d l h t c num k r f' H Hf; [discriminate|]. destruct f' as [|f']; [lia|].
  cbn [chain_scan] in *. destruct (k <? length d)%nat; auto. destruct (nth_error d k) as [nd|]; auto.
  destruct (nd_avail nd); [|apply IH; auto; lia].
  destruct (try_add_to_chain l h t nd) as [[[[cl ins] l'] h'] t']. destruct ins; [|apply IH; auto; lia].
  destruct (S c =? num)%nat; auto. apply IH; auto; lia.
Qed.

(** A result with any fuel is the result with enough fuel. *)
Lemma calc_chain_index_any pos fuel idx : (2 <= length pos)%nat ->
  calc_chain_index fuel pos (Ok (Some idx)) ->
  is_index (length pos) idx /\
  exists d n0, is_sorted_version (create_distances_array pos) d /\ nth_error d 0 = Some n0 /\
               greedy d 1 [nd_i n0; nd_j n0] idx.
Proof.
  intros Hn (d & Hs & E).
  destruct (create_index_ok pos d (fuel + enough_fuel d) Hn Hs ltac:(lia)) as (n0 & idx' & H0 & H1 & H2 & H3).
  unfold create_index_from_dist_array, aget in *. rewrite H0 in *. cbn [obind] in *. injection E as E. symmetry in E.
  apply chain_scan_mono with (f' := (fuel + enough_fuel d)%nat) in E; [|lia]. rewrite E in H1. injection H1 as <-.
  split; auto. exists d, n0. auto.
Qed.

Lemma adjacent_attach a b l nd l' : adjacent a b l -> attach l nd l' -> adjacent a b l'.
Proof.
  intros (l1 & l2 & H) A. destruct A as [x y m _ _ _|x y m _ _ _].
  - exists (y :: l1), l2. destruct H as [->| ->]; auto.
  - exists l1, (l2 ++ [y]). destruct H as [->| ->]; rewrite <- app_assoc; auto.
Qed.

Lemma greedy_adjacent d lo l idx a b : greedy d lo l idx -> adjacent a b l -> adjacent a b idx.
Proof. intros G. induction G; intros H'; auto. apply IHG. eapply adjacent_attach; eauto. Qed.

Lemma closest_adjacent pos fuel idx : (2 <= length pos)%nat -> calc_chain_index fuel pos (Ok (Some idx)) ->
  exists a b, (a < length pos)%nat /\ (b < length pos)%nat /\ a <> b /\ adjacent a b idx /\
    forall i j, (i < length pos)%nat -> (j < length pos)%nat -> i <> j -> dist2 pos a b <= dist2 pos i j.
Proof.
  intros Hn H. destruct (calc_chain_index_any pos fuel idx Hn H) as (_ & d & n0 & [Hp Hs] & H0 & G).
  assert (Hn0 : In n0 (create_distances_array pos)).
  { eapply Permutation_in; [apply Permutation_sym; exact Hp|]. eapply nth_error_In; eauto. }
  assert (Hij : (nd_i n0 < nd_j n0 < length pos)%nat).
  { apply dist_keys_in. change (nd_i n0, nd_j n0) with (key n0). apply in_map; auto. }
  exists (nd_i n0), (nd_j n0). split; [lia|]. split; [lia|]. split; [lia|]. split.
  - eapply greedy_adjacent; eauto. exists [], []. auto.
  - assert (K : forall i j, (i < j < length pos)%nat -> dist2 pos (nd_i n0) (nd_j n0) <= dist2 pos i j).
    { intros i j Hl. apply dist_keys_in in Hl. apply in_map_iff in Hl as (nd & Ek & Hin).
      destruct (dist_avail pos nd Hin) as [_ Er]. destruct (dist_avail pos n0 Hn0) as [_ E0].
      unfold key in Ek. injection Ek as E1 E2. rewrite <- E1, <- E2, <- Er, <- E0.
      apply (Permutation_in _ Hp) in Hin. destruct d as [|x d]; [discriminate|]. injection H0 as ->.
      destruct Hin as [<-|Hin]; [lra|]. apply StronglySorted_inv in Hs as [_ Hs]. rewrite Forall_forall in Hs. auto. }
    intros i j Hi Hj Hne. destruct (Nat.lt_total i j) as [|[|]]; [apply K; lia|congruence|].
    replace (dist2 pos i j) with (dist2 pos j i); [apply K; lia|].
    unfold dist2. generalize (nth i pos vzero), (nth j pos vzero). intros; vring.
Qed.

(** The greedy order is broken: four collinear particles at 0, 10, 30, 41. *)
Definition line4 : list vec := [mkV 0 0 0; mkV 10 0 0; mkV 30 0 0; mkV 41 0 0].
Definition line4_sorted : list node :=
  [dist_node line4 0 1; dist_node line4 2 3; dist_node line4 1 2; dist_node line4 0 2; dist_node line4 1 3; dist_node line4 0 3].
Lemma line4_is_sorted : is_sorted_version (create_distances_array line4) line4_sorted.
Proof.
  split.
  - unfold create_distances_array, line4_sorted. cbn [length line4 seq flat_map map app Nat.add Nat.sub].
    apply perm_skip.
    apply (Permutation_cons_app [dist_node line4 2 3; dist_node line4 1 2] [dist_node line4 1 3; dist_node line4 0 3]). simpl.
    apply (Permutation_cons_app [dist_node line4 2 3; dist_node line4 1 2; dist_node line4 1 3] []). simpl.
    apply (Permutation_cons_app [dist_node line4 2 3] [dist_node line4 1 3]). simpl.
    apply perm_swap.
  - unfold line4_sorted, dist_node, line4; simpl.
    repeat (constructor; [|repeat (constructor; [simpl; lra|]); constructor]). constructor.
Qed.

Lemma line4_chain : calc_chain_index 43 line4 (Ok (Some [3; 0; 1; 2]%nat)).
Proof. exists line4_sorted. split; [apply line4_is_sorted|]. reflexivity. Qed.

(** * Coordinates *)
Lemma aget_ok {A} (l : list A) i d : (i < length l)%nat -> aget l i = Ok (nth i l d).
Proof. intros H. unfold aget. rewrite (nth_error_nth' l d) by auto. auto. Qed.

Lemma nth_list_set_eq {A} (l : list A) i x d : (i < length l)%nat -> nth i (list_set l i x) d = x.
Proof. revert i; induction l as [|a l IH]; intros [|i] H; simpl in *; try lia; auto. apply IH; lia. Qed.
Lemma nth_list_set_neq {A} (l : list A) i j x d : i <> j -> nth j (list_set l i x) d = nth j l d.
Proof. revert i j; induction l as [|a l IH]; intros [|i] [|j] H; simpl in *; try congruence; auto. Qed.

(** Loop rule: an invariant carried through the loop. *)
Lemma for_up_inv {S} (P : nat -> S -> Prop) body cnt : forall lo st,
  P lo st -> (forall i s, (lo <= i < lo + cnt)%nat -> P i s -> exists s', body i s = Ok s' /\ P (Datatypes.S i) s') ->
  exists s', for_up lo cnt body st = Ok s' /\ P (lo + cnt)%nat s'.
Proof.
  induction cnt as [|c IH]; intros lo st H0 Hs.
  - exists st. rewrite Nat.add_0_r. auto.
  - destruct (Hs lo st) as (s1 & E & H1); auto; [lia|]. cbn [for_up]. rewrite E. cbn [obind].
    destruct (IH (Datatypes.S lo) s1 H1) as (s2 & E2 & H2).
    + intros i s Hi HP. apply Hs; auto; lia.
    + exists s2. split; auto. replace (lo + Datatypes.S c)%nat with (Datatypes.S lo + c)%nat by lia. auto.
Qed.

Lemma is_index_len n idx : is_index n idx -> length idx = n.
Proof. intros H. apply Permutation_length in H. rewrite seq_length in H. auto. Qed.
Lemma is_index_lt n idx i : is_index n idx -> (i < n)%nat -> (nth i idx 0 < n)%nat.
Proof.
  intros H Hi. assert (In (nth i idx 0%nat) (seq 0 n)).
  { eapply Permutation_in; [exact H|]. apply nth_In. rewrite (is_index_len n idx H); auto. }
  apply in_seq in H0. lia.
Qed.
Lemma is_index_nodup n idx : is_index n idx -> NoDup idx.
Proof. intros H. eapply Permutation_NoDup; [apply Permutation_sym; exact H|apply seq_NoDup]. Qed.
Lemma is_index_inj n idx i j : is_index n idx -> (i < n)%nat -> (j < n)%nat -> nth i idx 0%nat = nth j idx 0%nat -> i = j.
Proof.
  intros H Hi Hj E. pose proof (is_index_nodup n idx H) as N. rewrite NoDup_nth in N. apply N in E; auto;
  rewrite (is_index_len n idx H); auto.
Qed.
Lemma is_index_surj n idx p : is_index n idx -> (p < n)%nat -> exists i, (i < n)%nat /\ nth i idx 0%nat = p.
Proof.
  intros H Hp. assert (In p idx).
  { eapply Permutation_in; [apply Permutation_sym; exact H|]. apply in_seq; lia. }
  apply (In_nth _ _ 0%nat) in H0 as (i & Hi & E). rewrite (is_index_len n idx H) in Hi. eauto.
Qed.

(** Value of chain entry [i]. *)
Definition chain_at (cart : list vec) (idx : list nat) (n i : nat) : vec :=
  if (i =? n - 1)%nat then nth (nth 0 idx 0%nat) cart vzero
  else vsub (nth (nth (i + 1) idx 0%nat) cart vzero) (nth (nth i idx 0%nat) cart vzero).

Lemma to_chain_ok n idx cart ch0 : (1 <= n)%nat -> is_index n idx -> length cart = n -> length ch0 = n ->
  exists ch, to_chain cart ch0 idx = Ok ch /\ length ch = n /\
    forall i, (i < n)%nat -> nth i ch vzero = chain_at cart idx n i.
Proof.
  intros Hn Hi Hc H0. pose proof (is_index_len n idx Hi) as Hl. unfold to_chain. rewrite Hc.
  destruct n as [|n1]; [lia|].
  rewrite (aget_ok idx 0 0%nat) by lia. cbn [obind].
  rewrite (aget_ok cart _ vzero) by (rewrite Hc; apply is_index_lt; auto; lia). cbn [obind].
  unfold aset at 1. destruct (Nat.ltb_spec n1 (length ch0)); [|lia]. cbn [obind].
  destruct (for_up_inv (fun i ch => length ch = S n1 /\ nth n1 ch vzero = chain_at cart idx (S n1) n1 /\
     forall j, (j < i)%nat -> nth j ch vzero = chain_at cart idx (S n1) j)
    (fun i chain => obind (aget idx (i + 1)) (fun a => obind (aget cart a) (fun ca =>
      obind (aget idx i) (fun b => obind (aget cart b) (fun cb => aset chain i (vsub ca cb))))))
    n1 0%nat (list_set ch0 n1 (nth (nth 0 idx 0%nat) cart vzero))) as (ch & E & A & B & C).
  - rewrite list_set_length, nth_list_set_eq by lia. split; auto. split; [|intros; lia].
    unfold chain_at. replace (S n1 - 1)%nat with n1 by lia. rewrite Nat.eqb_refl. auto.
  - intros i ch Hi' (A & B & C). eexists.
    rewrite (aget_ok idx (i+1) 0%nat), (aget_ok idx i 0%nat) by lia. cbn [obind].
    rewrite !(aget_ok cart _ vzero) by (rewrite Hc; apply is_index_lt; auto; lia). cbn [obind].
    unfold aset. destruct (Nat.ltb_spec i (length ch)); [|lia]. split; [reflexivity|].
    rewrite list_set_length. split; auto. split.
    + rewrite nth_list_set_neq by lia; auto.
    + intros j Hj. destruct (Nat.eq_dec i j) as [<-|].
      * rewrite nth_list_set_eq by lia. unfold chain_at. destruct (Nat.eqb_spec i (S n1 - 1)); [lia|]. auto.
      * rewrite nth_list_set_neq by auto. apply C. lia.
  - exists ch. rewrite E. split; auto. split; auto. intros i Hi'. destruct (Nat.eq_dec i n1) as [->|]; auto. apply C; lia.
Qed.

(** Position of chain member [i]. *)
Fixpoint cart_at (ch : list vec) (n i : nat) : vec :=
  match i with O => nth (n - 1) ch vzero | S k => vadd (cart_at ch n k) (nth k ch vzero) end.

Lemma to_cartesian_ok n idx ch cart0 : (1 <= n)%nat -> is_index n idx -> length ch = n -> length cart0 = n ->
  exists cart, to_cartesian ch cart0 idx = Ok cart /\ length cart = n /\
    forall i, (i < n)%nat -> nth (nth i idx 0%nat) cart vzero = cart_at ch n i.
Proof.
  intros Hn Hi Hc H0. pose proof (is_index_len n idx Hi) as Hl. unfold to_cartesian. rewrite H0.
  destruct n as [|n1]; [lia|].
  rewrite (aget_ok idx 0 0%nat) by lia. cbn [obind].
  rewrite (aget_ok ch n1 vzero) by lia. cbn [obind].
  assert (Hi0 : (nth 0 idx 0 < S n1)%nat) by (apply is_index_lt; auto).
  unfold aset at 1. destruct (Nat.ltb_spec (nth 0 idx 0%nat) (length cart0)); [|lia]. cbn [obind].
  destruct (for_up_inv (fun i cart => length cart = S n1 /\
     forall j, (j < i)%nat -> nth (nth j idx 0%nat) cart vzero = cart_at ch (S n1) j)
    (fun i cart => obind (aget idx i) (fun a => obind (aget idx (i - 1)) (fun b =>
      obind (aget cart b) (fun cb => obind (aget ch (i - 1)) (fun d => aset cart a (vadd cb d))))))
    n1 1%nat (list_set cart0 (nth 0 idx 0%nat) (nth n1 ch vzero))) as (cart & E & A & C).
  - rewrite list_set_length. split; auto. intros j Hj. replace j with 0%nat by lia. rewrite nth_list_set_eq by lia.
    simpl. rewrite Nat.sub_0_r. auto.
  - intros i cart Hi' (A & C). eexists.
    rewrite (aget_ok idx i 0%nat), (aget_ok idx (i - 1) 0%nat) by lia. cbn [obind].
    assert ((nth (i - 1) idx 0 < S n1)%nat) by (apply is_index_lt; auto; lia).
    assert ((nth i idx 0 < S n1)%nat) by (apply is_index_lt; auto; lia).
    rewrite (aget_ok cart _ vzero) by lia. cbn [obind]. rewrite (aget_ok ch _ vzero) by lia. cbn [obind].
    unfold aset. destruct (Nat.ltb_spec (nth i idx 0%nat) (length cart)); [|lia]. split; [reflexivity|].
    rewrite list_set_length. split; auto.
    intros j Hj. destruct (Nat.eq_dec i j) as [<-|].
    + rewrite nth_list_set_eq by lia. rewrite C by lia. destruct i; [lia|]. replace (S i - 1)%nat with i by lia. auto.
    + rewrite nth_list_set_neq; [apply C; lia|]. intros X. apply (is_index_inj (S n1)) in X; auto; lia.
  - exists cart. rewrite E. split; auto.
Qed.

Lemma cart_at_chain n idx cart ch : length cart = n -> is_index n idx ->
  (forall i, (i < n)%nat -> nth i ch vzero = chain_at cart idx n i) ->
  forall i, (i < n)%nat -> cart_at ch n i = nth (nth i idx 0%nat) cart vzero.
Proof.
  intros Hc Hi H. induction i as [|i IH]; intros Hl; simpl.
  - rewrite H by lia. unfold chain_at. rewrite Nat.eqb_refl. auto.
  - rewrite IH, H by lia. unfold chain_at. destruct (Nat.eqb_spec i (n - 1)); [lia|].
    replace (i + 1)%nat with (S i) by lia.
    generalize (nth (nth (S i) idx 0%nat) cart vzero), (nth (nth i idx 0%nat) cart vzero). intros; vring.
Qed.

Lemma nth_ext_v (a b : list vec) n : length a = n -> length b = n -> (forall i, (i < n)%nat -> nth i a vzero = nth i b vzero) -> a = b.
Proof. intros Ha Hb H. apply (nth_ext a b vzero vzero); [congruence|]. intros i Hi. apply H. congruence. Qed.

Lemma round_trip n idx cart ch0 cart0 : (1 <= n)%nat -> is_index n idx -> length cart = n -> length ch0 = n -> length cart0 = n ->
  exists ch, to_chain cart ch0 idx = Ok ch /\ to_cartesian ch cart0 idx = Ok cart.
Proof.
  intros Hn Hi Hc H1 H2. destruct (to_chain_ok n idx cart ch0 Hn Hi Hc H1) as (ch & E & L & V).
  destruct (to_cartesian_ok n idx ch cart0 Hn Hi L H2) as (cart' & E' & L' & V').
  exists ch. split; auto. rewrite E'. f_equal. apply (nth_ext_v _ _ n); auto. intros p Hp.
  destruct (is_index_surj n idx p Hi Hp) as (i & Hi' & <-). rewrite V' by auto. apply (cart_at_chain n idx cart); auto.
Qed.

Lemma round_trip_back n idx ch ch0 cart0 : (1 <= n)%nat -> is_index n idx -> length ch = n -> length ch0 = n -> length cart0 = n ->
  exists cart, to_cartesian ch cart0 idx = Ok cart /\ to_chain cart ch0 idx = Ok ch.
Proof.
  intros Hn Hi Hc H1 H2. destruct (to_cartesian_ok n idx ch cart0 Hn Hi Hc H2) as (cart & E & L & V).
  destruct (to_chain_ok n idx cart ch0 Hn Hi L H1) as (ch' & E' & L' & V').
  exists cart. split; auto. rewrite E'. f_equal. apply (nth_ext_v _ _ n); auto. intros i Hi'. rewrite V' by auto.
  unfold chain_at. destruct (Nat.eqb_spec i (n - 1)) as [->|].
  - rewrite V by lia. simpl. auto.
  - rewrite !V by lia. replace (i + 1)%nat with (S i) by lia. simpl.
    generalize (cart_at ch n i), (nth i ch vzero). intros; vring.
Qed.

Lemma find_pos_spec idx i : NoDup idx -> (i < length idx)%nat -> find_pos idx (nth i idx 0%nat) = i.
Proof.
  revert i. induction idx as [|a l IH]; intros i Hn Hi; simpl in *; [lia|]. apply NoDup_cons_iff in Hn as [Ha Hn].
  destruct i as [|i].
  - rewrite Nat.eqb_refl. auto.
  - destruct (Nat.eqb_spec a (nth i l 0%nat)) as [E|].
    + exfalso. apply Ha. rewrite E. apply nth_In. lia.
    + f_equal. apply IH; auto; lia.
Qed.

(** Summing consecutive chain entries telescopes. *)
Lemma get_new_node_ok n idx cart ch f g : (1 <= n)%nat -> is_index n idx -> length ch = n -> length cart = n ->
  (forall i, (i < n)%nat -> nth i ch vzero = chain_at cart idx n i) -> (f < n)%nat -> (g < n)%nat -> f <> g ->
  get_new_node ch f g = Ok (vsub (nth (nth g idx 0%nat) cart vzero) (nth (nth f idx 0%nat) cart vzero)).
Proof.
  intros Hn Hi Hl Hc V Hf Hg Hne.
  assert (Up : forall a b, (a < b)%nat -> (b < n)%nat ->
     for_up (a + 1) (b - (a + 1)) (fun j nd => obind (aget ch j) (fun d => Ok (vadd nd d))) (nth a ch vzero) =
     Ok (vsub (nth (nth b idx 0%nat) cart vzero) (nth (nth a idx 0%nat) cart vzero)) /\
     for_up (a + 1) (b - (a + 1)) (fun j nd => obind (aget ch j) (fun d => Ok (vsub nd d))) (vneg (nth a ch vzero)) =
     Ok (vsub (nth (nth a idx 0%nat) cart vzero) (nth (nth b idx 0%nat) cart vzero))).
  { intros a b Hab Hb.
    assert (S0 : forall i, (i < n - 1)%nat -> nth i ch vzero =
      vsub (nth (nth (S i) idx 0%nat) cart vzero) (nth (nth i idx 0%nat) cart vzero)).
    { intros i Hi'. rewrite V by lia. unfold chain_at. destruct (Nat.eqb_spec i (n - 1)); [lia|]. replace (i + 1)%nat with (S i) by lia. auto. }
    split.
    - destruct (for_up_inv (fun j s => s = vsub (nth (nth j idx 0%nat) cart vzero) (nth (nth a idx 0%nat) cart vzero))
        (fun j nd => obind (aget ch j) (fun d => Ok (vadd nd d))) (b - (a + 1)) (a + 1) (nth a ch vzero)) as (s & E & ->).
      + rewrite S0 by lia. replace (a + 1)%nat with (S a) by lia. auto.
      + intros j s Hj ->. rewrite (aget_ok ch j vzero) by lia. cbn [obind]. eexists. split; [reflexivity|].
        rewrite S0 by lia. generalize (nth (nth (S j) idx 0%nat) cart vzero), (nth (nth j idx 0%nat) cart vzero), (nth (nth a idx 0%nat) cart vzero). intros; vring.
      + rewrite E. replace (a + 1 + (b - (a + 1)))%nat with b by lia. auto.
    - destruct (for_up_inv (fun j s => s = vsub (nth (nth a idx 0%nat) cart vzero) (nth (nth j idx 0%nat) cart vzero))
        (fun j nd => obind (aget ch j) (fun d => Ok (vsub nd d))) (b - (a + 1)) (a + 1) (vneg (nth a ch vzero))) as (s & E & ->).
      + rewrite S0 by lia. replace (a + 1)%nat with (S a) by lia.
        generalize (nth (nth (S a) idx 0%nat) cart vzero), (nth (nth a idx 0%nat) cart vzero). intros; vring.
      + intros j s Hj ->. rewrite (aget_ok ch j vzero) by lia. cbn [obind]. eexists. split; [reflexivity|].
        rewrite S0 by lia. generalize (nth (nth (S j) idx 0%nat) cart vzero), (nth (nth j idx 0%nat) cart vzero), (nth (nth a idx 0%nat) cart vzero). intros; vring.
      + rewrite E. replace (a + 1 + (b - (a + 1)))%nat with b by lia. auto. }
  unfold get_new_node. destruct (Nat.ltb_spec g f) as [Hlt|Hge].
  - rewrite (aget_ok ch g vzero) by lia. cbn [obind]. apply (Up g f); auto.
  - rewrite (aget_ok ch f vzero) by lia. cbn [obind]. apply (Up f g); auto. lia.
Qed.

Lemma update_chain_ok n idx new_idx cart ch ch0 ch1 : (1 <= n)%nat -> is_index n idx -> is_index n new_idx ->
  length cart = n -> length ch0 = n -> length ch1 = n ->
  to_chain cart ch0 idx = Ok ch ->
  update_chain ch cart idx new_idx = to_chain cart ch1 new_idx.
Proof.
  intros Hn Hi Hi' Hc H0 H1 E. destruct (to_chain_ok n idx cart ch0 Hn Hi Hc H0) as (ch' & E' & L & V).
  rewrite E in E'. injection E' as <-.
  destruct (to_chain_ok n new_idx cart ch1 Hn Hi' Hc H1) as (ch2 & E2 & L2 & V2). rewrite E2.
  pose proof (is_index_len n idx Hi) as Hl. pose proof (is_index_len n new_idx Hi') as Hl'.
  unfold update_chain. rewrite L. destruct n as [|n1]; [lia|].
  destruct (for_up_inv (fun i nc => nc = map (chain_at cart new_idx (S n1)) (seq 0 i))
    (fun i new_chain => obind (aget new_idx i) (fun a => obind (aget new_idx (i + 1)) (fun b =>
        obind (get_new_node ch (find_pos idx a) (find_pos idx b)) (fun d => Ok (new_chain ++ [d])))))
    n1 0%nat []) as (nc & En & ->); auto.
  - intros i s Hi2 ->. rewrite (aget_ok new_idx i 0%nat), (aget_ok new_idx (i+1) 0%nat) by lia. cbn [obind].
    destruct (is_index_surj (S n1) idx (nth i new_idx 0%nat) Hi) as (a & Ha & Ea); [apply is_index_lt; auto; lia|].
    destruct (is_index_surj (S n1) idx (nth (i+1) new_idx 0%nat) Hi) as (b & Hb & Eb); [apply is_index_lt; auto; lia|].
    rewrite <- Ea, <- Eb. pose proof (is_index_nodup _ _ Hi). rewrite !find_pos_spec by (auto; lia).
    rewrite (get_new_node_ok (S n1) idx cart ch a b); auto.
    + cbn [obind]. eexists. split; [reflexivity|]. rewrite seq_S, map_app. simpl. f_equal. f_equal.
      unfold chain_at. destruct (Nat.eqb_spec i (S n1 - 1)); [lia|]. rewrite Ea, Eb. auto.
    + intros ->. rewrite Ea in Eb. apply (is_index_inj (S n1)) in Eb; auto; lia.
  - rewrite En. cbn [obind]. rewrite (aget_ok new_idx 0 0%nat) by lia. cbn [obind].
    rewrite (aget_ok cart _ vzero) by (rewrite Hc; apply is_index_lt; auto; lia). cbn [obind]. f_equal.
    apply (nth_ext_v _ _ (S n1)); auto.
    + rewrite app_length, map_length, seq_length. simpl. lia.
    + intros i Hi2. rewrite V2 by auto. destruct (Nat.eq_dec i n1) as [->|].
      * rewrite app_nth2 by (rewrite map_length, seq_length; lia). rewrite map_length, seq_length. simpl.
        rewrite Nat.sub_diag. unfold chain_at. replace (S n1 - 1)%nat with n1 by lia. rewrite Nat.eqb_refl. auto.
      * rewrite app_nth1 by (rewrite map_length, seq_length; lia).
        rewrite (nth_indep _ _ (chain_at cart new_idx (S n1) 0)) by (rewrite map_length, seq_length; lia).
        rewrite map_nth, seq_nth by lia. auto.
Qed.

Lemma update_chain_physical n idx new_idx cart ch ch0 cart0 : (1 <= n)%nat -> is_index n idx -> is_index n new_idx ->
  length cart = n -> length ch0 = n -> length cart0 = n -> to_chain cart ch0 idx = Ok ch ->
  exists ch', update_chain ch cart idx new_idx = Ok ch' /\ to_cartesian ch' cart0 new_idx = Ok cart.
Proof.
  intros. destruct (round_trip n new_idx cart ch0 cart0) as (ch' & E1 & E2); auto.
  exists ch'. split; auto. rewrite (update_chain_ok n idx new_idx cart ch ch0 ch0); auto.
Qed.

(** The sort always has an outcome. *)
Lemma insert_sorted x d : StronglySorted (fun a b => nd_r a <= nd_r b) d ->
  exists d', Permutation (x :: d) d' /\ StronglySorted (fun a b => nd_r a <= nd_r b) d'.
Proof.
  induction d as [|a d IH]; intros H.
  - exists [x]. split; auto. repeat constructor.
  - apply StronglySorted_inv in H as [H1 H2]. destruct (Rle_dec (nd_r x) (nd_r a)) as [L|L].
    + exists (x :: a :: d). split; auto. constructor; [constructor; auto|]. constructor; auto.
      eapply Forall_impl; [|exact H2]. simpl. intros; lra.
    + destruct (IH H1) as (d' & P & S). exists (a :: d'). split.
      * eapply perm_trans; [apply perm_swap|]. apply perm_skip; auto.
      * constructor; auto. apply (Permutation_Forall P). constructor; [lra|auto].
Qed.
Lemma sort_exists L : exists d, is_sorted_version L d.
Proof.
  induction L as [|x L [d [P S]]]; [exists []; split; [auto|constructor]|].
  destruct (insert_sorted x d S) as (d' & P' & S'). exists d'. split; auto.
  eapply perm_trans; [apply perm_skip; exact P|exact P'].
Qed.
Lemma calc_chain_index_returns pos : (2 <= length pos)%nat -> exists fuel idx, calc_chain_index fuel pos (Ok (Some idx)).
Proof.
  intros Hn. destruct (calc_chain_index_perm pos Hn) as [N H]. destruct (sort_exists (create_distances_array pos)) as [d S].
  destruct (H N (create_index_from_dist_array N d (length pos)) (le_n _)) as (idx & E & _); [exists d; auto|].
  exists N, idx. exists d. auto.
Qed.
