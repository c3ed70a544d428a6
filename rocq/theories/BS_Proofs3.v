(** The plain and the regularised system under the Bulirsch-Stoer iterator. *)
From Verif Require Export BS_Proofs2.
From Verif Require Import System_Spec Chain_Proofs System_Proofs System_Proofs2 System_Proofs3.
Open Scope R_scope.

Lemma zipw_plus a b : zipw Rplus a b = zip_add a b.
Proof. revert b; induction a as [|x a IH]; intros [|y b]; cbn; auto. f_equal. apply IH. Qed.
Lemma zipw_nth_any c a b i : length a = length b -> nth i (zipw (fun x y => x + (x - y) * c) a b) 0 = nth i a 0 + (nth i a 0 - nth i b 0) * c.
Proof.
  intros H. destruct (lt_dec i (length a)); [apply (zipw_nth (fun x y => x + (x - y) * c)); auto|].
  rewrite !nth_overflow; try lia; [ring|]. rewrite zipw_length; auto; lia.
Qed.

(** * linear functionals of the state array *)
Definition vec_at (y : list R) (off i : nat) : vec := mkV (nth (off + 3 * i) y 0) (nth (off + 3 * i + 1) y 0) (nth (off + 3 * i + 2) y 0).
Definition vtot (m : list R) (off : nat) (y : list R) : vec := vsum (fun i => vscal (nth i m 0) (vec_at y off i)) (length m).
Lemma vec_at_add a b off i : length b = length a -> vec_at (zip_add a b) off i = vadd (vec_at a off i) (vec_at b off i).
Proof. intros H. unfold vec_at. rewrite !zip_add_nth by auto. reflexivity. Qed.
Lemma vtot_add m off a b : length b = length a -> vtot m off (zip_add a b) = vadd (vtot m off a) (vtot m off b).
Proof.
  intros H. unfold vtot. rewrite <- vsum_add. apply vsum_ext. intros i Hi. rewrite vec_at_add by auto.
  generalize (vec_at a off i) (vec_at b off i). intros. vring.
Qed.
Lemma vtot_comb m off x y c : length x = length y ->
  vtot m off (zipw (fun a b => a + (a - b) * c) x y) = vadd (vtot m off x) (vscal c (vsub (vtot m off x) (vtot m off y))).
Proof.
  intros H. unfold vtot. induction (length m) as [|k IH]; cbn [vsum]; [vring|]. rewrite IH. generalize (vsum (fun i => vscal (nth i m 0) (vec_at x off i)) k) (vsum (fun i => vscal (nth i m 0) (vec_at y off i)) k). intros.
  unfold vec_at. rewrite !zipw_nth_any by auto. vring.
Qed.
Lemma coords_nth l i : (i < length l)%nat -> nth (3 * i) (coords l) 0 = vx (nth i l vzero) /\ nth (3 * i + 1) (coords l) 0 = vy (nth i l vzero) /\ nth (3 * i + 2) (coords l) 0 = vz (nth i l vzero).
Proof.
  revert i; induction l as [|v l IH]; intros [|i] H; simpl in H; try lia; [cbn; auto|].
  replace (3 * S i)%nat with (S (S (S (3 * i)))) by lia. cbn [coords flat_map app nth Nat.add]. apply IH. lia.
Qed.
Lemma vec_at_pack t a b c tl i n : length a = n -> length b = n -> (i < n)%nat ->
  vec_at (pack t a b c tl) pos_offset i = nth i a vzero /\ vec_at (pack t a b c tl) (vel_offset n) i = nth i b vzero.
Proof.
  intros La Lb Hi. unfold vec_at, pack, pos_offset, vel_offset. split.
  - cbn [Nat.add nth]. rewrite !app_nth1 by (rewrite coords_length; lia). destruct (coords_nth a i) as (-> & -> & ->); [lia|]. destruct (nth i a vzero); auto.
  - assert (G : forall j, (j < 3 * n)%nat -> nth (n * 3 + 1 + j) (t :: coords a ++ coords b ++ coords c ++ tl) 0 = nth j (coords b) 0).
    { intros j Hj. replace (n * 3 + 1 + j)%nat with (S (length (coords a) + j)) by (rewrite coords_length; lia). cbn [nth].
      rewrite app_nth2 by lia. replace (length (coords a) + j - length (coords a))%nat with j by lia. apply app_nth1. rewrite coords_length; lia. }
    rewrite <- !Nat.add_assoc in *. rewrite (Nat.add_assoc (n * 3) 1 (3 * i)), (Nat.add_assoc (n * 3) 1 (3 * i + 1)), (Nat.add_assoc (n * 3) 1 (3 * i + 2)).
    rewrite !G by lia. destruct (coords_nth b i) as (-> & -> & ->); [lia|]. destruct (nth i b vzero); auto.
Qed.
Lemma gwrite_tot I e s : length (s_p s) = npart s -> length (s_v s) = npart s ->
  vtot (s_m s) pos_offset (gwrite I e s) = moment s /\ vtot (s_m s) (vel_offset (npart s)) (gwrite I e s) = momentum s /\ nth 0 (gwrite I e s) 0 = s_t s.
Proof.
  intros P V. unfold vtot, moment, momentum, gwrite. fold (npart s). split; [|split; auto]; apply vsum_ext; intros i Hi; f_equal;
    [apply (proj1 (vec_at_pack _ _ _ _ _ i (npart s) P V Hi))|apply (proj2 (vec_at_pack _ _ _ _ _ i (npart s) P V Hi))].
Qed.
(** Increments that keep the momentum at zero change and move the centre of mass with momentum [P0]. *)
Definition keeps (m : list R) (P0 : vec) (y : list R) : Prop :=
  vtot m (vel_offset (length m)) y = vzero /\ vtot m pos_offset y = vscal (nth 0 y 0) P0.
Lemma keeps_affine m P0 : affine (keeps m P0).
Proof.
  intros x y c L (X1 & X2) (Y1 & Y2). unfold keeps. rewrite !vtot_comb, X1, X2, Y1, Y2, zipw_nth_any by auto. split; vring.
Qed.
Definition time_is (h : R) (y : list R) : Prop := nth 0 y 0 = h.
Lemma time_affine h : affine (time_is h).
Proof. intros x y c L X Y. unfold time_is in *. rewrite zipw_nth_any, X, Y by auto. ring. Qed.

Lemma map_zero (l : list R) : map (fun _ : R => 0) l = repeat 0 (length l).
Proof. induction l; cbn; congruence. Qed.

(** * generic instance *)
Section Inst.
  Context (I : inter) (e : nat) (He : (e = 1 \/ e = 3)%nat) (dr ki : st -> R -> st) (rdf : st -> list R -> outcome st) (E : st -> st -> Prop).
  Context (HI : sized I).
  Context (Wdr : forall s h, well_sized I e s -> well_sized I e (dr s h)) (Wki : forall s h, well_sized I e s -> well_sized I e (ki s h)).
  Context (Tdr : forall y s h, well_sized I e s -> tracks I e y s -> tracks I e y (dr s h)) (Tki : forall y s h, well_sized I e s -> tracks I e y s -> tracks I e y (ki s h)).
  Context (Edr : forall s s' h, E s s' -> E (dr s h) (dr s' h)) (Eki : forall s s' h, E s s' -> E (ki s h) (ki s' h)).
  Context (Mdr : forall s h, s_m (dr s h) = s_m s) (Mki : forall s h, s_m (ki s h) = s_m s).
  Context (Odr : forall s h, I_dep I = false -> s_w (dr s h) = s_w s) (Oki : forall s h, I_dep I = false -> s_w (ki s h) = s_w s).
  Context (Einc : forall s s', E s s' -> s_inc s = s_inc s') (Eclr : forall s s', E s s' -> E (clear_increment s) (clear_increment s')).
  Context (Erd : forall p s, well_sized I e s -> s_m p = s_m s ->
    exists q, rdf p (gwrite I e s) = Ok q /\ E q (mkSt (s_m s) (s_t s) (s_p s) (s_v s) (if I_dep I then s_w s else s_w p) (s_om s) (s_be s) 0 (s_inc p) (s_sync p)) /\
              s_m q = s_m s /\ s_t q = s_t s /\ s_p q = s_p s /\ s_v q = s_v s /\ s_w q = (if I_dep I then s_w s else s_w p) /\ s_inc q = s_inc p /\ s_sync q = s_sync p).
  Context (Esc : forall s k, E s (set_sc s k)) (Esym : forall s s', E s s' -> E s' s) (Etr : forall a b c, E a b -> E b c -> E a c).
  Context (Erd0 : forall s, well_sized I e s -> rdf s (gwrite I e s) = Ok s) (Ewr : forall p y q, rdf p y = Ok q -> gwrite I e q = y).
  Variable s0 : st.
  Hypothesis W0 : well_sized I e s0.
  Definition base : st := set_sync s0 true.
  Definition stp (kdk : bool) (s : st) (h : R) (n : nat) : st := integrate dr ki (nsteps_ops kdk n) (clear_increment s) (h / INR n).
  Definition grun (kdk : bool) (s : st) (h : R) (n : nat) : outcome (st * list R) := Ok (stp kdk s h n, s_inc (stp kdk s h n)).
  Definition grow (kdk : bool) (h : R) (n : nat) : list R := s_inc (stp kdk base h n).
  Definition ginv (s : st) : Prop := well_sized I e s /\ s_m s = s_m s0 /\ s_sync s = true /\ (I_dep I = false -> s_w s = s_w s0).
  Lemma base_inv : ginv base. Proof. repeat split; auto; apply W0. Qed.
  Lemma gw_len s : well_sized I e s -> length (gwrite I e s) = variable_number I e (npart s).
  Proof. intros (P & V & W & L). unfold gwrite. rewrite pack_varnum with (n := npart s); auto. destruct He; subst; reflexivity. Qed.
  Lemma stp_ok kdk s h n : ginv s -> ginv (stp kdk s h n) /\ tracks I e (gwrite I e s) (stp kdk s h n).
  Proof.
    intros (W & Em & Es & Ew). destruct (clear_tracks I e s He W Es) as [T W'].
    assert (Q : well_sized I e (stp kdk s h n) /\ tracks I e (gwrite I e s) (stp kdk s h n) /\ s_m (stp kdk s h n) = s_m s /\ (I_dep I = false -> s_w (stp kdk s h n) = s_w s)).
    { apply (integrate_P dr ki (fun z => well_sized I e z /\ tracks I e (gwrite I e s) z /\ s_m z = s_m s /\ (I_dep I = false -> s_w z = s_w s))); auto.
      - intros z k (Wz & Tz & Mz & Oz). split; auto. split; auto. split; [rewrite Mdr; auto|]. intros Hd. rewrite Odr; auto.
      - intros z k (Wz & Tz & Mz & Oz). split; auto. split; auto. split; [rewrite Mki; auto|]. intros Hd. rewrite Oki; auto. }
    destruct Q as (Q1 & Q2 & Q3 & Q4). split; auto. split; auto. split; [congruence|]. split; [apply Q2|]. intros Hd. rewrite Q4, Ew; auto.
  Qed.
  Lemma arr_state y : length y = variable_number I e (npart s0) -> exists s, gwrite I e s = y /\ well_sized I e s /\ s_m s = s_m s0.
  Proof.
    intros L. destruct (unpack I e (npart s0) y) as (t & a & b & c & tl & -> & La & Lb & Lc & Lt); [destruct He; lia|auto|].
    destruct He; subst e.
    - destruct tl; [|simpl in Lt; lia]. exists (mkSt (s_m s0) t a b c 0 0 0 (s_inc s0) true). split; [reflexivity|]. split; auto. split; auto. split; auto. split; auto. apply W0.
    - destruct tl as [|x [|z [|]]]; try (simpl in Lt; lia). exists (mkSt (s_m s0) t a b c x z 0 (s_inc s0) true). split; [reflexivity|]. split; auto. split; auto. split; auto. split; auto. apply W0.
  Qed.
  Lemma inst_read p y : ginv p -> length y = length (gwrite I e s0) -> exists s q, gwrite I e s = y /\ well_sized I e s /\ s_m s = s_m s0 /\ rdf p y = Ok q /\ ginv q /\
    s_t q = s_t s /\ s_p q = s_p s /\ s_v q = s_v s /\ (I_dep I = true -> s_w q = s_w s).
  Proof.
    intros (W & Em & Es & Ew) L. rewrite gw_len in L by exact W0. destruct (arr_state y L) as (s & <- & Ws & Ms).
    destruct (Erd p s Ws) as (q & R1 & _ & R2 & R3 & R4 & R5 & R6 & R7 & R8); [congruence|]. exists s, q. split; auto. split; auto. split; auto. split; auto.
    split; [|repeat split; auto; rewrite R6; intros ->; auto].
    destruct W as (P & V & WW & LI). destruct Ws as (P' & V' & WW' & LI'). unfold npart in *. split.
    - unfold well_sized, npart. rewrite R2, R4, R5, R7. split; auto. split; auto. split; [rewrite R6; intros Hd; rewrite Hd; auto|]. rewrite LI. congruence.
    - split; [congruence|]. split; [congruence|]. intros Hd. rewrite R6, Hd. auto.
  Qed.
  Lemma inst_replays kdk : replays rdf (grun kdk) ginv (gwrite I e s0) (grow kdk).
  Proof.
    split.
    - intros p y Hp L. destruct (inst_read p y Hp L) as (s & q & _ & _ & _ & R & G & _). eauto.
    - intros p q h n Hn (W & Em & Es & Ew) HRd. destruct (Erd p s0 W0) as (q' & R1 & RE & R2 & R3 & R4 & R5 & R6 & R7 & R8); [congruence|].
      assert (q' = q) as -> by congruence.
      assert (Gq : ginv q).
      { destruct W as (P & V & WW & LI). destruct W0 as (P' & V' & WW' & LI'). unfold npart in *. split.
        - unfold well_sized, npart. rewrite R2, R4, R5, R7. split; auto. split; auto. split; [rewrite R6; intros Hd; rewrite Hd; auto|]. rewrite LI. congruence.
        - split; auto. split; [congruence|]. intros Hd. rewrite R6, Hd. auto. }
      exists (stp kdk q h n). split; [|apply stp_ok; auto]. unfold grun, grow. f_equal. f_equal. apply Einc. unfold stp. apply (integrate_E dr ki E); auto.
      (* the cleared states agree *)
      eapply Etr; [apply Eclr; exact RE|]. eapply Etr; [|apply Esym, (Esc _ 0)].
      match goal with |- E ?a ?b => assert (X : a = b); [|rewrite X; eapply Etr; [apply (Esc _ 0)|apply Esym, (Esc _ 0)]] end.
      unfold clear_increment, base, set_sync, set_sc. cbn [s_m s_t s_p s_v s_w s_om s_be s_sc s_inc s_sync].
      assert (map (fun _ : R => 0) (s_inc p) = map (fun _ : R => 0) (s_inc s0)) as ->.
      { rewrite !map_zero. f_equal. destruct W as (_ & _ & _ & ->), W0 as (_ & _ & _ & ->). unfold npart. congruence. }
      rewrite Es. f_equal. destruct (I_dep I); auto.
    - intros h n Hn. unfold grow. destruct (stp_ok kdk base h n base_inv) as [_ (T1 & T2 & T3)]. exact T2.
  Qed.
  (** increments of one row *)
  Lemma row_tracks kdk h n : gwrite I e (stp kdk base h n) = zip_add (gwrite I e s0) (grow kdk h n) /\ length (grow kdk h n) = length (gwrite I e s0) /\
    well_sized I e (stp kdk base h n) /\ s_m (stp kdk base h n) = s_m s0.
  Proof. destruct (stp_ok kdk base h n base_inv) as [(G1 & G2 & _) (T1 & T2 & T3)]. auto. Qed.
  Lemma row_keeps kdk h n : conserves (clear_increment base) (stp kdk base h n) -> keeps (s_m s0) (momentum s0) (grow kdk h n).
  Proof.
    intros (C1 & C2 & C3 & C4). destruct (row_tracks kdk h n) as (T1 & T2 & T3 & T4).
    set (s1 := stp kdk base h n) in *. destruct T3 as (P1 & V1 & _).
    destruct (gwrite_tot I e s1 P1 V1) as (A1 & A2 & A3). destruct (gwrite_tot I e s0) as (B1 & B2 & B3); [apply W0|apply W0|].
    assert (N1 : npart s1 = npart s0) by (unfold npart; congruence). rewrite T4, N1 in *. rewrite T1 in A1, A2, A3.
    rewrite vtot_add in A1, A2 by auto. rewrite zip_add_nth in A3 by auto. rewrite B1 in A1. rewrite B2 in A2. rewrite B3 in A3.
    change (momentum (clear_increment base)) with (momentum s0) in *. change (moment (clear_increment base)) with (moment s0) in *. change (s_t (clear_increment base)) with (s_t s0) in *.
    rewrite C1 in A2. rewrite C4, <- A3 in A1. unfold keeps. fold (npart s0).
    revert A1 A2. generalize (vtot (s_m s0) (vel_offset (npart s0)) (grow kdk h n)) (vtot (s_m s0) pos_offset (grow kdk h n)) (momentum s0) (moment s0) (nth 0 (grow kdk h n) 0).
    intros [a1 a2 a3] [b1 b2 b3] [p1 p2 p3] [q1 q2 q3] t. vunf. intros H1 H2. injection H1; injection H2; intros. split; f_equal; lra.
  Qed.
  Lemma row_time kdk h n : s_t (stp kdk base h n) = s_t s0 + h -> time_is h (grow kdk h n).
  Proof.
    intros H. destruct (row_tracks kdk h n) as (T1 & T2 & T3 & T4). unfold time_is.
    pose proof (f_equal (fun l => nth 0 l 0) T1) as X. cbv beta in X. rewrite zip_add_nth in X by auto. cbn [gwrite pack nth] in X. rewrite H in X. change (nth 0 (gwrite I e s0) 0) with (s_t s0) in X. lra.
  Qed.
  (** one call of the iterator *)
  Lemma inst_attempts M kdk err next lim tn b h b' s' h1 : (1 <= M)%nat -> sizes M b ->
    attempts M kdk st rdf set_sync (grun kdk) err next lim tn b base (gwrite I e s0) h = Ok (b', s', h1) ->
    sizes M b' /\ b_first b' = false /\
    exists hk k y e1 ratio, tried lim h hk /\ (1 <= k <= M)%nat /\
      extrapolant (M + 1) (length (gwrite I e s0)) (fun j => grow kdk hk (h_at (M + 1) j)) 0 k y /\
      extrapolant (M + 1) (length (gwrite I e s0)) (fun j => grow kdk hk (h_at (M + 1) j)) 1 k e1 /\
      err (gwrite I e s0) e1 y <= 1 /\ h1 = hk * lim (2 * k + 1)%nat ratio /\ gwrite I e s' = zip_add (gwrite I e s0) y /\
      s_m s' = s_m s0 /\ s_sync s' = false /\ well_sized I e s' /\
      (forall Q, affine Q -> (forall j, (j <= k)%nat -> Q (grow kdk hk (h_at (M + 1) j))) -> Q y).
  Proof.
    intros HM HS H. pose proof (inst_replays kdk) as RP.
    assert (Fr : fresh rdf ginv (gwrite I e s0) base).
    { exists base. split; [apply base_inv|]. apply (Erd0 base). apply W0. }
    destruct (attempts_ok M kdk rdf set_sync (grun kdk) err next lim ginv (gwrite I e s0) (grow kdk) RP HM _ _ _ _ _ _ _ HS Fr H)
      as (HS' & hk & k & p2 & q & ra & K1 & K2 & K3 & K4 & K5 & K6 & K7 & K8).
    split; auto. split; auto. set (y := tabv (M + 1) (length (gwrite I e s0)) (Tr M (grow kdk) hk) 0 k) in *.
    exists hk, k, y, (tabv (M + 1) (length (gwrite I e s0)) (Tr M (grow kdk) hk) 1 k), ra.
    split; auto. split; auto. split; [apply tabv_extrapolant; lia|]. split; [apply tabv_extrapolant; lia|]. split; auto. split; auto.
    assert (Ly : length (zipw Rplus (gwrite I e s0) y) = length (gwrite I e s0)) by (apply zipw_length; unfold y; apply tabv_length).
    destruct (inst_read p2 _ K4 Ly) as (s1 & q' & _ & _ & _ & R & (G1 & G2 & G3 & G4) & _). assert (q' = q) as -> by congruence.
    subst s'. split; [rewrite <- zipw_plus; rewrite <- (Ewr _ _ _ R); reflexivity|]. split; auto. split; auto. split; [exact G1|].
    intros Q HQ HT. unfold y. apply fill_tabv; auto; [lia|]. intros i Hi. unfold Tr. apply (rp_len _ _ _ _ _ RP). apply h_at_pos; lia.
  Qed.
  Lemma inst_iterate tn M kdk err next lim b h b' s' h1 : (1 <= M)%nat -> sizes M b ->
    iterate tn M kdk st (gwrite I e) rdf set_sync (grun kdk) err next lim b s0 h = Ok (b', s', h1) ->
    sizes M b' /\ b_first b' = false /\
    exists hk k y e1 ratio, tried lim h hk /\ (1 <= k <= M)%nat /\
      extrapolant (M + 1) (length (gwrite I e s0)) (fun j => grow kdk hk (h_at (M + 1) j)) 0 k y /\
      extrapolant (M + 1) (length (gwrite I e s0)) (fun j => grow kdk hk (h_at (M + 1) j)) 1 k e1 /\
      err (gwrite I e s0) e1 y <= 1 /\ h1 = hk * lim (2 * k + 1)%nat ratio /\ gwrite I e s' = zip_add (gwrite I e s0) y /\
      s_m s' = s_m s0 /\ s_sync s' = false /\ well_sized I e s' /\
      (forall Q, affine Q -> (forall j, (j <= k)%nat -> Q (grow kdk hk (h_at (M + 1) j))) -> Q y).
  Proof. intros HM HS H. exact (inst_attempts M kdk err next lim tn b h b' s' h1 HM HS H). Qed.
End Inst.

(** drift coefficients of the sub-stepped leapfrogs *)
Lemma drift_sum_app l1 l2 : drift_sum (l1 ++ l2) = drift_sum l1 + drift_sum l2.
Proof. induction l1 as [|[c|c] l IH]; cbn [app drift_sum]; lra. Qed.
Lemma drift_sum_alt a b k : drift_sum (alternate a b k) = INR k * (drift_sum [a] + drift_sum [b]).
Proof.
  induction k as [|k IH]; [cbn; ring|]. cbn [alternate]. rewrite S_INR. destruct a, b; cbn [drift_sum] in *; rewrite IH; ring.
Qed.
Lemma nsteps_drift kdk n : (0 < n)%nat -> drift_sum (nsteps_ops kdk n) = INR n.
Proof.
  intros H. destruct n as [|n]; [lia|]. rewrite S_INR. destruct kdk; unfold nsteps_ops, kdk_ops, dkd_ops; cbn [drift_sum]; rewrite drift_sum_app, drift_sum_alt;
    replace (S n - 1)%nat with n by lia; cbn [drift_sum]; lra.
Qed.

(** * the two systems *)
Definition set_reg (s : st) : st := mkSt (s_m s) (s_t s) (s_p s) (s_v s) (s_w s) 0 0 0 (s_inc s) (s_sync s).
Definition Esimple (s s' : st) : Prop := set_reg s = set_reg s'.
Lemma set_reg_kick I s h : set_reg (kick I s h) = kick I (set_reg s) h.
Proof. unfold kick. destruct (I_dep I); reflexivity. Qed.
Lemma kick_m I s h : s_m (kick I s h) = s_m s. Proof. unfold kick. destruct (I_dep I); reflexivity. Qed.
Lemma kick_w I s h : I_dep I = false -> s_w (kick I s h) = s_w s. Proof. unfold kick. intros ->. reflexivity. Qed.
Lemma rkick_m I r s h : s_m (rkick I r s h) = s_m s.
Proof. rewrite rkick_eq. unfold rkick_body, rkick_pseu. destruct (I_dep I), (I_ind I); reflexivity. Qed.
Lemma rkick_w I r s h : I_dep I = false -> s_w (rkick I r s h) = s_w s.
Proof. intros Hd. rewrite rkick_eq. unfold rkick_body, rkick_pseu. rewrite Hd. destruct (I_ind I); reflexivity. Qed.
Lemma gwrite1 I s : gwrite I 1 s = write I s. Proof. rewrite write_pack. reflexivity. Qed.
Lemma gwrite3 I s : gwrite I 3 s = rwrite I s. Proof. rewrite rwrite_pack. reflexivity. Qed.

Lemma simple_step I tn M kdk err next lim b s0 h b' s' h1 : (1 <= M)%nat -> sized I -> well_sized I 1 s0 -> sizes M b ->
  iterate tn M kdk st (write I) (read I) set_sync (simple_run I kdk) err next lim b s0 h = Ok (b', s', h1) ->
  sizes M b' /\ b_first b' = false /\ well_sized I 1 s' /\
  exists y hk k, accepted_step M kdk (write I) drift (kick I) err lim s0 h s' h1 y hk k /\ s_t s' = s_t s0 + hk /\
    (balanced I -> momentum s' = momentum s0 /\ moment s' = vadd (moment s0) (vscal hk (momentum s0))).
Proof.
  intros HM HI W HS H.
  assert (H' : iterate tn M kdk st (gwrite I 1) (read I) set_sync (grun drift (kick I) kdk) err next lim b s0 h = Ok (b', s', h1)).
  { unfold iterate in *. rewrite gwrite1. exact H. }
  apply (inst_iterate I 1 (or_introl eq_refl) drift (kick I) (read I) Esimple) in H'; auto.
  - destruct H' as (S1 & F1 & hk & k & y & e1 & ra & K1 & K2 & K3 & K4 & K5 & K6 & K7 & K8 & K9 & K10 & K11).
    rewrite !gwrite1 in *. split; auto. split; auto. split; auto. exists y, hk, k.
    assert (L : length y = length (write I s0)) by apply K3.
    assert (G0 : nth 0 (write I s0) 0 = s_t s0) by reflexivity.
    assert (T : s_t s' = s_t s0 + hk).
    { assert (Q : time_is hk y).
      { apply K11; [apply time_affine|]. intros j Hj. apply (row_time I 1 (or_introl eq_refl) drift (kick I)); auto;
          try (intros; apply ws_drift; auto); try (intros; apply ws_kick; auto); try (intros; apply tracks_drift; auto); try (intros; apply tracks_kick; auto);
          try (intros; apply kick_m); try (intros; apply kick_w; auto).
        unfold stp. rewrite integrate_time. rewrite nsteps_drift by (apply h_at_pos; lia). cbn [clear_increment base set_sync s_t].
        assert (0 < INR (h_at (M + 1) j)) by (apply lt_0_INR, h_at_pos; lia). field. lra. }
      change (s_t s') with (nth 0 (write I s') 0). rewrite K7, zip_add_nth, Q, G0 by auto. reflexivity. }
    split; [|split; auto].
    + unfold accepted_step. cbv zeta. split; auto. split; auto. split; auto. split; eauto 10.
    + intros HB. assert (Q : keeps (s_m s0) (momentum s0) y).
      { apply K11; [apply keeps_affine|]. intros j Hj. apply (row_keeps I 1 (or_introl eq_refl) drift (kick I)); auto;
          try (intros; apply ws_drift; auto); try (intros; apply ws_kick; auto); try (intros; apply tracks_drift; auto); try (intros; apply tracks_kick; auto);
          try (intros; apply kick_m); try (intros; apply kick_w; auto).
        unfold stp. apply simple_conserves; auto. apply (clear_tracks I 1 (base s0)); auto. }
      destruct Q as (Q1 & Q2). assert (Ty : nth 0 y 0 = hk).
      { change (s_t s') with (nth 0 (write I s') 0) in T. rewrite K7, zip_add_nth, G0 in T by auto. lra. }
      destruct (gwrite_tot I 1 s') as (A1 & A2 & _); [apply K10|apply K10|]. destruct (gwrite_tot I 1 s0) as (B1 & B2 & _); [apply W|apply W|].
      assert (N1 : npart s' = npart s0) by (unfold npart; congruence). rewrite K8, gwrite1, K7, vtot_add in A1 by auto. rewrite K8, N1, gwrite1, K7, vtot_add in A2 by auto. rewrite gwrite1 in B1, B2.
      fold (npart s0) in Q1. rewrite Q1, B2 in A2. rewrite Q2, Ty, B1 in A1. split; [|auto]. rewrite <- A2. generalize (momentum s0). intros; vring.
  - intros; apply ws_drift; auto.
  - intros; apply ws_kick; auto.
  - intros; apply tracks_drift; auto.
  - intros; apply tracks_kick; auto.
  - unfold Esimple. intros s1 s2 h0 E. change (set_reg (drift s1 h0)) with (drift (set_reg s1) h0). change (set_reg (drift s2 h0)) with (drift (set_reg s2) h0). congruence.
  - unfold Esimple. intros s1 s2 h0 E. rewrite !set_reg_kick. congruence.
  - intros; apply kick_m.
  - intros; apply kick_w; auto.
  - unfold Esimple. intros s1 s2 E. change (s_inc s1) with (s_inc (set_reg s1)). rewrite E. reflexivity.
  - unfold Esimple. intros s1 s2 E. change (set_reg (clear_increment s1)) with (clear_increment (set_reg s1)). change (set_reg (clear_increment s2)) with (clear_increment (set_reg s2)). congruence.
  - intros p s Ws Em. rewrite gwrite1, (read_write I s p Ws Em). eexists. split; [reflexivity|]. cbn [s_m s_t s_p s_v s_w s_inc s_sync]. rewrite Em.
    split; [unfold Esimple, set_reg; cbn; reflexivity|]. repeat split; auto.
  - unfold Esimple; intros; first [reflexivity|congruence].
  - unfold Esimple; intros; first [reflexivity|congruence].
  - unfold Esimple; intros; first [reflexivity|congruence].
  - intros s Ws. rewrite gwrite1, (read_write I s s Ws eq_refl). destruct s; cbn. destruct (I_dep I); reflexivity.
  - intros p y q HR. rewrite gwrite1. eapply write_read; eauto.
Qed.
Lemma regu_step I r tn M kdk err next lim b s0 h b' s' h1 : (1 <= M)%nat -> sized I -> well_sized I 3 s0 -> sizes M b ->
  iterate tn M kdk st (rwrite I) (rread I) set_sync (regu_run I r kdk) err next lim b s0 h = Ok (b', s', h1) ->
  sizes M b' /\ b_first b' = false /\ well_sized I 3 s' /\
  exists y hk k, accepted_step M kdk (rwrite I) (rdrift r) (rkick I r) err lim s0 h s' h1 y hk k /\
    (balanced I -> momentum s' = momentum s0 /\ moment s' = vadd (moment s0) (vscal (s_t s' - s_t s0) (momentum s0))).
Proof.
  intros HM HI W HS H.
  assert (H' : iterate tn M kdk st (gwrite I 3) (rread I) set_sync (grun (rdrift r) (rkick I r) kdk) err next lim b s0 h = Ok (b', s', h1)).
  { unfold iterate in *. rewrite gwrite3. exact H. }
  apply (inst_iterate I 3 (or_intror eq_refl) (rdrift r) (rkick I r) (rread I) same_but_scale) in H'; auto.
  - destruct H' as (S1 & F1 & hk & k & y & e1 & ra & K1 & K2 & K3 & K4 & K5 & K6 & K7 & K8 & K9 & K10 & K11).
    rewrite !gwrite3 in *. split; auto. split; auto. split; auto. exists y, hk, k.
    assert (L : length y = length (rwrite I s0)) by apply K3.
    assert (G0 : nth 0 (rwrite I s0) 0 = s_t s0) by reflexivity.
    split.
    + unfold accepted_step. cbv zeta. split; auto. split; auto. split; auto. split; eauto 10.
    + intros HB. assert (Q : keeps (s_m s0) (momentum s0) y).
      { apply K11; [apply keeps_affine|]. intros j Hj. apply (row_keeps I 3 (or_intror eq_refl) (rdrift r) (rkick I r)); auto;
          try (intros; apply ws_rdrift; auto); try (intros; apply ws_rkick; auto); try (intros; apply tracks_rdrift; auto); try (intros; apply tracks_rkick; auto);
          try (intros; apply rkick_m); try (intros; apply rkick_w; auto); try (intros; rewrite rdrift_eq; reflexivity).
        unfold stp. apply regu_conserves; auto. apply (clear_tracks I 3 (base s0)); auto. }
      destruct Q as (Q1 & Q2). assert (Ty : nth 0 y 0 = s_t s' - s_t s0).
      { change (s_t s') with (nth 0 (rwrite I s') 0). rewrite K7, zip_add_nth, G0 by auto. ring. }
      destruct (gwrite_tot I 3 s') as (A1 & A2 & _); [apply K10|apply K10|]. destruct (gwrite_tot I 3 s0) as (B1 & B2 & _); [apply W|apply W|].
      assert (N1 : npart s' = npart s0) by (unfold npart; congruence). rewrite K8, gwrite3, K7, vtot_add in A1 by auto. rewrite K8, N1, gwrite3, K7, vtot_add in A2 by auto. rewrite gwrite3 in B1, B2.
      fold (npart s0) in Q1. rewrite Q1, B2 in A2. rewrite Q2, Ty, B1 in A1. split; [|auto]. rewrite <- A2. generalize (momentum s0). intros; vring.
  - intros; apply ws_rdrift; auto.
  - intros; apply ws_rkick; auto.
  - intros; apply tracks_rdrift; auto.
  - intros; apply tracks_rkick; auto.
  - intros; apply rdrift_cong; auto.
  - intros; apply rkick_cong; auto.
  - intros; rewrite rdrift_eq; reflexivity.
  - intros; apply rkick_m.
  - intros; rewrite rdrift_eq; reflexivity.
  - intros; apply rkick_w; auto.
  - intros s1 s2 E. change (s_inc s1) with (s_inc (set_sc s1 0)). rewrite E. reflexivity.
  - intros s1 s2 E. unfold same_but_scale in *. change (set_sc (clear_increment s1) 0) with (clear_increment (set_sc s1 0)). rewrite E. reflexivity.
  - intros p s Ws Em. rewrite gwrite3, (rread_rwrite I s p Ws Em). eexists. split; [reflexivity|]. cbn [s_m s_t s_p s_v s_w s_inc s_sync]. rewrite Em.
    split; [reflexivity|]. repeat split; auto.
  - intros; apply sbs_set.
  - intros a b0; apply sbs_sym.
  - intros a b0 c; apply sbs_trans.
  - intros s Ws. rewrite gwrite3, (rread_rwrite I s s Ws eq_refl). destruct s; cbn. destruct (I_dep I); reflexivity.
  - intros p y q HR. rewrite gwrite3. eapply rwrite_rread; eauto.
Qed.
