(** IAS15 on the particle systems: the linear functionals of the state array. *)
From Verif Require Import System_Spec Chain_Proofs System_Proofs System_Proofs2.
From Verif Require Import BS_Proofs3 Ctrl_Spec Ctrl_Proofs.
From Verif Require Import Radau_Spec Radau_Proofs Radau_Proofs2 Radau_Proofs4.
Open Scope R_scope.

(** * Functionals *)
Definition unitc (k : nat) : nat -> R := fun x => if (x =? k)%nat then 1 else 0.
Definition cf (m : list R) (off : nat) : nat -> R := fun x => rsum (fun i => nth i m 0 * unitc (off + 3 * i) x) (length m).
Lemma lin_unit n k y : (k < n)%nat -> lin n (unitc k) y = nth k y 0.
Proof.
  intros H. unfold lin. rewrite (rsum_ext (fun x => unitc k x * nth x y 0) (fun x => nth x y 0 * (if (x =? k)%nat then 1 else 0))) by (intros; unfold unitc; ring).
  apply (rsum_pick (fun x => nth x y 0)). auto.
Qed.
Lemma lin_cf n m off y : (length m = 0%nat \/ off + 3 * (length m - 1) < n)%nat -> lin n (cf m off) y = rsum (fun i => nth i m 0 * nth (off + 3 * i) y 0) (length m).
Proof.
  intros H. unfold lin, cf.
  rewrite (rsum_ext _ (fun x => rsum (fun i => nth i m 0 * (unitc (off + 3 * i) x * nth x y 0)) (length m))).
  2:{ intros x _. rewrite Rmult_comm, <- rsum_scal. apply rsum_ext. intros. ring. }
  rewrite rsum_swap. apply rsum_ext. intros i Hi. rewrite rsum_scal. f_equal. apply (lin_unit n (off + 3 * i) y). lia.
Qed.
Lemma lin_comb n c d k y : lin n (fun x => c x + k * d x) y = lin n c y + k * lin n d y.
Proof. unfold lin. induction n as [|n IH]; cbn [rsum]; [ring|]. rewrite IH. ring. Qed.
Definition ax (a : nat) (v : vec) : R := match a with O => vx v | S O => vy v | _ => vz v end.
Lemma ax_ext v w : (forall a, (a < 3)%nat -> ax a v = ax a w) -> v = w.
Proof. intros H. destruct v, w. generalize (H 0%nat ltac:(lia)) (H 1%nat ltac:(lia)) (H 2%nat ltac:(lia)). cbn. congruence. Qed.
Lemma ax_vtot a m off y : (a < 3)%nat -> ax a (vtot m off y) = rsum (fun i => nth i m 0 * nth (off + a + 3 * i) y 0) (length m).
Proof.
  intros Ha. unfold vtot. induction (length m) as [|k IH]; cbn [vsum rsum]; [destruct a as [|[|]]; reflexivity|]. rewrite <- IH.
  destruct a as [|[|[|]]]; [| | |lia]; cbn [ax vadd vscal vx vy vz vec_at]; do 3 f_equal; lia.
Qed.
Lemma lin_vtot n m off a y : (a < 3)%nat -> (off + 3 * length m <= n)%nat -> lin n (cf m (off + a)) y = ax a (vtot m off y).
Proof. intros Ha H. rewrite ax_vtot by auto. apply lin_cf. lia. Qed.

(** * The derivative arrays *)
Lemma coords_scaled a k : coords (map (vscal k) a) = map (Rmult k) (coords a).
Proof. induction a as [|v a IH]; [reflexivity|]. cbn [map coords flat_map app]. unfold coords in IH. rewrite <- IH. reflexivity. Qed.
Definition racc (I : inter) (s : st) : list vec :=
  if I_ind I || I_dep I then vladd (eval_extra I (s_m s) (s_p s) (s_v s)) (I_newt I (s_m s) (s_p s)) else I_newt I (s_m s) (s_p s).
Ltac cases I := unfold racc, eval_total, tot_vi, eval_extra; destruct (I_ind I), (I_dep I); cbn [orb].
Lemma acc_len I s e : sized I -> well_sized I e s -> length (eval_total I (s_m s) (s_p s) (s_v s)) = npart s /\ length (racc I s) = npart s.
Proof.
  intros HI (Lp & Lv & _). destruct (HI (s_m s) (s_p s) (s_v s)) as (A & B & C); auto. unfold npart in *.
  cases I; rewrite ?vladd_length; try split; try congruence; rewrite ?vladd_length; congruence.
Qed.
Lemma acc_net I s e : sized I -> balanced I -> well_sized I e s ->
  net_force (s_m s) (eval_total I (s_m s) (s_p s) (s_v s)) = vzero /\ net_force (s_m s) (racc I s) = vzero.
Proof.
  intros HI HB (Lp & Lv & _). destruct (HI (s_m s) (s_p s) (s_v s)) as (A & B & C); auto. destruct (HB (s_m s) (s_p s) (s_v s)) as ((F1 & _) & F2 & F3); auto. unfold npart in *.
  assert (Z : vadd vzero vzero = vzero) by vring.
  cases I; repeat first [rewrite net_force_add by (rewrite ?vladd_length; congruence)|rewrite F1|rewrite (proj1 (F2 eq_refl))|rewrite (proj1 (F3 eq_refl))|rewrite Z]; auto.
Qed.
Lemma vtot_pack_vel t a b c tl m : length a = length m -> length b = length m -> vtot m (vel_offset (length m)) (pack t a b c tl) = net_force m b.
Proof. intros La Lb. unfold vtot, net_force. apply vsum_ext. intros i Hi. f_equal. apply (proj2 (vec_at_pack t a b c tl i _ La Lb Hi)). Qed.
Lemma vtot_pack_pos t a b c tl m : length a = length m -> length b = length m -> vtot m pos_offset (pack t a b c tl) = net_force m a.
Proof. intros La Lb. unfold vtot, net_force. apply vsum_ext. intros i Hi. f_equal. apply (proj1 (vec_at_pack t a b c tl i _ La Lb Hi)). Qed.
Lemma net_scaled m k a : length a = length m -> net_force m (map (vscal k) a) = vscal k (net_force m a).
Proof.
  intros L. unfold net_force. rewrite (vsum_ext _ (fun i => vscal (nth i m 0) (vscal k (nth i a vzero)))).
  - clear L. induction (length m) as [|j IH]; cbn [vsum]; [vring|]. rewrite IH. match goal with |- vadd (vscal _ ?A) _ = _ => generalize A end. intros A. generalize (nth j a vzero). intros. vring.
  - intros i Hi. f_equal. rewrite (nth_indep _ vzero (vscal k vzero)) by (rewrite map_length; lia). apply (map_nth (vscal k)).
Qed.
(** A derivative array of the shape (dt; dt v; k a; ...; tail). *)
Lemma deriv_pack I s : derivative I s = pack 1 (s_v s) (eval_total I (s_m s) (s_p s) (s_v s)) (auxl I (eval_total I (s_m s) (s_p s) (s_v s))) [].
Proof. unfold derivative, pack, auxl. cbv zeta. destruct (I_dep I); cbn [coords flat_map]; rewrite ?app_nil_r; reflexivity. Qed.
Lemma rderiv_pack I r s : exists om be, rderivative I r s =
  pack (fst (pos_phy r s 1)) (map (vscal (fst (pos_phy r s 1))) (s_v s)) (map (vscal (fst (vel_phy r s 1))) (racc I s))
       (auxl I (map (vscal (fst (vel_phy r s 1))) (racc I s))) [om; be].
Proof.
  eexists. eexists. unfold rderivative, pack, auxl, scaled. cbv zeta. fold (racc I s). destruct (I_dep I); cbn [coords flat_map app]; reflexivity.
Qed.

(** * What the functionals see *)
Section F.
  Context (I : inter) (e : nat) (s0 : st) (He : e = 1%nat \/ e = 3%nat) (HI : sized I) (HB : balanced I).
  Let m := s_m s0. Let n := variable_number I e (length m).
  Definition good (s : st) : Prop := well_sized I e s /\ s_m s = m.
  Lemma size_ok : (pos_offset + 3 * length m <= n)%nat /\ (vel_offset (length m) + 3 * length m <= n)%nat /\ (0 < n)%nat.
  Proof. unfold n, variable_number, pos_offset, vel_offset. destruct He as [-> | ->], (I_dep I); lia. Qed.
  Lemma good_write s : good s -> length (gwrite I e s) = n /\ forall a, (a < 3)%nat ->
    lin n (cf m (vel_offset (length m) + a)) (gwrite I e s) = ax a (momentum s) /\ lin n (cf m (pos_offset + a)) (gwrite I e s) = ax a (moment s) /\ lin n (unitc 0) (gwrite I e s) = s_t s.
  Proof.
    intros (W & E). destruct size_ok as (S1 & S2 & S3). assert (Hn : npart s = length m) by (unfold npart; rewrite E; auto).
    split; [unfold gwrite; destruct W as (W1 & W2 & W3 & _); rewrite (pack_varnum I _ _ _ _ _ (npart s)); auto; unfold n; destruct He as [-> | ->]; cbn [Nat.eqb length]; rewrite Hn; reflexivity|].
    intros a Ha. destruct (gwrite_tot I e s) as (T1 & T2 & T3); [apply W|apply W|]. rewrite Hn in T2. rewrite E in T1, T2.
    rewrite !lin_vtot, lin_unit by auto. rewrite T1, T2, T3. auto.
  Qed.
  (** A derivative array (k; k v; a; ...) with balanced a. *)
  Lemma good_deriv s k d t tl c a : good s -> length d = length m -> net_force m d = vzero -> (a < 3)%nat ->
    let y := pack k (map (vscal t) (s_v s)) d c tl in
    lin n (cf m (vel_offset (length m) + a)) y = 0 /\ lin n (cf m (pos_offset + a)) y = t * ax a (momentum s) /\ lin n (unitc 0) y = k.
  Proof.
    intros (W & E) Ld Nd Ha y. destruct size_ok as (S1 & S2 & S3). assert (Lv : length (s_v s) = length m) by (destruct W as (_ & W & _); unfold npart in W; rewrite E in W; auto).
    rewrite !lin_vtot, lin_unit by auto. unfold y. rewrite vtot_pack_vel, vtot_pack_pos by (rewrite ?map_length; auto). rewrite Nd, net_scaled by auto.
    split; [destruct a as [|[|]]; reflexivity|]. split; [|reflexivity].
    assert (X : net_force m (s_v s) = momentum s) by (unfold net_force, momentum, npart; rewrite E; reflexivity). rewrite X.
    destruct a as [|[|]]; reflexivity.
  Qed.
End F.
Lemma good_simple I s0 p y q : good I 1 s0 p -> read I p y = Ok q -> good I 1 s0 q /\ write I q = y.
Proof.
  intros (W & E) H. split; [|apply (write_read I p y q H)]. unfold read in H. cbv zeta in H. destruct (Nat.eqb_spec (length y) (variable_number I 1 (npart p))) as [L|]; [|discriminate].
  destruct (unpack I 1 (npart p) y ltac:(lia) L) as (t & a & b & c & tl & -> & La & Lb & Lc & Lt).
  assert (tl = []) by (destruct tl; [auto|cbn in Lt; lia]). subst tl.
  change (aget (pack t a b (auxl I c) []) time_offset) with (Ok t) in H. cbn [obind] in H. rewrite (load_a t a b (auxl I c) [] (npart p) La), (load_b t a b (auxl I c) [] (npart p) La Lb) in H.
  match type of H with Ok ?A = Ok ?B => assert (X : B = A) by congruence end. subst q. split; [|exact E].
  unfold well_sized, npart. cbn [s_p s_v s_w s_m s_inc]. fold (npart p).
  split; auto. split; auto. split; [|apply W]. intros D. rewrite D in *. unfold auxl. rewrite D. rewrite (load_c t a b c [] (npart p)); auto.
Qed.
Lemma good_regu I s0 p y q : good I 3 s0 p -> rread I p y = Ok q -> good I 3 s0 q /\ rwrite I q = y.
Proof.
  intros (W & E) H. split; [|apply (rwrite_rread I p y q H)]. unfold rread in H. cbv zeta in H. destruct (Nat.eqb_spec (length y) (variable_number I 3 (npart p))) as [L|]; [|discriminate].
  destruct (unpack I 3 (npart p) y ltac:(lia) L) as (t & a & b & c & tl & -> & La & Lb & Lc & Lt).
  destruct tl as [|om [|be [|]]]; try (simpl in Lt; lia).
  destruct (pack_tail t a b c om be I (npart p) La Lb (fun _ => Lc)) as [E1 E2]. rewrite E1, E2 in H.
  change (aget (pack t a b (auxl I c) [om; be]) time_offset) with (Ok t) in H. cbn [obind] in H. rewrite (load_a t a b (auxl I c) _ (npart p) La), (load_b t a b (auxl I c) _ (npart p) La Lb) in H.
  match type of H with Ok ?A = Ok ?B => assert (X : B = A) by congruence end. subst q. split; [|exact E].
  unfold well_sized, npart. cbn [s_p s_v s_w s_m s_inc]. fold (npart p).
  split; auto. split; auto. split; [|apply W]. intros D. rewrite D in *. unfold auxl. rewrite D. rewrite (load_c t a b c _ (npart p)); auto.
Qed.

(** * Invariant of the iterator across calls *)
Definition com_c (m : list R) (P0 : vec) (a : nat) : nat -> R := fun x => cf m (pos_offset + a) x + - ax a P0 * unitc 0 x.
Definition calm (I : inter) (e : nat) (m : list R) (P0 : vec) (A : ias) : Prop :=
  let n := variable_number I e (length m) in gr_sized (g_n (i_gr A)) (i_gr A) /\
  forall a, (a < 3)%nat -> flat n (cf m (vel_offset (length m) + a)) (i_gr A) /\ flat n (com_c m P0 a) (i_gr A).
Lemma lin_nil n c : lin n c [] = 0.
Proof. unfold lin. rewrite (rsum_ext _ (fun _ => 0)); [apply rsum_zero|]. intros x _. destruct x; cbn; ring. Qed.
Lemma flat_init n c : flat n c gr_init. Proof. intros i Hi. cbn. rewrite lin_nil. auto. Qed.
Lemma sized_init : gr_sized 0 gr_init. Proof. split; [reflexivity|]. intros; auto. Qed.
Lemma lin_c0 n y : lin n (fun _ => 0) y = 0.
Proof. unfold lin. rewrite (rsum_ext _ (fun _ => 0)); [apply rsum_zero|]. intros; ring. Qed.
Lemma flat_c0 n G : flat n (fun _ => 0) G. Proof. intros i Hi. rewrite !lin_c0. auto. Qed.

Section Run.
  Context (I : inter) (e : nat) (s0 : st) (He : e = 1%nat \/ e = 3%nat).
  Let m := s_m s0. Let P0 := momentum s0. Let n := variable_number I e (length m).
  Context (rd : st -> list R -> outcome st) (deriv : st -> outcome (list R * st)).
  Context (rd_good : forall p y q, good I e s0 p -> rd p y = Ok q -> good I e s0 q /\ gwrite I e q = y).
  Context (dv_good : forall p d q, good I e s0 p -> deriv p = Ok (d, q) -> good I e s0 q).
  Context (dv : forall p d q, good I e s0 p -> deriv p = Ok (d, q) -> exists k, forall a, (a < 3)%nat -> lin n (cf m (vel_offset (length m) + a)) d = 0 /\
      lin n (cf m (pos_offset + a)) d = k * ax a (momentum p) /\ lin n (unitc 0) d = k).
  Context (pcerr : list R -> list R -> ext) (serr : list R -> list R -> st -> R -> outcome R) (ratio_of lim : R -> R) (lmin : R).
  Notation iter := (ias_iterate (gwrite I e) rd deriv pcerr serr ratio_of lim lmin).
  Lemma run_call fuel A s h A' s' h' : calm I e m P0 A -> good I e s0 s -> momentum s = P0 -> iter fuel A s h = Some (Ok (A', s', h')) ->
    calm I e m P0 A' /\ good I e s0 s' /\ momentum s' = P0 /\ vsub (moment s') (vscal (s_t s') P0) = vsub (moment s) (vscal (s_t s) P0).
  Proof.
    intros (Sz & Fa) Gs Pm H. destruct (good_write I e s0 He s Gs) as (Ls & Ws).
    assert (One : forall a, (a < 3)%nat -> gr_sized n (i_gr A') /\ (flat n (cf m (vel_offset (length m) + a)) (i_gr A') /\ flat n (com_c m P0 a) (i_gr A')) /\ good I e s0 s' /\
       lin n (cf m (vel_offset (length m) + a)) (gwrite I e s') = ax a P0 /\ lin n (com_c m P0 a) (gwrite I e s') = lin n (com_c m P0 a) (gwrite I e s)).
    { intros a Ha. pose proof (ias_flat (gwrite I e) rd deriv n (cf m (vel_offset (length m) + a)) (com_c m P0 a) (ax a P0) 0 (good I e s0)) as L.
      specialize (L (fun p y q Gp _ Hr => rd_good p y q Gp Hr) dv_good).
      specialize (L (fun p d q Gp E => match dv p d q Gp E with ex_intro _ k X => proj1 (X a Ha) end)).
      assert (Rt : forall p d q, good I e s0 p -> deriv p = Ok (d, q) -> lin n (cf m (vel_offset (length m) + a)) (gwrite I e p) = ax a P0 -> lin n (com_c m P0 a) d = 0).
      { intros p d q Gp Ed Hp. destruct (dv p d q Gp Ed) as (k & X). destruct (X a Ha) as (_ & K2 & K3). unfold com_c. rewrite lin_comb, K2, K3.
        destruct (good_write I e s0 He p Gp) as (_ & Wp). destruct (Wp a Ha) as (Wp1 & _). fold m n in Wp1. rewrite Wp1 in Hp. rewrite Hp. ring. }
      specialize (L Rt pcerr serr ratio_of lim lmin fuel 0%nat A s h A' s' h' Sz Ls Gs (conj (proj1 (Fa a Ha)) (proj2 (Fa a Ha)))).
      destruct (Ws a Ha) as (Ws1 & _). fold m n in Ws1. rewrite Ws1, Pm in L. specialize (L eq_refl H).
      destruct L as (L1 & L2 & L3 & L4 & hacc & r & _ & _ & _ & L5 & L6). split; auto. split; auto. split; auto. split; auto. rewrite L6. ring. }
    destruct (One 0%nat ltac:(lia)) as (S1 & _ & G1 & _). destruct (good_write I e s0 He s' G1) as (_ & Ws'). fold m n in Ws'.
    split; [|split; [exact G1|split]].
    - split; [assert (X : g_n (i_gr A') = n) by apply S1; rewrite X; exact S1|]. intros a Ha. apply (One a Ha).
    - apply ax_ext. intros a Ha. destruct (One a Ha) as (_ & _ & _ & O1 & _). rewrite <- O1. symmetry. apply (Ws' a Ha).
    - apply ax_ext. intros a Ha. destruct (One a Ha) as (_ & _ & _ & _ & O2). unfold com_c in O2. rewrite !lin_comb in O2.
      destruct (Ws' a Ha) as (_ & U1 & U2). destruct (Ws a Ha) as (_ & V1 & V2). fold m n in V1, V2. rewrite U1, U2, V1, V2 in O2.
      destruct a as [|[|[|]]]; [| | |lia]; cbn [ax vsub vadd vscal vx vy vz] in *; lra.
  Qed.
  (** Physical time, when the derivative's time entry is one. *)
  Lemma run_time fuel A s h A' s' h' : (forall p d q, good I e s0 p -> deriv p = Ok (d, q) -> lin n (unitc 0) d = 1) ->
    gr_sized (g_n (i_gr A)) (i_gr A) -> flat n (unitc 0) (i_gr A) -> good I e s0 s -> iter fuel A s h = Some (Ok (A', s', h')) ->
    gr_sized (g_n (i_gr A')) (i_gr A') /\ flat n (unitc 0) (i_gr A') /\ good I e s0 s' /\
    exists hacc r, shrunk ratio_of lmin h hacc /\ lmin < r /\ h' = hacc * lim r /\ s_t s' = s_t s + hacc.
  Proof.
    intros D1 Sz Ft Gs H. destruct (good_write I e s0 He s Gs) as (Ls & Ws).
    pose proof (ias_flat (gwrite I e) rd deriv n (fun _ => 0) (unitc 0) 0 1 (good I e s0)) as L.
    specialize (L (fun p y q Gp _ Hr => rd_good p y q Gp Hr) dv_good (fun p d q Gp _ => lin_c0 n d) (fun p d q Gp E _ => D1 p d q Gp E)).
    specialize (L pcerr serr ratio_of lim lmin fuel 0%nat A s h A' s' h' Sz Ls Gs (conj (flat_c0 n _) Ft) (lin_c0 n _) H).
    destruct L as (L1 & L2 & L3 & L4 & hacc & r & L5 & L6 & L7 & _ & L8).
    split; [assert (X : g_n (i_gr A') = n) by apply L1; rewrite X; exact L1|]. split; [apply L2|]. split; auto. exists hacc, r. split; auto. split; auto. split; auto.
    destruct (good_write I e s0 He s' L3) as (_ & Ws'). destruct (Ws' 0%nat ltac:(lia)) as (_ & _ & T'). destruct (Ws 0%nat ltac:(lia)) as (_ & _ & T). fold m n in T, T'. lra.
  Qed.
End Run.

(** * The two systems *)
Lemma simple_dv I s0 p : sized I -> balanced I -> good I 1 s0 p -> let m := s_m s0 in let n := variable_number I 1 (length m) in
  forall a, (a < 3)%nat -> lin n (cf m (vel_offset (length m) + a)) (derivative I p) = 0 /\
      lin n (cf m (pos_offset + a)) (derivative I p) = 1 * ax a (momentum p) /\ lin n (unitc 0) (derivative I p) = 1.
Proof.
  intros HI HB Gp m n a Ha. rewrite deriv_pack. replace (pack 1 (s_v p)) with (pack 1 (map (vscal 1) (s_v p))).
  - destruct Gp as (W & E). apply (good_deriv I 1 s0 (or_introl eq_refl)); auto; [split; auto| |].
    + rewrite (proj1 (acc_len I p 1 HI W)). unfold npart. rewrite E. auto.
    + rewrite <- E. apply (acc_net I p 1); auto.
  - f_equal. rewrite (map_ext _ (fun v => v)); [apply map_id|]. intros v. vring.
Qed.
Lemma regu_dv I r s0 p : sized I -> balanced I -> good I 3 s0 p -> let m := s_m s0 in let n := variable_number I 3 (length m) in
  exists k, forall a, (a < 3)%nat -> lin n (cf m (vel_offset (length m) + a)) (rderivative I r p) = 0 /\
      lin n (cf m (pos_offset + a)) (rderivative I r p) = k * ax a (momentum p) /\ lin n (unitc 0) (rderivative I r p) = k.
Proof.
  intros HI HB Gp m n. exists (fst (pos_phy r p 1)). intros a Ha. destruct (rderiv_pack I r p) as (om & be & ->).
  destruct Gp as (W & E). assert (La : length (racc I p) = length m) by (rewrite (proj2 (acc_len I p 3 HI W)); unfold npart, m; rewrite E; auto).
  apply (good_deriv I 3 s0 (or_intror eq_refl)); auto; [split; auto|rewrite map_length; auto|]. rewrite net_scaled by auto.
  unfold m. rewrite <- E, (proj2 (acc_net I p 3 HI HB W)). vring.
Qed.

Lemma good_sc I e s0 s x : good I e s0 s -> good I e s0 (set_sc s x). Proof. intros H; exact H. Qed.
