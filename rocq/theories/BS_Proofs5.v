(** Sub-steps compose: n sub-steps of the iterator are n leapfrog steps.  Time over all attempts of a call on a function. *)
From Verif Require Export BS_Proofs4.
From Verif Require Import Chain_Proofs System_Proofs System_Proofs2.
Open Scope R_scope.

Lemma add_at_merge off x y inc : length x = length y -> add_at off x (add_at off y inc) = add_at off (zipw Rplus y x) inc.
Proof.
  intros H. apply rlist_ext; [rewrite !add_at_length; auto|]. intros i Hi. rewrite !add_at_length in Hi. rewrite !add_at_nth by (rewrite ?add_at_length; auto).
  destruct (off <=? i)%nat; [|ring]. destruct (lt_dec (i - off) (length y)) as [L|L].
  - rewrite zipw_nth by auto. ring.
  - rewrite (nth_overflow x), (nth_overflow y), (nth_overflow (zipw Rplus y x)) by (rewrite ?zipw_length by auto; lia). ring.
Qed.
Lemma scaled_merge l a b : zipw Rplus (scaled l a) (scaled l b) = scaled l (a + b).
Proof.
  unfold scaled, zipw. induction l as [|v l IH]; [reflexivity|]. cbn [map coords flat_map] in *. unfold coords in *. cbn [flat_map app combine map] in *.
  destruct v as [x y z]. cbn. rewrite IH. f_equal; [ring|]. f_equal; [ring|]. f_equal. ring.
Qed.
Lemma scaled_length l a : length (scaled l a) = (3 * length l)%nat.
Proof. unfold scaled. rewrite coords_length, map_length. lia. Qed.
Lemma advance_merge p v a b : length v = length p -> advance (advance p v a) v b = advance p v (a + b).
Proof.
  intros H. unfold advance. revert v H. induction p as [|x p IH]; intros [|y v] H; try discriminate; [reflexivity|]. cbn [combine map] in *. f_equal; [|apply IH; auto].
  cbn [fst snd]. destruct x, y. vunf. f_equal; ring.
Qed.
Lemma drift_merge s a b : length (s_v s) = length (s_p s) -> drift (drift s a) b = drift s (a + b).
Proof.
  intros H. unfold drift. cbn [s_m s_t s_p s_v s_w s_om s_be s_sc s_inc s_sync]. rewrite advance_merge by auto. f_equal; [ring|].
  unfold sync. cbn [s_sync]. destruct (s_sync s); auto. rewrite (add_at_comm time_offset [b]). rewrite !add_at_merge by (rewrite ?scaled_length; auto). rewrite scaled_merge. reflexivity.
Qed.
Lemma kick_vel_merge s acc a b : length acc = length (s_v s) -> kick_vel (kick_vel s acc a) acc b = kick_vel s acc (a + b).
Proof.
  intros H. unfold kick_vel. cbn [s_m s_t s_p s_v s_w s_om s_be s_sc s_inc s_sync npart]. rewrite advance_merge by auto. f_equal.
  unfold sync, npart. cbn [s_sync s_m]. destruct (s_sync s); auto. rewrite add_at_merge by (rewrite !scaled_length; auto). rewrite scaled_merge. reflexivity.
Qed.
Lemma kick_merge I s a b : sized I -> I_dep I = false -> well_sized I 1 s -> kick I (kick I s a) b = kick I s (a + b).
Proof.
  intros HI Hd (P & V & W & L). unfold kick. rewrite Hd. cbn [kick_vel s_m s_p s_v].
  assert (E : forall v, eval_total I (s_m s) (s_p s) v = eval_total I (s_m s) (s_p s) (s_v s)) by (intros v; unfold eval_total; rewrite Hd; reflexivity).
  rewrite (E (advance _ _ _)). apply kick_vel_merge. unfold eval_total. rewrite Hd. rewrite V. apply tot_vi_length; auto.
Qed.
Lemma rdrift_merge r s a b : length (s_v s) = length (s_p s) -> rdrift r (rdrift r s a) b = rdrift r s (a + b).
Proof.
  intros H. rewrite !rdrift_eq. rewrite pdt_drift.
  change (drift (set_sc (drift s (pdt r s a)) (snd (pos_phy r s a))) (pdt r s b)) with (set_sc (drift (drift s (pdt r s a)) (pdt r s b)) (snd (pos_phy r s a))).
  rewrite drift_merge by auto. assert (pdt r s a + pdt r s b = pdt r s (a + b)) as -> by (unfold pdt; destruct r; cbn [pos_phy fst]; unfold Rdiv; ring). destruct r; reflexivity.
Qed.

(** * composition *)
Section Comp.
  Context {S : Type} (dr ki : S -> R -> S) (W : S -> Prop).
  Context (Wdr : forall s a, W s -> W (dr s a)) (Wki : forall s a, W s -> W (ki s a)).
  Fixpoint times (n : nat) (f : S -> S) (s : S) : S := match n with O => s | Datatypes.S k => times k f (f s) end.
  Lemma dkd_compose (MD : forall s a b, W s -> dr (dr s a) b = dr s (a + b)) h : forall n s, W s -> integrate dr ki (dkd_ops (Datatypes.S n)) s h = times (Datatypes.S n) (fun z => integrate dr ki leapfrog_dkd z h) s.
  Proof.
    assert (A : forall n s, W s -> integrate dr ki (alternate (K 1) (D 1) n ++ [K 1; D 0.5]) (dr s (0.5 * h)) h = times (Datatypes.S n) (fun z => integrate dr ki leapfrog_dkd z h) s).
    { induction n as [|n IH]; intros s Ws; [reflexivity|]. change (times (Datatypes.S (Datatypes.S n)) (fun z => integrate dr ki leapfrog_dkd z h) s) with (times (Datatypes.S n) (fun z => integrate dr ki leapfrog_dkd z h) (integrate dr ki leapfrog_dkd s h)).
      rewrite <- IH by (unfold integrate, leapfrog_dkd; cbn [fold_left run_op]; auto). unfold integrate. cbn [alternate app fold_left run_op leapfrog_dkd]. rewrite MD by auto. replace (0.5 * h + 0.5 * h) with (1 * h) by lra. reflexivity. }
    intros n s Ws. unfold dkd_ops. replace (Datatypes.S n - 1)%nat with n by lia. rewrite <- A by auto. reflexivity.
  Qed.
  Lemma kdk_compose (MK : forall s a b, W s -> ki (ki s a) b = ki s (a + b)) h : forall n s, W s -> integrate dr ki (kdk_ops (Datatypes.S n)) s h = times (Datatypes.S n) (fun z => integrate dr ki leapfrog_kdk z h) s.
  Proof.
    assert (A : forall n s, W s -> integrate dr ki (alternate (D 1) (K 1) n ++ [D 1; K 0.5]) (ki s (0.5 * h)) h = times (Datatypes.S n) (fun z => integrate dr ki leapfrog_kdk z h) s).
    { induction n as [|n IH]; intros s Ws; [reflexivity|]. change (times (Datatypes.S (Datatypes.S n)) (fun z => integrate dr ki leapfrog_kdk z h) s) with (times (Datatypes.S n) (fun z => integrate dr ki leapfrog_kdk z h) (integrate dr ki leapfrog_kdk s h)).
      rewrite <- IH by (unfold integrate, leapfrog_kdk; cbn [fold_left run_op]; auto). unfold integrate. cbn [alternate app fold_left run_op leapfrog_kdk]. rewrite MK by auto. replace (0.5 * h + 0.5 * h) with (1 * h) by lra. reflexivity. }
    intros n s Ws. unfold kdk_ops. replace (Datatypes.S n - 1)%nat with n by lia. rewrite <- A by auto. reflexivity.
  Qed.
End Comp.

(** * time over all attempts *)
Section FT.
  Context (M : nat) (kdk : bool) (err : list R -> list R -> list R -> R) (next lim : nat -> R -> R) (func : list R -> R -> list R).
  Notation N := (M + 1)%nat.
  Lemma frows_time_all : forall f k b input t h b' t' res, frows M kdk err next lim func f k b input t h = Ok (b', t', res)  ->
    match res with
    | Accepted _ => exists j, (k <= j <= M)%nat /\ t' = t + (INR (j - k) + 2) * h
    | Rejected _ => exists j, (k <= j <= M)%nat /\ t' = t + (INR (j - k) + 1) * h
    | Continue => t' = t + INR f * h /\ (f = 0 \/ k + f <= M + 1)%nat
    end.
  Proof.
    induction f as [|f IH]; intros k b input t h b' t' res H; cbn [frows] in H; [inversion H; subst; cbn; split; [ring|auto]|].
    oinv H. apply bs_h_inv in E. destruct E as [HkM ->].
    pose proof (midpoint_time func input t h (h_at N k) (h_at_pos M k HkM)) as T.
    destruct (midpoint func input t h (h_at N k)) as [y t1]. cbn [snd] in T. subst t1.
    oinv H. destruct a as [b1 e].
    assert (Hrec : frows M kdk err next lim func f (S k) b1 input (t + h) h = Ok (b', t', res) ->
      match res with
      | Accepted _ => exists j, (k <= j <= M)%nat /\ t' = t + (INR (j - k) + 2) * h
      | Rejected _ => exists j, (k <= j <= M)%nat /\ t' = t + (INR (j - k) + 1) * h
      | Continue => t' = t + INR (S f) * h /\ (S f = 0 \/ k + S f <= M + 1)%nat
      end).
    { intros X. apply IH in X. destruct res.
      - destruct X as (X & Y). rewrite X, S_INR. split; [ring|]. right. lia.
      - destruct X as (j & J1 & J3). exists j. split; [lia|]. rewrite J3. replace (j - k)%nat with (S (j - S k)) by lia. rewrite S_INR. ring.
      - destruct X as (j & J1 & J3). exists j. split; [lia|]. rewrite J3. replace (j - k)%nat with (S (j - S k)) by lia. rewrite S_INR. ring. }
    destruct (in_converged_window b1 k); [|exact (Hrec H)]. destruct (Rle_dec e 1).
    - oinv H. destruct a as [b2 nh]. inversion H; subst. exists k. split; [lia|]. rewrite Nat.sub_diag. cbn. ring.
    - oinv H. destruct a; [|exact (Hrec H)]. oinv H. destruct a as [b2 nh]. inversion H; subst. exists k. split; [lia|]. rewrite Nat.sub_diag. cbn. ring.
  Qed.
  (** Failed attempts (step, rows computed). *)
  Definition spent (l : list (R * nat)) : R := fold_right (fun a acc => INR (snd a) * fst a + acc) 0 l.
  Lemma fattempts_time : forall t b input time h b' d t' h1, fattempts M kdk err next lim func t b input time h = Ok (b', d, t', h1) ->
    exists l hk k, hd hk (map fst l) = h /\ b_iter b' = (b_iter b + length l + 1)%nat /\ (forall a, In a l -> (2 <= snd a <= M + 1)%nat) /\ (1 <= k <= M)%nat /\
      t' = time + spent l + (INR k + 2) * hk.
  Proof.
    induction t as [|t IH]; intros b input time h b' d t' h1 H; cbn [fattempts] in H; [discriminate|].
    oinv H. apply bs_h_inv in E. destruct E as [_ ->]. pose proof (midpoint_time func input time h (h_at N 0) (h_at_pos M 0 ltac:(lia))) as T.
    destruct (midpoint func input time h (h_at N 0)) as [y t1]. cbn [snd] in T. subst t1. oinv H. oinv H. destruct a0 as [[b1 t2] res].
    pose proof (frows_time _ _ _ _ _ _ _ _ _ _ _ _ _ _ _ E0) as (E1 & _). cbn in E1. apply frows_time_all in E0.
    destruct res.
    - destruct E0 as (-> & B). apply IH in H. destruct H as (l & hk & k & H1 & H2 & H3 & H4 & H5). exists ((h, (b_rank b + 2)%nat) :: l), hk, k. split; [reflexivity|]. cbn [length count_try b_rank] in *. split; [lia|].
      split; [intros a0 [<-|Q]; [cbn [snd]; lia|auto]|]. split; auto. rewrite H5. cbn [spent fold_right fst snd]. fold (spent l). rewrite !plus_INR. cbn [INR]. ring.
    - oinv H. inversion H; subst. destruct E0 as (j & J1 & ->). exists [], h, j. split; [reflexivity|]. cbn [length]. split; [lia|]. split; [intros a1 []|]. split; auto. cbn [spent fold_right].
      replace j with (S (j - 1)) at 2 by lia. rewrite S_INR. ring.
    - destruct E0 as (j & J1 & ->). apply IH in H. destruct H as (l & hk & k & H1 & H2 & H3 & H4 & H5). exists ((h, (j + 1)%nat) :: l), hk, k. split; [reflexivity|]. cbn [length] in *. split; [lia|].
      split; [intros a0 [<-|Q]; [cbn [snd]; lia|auto]|]. split; auto. rewrite H5. cbn [spent fold_right fst snd]. fold (spent l). rewrite plus_INR. replace (INR j) with (INR (j - 1) + 1) by (rewrite minus_INR by lia; cbn; ring). cbn [INR]. ring.
  Qed.
End FT.
