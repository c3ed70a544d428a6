(** The function-based iterate, and the witness of the out-of-range rank. *)
From Verif Require Export BS_Proofs3.
From Verif Require Import Chain_Proofs System_Proofs System_Proofs2.
Open Scope R_scope.

Lemma mid_time func : forall i h mid out t, snd (mid_loop func i h mid out t) = t + INR i * h.
Proof.
  induction i as [|i IH]; intros; [cbn; ring|]. cbn [mid_loop]. rewrite IH, S_INR. ring.
Qed.
Lemma midpoint_time func input t step n : (0 < n)%nat -> snd (midpoint func input t step n) = t + step.
Proof.
  intros H. unfold midpoint. cbv zeta. destruct n as [|n]; [lia|]. replace (S n - 1)%nat with n by lia.
  match goal with |- context [mid_loop ?f ?i ?h ?m ?o ?t] => pose proof (mid_time f i h m o t) as E; destruct (mid_loop f i h m o t) as [[mid out] t'] end.
  cbn [snd] in *. rewrite E, S_INR. assert (0 <= INR n) by apply pos_INR. field. lra.
Qed.

Section F.
  Context (M : nat) (kdk : bool) (err : list R -> list R -> list R -> R) (next lim : nat -> R -> R) (func : list R -> R -> list R).
  Notation N := (M + 1)%nat.
  Lemma b_iter_table b input dy h k b1 e : row_table M kdk err next b input dy h k = Ok (b1, e) -> b_iter b1 = b_iter b /\ b_first b1 = b_first b.
  Proof. unfold row_table. intros H. repeat oinv H. inversion H. subst. auto. Qed.
  Lemma frows_time : forall f k b input t h b' t' res, frows M kdk err next lim func f k b input t h = Ok (b', t', res) ->
    b_iter b' = b_iter b /\ b_first b' = b_first b /\
    match res with Accepted _ => exists j, (k <= j <= M)%nat /\ (j < k + f)%nat /\ t' = t + (INR (j - k) + 2) * h | _ => True end.
  Proof.
    induction f as [|f IH]; intros k b input t h b' t' res H; cbn [frows] in H; [inversion H; subst; auto|].
    oinv H. apply bs_h_inv in E. destruct E as [HkM ->].
    pose proof (midpoint_time func input t h (h_at N k) (h_at_pos M k HkM)) as T.
    destruct (midpoint func input t h (h_at N k)) as [y t1]. cbn [snd] in T. subst t1.
    oinv H. destruct a as [b1 e]. destruct (b_iter_table _ _ _ _ _ _ _ E) as [Bi Bf].
    assert (Hrec : frows M kdk err next lim func f (S k) b1 input (t + h) h = Ok (b', t', res) ->
      b_iter b' = b_iter b /\ b_first b' = b_first b /\ match res with Accepted _ => exists j, (k <= j <= M)%nat /\ (j < k + S f)%nat /\ t' = t + (INR (j - k) + 2) * h | _ => True end).
    { intros X. apply IH in X. destruct X as (X1 & X2 & X3). split; [congruence|]. split; [congruence|]. destruct res; auto.
      destruct X3 as (j & J1 & J2 & J3). exists j. split; [lia|]. split; [lia|]. rewrite J3. replace (j - k)%nat with (S (j - S k)) by lia. rewrite S_INR. ring. }
    destruct (in_converged_window b1 k); [|auto]. destruct (Rle_dec e 1).
    - oinv H. destruct a as [b2 nh]. destruct (set_next_shape M kdk _ _ _ _ E0) as (r' & ->). inversion H; subst. cbn. split; auto. split; auto.
      exists k. split; [lia|]. split; [lia|]. rewrite Nat.sub_diag. cbn. ring.
    - oinv H. destruct a; [|auto]. oinv H. destruct a as [b2 nh]. destruct (set_next_shape M kdk _ _ _ _ E1) as (r' & ->). inversion H; subst. cbn. auto.
  Qed.
  Lemma fattempts_iter : forall t b input time h b' d t' h1, fattempts M kdk err next lim func t b input time h = Ok (b', d, t', h1) -> (b_iter b < b_iter b')%nat.
  Proof.
    induction t as [|t IH]; intros b input time h b' d t' h1 H; cbn [fattempts] in H; [discriminate|].
    oinv H. destruct (midpoint func input time h a) as [y t1]. oinv H. oinv H. destruct a1 as [[b1 t2] res]. apply frows_time in E1. destruct E1 as (E1 & _).
    cbn in E1. destruct res; [apply IH in H; lia| |apply IH in H; lia]. oinv H. inversion H; subst. lia.
  Qed.
  Lemma fattempts_first : forall t b input time h b' d t' h1, fattempts M kdk err next lim func t b input time h = Ok (b', d, t', h1) ->
    b_iter b' = S (b_iter b) -> exists k, (1 <= k <= M)%nat /\ t' = time + (INR k + 2) * h.
  Proof.
    intros t b input time h b' d t' h1 H Hi. destruct t as [|t]; cbn [fattempts] in H; [discriminate|].
    oinv H. apply bs_h_inv in E. destruct E as [_ ->]. pose proof (midpoint_time func input time h (h_at N 0) (h_at_pos M 0 ltac:(lia))) as T.
    destruct (midpoint func input time h (h_at N 0)) as [y t1]. cbn [snd] in T. subst t1. oinv H. oinv H. destruct a0 as [[b1 t2] res].
    apply frows_time in E0. destruct E0 as (E1 & E2 & E3). cbn in E1.
    destruct res; [apply fattempts_iter in H; lia| |apply fattempts_iter in H; lia].
    oinv H. inversion H; subst. destruct E3 as (j & J1 & J2 & ->). exists j. split; auto. replace j with (S (j - 1)) at 2 by lia. rewrite S_INR. ring.
  Qed.
End F.

(** * rank = max_depth after the first step *)
Section Witness.
  Context (M : nat) (HM : (3 <= M)%nat).
  Notation N := (M + 1)%nat.
  Definition w_run (p : list R) (h : R) (n : nat) : outcome (list R * list R) := Ok (p, [if (n =? h_at N M)%nat then 1 else 0]).
  Definition w_err (input e1 e0 : list R) : R := if Req_EM_T (nth 0 input 0) 0 then (if Req_EM_T (nth 0 e0 0) 0 then 2 else 0) else 2.
  Definition w_rd (p y : list R) : outcome (list R) := Ok y.
  Definition w_row (h : R) (n : nat) : list R := [if (n =? h_at N M)%nat then 1 else 0].
  Lemma w_replays input : length input = 1%nat -> replays w_rd w_run (fun _ => True) input w_row.
  Proof. intros L. split; unfold w_rd, w_run; eauto. Qed.
  Lemma nev_zero T d : forall j, (j + d < N)%nat -> (forall i, (j <= i <= j + d)%nat -> T i = 0) -> peval (nev N T d j) 0 = 0.
  Proof.
    induction d as [|d IH]; intros j Hj HT; [cbn [nev]; rewrite peval_cons; cbn; rewrite HT by lia; ring|].
    rewrite nev_step by lia. rewrite !IH by (try lia; intros; apply HT; lia). ring.
  Qed.
  Lemma nev_last T d : forall j, (j + d = M)%nat -> (forall i, (i < M)%nat -> T i = 0) -> T M <> 0 -> peval (nev N T d j) 0 <> 0.
  Proof.
    induction d as [|d IH]; intros j Hj HT HM1; [cbn [nev]; rewrite peval_cons; cbn; replace j with M by lia; lra|].
    rewrite nev_step by lia. rewrite (nev_zero T d j) by (try lia; intros; apply HT; lia). specialize (IH (S j) ltac:(lia) HT HM1).
    set (v := peval _ _) in *. replace (j + S d)%nat with M by lia.
    assert (Hn : node N j <> node N M) by (apply node_neq; lia). assert (H0 : node N j <> 0).
    { unfold node. apply Rinv_neq_0_compat. assert (0 < INR (h_at N j)) by (apply lt_0_INR, h_at_pos; lia). nra. }
    replace (v + (v - 0) * (node N M / (node N j - node N M))) with (v * (node N j / (node N j - node N M))) by (field; lra).
    apply Rmult_integral_contrapositive. split; auto. unfold Rdiv. apply Rmult_integral_contrapositive. split; auto. apply Rinv_neq_0_compat. lra.
  Qed.
  Lemma h_at_last i : (i < M)%nat -> (h_at N i =? h_at N M)%nat = false.
  Proof.
    intros H. apply Nat.eqb_neq. intros E. apply (node_neq N i M); try lia. unfold node. rewrite E. reflexivity.
  Qed.
  Lemma w_rerr_low h k : (k < M)%nat -> rerr M w_err [0] w_row h k = 2.
  Proof.
    intros H. unfold rerr, w_err. cbn [nth length]. destruct (Req_EM_T 0 0) as [_|]; [|lra].
    rewrite tabv_nth by auto. rewrite Nat.sub_0_r. rewrite nev_zero; [destruct (Req_EM_T 0 0); auto; lra|lia|].
    intros i Hi. unfold Tr, w_row. rewrite h_at_last by lia. reflexivity.
  Qed.
  Lemma w_rerr_last h : rerr M w_err [0] w_row h M = 0.
  Proof.
    unfold rerr, w_err. cbn [nth length]. destruct (Req_EM_T 0 0) as [_|]; [|lra].
    rewrite tabv_nth by auto. rewrite Nat.sub_0_r. destruct (Req_EM_T _ 0) as [E|]; auto. exfalso. revert E. apply nev_last; auto.
    - intros i Hi. unfold Tr, w_row. rewrite h_at_last by lia. reflexivity.
    - unfold Tr, w_row. rewrite Nat.eqb_refl. cbn. lra.
  Qed.
  Lemma init_ready : ready M (bs_init M).
  Proof. unfold ready, sizes, bs_init. cbn. rewrite !repeat_length. repeat split; auto; try lia; discriminate. Qed.
  (** a second call at rank M: the first row in the window reads h(M + 1) *)
  Lemma rows_over kdk next lim input h : length input = 1%nat -> nth 0 input 0 <> 0 ->
    forall f k b p, (1 <= k)%nat -> (k + f = M - 1)%nat -> sizes M b -> b_first b = false -> b_rank b = M ->
    table_ok N (length input) (k - 1) (Tr M w_row h) (b_ext b) ->
    rows M kdk (list R) w_rd (fun p _ => p) w_run w_err next lim (f + 3) k b p input h = UB.
  Proof.
    intros L Hi. pose proof (w_replays input L) as RP.
    assert (E2 : forall k, rerr M w_err input w_row h k = 2) by (intros; unfold rerr, w_err; destruct (Req_EM_T (nth 0 input 0) 0); [contradiction|auto]).
    induction f as [|f IH]; intros k b p Hk Hf HS Hfst Hr HT.
    - cbn [Nat.add rows]. unfold w_rd at 1. cbn [obind]. rewrite bs_h_ok by lia. cbn [obind]. unfold w_run at 1. cbn [obind].
      destruct (row_table_ok M kdk w_rd w_run w_err next (fun _ => True) input w_row RP b h k) as (ext & ideal & cpl & Et & HS1 & HT1 & E0); auto; [lia|].
      change [if (h_at N k =? h_at N M)%nat then 1 else 0] with (Tr M w_row h k). rewrite Et. cbn [obind].
      unfold in_converged_window. cbn [set_row b_rank b_first]. rewrite Hr. replace (k =? M - 1)%nat with true by (symmetry; apply Nat.eqb_eq; lia). cbn [orb].
      rewrite E2. destruct (Rle_dec 2 1); [lra|]. unfold is_diverged_anyhow. cbn [set_row b_rank b_first]. rewrite Hfst, Hr. cbn [negb].
      replace (k =? M - 1)%nat with true by (symmetry; apply Nat.eqb_eq; lia). rewrite bs_h_ok by lia. cbn [obind].
      unfold bs_h at 1. replace (k + 2 <? N)%nat with false by (symmetry; apply Nat.ltb_ge; lia). reflexivity.
    - replace (S f + 3)%nat with (S (f + 3)) by lia. cbn [rows]. unfold w_rd at 1. cbn [obind]. rewrite bs_h_ok by lia. cbn [obind]. unfold w_run at 1. cbn [obind].
      destruct (row_table_ok M kdk w_rd w_run w_err next (fun _ => True) input w_row RP b h k) as (ext & ideal & cpl & Et & HS1 & HT1 & E0); auto; [lia|].
      change [if (h_at N k =? h_at N M)%nat then 1 else 0] with (Tr M w_row h k). rewrite Et. cbn [obind].
      unfold in_converged_window. cbn [set_row b_rank b_first]. rewrite Hr, Hfst.
      assert ((k =? M - 1)%nat = false /\ (k =? M)%nat = false /\ (k =? M + 1)%nat = false) as (-> & -> & ->) by (repeat split; apply Nat.eqb_neq; lia). cbn [orb].
      apply IH; auto; try lia. cbn [set_row b_ext]. replace (S k - 1)%nat with k by lia. auto.
  Qed.
  Lemma witness kdk next lim t h : exists b1 y h1, iterate (S t) M kdk (list R) (fun p => p) w_rd (fun p _ => p) w_run w_err next lim (bs_init M) [0] h = Ok (b1, y, h1) /\
    b_rank b1 = M /\ iterate (S t) M kdk (list R) (fun p => p) w_rd (fun p _ => p) w_run w_err next lim b1 y h1 = UB.
  Proof.
    assert (RP : forall i, length i = 1%nat -> replays w_rd w_run (fun _ => True) i w_row) by apply w_replays.
    assert (Fr : fresh w_rd (fun _ => True) [0] [0]) by (exists [0]; split; reflexivity || exact I).
    destruct (attempts_first M kdk w_rd (fun p _ => p) w_run w_err next lim (fun _ => True) [0] w_row (RP [0] eq_refl) HM (S t) (bs_init M) [0] h init_ready eq_refl eq_refl Fr)
      as [[A _]|[A|(b1 & y & h1 & k & A & S1 & F1 & R1 & Rk & Hk & E1 & Hlow & p2 & q & ra & _ & Q1 & Q2 & Q3)]].
    - specialize (A M). rewrite w_rerr_last in A. cbn [bs_init b_rank] in A. assert (1 < 0) by (apply A; lia). lra.
    - discriminate.
    - cbn [bs_init b_rank] in Hk. assert (HkM : k = M).
      { destruct (Nat.eq_dec k M); auto. exfalso. rewrite w_rerr_low in E1 by lia. lra. }
      rewrite HkM in *. exists b1, y, h1. split; [exact A|]. split; auto.
      assert (Ly : length y = 1%nat /\ nth 0 y 0 <> 0).
      { subst y. unfold w_rd in Q1. assert (q = zipw Rplus [0] (tabv N 1 (Tr M w_row h) 0 M)) as -> by (cbn [length] in Q1; congruence). split.
        - rewrite zipw_length; [reflexivity|]. apply tabv_length.
        - rewrite zipw_nth; [|apply tabv_length|cbn; lia]. rewrite tabv_nth by lia. cbn [nth]. rewrite Nat.sub_0_r. rewrite Rplus_0_l. apply nev_last; auto.
          + intros i Hi. unfold Tr, w_row. rewrite h_at_last by lia. reflexivity.
          + unfold Tr, w_row. rewrite Nat.eqb_refl. cbn. lra. }
      destruct Ly as [Ly Hy]. unfold iterate. cbv zeta. cbn [attempts]. rewrite bs_h_ok by lia. cbn [obind]. unfold w_run at 1. cbn [obind].
      assert (HM1 : (1 <= M)%nat) by lia.
      destruct (start_table M w_rd w_run (fun _ => True) y w_row (RP y Ly) b1 h1 (w_row h1 (h_at N 0)) S1 HM1 eq_refl) as (ext & Ea & La & Ta).
      cbn [count_try b_ext]. change [if (h_at N 0 =? h_at N M)%nat then 1 else 0] with (w_row h1 (h_at N 0)). rewrite Ea. cbn [obind].
      cbn [count_try b_rank]. rewrite Rk. match goal with |- context [rows M kdk _ _ _ _ _ _ _ _ 1 ?bb _ _ _] => set (b2 := bb) end.
      assert (X : forall f, f = (M - 2 + 3)%nat -> rows M kdk (list R) w_rd (fun p _ => p) w_run w_err next lim f 1 b2 y y h1 = UB).
      { intros f ->. apply rows_over; auto; try lia. destruct S1 as (? & ? & ?). unfold b2, sizes. cbn. auto. }
      rewrite X by lia. reflexivity.
  Qed.
End Witness.

Lemma simple_replays I kdk s0 : sized I -> well_sized I 1 s0 -> exists Inv row,
  replays (read I) (simple_run I kdk) Inv (write I s0) row /\ Inv (set_sync s0 true) /\ read I (set_sync s0 true) (write I s0) = Ok (set_sync s0 true).
Proof.
  intros HI W. exists (ginv I 1 s0), (grow drift (kick I) s0 kdk). split; [|split].
  - rewrite <- gwrite1. apply (inst_replays I 1 (or_introl eq_refl) drift (kick I) (read I) Esimple); auto.
    + intros; apply ws_drift; auto.
    + intros; apply ws_kick; auto.
    + intros; apply tracks_drift; auto.
    + intros; apply tracks_kick; auto.
    + unfold Esimple. intros s1 s2 h0 E. change (set_reg (drift s1 h0)) with (drift (set_reg s1) h0). change (set_reg (drift s2 h0)) with (drift (set_reg s2) h0). congruence.
    + unfold Esimple. intros s1 s2 h0 E. rewrite !set_reg_kick. congruence.
    + intros; apply kick_m.
    + intros; apply kick_w; auto.
    + unfold Esimple. intros s1 s2 E. change (s_inc s1) with (s_inc (set_reg s1)). rewrite E. reflexivity.
    + unfold Esimple. intros s1 s2 E. change (set_reg (clear_increment s1)) with (clear_increment (set_reg s1)). change (set_reg (clear_increment s2)) with (clear_increment (set_reg s2)). congruence.
    + intros p s Ws Em. rewrite gwrite1, (read_write I s p Ws Em). eexists. split; [reflexivity|]. cbn [s_m s_t s_p s_v s_w s_inc s_sync]. rewrite Em.
      split; [unfold Esimple, set_reg; cbn; reflexivity|]. repeat split; auto.
    + unfold Esimple; intros; reflexivity.
    + unfold Esimple; intros; congruence.
    + unfold Esimple; intros; congruence.
    + intros s Ws. rewrite gwrite1, (read_write I s s Ws eq_refl). destruct s; cbn. destruct (I_dep I); reflexivity.
    + intros p y q HR. rewrite gwrite1. eapply write_read; eauto.
  - repeat split; auto; apply W.
  - rewrite <- gwrite1. rewrite gwrite1. change (write I s0) with (write I (set_sync s0 true)). rewrite (read_write I (set_sync s0 true) (set_sync s0 true) W eq_refl).
    destruct s0; cbn. destruct (I_dep I); reflexivity.
Qed.
Lemma regu_replays I r kdk s0 : sized I -> well_sized I 3 s0 -> exists Inv row,
  replays (rread I) (regu_run I r kdk) Inv (rwrite I s0) row /\ Inv (set_sync s0 true) /\ rread I (set_sync s0 true) (rwrite I s0) = Ok (set_sync s0 true).
Proof.
  intros HI W. exists (ginv I 3 s0), (grow (rdrift r) (rkick I r) s0 kdk). split; [|split].
  - rewrite <- gwrite3. apply (inst_replays I 3 (or_intror eq_refl) (rdrift r) (rkick I r) (rread I) same_but_scale); auto.
    + intros; apply ws_rdrift; auto.
    + intros; apply ws_rkick; auto.
    + intros; apply tracks_rdrift; auto.
    + intros; apply tracks_rkick; auto.
    + intros; apply rdrift_cong; auto.
    + intros; apply rkick_cong; auto.
    + intros; rewrite rdrift_eq; reflexivity.
    + intros; apply rkick_m.
    + intros; rewrite rdrift_eq; reflexivity.
    + intros; apply rkick_w; auto.
    + intros s1 s2 E. change (s_inc s1) with (s_inc (set_sc s1 0)). rewrite E. reflexivity.
    + intros s1 s2 E. unfold same_but_scale in *. change (set_sc (clear_increment s1) 0) with (clear_increment (set_sc s1 0)). rewrite E. reflexivity.
    + intros p s Ws Em. rewrite gwrite3, (rread_rwrite I s p Ws Em). eexists. split; [reflexivity|]. cbn [s_m s_t s_p s_v s_w s_inc s_sync]. rewrite Em.
      split; [reflexivity|]. repeat split; auto.
    + intros; apply sbs_set.
    + intros a b0; apply sbs_sym.
    + intros a b0 c; apply sbs_trans.
    + intros s Ws. rewrite gwrite3, (rread_rwrite I s s Ws eq_refl). destruct s; cbn. destruct (I_dep I); reflexivity.
    + intros p y q HR. rewrite gwrite3. eapply rwrite_rread; eauto.
  - repeat split; auto; apply W.
  - change (rwrite I s0) with (rwrite I (set_sync s0 true)). rewrite (rread_rwrite I (set_sync s0 true) (set_sync s0 true) W eq_refl).
    destruct s0; cbn. destruct (I_dep I); reflexivity.
Qed.

Lemma extrap_some N k : forall j ext, (j <= k)%nat -> (k < N)%nat -> (N <= length ext)%nat -> exists ext', extrap_loop N k j ext = Ok ext' /\ length ext' = length ext.
Proof.
  induction j as [|j IH]; intros ext Hj Hk HN; cbn [extrap_loop]; [eauto|].
  unfold bs_coef. rewrite (proj2 (Nat.ltb_lt _ _)) by nia. cbn [obind]. rewrite !aget_entry by lia. cbn [obind]. rewrite aset_ok by lia. cbn [obind].
  match goal with |- context [extrap_loop N k j ?e] => destruct (IH e) as (e' & E & L); try lia; rewrite ?list_set_length; auto end.
  rewrite list_set_length in L. eauto.
Qed.
Lemma row_table_some M kdk err next b input dy h k : (1 <= k <= M)%nat -> sizes M b ->
  exists ext ideal cpl e1 e0, row_table M kdk err next b input dy h k = Ok (set_row b ext ideal cpl, err input e1 e0) /\ sizes M (set_row b ext ideal cpl).
Proof.
  intros Hk (S1 & S2 & S3). unfold row_table. rewrite aset_ok by lia. cbn [obind]. unfold extrapolate.
  destruct (extrap_some (M + 1) k k (list_set (b_ext b) k dy)) as (ext & -> & L); try lia; rewrite ?list_set_length; try lia. cbn [obind].
  rewrite list_set_length in L. rewrite !aget_entry by lia. cbn [obind]. cbv zeta. rewrite aset_ok by lia. cbn [obind]. unfold bs_cost.
  rewrite (proj2 (Nat.ltb_lt _ _)) by lia. cbn [obind]. rewrite aset_ok by lia. cbn [obind]. eexists _, _, _, _, _. split; [reflexivity|].
  unfold sizes. cbn. rewrite !list_set_length. repeat split; auto; lia.
Qed.
Lemma fiterate_zero_error tn M kdk next lim func data t h : (3 <= M)%nat -> exists b' d' t' h1,
  fiterate (S tn) M kdk (fun _ _ _ => 0) next lim func (bs_init M) data t h = Ok (b', d', t', h1) /\ b_iter b' = 1%nat.
Proof.
  intros HM. unfold fiterate. cbn [fattempts]. rewrite bs_h_ok by lia. cbn [obind]. destruct (midpoint func data t h (h_at (M + 1) 0)) as [y t1].
  destruct (init_ready M HM) as ((S1 & S2 & S3) & _). cbn [count_try b_ext]. rewrite aset_ok by lia. cbn [obind].
  set (b0 := set_row _ _ _ _). assert (HS : sizes M b0) by (unfold b0, sizes; cbn; rewrite list_set_length; auto).
  cbn [count_try b_rank bs_init]. replace (M - 1 + 1)%nat with (S (M - 1)) by lia. cbn [frows]. rewrite bs_h_ok by lia. cbn [obind].
  destruct (midpoint func data t1 h (h_at (M + 1) 1)) as [y2 t2].
  destruct (row_table_some M kdk (fun _ _ _ => 0) next b0 data y2 h 1) as (ext & ideal & cpl & e1 & e0 & -> & HS1); auto; try lia. cbn [obind].
  unfold in_converged_window at 1. change (b_first (set_row b0 ext ideal cpl)) with true. rewrite orb_true_r.
  destruct (Rle_dec 0 1) as [_|X]; [|exfalso; apply X; lra].
  set (ba := accept1 _ _). destruct (set_next_first M kdk HM ba 1) as (s & ->); auto; try lia. cbn [obind]. change (b_reject ba) with false. cbv iota.
  cbn [b_ext set_rank]. destruct HS1 as (L1 & _). change (b_ext ba) with (b_ext (set_row b0 ext ideal cpl)). rewrite aget_entry by lia. cbn [obind].
  eexists _, _, _, _. split; [reflexivity|]. reflexivity.
Qed.
