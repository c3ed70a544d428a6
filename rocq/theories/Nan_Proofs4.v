(** A particle added twice: the adaptive iterator with the worst-offender checker accepts the result. *)
From Verif Require Import Nan_Spec Nan_Proofs Nan_Proofs2 Nan_Proofs3 Ctrl_Spec Ctrl_Proofs BS_Proofs2.
Open Scope R_scope.

Lemma combine_nan : forall (A : Type) (F : A -> ext -> ext) r (L : nat), length r = L -> (forall a, F a NaN = NaN) -> map (fun xy => F (fst xy) (snd xy)) (combine r (repeat NaN L)) = repeat NaN L.
Proof. induction r as [|x r IH]; intros [|L] E H; cbn in *; try discriminate; auto. rewrite H, IH; auto. Qed.
Lemma xzipw_nan_r F r L : length r = L -> (forall a, F a NaN = NaN) -> xzipw F r (repeat NaN L) = repeat NaN L.
Proof. apply combine_nan. Qed.
Lemma xzipw_nan_l F : (forall a, F NaN a = NaN) -> forall r L, length r = L -> xzipw F (repeat NaN L) r = repeat NaN L.
Proof. intros H. unfold xzipw. induction r as [|x r IH]; intros [|L] E; cbn in *; try discriminate; auto. rewrite H, IH; auto. Qed.
Lemma xzipw_cons F a b x y : xzipw F (x :: a) (y :: b) = F x y :: xzipw F a b. Proof. reflexivity. Qed.

Lemma wo_rest atol rtol L : forall (y0 : list ext) e, fold_left (fun m abb => emax m (wo_ratio atol rtol abb)) (zip3 y0 (repeat NaN L) (repeat NaN L)) e = e.
Proof.
  unfold zip3. induction L as [|L IH]; intros [|x y0] e; cbn [repeat combine fold_left]; auto.
Qed.
Lemma wo_call atol rtol t h L r : 0 < atol -> 0 <= rtol -> xwo_error atol rtol (Fin t :: r) (Fin h :: repeat NaN L) (Fin h :: repeat NaN L) = Fin 0.
Proof.
  intros Ha Hr. unfold xwo_error. change (zip3 (Fin t :: r) (Fin h :: repeat NaN L) (Fin h :: repeat NaN L)) with ((Fin t, Fin h, Fin h) :: zip3 r (repeat NaN L) (repeat NaN L)).
  cbn [fold_left]. rewrite wo_rest. unfold wo_ratio. rewrite esub_fin. cbn [eabs]. rewrite emax_fin. cbn [emul eadd].
  assert (0 <= Rmax (Rabs h) (Rabs t)) by (apply Rle_trans with (Rabs h); [apply Rabs_pos|apply Rmax_l]).
  rewrite ediv_fin by nra. replace (h - h) with 0 by lra. rewrite Rabs_R0. rewrite emax_fin. f_equal. unfold Rdiv. rewrite Rmult_0_l. apply Rmax_left. lra.
Qed.


Lemma aget_set {A} (l l' : list A) i x j : aset l i x = Ok l' -> aget l' j = if (j =? i)%nat then Ok x else aget l j.
Proof. intros E. unfold aget. rewrite (aset_nth _ _ _ _ j E). destruct (j =? i)%nat; reflexivity. Qed.
Lemma aset_ok {A} (l : list A) i x : (i < length l)%nat -> exists l', aset l i x = Ok l' /\ length l' = length l.
Proof. intros H. unfold aset. destruct (i <? length l)%nat eqn:Q; [|apply Nat.ltb_ge in Q; lia]. eexists. split; [reflexivity|]. apply list_set_length. Qed.

Section Call.
  Variables (tries M : nat) (kdk : bool).
  Variables (P : Type) (wr : P -> list ext) (rd : P -> list ext -> outcome P) (collect : P -> bool -> P).
  Variable run : P -> ext -> nat -> outcome (P * list ext).
  Variables (atol rtol : R) (cf : list setter).
  Hypothesis Ha : 0 < atol.
  Hypothesis Hr : 0 <= rtol.
  Hypothesis HM : (3 <= M)%nat.
  Let nx := fun o e => next (configured cf) o (Err1 e).
  Let lim := limiter (configured cf).
  (** The iterator as constructed, or after such a call. *)
  Definition calm (b : xbs) : Prop :=
    length (x_ext b) = (M + 1)%nat /\ length (x_ideal b) = (M + 1)%nat /\ length (x_cpl b) = (M + 1)%nat /\ aget (x_cpl b) 0 = Ok (Fin 0) /\ x_reject b = false /\
    (1 <= x_rank b)%nat /\ (x_first b = true \/ (x_rank b = 1%nat \/ x_rank b = 2%nat)).
  Lemma bs_h_ok k : (k <= M)%nat -> bs_h (M + 1) k = Ok (h_at (M + 1) k).
  Proof. intros H. unfold bs_h. destruct (k <? M + 1)%nat eqn:Q; [reflexivity|apply Nat.ltb_ge in Q; lia]. Qed.
  Lemma bs_cost_ok k : (k <= M)%nat -> bs_cost (M + 1) kdk k = Ok (INR (cost_at (M + 1) kdk k)).
  Proof. intros H. unfold bs_cost. destruct (k <? M + 1)%nat eqn:Q; [reflexivity|apply Nat.ltb_ge in Q; lia]. Qed.
  Lemma clamp_high : in_range (Fin (low_factor 3)) (Fin (high_factor 3)) (Fin (high_factor 3)) = Fin (high_factor 3).
  Proof.
    unfold in_range. rewrite egt_fin. pose proof (factors 3) as (_ & F1 & F2). destruct (Rlt_dec (high_factor 3) (low_factor 3)); [lra|]. rewrite egt_fin.
    destruct (Rlt_dec (high_factor 3) (high_factor 3)); reflexivity.
  Qed.
  Lemma clamp_above x : high_factor 3 < x -> in_range (Fin (low_factor 3)) (Fin x) (Fin (high_factor 3)) = Fin (high_factor 3).
  Proof.
    intros H. unfold in_range. rewrite egt_fin. pose proof (factors 3) as (_ & F1 & F2). destruct (Rlt_dec x (low_factor 3)); [lra|]. rewrite egt_fin.
    destruct (Rlt_dec (high_factor 3) x); [reflexivity|lra].
  Qed.
  Lemma h_at_2 : (0 < h_at (M + 1) 2)%nat.
  Proof. unfold h_at. destruct (M + 1 <=? 11)%nat; cbn; lia. Qed.
  Lemma accept_row_one b p t h L r0 rin p1 p2 p3 p4 p5 :
    calm b -> 0 < h -> length r0 = L -> length rin = L ->
    run p (Fin h) (h_at (M + 1) 0) = Ok (p1, Fin h :: r0) ->
    rd p1 (Fin t :: rin) = Ok p2 ->
    run p2 (Fin h) (h_at (M + 1) 1) = Ok (p3, Fin h :: repeat NaN L) ->
    rd p3 (Fin (t + h) :: repeat NaN L) = Ok p4 -> p5 = collect p4 false ->
    exists b', xattempts M kdk P rd collect run (xwo_error atol rtol) nx lim (S tries) b p (Fin t :: rin) (Fin h) = Ok (b', p5, Fin (h * high_factor 3)) /\ calm b' /\
      x_last b' = Fin 0 /\ x_first b' = false.
  Proof.
    intros (L1 & L2 & L3 & C0 & Rj & Rk & Fi) Hh Lr Li R0 Rd1 R1 Rd2 ->.
    cbn [xattempts]. rewrite bs_h_ok by lia. cbn [obind]. rewrite R0. cbn [obind]. change (x_ext (xcount_try b)) with (x_ext b).
    destruct (aset_ok (x_ext b) 0 (Fin h :: r0) ltac:(lia)) as (t0 & T0 & Lt0). rewrite T0. cbn [obind].
    change (x_rank (xcount_try b)) with (x_rank b). replace (x_rank b + 1)%nat with (S (x_rank b)) by lia.
    cbn [xrows]. rewrite Rd1. cbn [obind]. rewrite bs_h_ok by lia. cbn [obind]. rewrite R1. cbn [obind].
    unfold xrow_table. cbn [x_ext xset_row]. destruct (aset_ok t0 1 (Fin h :: repeat NaN L) ltac:(lia)) as (t1 & T1 & Lt1). rewrite T1. cbn [obind].
    unfold xextrapolate. cbn [xextrap_loop].
    assert (Cf : bs_coef (M + 1) 1 (1 - 1) = Ok (coef_at (M + 1) 1 0)).
    { unfold bs_coef. destruct (1 * (M + 1) + (1 - 1) <? (M + 1) * (M + 1))%nat eqn:Q; [reflexivity|apply Nat.ltb_ge in Q; nia]. }
    rewrite Cf. cbn [obind]. set (cc := coef_at (M + 1) 1 0). clearbody cc.
    rewrite !(aget_set _ _ _ _ _ T1). cbn [Nat.eqb obind]. rewrite (aget_set _ _ _ _ _ T0). cbn [Nat.eqb obind].
    rewrite xzipw_cons, esub_fin. cbn [emul eadd]. replace (h + (h - h) * cc) with h by ring.
    rewrite xzipw_nan_l by (auto; intros a; apply eadd_nan_l).
    destruct (aset_ok t1 0 (Fin h :: repeat NaN L) ltac:(lia)) as (t2 & T2 & Lt2). rewrite T2. cbn [obind].
    rewrite !(aget_set _ _ _ _ _ T2). cbn [Nat.eqb obind]. rewrite (aget_set _ _ _ _ _ T1). cbn [Nat.eqb obind]. cbv zeta.
    rewrite wo_call by auto.
    assert (Nx : nx (2 * 1 + 1) (Fin 0) = Ok (Fin (high_factor 3))).
    { unfold nx, next. unfold Ctrl_Model.nonzero. destruct (Req_EM_T 0 0); [|lra]. change (2 * 1 + 1)%nat with 3%nat. rewrite max_get by lia. reflexivity. }
    rewrite Nx. cbn [obind emul]. cbn [x_ideal x_cpl xset_row xcount_try].
    set (f := high_factor 3) in *. assert (Hf : 1 < f) by (apply (factors 3)).
    destruct (aset_ok (x_ideal b) 1 (Fin (h * f)) ltac:(lia)) as (id & I1 & Li1). rewrite I1. cbn [obind].
    rewrite bs_cost_ok by lia. cbn [obind]. set (c1 := INR (cost_at (M + 1) kdk 1)). assert (Hc1 : 0 < c1) by apply cost_pos.
    assert (Hhf : 0 < h * f) by (apply Rmult_lt_0_compat; lra). rewrite ediv_fin by lra.
    destruct (aset_ok (x_cpl b) 1 (Fin (c1 / (h * f))) ltac:(lia)) as (cp & P1 & Lp1). rewrite P1. cbn [obind].
    unfold xin_converged_window. cbn [x_rank x_first x_ext xset_row xcount_try].
    assert (W : ((1 =? x_rank b - 1)%nat || (1 =? x_rank b)%nat || (1 =? x_rank b + 1)%nat || x_first b) = true).
    { destruct Fi as [->|[->| ->]]; rewrite ?orb_true_r; reflexivity. }
    rewrite W. rewrite Nan_Proofs.ele_fin. destruct (Rle_dec 0 1); [|lra].
    rewrite (aget_set _ _ _ _ _ T2). cbn [Nat.eqb obind]. rewrite xzipw_cons. cbn [eadd].
    rewrite xzipw_nan_r by (auto; intros a; apply eadd_nan_r). rewrite Rd2. cbn [obind]. cbv zeta.
    assert (Lim : forall x, x = f \/ f < x -> lim (2 * 1 + 1) (Fin x) = Ok (Fin f)).
    { intros x Hx. unfold lim, limiter. change (2 * 1 + 1)%nat with 3%nat. rewrite min_get, max_get by lia. cbn [obind]. f_equal.
      destruct Hx as [->|Hx]; [apply clamp_high|apply clamp_above; exact Hx]. }
    unfold xset_next_iteration, xaccept1. cbn [x_first x_rank x_reject x_ideal x_cpl xset_row xcount_try].
    destruct (x_first b) eqn:Ef; cbn [negb].
    - cbn [x_ideal xset_rank]. rewrite (aget_set _ _ _ _ _ I1). cbn [Nat.eqb obind]. rewrite ediv_fin by lra.
      rewrite (Lim (h * f / h)) by (left; field; lra). cbn [obind emul]. eexists. split; [reflexivity|]. unfold calm, xnot_first, xset_rank.
      cbn [x_ext x_ideal x_cpl x_first x_rank x_reject x_last]. rewrite (aget_set _ _ _ _ _ P1). cbn [Nat.eqb].
      cbn [xset_row x_ext]. repeat split; auto; try congruence; try lia.
    - destruct Fi as [Fi|Fi]; [discriminate|].
      assert (W2 : ((1 =? x_rank b - 1)%nat || (1 =? x_rank b)%nat) = true) by (destruct Fi as [->| ->]; reflexivity).
      rewrite W2. unfold xget_sub. cbn [Nat.ltb Nat.leb Nat.sub]. rewrite !(aget_set _ _ _ _ _ P1). cbn [Nat.eqb]. rewrite C0. cbn [obind emul]. rewrite egt_fin.
      assert (Hd : 0 < dec_factor * (c1 / (h * f))).
      { apply Rmult_lt_0_compat; [unfold dec_factor; lra|]. apply Rdiv_lt_0_compat; lra. }
      destruct (Rlt_dec 0 (dec_factor * (c1 / (h * f)))); [|lra].
      unfold xwith_step, xset_rank. cbn [x_ext x_ideal x_cpl x_last x_rank x_rej x_iter x_reject x_first].
      assert (Al : allowed M 0 = 2%nat) by (unfold allowed; change (0 <? 2)%nat with true; cbv iota zeta; destruct (M - 1 <? 2)%nat eqn:Q; [apply Nat.ltb_lt in Q; lia|reflexivity]).
      rewrite Al. unfold xget_next_step_len. cbn [Nat.leb Nat.eqb Nat.add]. cbn [x_ideal]. rewrite (aget_set _ _ _ _ _ I1). cbn [Nat.eqb obind].
      rewrite !bs_cost_ok by lia. cbn [obind emul]. fold c1. rewrite ediv_fin by lra. cbn [obind]. rewrite ediv_fin by lra.
      set (c2 := INR (cost_at (M + 1) kdk 2)).
      assert (Hc2 : c1 < c2) by (apply lt_INR; cbn [cost_at]; pose proof h_at_2; lia).
      rewrite (Lim (h * f * c2 / c1 / h)).
      2:{ right. apply Rmult_lt_reg_r with c1; [lra|]. replace (h * f * c2 / c1 / h * c1) with (f * c2) by (field; lra). apply Rmult_lt_compat_l; lra. }
      cbn [obind emul]. eexists. split; [reflexivity|]. unfold calm, xnot_first.
      cbn [x_ext x_ideal x_cpl x_first x_rank x_reject x_last]. rewrite (aget_set _ _ _ _ _ P1). cbn [Nat.eqb].
      cbn [xset_row x_ext]. repeat split; auto; try congruence; try lia.
  Qed.
End Call.

(** * The system *)
Lemma xto_vecs_nan k r : xto_vecs k (repeat NaN (3 * k) ++ r) = repeat nanv k.
Proof.
  induction k as [|k IH]; [reflexivity|]. replace (3 * S k)%nat with (S (S (S (3 * k)))) by lia. cbn [repeat app xto_vecs]. rewrite IH. reflexivity.
Qed.
Lemma alln_repeat n : alln n (repeat nanv n).
Proof. intros k Hk. unfold nn. revert k Hk. induction n as [|n IH]; intros [|k] Hk; cbn; try lia; auto. apply IH. lia. Qed.
Lemma xto_vecs_coords : forall l r, xto_vecs (length l) (xcoords l ++ r) = l.
Proof. induction l as [|[x y z] l IH]; intros r; [reflexivity|]. cbn [length xto_vecs xcoords flat_map app ex ey ez]. unfold xcoords in IH. rewrite IH. reflexivity. Qed.
Lemma skipn_app_len {A} (a b : list A) : skipn (length a) (a ++ b) = b.
Proof. induction a; cbn; auto. Qed.
Lemma read_lost m s T : ready_x m s -> exists s', xread s (Fin T :: repeat NaN (6 * length m)) = Ok s' /\ ready_x m s' /\ xs_t s' = Fin T /\
  xs_p s' = repeat nanv (length m) /\ xs_v s' = repeat nanv (length m).
Proof.
  intros (Em & L1 & L2 & L3 & Sy). unfold xread. rewrite Em. cbv zeta. cbn [length]. rewrite repeat_length.
  destruct (S (6 * length m) =? length m * 3 * 2 + 1)%nat eqn:Q; [|apply Nat.eqb_neq in Q; lia].
  unfold aget, time_offset. cbn [nth_error obind]. eexists. split; [reflexivity|].
  assert (E1 : xto_vecs (length m) (skipn pos_offset (Fin T :: repeat NaN (6 * length m))) = repeat nanv (length m)).
  { unfold pos_offset. cbn [skipn]. replace (6 * length m)%nat with (3 * length m + 3 * length m)%nat by lia. rewrite repeat_app. apply xto_vecs_nan. }
  assert (E2 : xto_vecs (length m) (skipn (vel_offset (length m)) (Fin T :: repeat NaN (6 * length m))) = repeat nanv (length m)).
  { unfold vel_offset. replace (length m * 3 + 1)%nat with (S (length (repeat NaN (3 * length m)))) by (rewrite repeat_length; lia). cbn [skipn].
    replace (6 * length m)%nat with (3 * length m + 3 * length m)%nat at 1 by lia. rewrite repeat_app, skipn_app_len. rewrite <- (app_nil_r (repeat NaN (3 * length m))). apply xto_vecs_nan. }
  cbn [xs_t xs_p xs_v]. rewrite E1, E2. split; [|auto]. unfold ready_x. cbn [xs_m xs_p xs_v xs_inc xs_sync]. rewrite !repeat_length. auto.
Qed.
Lemma read_back m s0 s t : xs_m s = m /\ length (xs_inc s) = (6 * length m + 1)%nat /\ xs_sync s = true -> xs_t s0 = Fin t -> length (xs_p s0) = length m -> length (xs_v s0) = length m ->
  exists s', xread s (xwrite s0) = Ok s' /\ ready_x m s' /\ xs_t s' = Fin t /\ xs_p s' = xs_p s0 /\ xs_v s' = xs_v s0.
Proof.
  intros (Em & L3 & Sy) Et Lp Lv. unfold xread, xwrite. rewrite Em. cbv zeta. cbn [length]. rewrite app_length, !xcoords_length, Lp, Lv.
  destruct (S (3 * length m + 3 * length m) =? length m * 3 * 2 + 1)%nat eqn:Q; [|apply Nat.eqb_neq in Q; lia].
  unfold aget, time_offset. cbn [nth_error obind]. eexists. split; [reflexivity|].
  assert (E1 : xto_vecs (length m) (skipn pos_offset (xs_t s0 :: xcoords (xs_p s0) ++ xcoords (xs_v s0))) = xs_p s0).
  { unfold pos_offset. cbn [skipn]. rewrite <- Lp. apply xto_vecs_coords. }
  assert (E2 : xto_vecs (length m) (skipn (vel_offset (length m)) (xs_t s0 :: xcoords (xs_p s0) ++ xcoords (xs_v s0))) = xs_v s0).
  { unfold vel_offset. replace (length m * 3 + 1)%nat with (S (length (xcoords (xs_p s0)))) by (rewrite xcoords_length; lia). cbn [skipn].
    rewrite skipn_app_len, <- Lv. rewrite <- (app_nil_r (xcoords (xs_v s0))). apply xto_vecs_coords. }
  cbn [xs_t xs_p xs_v]. rewrite E1, E2. split; [|auto]. unfold ready_x. cbn [xs_m xs_p xs_v xs_inc xs_sync]. auto.
Qed.
(** A state between calls. *)
Definition fits (m : list ext) (s : xst) : Prop :=
  xs_m s = m /\ length (xs_p s) = length m /\ length (xs_v s) = length m /\ length (xs_inc s) = (6 * length m + 1)%nat.
Lemma h_at_0 M : (0 < h_at (M + 1) 0)%nat. Proof. unfold h_at. destruct (M + 1 <=? 11)%nat; cbn; lia. Qed.
Lemma h_at_1 M : (2 <= h_at (M + 1) 1)%nat. Proof. unfold h_at. destruct (M + 1 <=? 11)%nat; cbn; lia. Qed.
Lemma twin_transfer s s' : xs_m s' = xs_m s -> xs_p s' = xs_p s -> xs_v s' = xs_v s -> twin s \/ all_gone s -> twin s' \/ all_gone s'.
Proof. unfold twin, all_gone. intros -> -> ->. auto. Qed.
Lemma one_call tries M kdk atol rtol cf m b s t h : 0 < atol -> 0 <= rtol -> (3 <= M)%nat -> (0 < tries)%nat -> 0 < h -> calm M b -> fits m s -> xs_t s = Fin t -> twin s \/ all_gone s ->
  exists b' s', xbs_call tries M kdk (xwo_error atol rtol) (configured cf) b s (Fin h) = Ok (b', s', Fin (h * high_factor 3)) /\ calm M b' /\ fits m s' /\ xs_t s' = Fin (t + h) /\
    all_gone s' /\ lost s' /\ x_last b' = Fin 0.
Proof.
  intros Ha Hr HM Ht Hh Cb (Em & L1 & L2 & L3) Et Tw. destruct tries as [|tries]; [lia|]. unfold xbs_call, xiterate. cbv zeta.
  set (s0 := xcollect s true).
  assert (R0 : ready_x m s0) by (unfold ready_x, s0; cbn; auto).
  destruct (run_any kdk m s0 h (h_at (M + 1) 0) t R0 (h_at_0 M) Et) as (s1 & r0 & E1 & Lr & R1).
  destruct (read_back m s s1 t (let '(conj A (conj _ (conj _ (conj B Z)))) := R1 in conj A (conj B Z)) Et L1 L2) as (s2 & E2 & R2 & T2 & P2 & V2).
  assert (Tw2 : twin s2 \/ all_gone s2) by (apply (twin_transfer s); auto; destruct R2; congruence).
  assert (G2 : (2 <= length m)%nat) by (destruct Tw as [(i & j & x & u & H & _)|(H & _)]; rewrite Em in H; lia).
  destruct (run_lost kdk m s2 h (h_at (M + 1) 1) t R2) as (s3 & E3 & R3); [pose proof (h_at_1 M); lia|exact T2| |].
  { destruct Tw2 as [Tw2|Tw2]; [left; split; [exact Tw2|apply h_at_1]|right; exact Tw2]. }
  destruct (read_lost m s3 (t + h) R3) as (s4 & E4 & R4 & T4 & P4 & V4).
  unfold xwrite in E2. rewrite Et in E2. unfold xwrite. rewrite Et.
  destruct (accept_row_one tries M kdk xst xread xcollect (xrun kdk) atol rtol cf Ha Hr HM b s0 t h (6 * length m)%nat r0 (xcoords (xs_p s) ++ xcoords (xs_v s)) s1 s2 s3 s4
    (xcollect s4 false) Cb Hh Lr) as (b' & E & Cb' & La & Fb); auto.
  { rewrite app_length, !xcoords_length. lia. }
  exists b', (xcollect s4 false). split; [exact E|]. split; [exact Cb'|]. destruct R4 as (M4 & A4 & B4 & C4 & _).
  split; [unfold fits; cbn; auto|]. split; [exact T4|]. split; [|split; [|exact La]].
  - unfold all_gone. cbn [xcollect xs_m xs_p xs_v]. rewrite M4, P4, V4. split; [exact G2|]. split; apply alln_repeat.
  - unfold lost. cbn [xcollect xs_p xs_v]. rewrite P4, V4. split; apply Forall_forall; intros x Hx; apply repeat_spec in Hx; auto.
Qed.
Lemma many_calls tries M kdk atol rtol cf m hs : 0 < atol -> 0 <= rtol -> (3 <= M)%nat -> (0 < tries)%nat -> Forall (fun h => 0 < h) hs -> forall b s t,
  calm M b -> fits m s -> xs_t s = Fin t -> twin s \/ all_gone s ->
  exists b' s', calls (xbs_call tries M kdk (xwo_error atol rtol) (configured cf)) hs b s = Ok (b', s') /\ xs_t s' = Fin (t + fold_right Rplus 0 hs) /\ (hs <> [] -> lost s').
Proof.
  intros Ha Hr HM Ht. induction hs as [|h hs IH]; intros Hp b s t Cb Fs Et Tw; cbn [calls fold_right].
  - exists b, s. split; [reflexivity|]. split; [rewrite Et; f_equal; ring|congruence].
  - inversion Hp; subst. destruct (one_call tries M kdk atol rtol cf m b s t h) as (b1 & s1 & E1 & Cb1 & Fs1 & T1 & G1 & Lo & _); auto.
    rewrite E1. cbn [obind]. destruct (IH H2 b1 s1 (t + h) Cb1 Fs1 T1 (or_intror G1)) as (b' & s' & E & T' & Lo'). exists b', s'. split; [exact E|].
    split; [rewrite T'; f_equal; ring|]. intros _. destruct hs as [|h2 hs]; [|apply Lo'; discriminate]. cbn [calls] in E. injection E as <- <-. exact Lo.
Qed.
