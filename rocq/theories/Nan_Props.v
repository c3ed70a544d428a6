(** Property C88: infinities and NaN in adaptive runs. *)
From Verif Require Import Force_Proofs System_Spec System_Proofs System_Proofs2 BS_Proofs2 Ctrl_Spec Nan_Spec Nan_Proofs Nan_Proofs2 Nan_Proofs3 Nan_Proofs4 Nan_Proofs5 Nan_Proofs6.
Open Scope R_scope.

(** * The error checkers *)
(** On ordinary numbers the checkers with special values are the checkers of C36. *)
Theorem C88_checkers_on_numbers atol rtol a b c :
  xwo_error atol rtol (fin a) (fin b) (fin c) = wo_error Rabs Rminus atol rtol a b c /\
  xmr_error atol rtol (fin a) (fin b) (fin c) = mr_error Rabs Rminus atol rtol a b c /\
  xrms_error atol rtol (fin a) (fin b) (fin c) = rms_error atol rtol a b c.
Proof. split; [apply xwo_fin|split; [apply xmr_fin|apply xrms_fin]]. Qed.
(** The RMS checker passes an estimate only if every entry is an ordinary number. *)
Theorem C88_rms_reports atol rtol y0 y1 y1' : 0 < atol -> 0 <= rtol -> length y1 = length y0 -> length y1' = length y0 -> Forall finite y0 ->
  ele (xrms_error atol rtol y0 y1 y1') (Fin 1) = true -> Forall finite y1 /\ Forall finite y1'.
Proof. apply xrms_accept. Qed.
(** The other two do not: the worst offender is computed as if the entry were not there, and an estimate without any number has error 0. *)
Theorem C88_worst_offender_ignores_refuted atol rtol : 
  (forall a b b' y0 y1 y1' z0 z1 z1', length y0 = length y1 -> length y0 = length y1' -> b = NaN \/ b' = NaN ->
     xwo_error atol rtol (y0 ++ a :: z0) (y1 ++ b :: z1) (y1' ++ b' :: z1') = xwo_error atol rtol (y0 ++ z0) (y1 ++ z1) (y1' ++ z1')) /\
  (forall y0 y1 y1', Forall (eq NaN) y1' -> xwo_error atol rtol y0 y1 y1' = Fin 0).
Proof. split; [intros; apply xwo_skip; auto|intros; apply xwo_all_nan; auto]. Qed.
(** An entry that has overflowed in the coarser estimate is passed over in the same way; one that has overflowed only in the finer estimate is always reported. *)
Theorem C88_overflow_ignored_refuted atol rtol r b b' y0 y1 y1' z0 z1 z1' : length y0 = length y1 -> length y0 = length y1' -> b = PInf \/ b = MInf -> 0 <= rtol ->
  xwo_error atol rtol (y0 ++ Fin r :: z0) (y1 ++ b :: z1) (y1' ++ b' :: z1') = xwo_error atol rtol (y0 ++ z0) (y1 ++ z1) (y1' ++ z1').
Proof. apply xwo_skip_inf. Qed.
Theorem C88_overflow_reported atol rtol r s b' y0 y1 y1' z0 z1 z1' : length y0 = length y1 -> length y0 = length y1' -> b' = PInf \/ b' = MInf -> 0 < atol -> 0 <= rtol ->
  xwo_error atol rtol (y0 ++ Fin r :: z0) (y1 ++ Fin s :: z1) (y1' ++ b' :: z1') = PInf.
Proof. apply xwo_sees_inf. Qed.
Theorem C88_max_ratio_ignores_refuted atol rtol y0 y1 y1' : 0 < atol -> 0 <= rtol -> y0 <> [] -> Forall finite y0 -> length y1 = length y0 -> length y1' = length y0 ->
  Forall (eq NaN) y1' -> xmr_error atol rtol y0 y1 y1' = Fin 0.
Proof. apply xmr_all_nan_accepts. Qed.
(** The checkers disagree on one and the same estimate. *)
Example C88_checkers_case : let y0 := [Fin 1; Fin 2] in let y := [Fin 3; NaN] in
  ele (xwo_error 1 0 y0 y y) (Fin 1) = true /\ ele (xrms_error 1 0 y0 y y) (Fin 1) = false.
Proof.
  cbv zeta. split.
  - change [Fin 1; Fin 2] with ([Fin 1] ++ Fin 2 :: []). change [Fin 3; NaN] with ([Fin 3] ++ NaN :: []). rewrite xwo_skip by auto. change ([Fin 1] ++ []) with (fin [1]).
    change ([Fin 3] ++ []) with (fin [3]). destruct (worst_fin 1 0 [1] [3] [3] ltac:(lra) ltac:(lra)) as [-> _]. unfold worst, zip3. cbn [combine fold_left].
    rewrite ele_fin. destruct (Rle_dec _ 1) as [|N]; [reflexivity|exfalso; apply N]. replace (3 - 3) with 0 by ring. rewrite Rabs_R0. unfold Rdiv. rewrite Rmult_0_l. rewrite Rmax_left; lra.
  - destruct (ele (xrms_error 1 0 [Fin 1; Fin 2] [Fin 3; NaN] [Fin 3; NaN]) (Fin 1)) eqn:E; [|reflexivity]. exfalso.
    destruct (xrms_accept 1 0 [Fin 1; Fin 2] [Fin 3; NaN] [Fin 3; NaN]) as [F _]; try lra; auto; [repeat constructor; eexists; reflexivity|].
    apply Forall_inv_tail, Forall_inv in F. destruct F as [r F]. discriminate.
Qed.

(** * Runs on ordinary numbers *)
(** As long as no force is evaluated with two particles at one place, a call on ordinary numbers is the call of the real-number model (C32, C33):
    same iterator, same state, same next step; no special value appears. *)
Theorem C88_finite_runs tries M kdk atol rtol cf s1 s2 b s h b' s' h' :
  (M <= 24)%nat -> 0 < atol -> 0 <= rtol -> guards cf = (s1, s2) -> 0 < s1 -> 0 < s2 -> h <> 0 ->
  real_call tries M kdk atol rtol s1 s2 b s h = Ok (b', s', h') ->
  xbs_call tries M kdk (xwo_error atol rtol) (configured cf) (emb_bs b) (emb_st s) (Fin h) = Ok (emb_bs b', emb_st s', Fin h').
Proof. apply real_call_agree. Qed.
(** A new iterator is that of the real-number model. *)
Lemma map_rep {A B} (f : A -> B) x n : map f (repeat x n) = repeat (f x) n.
Proof. induction n; cbn [repeat map]; congruence. Qed.
Theorem C88_start M : xbs_init M = emb_bs (bs_init M).
Proof. unfold xbs_init, emb_bs, bs_init, fin. cbn [b_ext b_ideal b_cpl b_last b_rank b_rej b_iter b_reject b_first]. rewrite !map_rep. reflexivity. Qed.
(** The guarded sub-steps are those of the real-number model. *)
Theorem C88_safe_run_is_run kdk s h n q dy : safe_run kdk s h n = Ok (q, dy) -> simple_run newton_only kdk s h n = Ok (q, dy).
Proof. apply safe_run_is_run. Qed.
(** Two unit masses at rest, one step of length 1: such a call. *)
Definition two (sy : bool) (inc : list R) : st := mkSt [1; 1] 0 [mkV 1 0 0; mkV 0 0 0] [vzero; vzero] [] 0 0 0 inc sy.
Lemma collides2 p : vx (nth 0 p vzero) <> vx (nth 1 p vzero) -> collides 2 p = false.
Proof. intros H. unfold collides. change (all_pairs 2) with [(0%nat, 1%nat)]. cbn [existsb fst snd]. cbv zeta. destruct (Req_EM_T _ _); [contradiction|reflexivity]. Qed.
Lemma newton2 p q : newton_acc [1; 1] [p; q] = let d := vsub q p in let k := 1 / (norm d * norm d * norm d) in [vscal k d; vneg (vscal k d)].
Proof.
  unfold newton_acc. cbv zeta. unfold direct_calls, sys_of. cbn [sn length]. change (all_pairs 2) with [(0%nat, 1%nat)]. cbn [map true_call sp sv nth].
  unfold add_acc, apply_pair, newton_pair. cbn [fold_left c_dr c_dv c_i c_j sm nth]. unfold tolist. cbn [seq map]. unfold upd. cbn [Nat.eqb].
  set (d := vsub q p). clearbody d. f_equal; [|f_equal]; apply vec_eq; cbn [vadd vneg vscal vx vy vz vzero]; ring.
Qed.
Lemma safe_keeps h : forall l s s', safe_ops h l s = Ok s' -> s_m s' = s_m s /\ length (s_inc s') = length (s_inc s).
Proof.
  assert (A : forall s off ds inc, length (sync s off ds inc) = length inc) by (intros; unfold sync; destruct (s_sync s); auto; apply add_at_length).
  induction l as [|[c|c] l IH]; intros s s' E; cbn [safe_ops] in E; [injection E as <-; auto| |].
  - apply IH in E. destruct E as [-> ->]. cbn [drift s_m s_inc]. rewrite !A. auto.
  - destruct (collides _ _); [discriminate|]. apply IH in E. destruct E as [-> ->]. unfold kick. cbn [newton_only I_dep]. unfold kick_vel. cbn [s_m s_inc]. rewrite A. auto.
Qed.
Lemma read13 s y : s_m s = [1; 1] -> length y = 13%nat -> exists q, read newton_only s y = Ok q /\ s_m q = s_m s /\ s_inc q = s_inc s /\ s_sync q = s_sync s.
Proof.
  intros E L. unfold read, npart. rewrite E, L. cbn [length Nat.eqb variable_number newton_only I_dep Nat.b2n Nat.mul Nat.add].
  destruct y as [|t y]; [discriminate|]. cbn [aget nth_error time_offset obind]. eexists. split; [reflexivity|]. auto.
Qed.
Lemma two_runs inc : length inc = 13%nat -> forall n, n = 1%nat \/ n = 2%nat -> exists q dy, safe_run false (two true inc) 1 n = Ok (q, dy) /\ s_m q = [1; 1] /\ length dy = 13%nat /\ length (s_inc q) = 13%nat.
Proof.
  intros Li n Hn.
  assert (X : exists q, safe_ops (1 / INR n) (nsteps_ops false n) (clear_increment (two true inc)) = Ok q).
  { destruct Hn as [->| ->]; unfold nsteps_ops, dkd_ops; cbn [Nat.sub alternate app safe_ops].
    - cbn [drift clear_increment two s_m s_p s_v length]. rewrite collides2; [eauto|]. cbn [advance combine map fst snd nth vadd vscal vzero vx]. lra.
    - set (h := 1 / INR 2). assert (Hh : h = / 2) by (unfold h; cbn; lra). clearbody h. subst h.
      cbn [drift clear_increment two s_m s_p s_v length]. rewrite collides2; [|cbn [advance combine map fst snd nth vadd vscal vzero vx]; lra].
      assert (KN : forall s h, kick newton_only s h = kick_vel s (newton_acc (s_m s) (s_p s)) h) by reflexivity.
      rewrite !KN. unfold kick_vel. cbn [clear_increment two s_m s_p s_v drift length]. change (advance [mkV 1 0 0; mkV 0 0 0] [vzero; vzero] (0.5 * / 2)) with [vadd (mkV 1 0 0) (vscal (0.5 * / 2) vzero); vadd (mkV 0 0 0) (vscal (0.5 * / 2) vzero)]. rewrite newton2. cbv zeta.
      match goal with |- context [norm ?d] => set (dd := d) end.
      assert (Hd : dd = mkV (-1) 0 0) by (unfold dd; apply vec_eq; cbn [vsub vadd vscal vzero vx vy vz]; lra). clearbody dd. subst dd.
      assert (Hn : norm (mkV (-1) 0 0) = 1) by (unfold norm, norm2, dot; cbn [vx vy vz]; replace (-1 * -1 + 0 * 0 + 0 * 0) with 1 by lra; apply sqrt_1). rewrite Hn.
      unfold advance. cbn [clear_increment two s_m s_p s_v drift length combine map fst snd]. rewrite collides2; [eauto|]. cbn [nth vadd vscal vneg vzero vx]. lra. }
  destruct X as (q & E). exists q, (s_inc q). destruct (safe_keeps _ _ _ _ E) as [A B]. cbn [clear_increment two s_m s_inc] in A, B. rewrite map_length, Li in B.
  split; [|auto]. unfold safe_run. destruct Hn as [->| ->]; rewrite E; reflexivity.
Qed.
Example C88_finite_case M : (3 <= M)%nat -> exists atol b' s' h', 0 < atol /\ real_call 1 M false atol 0 0.65 0.95 (bs_init M) (two false (repeat 0 13)) 1 = Ok (b', s', h').
Proof.
  intros HM. assert (H0 : h_at (M + 1) 0 = 1%nat) by (unfold h_at; destruct (M + 1 <=? 11)%nat; reflexivity).
  assert (H1 : h_at (M + 1) 1 = 2%nat) by (unfold h_at; destruct (M + 1 <=? 11)%nat; reflexivity).
  destruct (two_runs (repeat 0 13) eq_refl 1%nat (or_introl eq_refl)) as (p1 & dy0 & R0 & M1 & L0 & I1).
  destruct (read13 p1 (write newton_only (two false (repeat 0 13))) M1 eq_refl) as (p2 & Rd1 & M2 & I2 & S2).
  assert (P2 : p2 = two true (s_inc p2)).
  { unfold safe_run in R0. apply obind_ok in R0. destruct R0 as (q & E & Eq). injection Eq as Eq1 Eq2.
    assert (G : forall l h s s', safe_ops h l s = Ok s' -> s_sync s' = s_sync s /\ s_w s' = s_w s /\ s_om s' = s_om s /\ s_be s' = s_be s /\ s_sc s' = s_sc s).
    { clear. induction l as [|[c|c] l IH]; intros h s s' E; cbn [safe_ops] in E; [injection E as <-; auto|apply IH in E; exact E|]. destruct (collides _ _); [discriminate|]. apply IH in E. exact E. }
    destruct (G _ _ _ _ E) as (G1 & G2 & G3 & G4 & G5). rewrite Eq1 in *. clear -Rd1 M1 G1 G2 G3 G4 G5.
    unfold read, npart in Rd1. rewrite M1 in Rd1. cbn [length Nat.eqb variable_number newton_only I_dep Nat.b2n Nat.mul Nat.add] in Rd1.
    unfold write, two in Rd1. cbn [s_t s_p s_v coords flat_map app newton_only I_dep length vx vy vz vzero Nat.eqb] in Rd1. cbn [aget nth_error time_offset obind] in Rd1.
    injection Rd1 as <-. cbn [s_inc]. unfold two. cbn [clear_increment two s_sync s_w s_om s_be s_sc] in *. rewrite G1, G2, G3, G4, G5. reflexivity. }
  destruct (two_runs (s_inc p2)) with (n := 2%nat) as (p3 & dy1 & R1 & M3 & L1 & I3); [congruence|auto|]. rewrite <- P2 in R1.
  set (y := zipw (fun x y => x + (x - y) * coef_at (M + 1) 1 0) dy1 dy0).
  assert (Ly : length y = 13%nat) by (unfold y, zipw; rewrite map_length, combine_length, L0, L1; reflexivity).
  destruct (read13 p3 (zipw Rplus (write newton_only (two false (repeat 0 13))) y) M3) as (p4 & Rd2 & _); [unfold zipw; rewrite map_length, combine_length, Ly; reflexivity|].
  destruct (worst_bound (write newton_only (two false (repeat 0 13))) dy1 y) as (a & A). exists (Rmax a 1).
  destruct (first_accept 1 M false st (write newton_only) (read newton_only) set_sync (safe_run false) (worst (Rmax a 1) 0) (real_next 0.65 0.95) real_limit (two false (repeat 0 13)) 1 p1 p2 p3 p4 dy0 dy1)
    as (b' & h' & E); auto.
  - rewrite H0. exact R0.
  - rewrite H1. exact R1.
  - fold y. apply A; [apply Rmax_l|apply Rmax_r].
  - exists b', (set_sync p4 false), h'. split; [|exact E]. pose proof (Rmax_r a 1). lra.
Qed.

(** * A particle added twice *)
(** With the worst-offender checker -- the checker of every shipped Bulirsch-Stoer method -- every call on a set that holds the same particle twice is accepted:
    the reported error is 0, all positions and velocities are NaN, the clock has advanced by the step, and the next step is longer by the largest factor
    the controller allows. *)
Theorem C88_duplicated_accepted_refuted tries M kdk atol rtol cf s h : 0 < atol -> 0 <= rtol -> (3 <= M)%nat -> (0 < tries)%nat -> 0 < h ->
  well_sized newton_only 1 s -> duplicated (s_m s) (s_p s) (s_v s) ->
  exists b' s', xbs_call tries M kdk (xwo_error atol rtol) (configured cf) (xbs_init M) (emb_st s) (Fin h) = Ok (b', s', Fin (h * high_factor 3)) /\
    x_last b' = Fin 0 /\ xs_t s' = Fin (s_t s + h) /\ lost s'.
Proof.
  intros Ha Hr HM Ht Hh (W1 & W2 & _ & W4) (D1 & D2 & i & j & Hij & Dp & Dv).
  destruct (one_call tries M kdk atol rtol cf (fin (s_m s)) (xbs_init M) (emb_st s) (s_t s) h Ha Hr HM Ht Hh) as (b' & s' & E & _ & _ & T & _ & Lo & La).
  - unfold calm, xbs_init. cbn [x_ext x_ideal x_cpl x_reject x_rank x_first]. rewrite !repeat_length. repeat split; auto; try lia. destruct M as [|M]; [lia|]. reflexivity.
  - unfold fits, emb_st. cbn [xs_m xs_p xs_v xs_inc]. rewrite !map_length, !fin_length. repeat split; auto. rewrite W4. unfold variable_number, npart. cbn [newton_only I_dep Nat.b2n Nat.add]. lia.
  - reflexivity.
  - left. exists i, j, (nth i (s_p s) vzero), (nth i (s_v s) vzero). unfold emb_st. cbn [xs_m xs_p xs_v]. rewrite !nth_efin, fin_length, <- Dp, <- Dv. auto.
  - eauto 6.
Qed.
(** The same for any number of calls with any positive steps. *)
Theorem C88_duplicated_run_refuted tries M kdk atol rtol cf s hs : 0 < atol -> 0 <= rtol -> (3 <= M)%nat -> (0 < tries)%nat -> hs <> [] -> Forall (fun h => 0 < h) hs ->
  well_sized newton_only 1 s -> duplicated (s_m s) (s_p s) (s_v s) ->
  exists b' s', calls (xbs_call tries M kdk (xwo_error atol rtol) (configured cf)) hs (xbs_init M) (emb_st s) = Ok (b', s') /\
    xs_t s' = Fin (s_t s + fold_right Rplus 0 hs) /\ lost s'.
Proof.
  intros Ha Hr HM Ht Hne Hp (W1 & W2 & _ & W4) (D1 & D2 & i & j & Hij & Dp & Dv).
  destruct (many_calls tries M kdk atol rtol cf (fin (s_m s)) hs Ha Hr HM Ht Hp (xbs_init M) (emb_st s) (s_t s)) as (b' & s' & E & T & Lo).
  - unfold calm, xbs_init. cbn [x_ext x_ideal x_cpl x_reject x_rank x_first]. rewrite !repeat_length. repeat split; auto; try lia. destruct M as [|M]; [lia|]. reflexivity.
  - unfold fits, emb_st. cbn [xs_m xs_p xs_v xs_inc]. rewrite !map_length, !fin_length. repeat split; auto. rewrite W4. unfold variable_number, npart. cbn [newton_only I_dep Nat.b2n Nat.add]. lia.
  - reflexivity.
  - left. exists i, j, (nth i (s_p s) vzero), (nth i (s_v s) vzero). unfold emb_st. cbn [xs_m xs_p xs_v]. rewrite !nth_efin, fin_length, <- Dp, <- Dv. auto.
  - exists b', s'. split; [exact E|]. split; [exact T|exact (Lo Hne)].
Qed.
(** With the RMS checker a call that returns leaves ordinary numbers only; on a set with a duplicated particle no call returns. *)
Theorem C88_rms_call tries M kdk atol rtol c b s h b' s' h' : 0 < atol -> 0 <= rtol -> well_sized newton_only 1 s ->
  xbs_call tries M kdk (xrms_error atol rtol) c b (emb_st s) h = Ok (b', s', h') ->
  finite (xs_t s') /\ Forall finite (xcoords (xs_p s')) /\ Forall finite (xcoords (xs_v s')).
Proof.
  intros Ha Hr (W1 & W2 & _ & W4) E. refine (proj1 (rms_call tries M kdk atol rtol c b (emb_st s) h b' s' h' Ha Hr _ _ _ _ E)).
  - cbn [emb_st xs_m xs_p]. rewrite map_length, fin_length. exact W1.
  - cbn [emb_st xs_m xs_v]. rewrite map_length, fin_length. exact W2.
  - cbn [emb_st xs_m xs_inc]. rewrite !fin_length, W4. unfold variable_number, npart. cbn [newton_only I_dep Nat.b2n Nat.add]. lia.
  - unfold numbers. cbn [emb_st xs_t xs_p xs_v]. rewrite !xcoords_fin. split; [eexists; reflexivity|]. split; apply Forall_forall; intros x Hx; apply in_map_iff in Hx; destruct Hx as (r & <- & _); eexists; reflexivity.
Qed.
Theorem C88_rms_refuses tries M kdk atol rtol c b s h o : 0 < atol -> 0 <= rtol -> well_sized newton_only 1 s -> duplicated (s_m s) (s_p s) (s_v s) ->
  xbs_call tries M kdk (xrms_error atol rtol) c b (emb_st s) h <> Ok o.
Proof.
  intros Ha Hr (W1 & W2 & _ & W4) (D1 & D2 & i & j & Hij & Dp & Dv). apply (rms_refuses_twin tries M kdk atol rtol c b (emb_st s) h (fin (s_m s)) (s_t s) o Ha Hr).
  - unfold fits, emb_st. cbn [xs_m xs_p xs_v xs_inc]. rewrite !map_length, !fin_length. repeat split; auto. rewrite W4. unfold variable_number, npart. cbn [newton_only I_dep Nat.b2n Nat.add]. lia.
  - reflexivity.
  - unfold numbers. cbn [emb_st xs_t xs_p xs_v]. rewrite !xcoords_fin. split; [eexists; reflexivity|]. split; apply Forall_forall; intros x Hx; apply in_map_iff in Hx; destruct Hx as (r & <- & _); eexists; reflexivity.
  - exists i, j, (nth i (s_p s) vzero), (nth i (s_v s) vzero). unfold emb_st. cbn [xs_m xs_p xs_v]. rewrite !nth_efin, fin_length, <- Dp, <- Dv. auto.
Qed.
(** Three stars, the third a copy of the first. *)
Example C88_duplicated_case : let s := mkSt [1; 2; 1] 0 [mkV 1 0 0; mkV 0 0 0; mkV 1 0 0] [mkV 0 1 0; mkV 0 0 0; mkV 0 1 0] [] 0 0 0 (repeat 0 19) false in
  well_sized newton_only 1 s /\ duplicated (s_m s) (s_p s) (s_v s).
Proof.
  cbv zeta. split; [repeat split; discriminate|]. split; [reflexivity|]. split; [reflexivity|]. exists 0%nat, 2%nat. repeat split; cbn; lia.
Qed.
Print Assumptions C88_checkers_on_numbers. Print Assumptions C88_rms_reports. Print Assumptions C88_worst_offender_ignores_refuted. Print Assumptions C88_max_ratio_ignores_refuted.
Print Assumptions C88_finite_runs. Print Assumptions C88_start. Print Assumptions C88_safe_run_is_run. Print Assumptions C88_duplicated_accepted_refuted. Print Assumptions C88_duplicated_run_refuted.
Print Assumptions C88_overflow_ignored_refuted. Print Assumptions C88_overflow_reported. Print Assumptions C88_rms_call. Print Assumptions C88_rms_refuses. Print Assumptions C88_finite_case.
