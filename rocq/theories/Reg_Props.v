(** C66 (general derivative), C54 (regularised time transformation), C56 (two-body LogH step). *)
From Verif Require System_Proofs2.
From Verif Require Import Vec Force_Model Force_Spec Force_Proofs Diag_Spec Diag_Proofs System_Model System_Spec System_Proofs Reg_Spec Reg_Proofs.
From Coq Require Import List Lia Lra Reals.
Import ListNotations.
Open Scope R_scope.

(** * C66 *)
(** A curve of states is a motion (dt/dt = 1, dx/dt = v, dv/dt = total acceleration) exactly when its scalar array has
    the derivative reported by evaluate_general_derivative. *)
Theorem C66_derivative I S m t : sized I -> same_bodies I S m ->
  (moves I S t <-> entries_deriv (fun x => write I (S x)) t (derivative I (S t))).
Proof.
  intros SZ SB. unfold moves, write, derivative. destruct (SB t) as (Em & Lp & Lv & Lw).
  set (a := eval_total I (s_m (S t)) (s_p (S t)) (s_v (S t))).
  assert (La : length a = length m) by (unfold a; rewrite eval_total_len; auto; congruence).
  assert (Ln : npart (S t) = length m) by (unfold npart; congruence). rewrite Ln.
  assert (Ta : forall i, (i < length m)%nat -> of_list (total_acc I (s_m (S t)) (s_p (S t)) (s_v (S t))) i = of_list a i)
    by (intros i Hi; unfold of_list, a; symmetry; apply total_total; auto; congruence).
  set (ta := total_acc I (s_m (S t)) (s_p (S t)) (s_v (S t))) in *. clearbody ta.
  assert (Eq : (derivable_pt_lim (fun x => s_t (S x)) t 1 /\ (forall i, (i < length m)%nat -> vderiv (fun x => pos_of (S x) i) t (vel_of (S t) i)) /\
    (forall i, (i < length m)%nat -> vderiv (fun x => vel_of (S x) i) t (of_list ta i)) /\ (I_dep I = true -> forall i, (i < length m)%nat -> vderiv (fun x => of_list (s_w (S x)) i) t (of_list ta i))) <->
    (derivable_pt_lim (fun x => s_t (S x)) t 1 /\ (forall i, (i < length m)%nat -> vderiv (fun x => pos_of (S x) i) t (vel_of (S t) i)) /\
    (forall i, (i < length m)%nat -> vderiv (fun x => vel_of (S x) i) t (of_list a i)) /\ (I_dep I = true -> forall i, (i < length m)%nat -> vderiv (fun x => of_list (s_w (S x)) i) t (of_list a i)))).
  { split; intros (A & B & C & D); (split; [exact A|split; [exact B|split]]); intros; [rewrite <- Ta by auto|rewrite <- Ta by auto|rewrite Ta by auto|rewrite Ta by auto]; auto. }
  rewrite Eq. clear Eq Ta. split.
  - intros (A & B & C & D). apply cons_deriv; auto. apply app_deriv.
    + intros x. destruct (SB x) as (_ & Q & _). rewrite !coords_len. congruence.
    + apply (coords_deriv (fun x => s_p (S x)) (s_v (S t)) t (length m)); auto.
    + apply app_deriv.
      * intros x. destruct (SB x) as (_ & _ & Q & _). rewrite !coords_len. congruence.
      * apply (coords_deriv (fun x => s_v (S x)) a t (length m)); auto.
      * destruct (I_dep I) eqn:E; [|apply nil_deriv]. refine (coords_deriv (fun x => s_w (S x)) a t (length m) La _). intros i Hi. apply D; auto.
  - intros H. apply deriv_head in H as (A & H). apply deriv_app in H as (B & H).
    2:{ intros x. destruct (SB x) as (_ & Q & _). rewrite !coords_len. congruence. }
    apply deriv_app in H as (C & H).
    2:{ intros x. destruct (SB x) as (_ & _ & Q & _). rewrite !coords_len. congruence. }
    split; auto. split; [exact (deriv_coords (fun x => s_p (S x)) (s_v (S t)) t (length m) Lv B)|].
    split; [exact (deriv_coords (fun x => s_v (S x)) a t (length m) La C)|].
    intros E. rewrite E in H. exact (deriv_coords (fun x => s_w (S x)) a t (length m) La H).
Qed.
Example C66_case : exists S m t, same_bodies newton_only S m /\ moves newton_only S t /\ (2 <= length m)%nat.
Proof.
  (* two bodies at rest far apart would accelerate; use massless test bodies moving uniformly *)
  set (S := fun x : R => mkSt [0; 0] x [mkV x 0 0; mkV 0 1 0] [mkV 1 0 0; mkV 0 0 0] [] 0 0 0 [] false).
  exists S, [0; 0], 0. split; [intros x; simpl; repeat split; auto; discriminate|]. split; [|simpl; lia].
  assert (NZ : forall i, (i < 2)%nat -> of_list (total_acc newton_only (s_m (S 0)) (s_p (S 0)) (s_v (S 0))) i = vzero).
  { intros i Hi. unfold of_list. rewrite <- total_total; [|exact System_Proofs2.newton_sized|reflexivity|reflexivity|exact Hi]. unfold eval_total, tot_vi. cbn [newton_only I_dep I_ind I_newt].
    rewrite (newton_nth _ _ []) by (simpl; lia). unfold newt. rewrite add_acc_spec by apply direct_calls_ne. rewrite lsum_zero; [vring|].
    intros c Hc. unfold direct_calls in Hc. apply in_map_iff in Hc as ([a b] & <- & Hab). apply all_pairs_in in Hab. simpl in Hab.
    assert (a = 0%nat /\ b = 1%nat) as (-> & ->) by lia. unfold contrib. cbn [true_call c_i c_j]. rewrite newton_pair_eq. simpl.
    destruct i as [|[|i]]; simpl; [| |lia]; unfold Rdiv; vunf; f_equal; ring. }
  split; [apply derivable_pt_lim_id|]. cbn [npart S s_m length]. split; [|split; [|discriminate]].
  - intros i Hi. destruct i as [|[|i]]; [| |simpl in Hi; lia]; repeat split; simpl; try apply dv_const. apply derivable_pt_lim_id.
  - intros i Hi. rewrite NZ by (simpl in Hi; lia). destruct i as [|[|i]]; [| |simpl in Hi; lia]; repeat split; simpl; apply dv_const.
Qed.
Print Assumptions C66_derivative.

(** The regularised system: its reported derivative is that of a motion in regularised time, with clock and positions moving by
    h / (T + B) (LogH), h / omega (TTL) and velocities by h / U. *)
Theorem C66_regularised_derivative I r S m t : sized I -> same_bodies I S m ->
  let dx := match r with LogH => / (Tkin (S t) + s_be (S t)) | TTL => / s_om (S t) | NoReg => 1 end in
  let dv := match r with NoReg => 1 | _ => / Upot (S t) end in
  (moves_regularised I r dx dv S t <-> entries_deriv (fun x => rwrite I (S x)) t (rderivative I r (S t))).
Proof.
  intros SZ SB dx dv. unfold moves_regularised, rwrite, write, rderivative. cbv zeta. destruct (SB t) as (Em & Lp & Lv & Lw).
  assert (Ep : fst (pos_phy r (S t) 1) = dx) by (unfold dx, pos_phy; destruct r; cbn [fst]; auto; rewrite ?kin_T; unfold Rdiv; rewrite Rmult_1_l; auto; f_equal; ring).
  assert (Ev : fst (vel_phy r (S t) 1) = dv) by (unfold dv, vel_phy; destruct r; cbn [fst]; rewrite ?pot_U; unfold Rdiv; rewrite ?Rmult_1_l; auto).
  rewrite Ep, Ev. clearbody dx dv.
  set (nw := I_newt I (s_m (S t)) (s_p (S t))) in *.
  set (a := if I_ind I || I_dep I then vladd (eval_extra I (s_m (S t)) (s_p (S t)) (s_v (S t))) nw else nw).
  destruct (SZ (s_m (S t)) (s_p (S t)) (s_v (S t))) as (L1 & L2 & L3); [congruence|congruence|]. fold nw in L1.
  assert (Le : I_ind I || I_dep I = true -> length (eval_extra I (s_m (S t)) (s_p (S t)) (s_v (S t))) = length (s_m (S t)))
    by (unfold eval_extra; destruct (I_dep I), (I_ind I); intros; try discriminate; rewrite ?vladd_length; congruence).
  assert (La : length a = length m) by (unfold a; destruct (I_ind I || I_dep I) eqn:Q; rewrite ?vladd_length; rewrite ?Le; congruence).
  assert (Ln : npart (S t) = length m) by (unfold npart; congruence). rewrite Ln.
  assert (Ta : forall i, (i < length m)%nat -> nth i (total_acc I (s_m (S t)) (s_p (S t)) (s_v (S t))) vzero = nth i a vzero).
  { intros i Hi. rewrite total_nth by congruence. fold nw. unfold a. destruct (I_ind I || I_dep I) eqn:Q.
    - rewrite System_Proofs.vladd_nth by (rewrite Le; auto). rewrite extra_external by (auto; congruence). apply vadd_comm.
    - rewrite external_nth by congruence. apply orb_false_iff in Q as (Q1 & Q2). rewrite Q1, Q2. unfold vadd, vzero. destruct (nth i nw _). cbn. f_equal; ring. }
  set (ta := total_acc I (s_m (S t)) (s_p (S t)) (s_v (S t))) in *.
  assert (Po : power (s_m (S t)) (s_v (S t)) ta = contract (s_m (S t)) (s_v (S t)) a).
  { unfold power, contract. apply rsum_ext. intros i Hi. rewrite Ta by congruence. ring. }
  assert (Pn : power (s_m (S t)) (s_v (S t)) nw = contract (s_m (S t)) (s_v (S t)) nw) by (unfold power, contract; apply rsum_ext; intros; ring).
  assert (Vom : match r with TTL => dv * power (s_m (S t)) (s_v (S t)) nw | _ => 0 end = calc_domega_dt r (s_m (S t)) (s_v (S t)) nw * dv)
    by (unfold calc_domega_dt; destruct r; rewrite ?Pn; ring).
  assert (Vbe : match r with LogH => if I_ind I || I_dep I then - (dv * power (s_m (S t)) (s_v (S t)) ta) else 0 | _ => 0 end = calc_dbindE_dt I r (s_m (S t)) (s_v (S t)) a * dv)
    by (unfold calc_dbindE_dt; destruct r, (I_ind I || I_dep I); rewrite ?Po; ring).
  rewrite Vom, Vbe. generalize (calc_domega_dt r (s_m (S t)) (s_v (S t)) nw * dv), (calc_dbindE_dt I r (s_m (S t)) (s_v (S t)) a * dv). intros uo ub.
  assert (MN : forall k l i, nth i (map (vscal k) l) vzero = vscal k (nth i l vzero)). { intros k l i. rewrite <- (vscal_0 k) at 1. apply map_nth. }
  assert (Sc : forall l k, scaled l k = coords (map (vscal k) l)) by reflexivity. rewrite !Sc.
  assert (Lma : length (map (vscal dv) a) = length m) by (rewrite map_length; auto).
  assert (Lmv : length (map (vscal dx) (s_v (S t))) = length m) by (rewrite map_length; auto).
  assert (W : forall x, (s_t (S x) :: coords (s_p (S x)) ++ coords (s_v (S x)) ++ (if I_dep I then coords (s_w (S x)) else [])) ++ [s_om (S x); s_be (S x)]
     = s_t (S x) :: coords (s_p (S x)) ++ coords (s_v (S x)) ++ (if I_dep I then coords (s_w (S x)) else []) ++ [s_om (S x); s_be (S x)]).
  { intros x. cbn [app]. rewrite <- !app_assoc. reflexivity. }
  assert (EW : forall d, entries_deriv (fun x => (s_t (S x) :: coords (s_p (S x)) ++ coords (s_v (S x)) ++ (if I_dep I then coords (s_w (S x)) else [])) ++ [s_om (S x); s_be (S x)]) t d <->
     entries_deriv (fun x => s_t (S x) :: coords (s_p (S x)) ++ coords (s_v (S x)) ++ (if I_dep I then coords (s_w (S x)) else []) ++ [s_om (S x); s_be (S x)]) t d).
  { intros d. split; intros H k Hk; refine (dv_ext _ _ _ _ _ _ eq_refl (H k Hk)); intros x; cbv beta; rewrite W; reflexivity. }
  rewrite EW. clear EW W.
  assert (X1 : forall x, length (coords (s_p (S x))) = length (coords (map (vscal dx) (s_v (S t))))) by (intros x; destruct (SB x) as (_ & Q & _); rewrite !coords_len; congruence).
  assert (X2 : forall x, length (coords (s_v (S x))) = length (coords (map (vscal dv) a))) by (intros x; destruct (SB x) as (_ & _ & Q & _); rewrite !coords_len; congruence).
  assert (X3 : forall x, length (if I_dep I then coords (s_w (S x)) else []) = length (if I_dep I then coords (map (vscal dv) a) else [])).
  { intros x; destruct (SB x) as (_ & _ & _ & Q). destruct (I_dep I); auto. rewrite !coords_len. rewrite Q by auto. congruence. }
  unfold of_list in *. split.
  - intros (A & B & C & D & E & F). apply cons_deriv; auto. apply app_deriv; [auto| |].
    + refine (coords_deriv (fun x => s_p (S x)) _ t (length m) Lmv _). intros i Hi. rewrite MN. apply B; auto.
    + apply app_deriv; [auto| |].
      * refine (coords_deriv (fun x => s_v (S x)) _ t (length m) Lma _). intros i Hi. rewrite MN, <- Ta by auto. apply C; auto.
      * apply app_deriv; [auto| |].
        -- destruct (I_dep I) eqn:Q; [|apply nil_deriv]. refine (coords_deriv (fun x => s_w (S x)) _ t (length m) Lma _). intros i Hi. rewrite MN, <- Ta by auto. apply D; auto.
        -- apply cons_deriv; auto. apply cons_deriv; auto. apply nil_deriv.
  - intros H. apply deriv_head in H as (A & H). apply deriv_app in H as (B & H); [|auto]. apply deriv_app in H as (C & H); [|auto]. apply deriv_app in H as (D & H); [|auto].
    apply deriv_head in H as (E & H). apply deriv_head in H as (F & _). split; [exact A|]. split; [|split; [|split; [|split; [exact E|exact F]]]].
    + intros i Hi. pose proof (deriv_coords (fun x => s_p (S x)) _ t (length m) Lmv B i Hi) as G. cbv beta in G. rewrite MN in G. exact G.
    + intros i Hi. pose proof (deriv_coords (fun x => s_v (S x)) _ t (length m) Lma C i Hi) as G. cbv beta in G. rewrite MN in G. rewrite Ta by auto. exact G.
    + intros Q i Hi. rewrite Q in D. pose proof (deriv_coords (fun x => s_w (S x)) _ t (length m) Lma D i Hi) as G. cbv beta in G. rewrite MN in G. rewrite Ta by auto. exact G.
Qed.
Print Assumptions C66_regularised_derivative.

(** * C54 *)
(** Drift by h: one physical step for the clock and all positions. *)
Theorem C54_drift r s h : length (s_p s) = npart s -> length (s_v s) = npart s ->
  match r with LogH => Tkin s + s_be s <> 0 | TTL => s_om s <> 0 | NoReg => True end ->
  let s' := rdrift r s h in
  exists dt, match r with LogH => dt * (Tkin s + s_be s) = h | TTL => dt * s_om s = h | NoReg => dt = h end /\
    s_t s' = s_t s + dt /\ (forall i, pos_of s' i = vadd (pos_of s i) (vscal dt (vel_of s i))) /\
    s_v s' = s_v s /\ s_w s' = s_w s /\ s_om s' = s_om s /\ s_be s' = s_be s /\ s_m s' = s_m s /\ length (s_p s') = length (s_p s).
Proof.
  intros Hp Hv H s'. unfold s', rdrift. destruct (pos_phy r s h) as [dt sc] eqn:E. exists dt.
  split. { unfold pos_phy in E. rewrite <- kin_T in *. destruct r; inversion E; subst; auto; field; auto. lra. }
  unfold drift, set_sc, pos_of, vel_of; simpl. split; auto. split; [|repeat split; auto].
  - intros i. apply advance_nth. congruence.
  - unfold advance. rewrite map_length, combine_length. lia.
Qed.
(** Kick by h (no velocity-dependent force): one physical step for all velocities. *)
Theorem C54_kick I r s h : sized I -> I_dep I = false -> length (s_p s) = npart s -> length (s_v s) = npart s ->
  match r with NoReg => True | _ => Upot s <> 0 end ->
  let s' := rkick I r s h in
  let newt i := of_list (I_newt I (s_m s) (s_p s)) i in
  let ext i := if I_ind I then of_list (I_vi I (s_m s) (s_p s)) i else vzero in
  let mid i := vscal (/ 2) (vadd (vel_of s i) (vel_of s' i)) in
  exists dt, match r with NoReg => dt = h | _ => dt * Upot s = h end /\
    (forall i, (i < npart s)%nat -> vel_of s' i = vadd (vel_of s i) (vscal dt (vadd (newt i) (ext i)))) /\
    s_t s' = s_t s /\ s_p s' = s_p s /\ s_m s' = s_m s /\
    s_om s' = s_om s + match r with TTL => dt * rsum (fun i => mass_of s i * dot (mid i) (newt i)) (npart s) | _ => 0 end /\
    s_be s' = s_be s - match r with LogH => dt * rsum (fun i => mass_of s i * dot (mid i) (ext i)) (npart s) | _ => 0 end.
Proof.
  intros SZ ED Hp Hv H s' nw ex mid.
  destruct (SZ (s_m s) (s_p s) (s_v s) Hp Hv) as (Ln & Lx & _).
  unfold s' in *. unfold rkick in *. destruct (vel_phy r s h) as [dt sc] eqn:E. exists dt. rewrite ED in *.
  split. { unfold vel_phy in E. rewrite pot_U in E. destruct r; inversion E; subst; auto; field; auto. }
  set (vi := if I_ind I then vladd (I_vi I (s_m (set_sc s sc)) (s_p (set_sc s sc))) (I_newt I (s_m (set_sc s sc)) (s_p (set_sc s sc))) else I_newt I (s_m (set_sc s sc)) (s_p (set_sc s sc))) in *.
  assert (Lvi : length vi = length (s_v s)).
  { unfold vi. simpl. unfold npart in *. destruct (I_ind I); [rewrite (vladd_len _ _ (length (s_m s)))|]; congruence. }
  assert (VI : forall i, (i < npart s)%nat -> nth i vi vzero = vadd (nw i) (ex i)).
  { intros i Hi. unfold vi, nw, ex, of_list. simpl. unfold npart in *. destruct (I_ind I); [|vring].
    rewrite vladd_nth by congruence. apply vadd_comm. }
  assert (VV : forall i, (i < npart s)%nat -> nth i (advance (s_v s) vi dt) vzero = vadd (vel_of s i) (vscal dt (vadd (nw i) (ex i)))).
  { intros i Hi. rewrite advance_nth by auto. rewrite VI by auto. reflexivity. }
  assert (KV : forall i, (i < npart s)%nat -> mid i = vscal (/ 2) (vadd (vel_of s i) (nth i (advance (s_v s) vi dt) vzero))).
  { intros i Hi. unfold mid, vel_of, s'. rewrite ED. destruct (I_ind I); reflexivity. }
  assert (MID : forall a : nat -> vec, dt * rsum (fun i => mass_of s i * dot (mid i) (a i)) (npart s) =
     rsum (fun i => dot (nth i (s_v s) vzero) (a i) * nth i (s_m s) 0) (npart s) * (0.5 * dt) +
     rsum (fun i => dot (nth i (advance (s_v s) vi dt) vzero) (a i) * nth i (s_m s) 0) (npart s) * (0.5 * dt)).
  { intros a. rewrite <- Rmult_plus_distr_r, <- rsum_add. rewrite (Rmult_comm _ (0.5 * dt)), (Rmult_comm 0.5 dt), Rmult_assoc. f_equal.
    rewrite <- rsum_scal. apply rsum_ext. intros i Hi. rewrite KV by auto. unfold vel_of, mass_of.
    generalize (nth i (advance (s_v s) vi dt) vzero), (nth i (s_v s) vzero), (a i). intros x y z. destruct x, y, z. vunf. lra. }
  split. { intros i Hi. rewrite <- VV by auto. unfold vel_of. destruct (I_ind I); reflexivity. }
  assert (NW : forall i, nth i (I_newt I (s_m s) (s_p s)) vzero = nw i) by reflexivity.
  destruct (I_ind I) eqn:EI; simpl.
  - split; auto. split; auto. split; auto. unfold calc_domega_dt, calc_dbindE_dt. rewrite EI. simpl. unfold contract. fold (npart s). split.
    + destruct r; [lra| |lra]. rewrite MID. unfold nw, of_list. lra.
    + destruct r; [|lra|lra]. rewrite MID. unfold ex, of_list. lra.
  - split; auto. split; auto. split; auto. unfold calc_domega_dt. unfold contract. fold (npart s). split.
    + destruct r; [lra| |lra]. rewrite MID. unfold nw, of_list. lra.
    + destruct r; [|lra|lra]. rewrite (rsum_ext _ (fun _ => 0)); [rewrite rsum_zero; lra|]. intros i _. unfold ex. destruct (mid i). vunf. ring.
Qed.
(** A newly built system starts with equal position and velocity time scales: binding energy = -energy, omega = U. *)
Theorem C54_new I r m t p v : let s := rnew I r m t p v in
  s_be s = Upot s - Tkin s /\ s_om s = Upot s /\ s_sc s = match r with NoReg => 1 | _ => Upot s end /\ Tkin s + s_be s = Upot s /\
  s_m s = m /\ s_t s = t /\ s_p s = p /\ s_v s = v /\ s_w s = v.
Proof.
  intros s. unfold s, rnew. cbv zeta. cbn [s_be s_om s_sc s_m s_t s_p s_v s_w]. unfold Tkin, Upot. cbn [s_m s_p s_v].
  unfold total_energy. rewrite kinetic_eq, potential_eq. repeat split; lra.
Qed.
(** Following the derivative of the regularised system (Newtonian forces), with respect to the fictitious time: the
    quotient of the two time scales, (T+B)/U for LogH and omega/U for TTL, is exactly constant, so equal scales stay
    equal; without regularisation the energy is constant. *)
Theorem C54_flow r (S : R -> st) m sg : same_bodies newton_only S m -> apart (S sg) ->
  entries_deriv (fun x => rwrite newton_only (S x)) sg (rderivative newton_only r (S sg)) ->
  match r with LogH => Tkin (S sg) + s_be (S sg) <> 0 /\ Upot (S sg) <> 0 | TTL => s_om (S sg) <> 0 /\ Upot (S sg) <> 0 | NoReg => True end ->
  match r with
  | LogH => derivable_pt_lim (fun x => (Tkin (S x) + s_be (S x)) / Upot (S x)) sg 0
  | TTL => derivable_pt_lim (fun x => s_om (S x) / Upot (S x)) sg 0
  | NoReg => derivable_pt_lim (fun x => Tkin (S x) - Upot (S x)) sg 0
  end /\
  exists dt, derivable_pt_lim (fun x => s_t (S x)) sg dt /\
    (forall i, (i < length m)%nat -> vderiv (fun x => pos_of (S x) i) sg (vscal dt (vel_of (S sg) i))) /\
    match r with LogH => dt * (Tkin (S sg) + s_be (S sg)) = 1 | TTL => dt * s_om (S sg) = 1 | NoReg => dt = 1 end /\
    (match r with LogH => Tkin (S sg) + s_be (S sg) = Upot (S sg) | TTL => s_om (S sg) = Upot (S sg) | NoReg => True end ->
     forall i, (i < length m)%nat -> vderiv (fun x => vel_of (S x) i) sg (vscal dt (of_list (newton_acc m (s_p (S sg))) i))).
Proof.
  intros SB AP H HN. destruct (SB sg) as (Em & Lp & Lv & _).
  unfold rwrite, write, rderivative in H. cbn [newton_only I_dep I_ind I_newt orb] in H.
  set (pr := fst (pos_phy r (S sg) 1)) in *. set (vr := fst (vel_phy r (S sg) 1)) in *.
  set (a := newton_acc (s_m (S sg)) (s_p (S sg))) in *. assert (La : length a = length m) by (unfold a; rewrite newton_len; congruence).
  assert (H' : entries_deriv (fun x => s_t (S x) :: coords (s_p (S x)) ++ coords (s_v (S x)) ++ [s_om (S x); s_be (S x)]) sg
    (pr :: coords (map (vscal pr) (s_v (S sg))) ++ coords (map (vscal vr) a) ++
       [calc_domega_dt r (s_m (S sg)) (s_v (S sg)) a * vr; calc_dbindE_dt newton_only r (s_m (S sg)) (s_v (S sg)) a * vr])).
  { intros k Hk. refine (dv_ext _ _ _ _ _ _ eq_refl (H k Hk)). intros x. rewrite app_nil_r. cbn [app]. rewrite <- app_assoc. auto. }
  clear H. apply deriv_head in H' as (Dt & H). apply deriv_app in H as (Dp & H).
  2:{ intros x. destruct (SB x) as (_ & Q & _). rewrite !coords_len, map_length. congruence. }
  apply deriv_app in H as (Dv & H).
  2:{ intros x. destruct (SB x) as (_ & _ & Q & _). rewrite !coords_len, map_length. congruence. }
  apply deriv_head in H as (Dom & H). apply deriv_head in H as (Dbe & _). cbv beta in Dt, Dom, Dbe.
  assert (MN : forall k l i, nth i (map (vscal k) l) vzero = vscal k (nth i l vzero)).
  { intros k l i. rewrite <- (vscal_0 k) at 1. apply map_nth. }
  assert (DP : forall i, (i < length m)%nat -> vderiv (fun x => pos_of (S x) i) sg (vscal pr (vel_of (S sg) i))).
  { intros i Hi. unfold vel_of. rewrite <- MN. apply (deriv_coords (fun x => s_p (S x)) (map (vscal pr) (s_v (S sg))) sg (length m)); auto. rewrite map_length; auto. }
  assert (DV : forall i, (i < length m)%nat -> vderiv (fun x => vel_of (S x) i) sg (vscal vr (of_list a i))).
  { intros i Hi. unfold of_list. rewrite <- MN. apply (deriv_coords (fun x => s_v (S x)) (map (vscal vr) a) sg (length m)); auto. rewrite map_length; auto. }
  set (n := length m) in *. set (mm := fun i => nth i m 0).
  set (PP := fun x i => pos_of (S x) i). set (VV := fun x i => vel_of (S x) i).
  assert (SY : forall x, sys_of (s_m (S x)) (s_p (S x)) (s_v (S x)) = at_time n mm PP VV x).
  { intros x. destruct (SB x) as (E & _). rewrite E. reflexivity. }
  set (Pw := rsum (fun i => mm i * dot (VV sg i) (newt (at_time n mm PP VV sg) i)) n).
  assert (AN : forall i, (i < n)%nat -> of_list a i = newt (at_time n mm PP VV sg) i).
  { intros i Hi. rewrite <- SY. unfold of_list, a. apply newton_nth. rewrite Em. auto. }
  assert (DK : derivable_pt_lim (fun x => Tkin (S x)) sg (vr * Pw)).
  { eapply dv_ext; [| |exact (d_kinetic n mm PP VV (fun i => vscal vr (of_list a i)) sg DV)].
    - intros x. cbv beta. rewrite <- SY. first [apply kinetic_eq | symmetry; apply kinetic_eq | reflexivity].
    - unfold Pw. rewrite <- rsum_scal. apply rsum_ext. intros i Hi. rewrite AN by auto. generalize (newt (at_time n mm PP VV sg) i), (VV sg i). intros. vunf. ring. }
  assert (DU : derivable_pt_lim (fun x => Upot (S x)) sg (pr * Pw)).
  { assert (AP' : distinct_positions (at_time n mm PP VV sg)) by (rewrite <- SY; exact AP).
    eapply dv_ext; [| |exact (dv_opp _ _ _ (d_potential n mm PP VV (fun i => vscal pr (VV sg i)) sg AP' DP))].
    - intros x. cbv beta. rewrite <- SY. unfold Upot. rewrite potential_eq. auto.
    - rewrite Ropp_involutive. unfold Pw. rewrite <- rsum_scal. apply rsum_ext. intros i Hi. generalize (newt (at_time n mm PP VV sg) i), (VV sg i). intros. vunf. ring. }
  assert (CP : contract (s_m (S sg)) (s_v (S sg)) a = Pw).
  { unfold a. rewrite contract_power, Em, <- Em, SY, Em. reflexivity. }
  assert (BE : derivable_pt_lim (fun x => s_be (S x)) sg 0).
  { refine (dv_ext _ _ _ _ _ _ _ Dbe); auto. unfold calc_dbindE_dt. simpl. ring. }
  assert (PR : match r with LogH => pr * (Tkin (S sg) + s_be (S sg)) = 1 | TTL => pr * s_om (S sg) = 1 | NoReg => pr = 1 end).
  { unfold pr, pos_phy. rewrite kin_T. destruct r; simpl; auto; field; [|tauto]. destruct HN. lra. }
  assert (VR : match r with NoReg => vr = 1 | _ => vr * Upot (S sg) = 1 end).
  { unfold vr, vel_phy. rewrite pot_U. destruct r; simpl; auto; field; tauto. }
  split.
  - destruct r.
    + destruct HN as (N1 & N2).
      eapply dv_ext; [reflexivity| |exact (dv_div _ _ sg _ _ N2 (dv_plus _ _ _ _ _ DK BE) DU)]. cbv beta.
      replace ((vr * Pw + 0) * Upot (S sg)) with ((vr * Upot (S sg)) * Pw) by ring. rewrite VR.
      replace ((Tkin (S sg) + s_be (S sg)) * (pr * Pw)) with ((pr * (Tkin (S sg) + s_be (S sg))) * Pw) by ring. rewrite PR. field. auto.
    + destruct HN as (N1 & N2). cbn [calc_domega_dt] in Dom. rewrite CP in Dom.
      eapply dv_ext; [reflexivity| |exact (dv_div _ _ sg _ _ N2 Dom DU)]. cbv beta.
      replace (Pw * vr * Upot (S sg)) with ((vr * Upot (S sg)) * Pw) by ring. rewrite VR.
      replace (s_om (S sg) * (pr * Pw)) with ((pr * s_om (S sg)) * Pw) by ring. rewrite PR. field. auto.
    + eapply dv_ext; [reflexivity| |exact (dv_minus _ _ _ _ _ DK DU)]. rewrite PR, VR. ring.
  - exists pr. split; auto. split; auto. split; auto. intros EQ i Hi.
    assert (EV : vr = pr).
    { destruct r; [| |congruence]; rewrite EQ in PR; destruct HN as (_ & N2); apply (Rmult_eq_reg_r (Upot (S sg))); congruence. }
    rewrite <- EV. specialize (DV i Hi). unfold a in DV. rewrite Em in DV. exact DV.
Qed.
(** Non-vacuity: two unit masses at distance 1; and a curve through that state (its tangent) which has, at parameter
    0, the derivative of the regularised system for all three kinds of regularisation. *)
Definition case54 (x : R) : st := mkSt [1; 1] x [mkV 0 0 0; mkV 1 x 0] [mkV x 0 0; mkV (- x) 1 0] [] 1 (1 / 2) 0 [] false.
Lemma case54_T : Tkin (case54 0) = 1 / 2.
Proof. unfold Tkin, kinetic_sum, case54. simpl. vunf. lra. Qed.
Lemma case54_U : Upot (case54 0) = 1.
Proof.
  unfold Upot, potential_sum, case54. simpl. replace (vsub (mkV 0 0 0) (mkV 1 0 0)) with (mkV (-1) 0 0) by (unfold vsub; simpl; f_equal; ring).
  unfold norm, norm2, dot; simpl. replace (-1 * -1 + 0 * 0 + 0 * 0) with 1 by ring. rewrite sqrt_1. lra.
Qed.
Lemma case54_acc : newton_acc [1; 1] [mkV 0 0 0; mkV 1 0 0] = [mkV 1 0 0; mkV (-1) 0 0].
Proof.
  assert (N : norm (vsub (mkV 1 0 0) (mkV 0 0 0)) = 1).
  { unfold norm, norm2, dot, vsub; simpl. replace ((1 - 0) * (1 - 0) + (0 - 0) * (0 - 0) + (0 - 0) * (0 - 0)) with 1 by ring. apply sqrt_1. }
  unfold newton_acc, tolist, add_acc, direct_calls, all_pairs. cbn [sys_of sn length seq flat_map map app fold_left].
  cbn. rewrite N. unfold vadd, vneg, vzero, Rdiv. cbn [vx vy vz]. rewrite !Rinv_1 || replace (1 * / (1 * 1 * 1)) with 1 by field.
  f_equal; [apply vec_eq; cbn [vx vy vz]; lra|f_equal; apply vec_eq; cbn [vx vy vz]; lra].
Qed.
Example C54_case r : apart (case54 0) /\ length (s_p (case54 0)) = npart (case54 0) /\ length (s_v (case54 0)) = npart (case54 0) /\
  same_bodies newton_only case54 [1; 1] /\ Tkin (case54 0) + s_be (case54 0) = 1 /\ Upot (case54 0) = 1 /\ s_om (case54 0) = 1 /\
  entries_deriv (fun x => rwrite newton_only (case54 x)) 0 (rderivative newton_only r (case54 0)).
Proof.
  split. { intros i j Hi Hj N. cbn [sys_of sn case54 s_m length] in Hi, Hj. cbn [sys_of sp case54 s_p]. intros E.
    assert (X : vx (nth i [mkV 0 0 0; mkV 1 0 0] vzero) = vx (nth j [mkV 0 0 0; mkV 1 0 0] vzero)) by congruence.
    destruct i as [|[|i]], j as [|[|j]]; try lia; simpl in X; lra. }
  split; [reflexivity|]. split; [reflexivity|]. split; [intros x; simpl; repeat split; auto; discriminate|].
  split; [rewrite case54_T; simpl; lra|]. split; [apply case54_U|]. split; [reflexivity|].
  unfold rderivative. cbn [newton_only I_dep I_ind I_newt orb].
  assert (P : fst (pos_phy r (case54 0) 1) = 1). { unfold pos_phy. rewrite kin_T, case54_T. destruct r; simpl; lra. }
  assert (V : fst (vel_phy r (case54 0) 1) = 1). { unfold vel_phy. rewrite pot_U, case54_U. destruct r; simpl; lra. }
  rewrite P, V. cbn [case54 s_m s_p s_v]. rewrite case54_acc. unfold rwrite, write, scaled. cbn [newton_only I_dep case54 s_p s_v s_t s_om s_be coords map flat_map app].
  assert (ID : forall c, derivable_pt_lim (fun x => c * x) 0 c). { intros c. refine (dv_ext _ _ _ _ _ _ _ (dv_scal c _ _ _ (derivable_pt_lim_id 0))); [intros; reflexivity|ring]. }
  cbn [vx vy vz vscal]. repeat apply cons_deriv; [..|apply nil_deriv].
  all: try (eapply dv_ext; [intros x; reflexivity| |apply dv_const]; unfold calc_domega_dt, calc_dbindE_dt, contract; destruct r; simpl; vunf; ring).
  all: try (eapply dv_ext; [| |apply derivable_pt_lim_id]; [intros x; reflexivity|ring]).
  all: try (eapply dv_ext; [| |apply (ID (-1))]; [intros x; simpl; ring|simpl; ring]).
Qed.
Print Assumptions C54_drift.
Print Assumptions C54_kick.
Print Assumptions C54_new.
Print Assumptions C54_flow.
