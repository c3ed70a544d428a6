(** Properties C31-C34 and C58: the Bulirsch-Stoer iterator. *)
From Verif Require Import System_Spec Chain_Proofs System_Proofs System_Proofs2.
From Verif Require Import BS_Model BS_Spec BS_Proofs BS_Proofs2 BS_Proofs3 BS_Proofs4.
Open Scope R_scope.

(** * C31: the in-place table performs polynomial extrapolation *)
Theorem C31_unique_polynomial N T j k : (j <= k)%nat -> (k < N)%nat ->
  (exists p, interpolates N T j k p) /\ (forall p q x, interpolates N T j k p -> interpolates N T j k q -> peval p x = peval q x).
Proof.
  intros Hj Hk. split; [apply (nev_extrapolates N T j k Hj Hk)|]. intros p q x Hp Hq. apply (interp_unique N T j k); auto.
Qed.
(** After row K, entry j of the table is the extrapolation of rows j..K (entry 0: of all rows). *)
Theorem C31_table_extrapolates N n T ext K : (K < N)%nat -> (N <= length ext)%nat -> (forall i, (i <= K)%nat -> length (T i) = n) ->
  exists ext', fill_table N K T ext = Ok ext' /\
    forall j, (j <= K)%nat -> exists y, aget ext' j = Ok y /\ extrapolant N n T j K y.
Proof.
  intros HK HN L. destruct (fill_ok N n T ext trueQ K HK HN L trueQ_affine) as (ext' & E & LE & TE & _); [intros; exact I|].
  exists ext'. split; auto. intros j Hj. exists (entry ext' j). split; [apply aget_entry; lia|].
  rewrite (table_tabv N n K T ext' j TE Hj). apply tabv_extrapolant; auto.
Qed.
(** Rows that are polynomials of degree <= K in the squared sub-step are extrapolated exactly. *)
Theorem C31_exact_on_polynomials N n T ext K (p : nat -> list R) : (K < N)%nat -> (N <= length ext)%nat -> (forall i, (i <= K)%nat -> length (T i) = n) ->
  (forall x, (x < n)%nat -> length (p x) <= K + 1)%nat ->
  (forall i x, (i <= K)%nat -> (x < n)%nat -> nth x (T i) 0 = peval (p x) (node N i)) ->
  exists ext' y, fill_table N K T ext = Ok ext' /\ aget ext' 0 = Ok y /\ length y = n /\ forall x, (x < n)%nat -> nth x y 0 = peval (p x) 0.
Proof.
  intros HK HN L D V. destruct (C31_table_extrapolates N n T ext K HK HN L) as (ext' & E & G). destruct (G 0%nat ltac:(lia)) as (y & Ey & Ly & Hy).
  exists ext', y. split; auto. split; auto. split; auto. intros x Hx. destruct (Hy x Hx) as [_ U]. apply U. split; [specialize (D x Hx); lia|].
  intros i Hi. symmetry. apply V; auto; lia.
Qed.
(** For instance two rows with one and two sub-steps: (4 T1 - T0) / 3. *)
Example C31_richardson a b : exists ext', fill_table 8 1 (fun i => match i with O => [a] | _ => [b] end) (repeat [] 8) = Ok ext' /\ aget ext' 0 = Ok [(4 * b - a) / 3].
Proof.
  eexists. split; [reflexivity|]. unfold aget. cbn. do 2 f_equal. field.
Qed.
Print Assumptions C31_unique_polynomial. Print Assumptions C31_table_extrapolates. Print Assumptions C31_exact_on_polynomials.

(** * C32: accept / reject discipline, for every system, error estimator and step controller *)
Theorem C32_accepted_is_extrapolated tries M kdk (P : Type) wr rd collect run err next lim Inv row b (p : P) h b' p' h1 :
  (1 <= M)%nat -> sizes M b -> replays rd run Inv (wr p) row -> Inv (collect p true) -> rd (collect p true) (wr p) = Ok (collect p true) ->
  iterate tries M kdk P wr rd collect run err next lim b p h = Ok (b', p', h1) ->
  exists hk k y e1 p2 q ratio, tried lim h hk /\ (1 <= k <= M)%nat /\
    extrapolant (M + 1) (length (wr p)) (fun j => row hk (h_at (M + 1) j)) 0 k y /\
    extrapolant (M + 1) (length (wr p)) (fun j => row hk (h_at (M + 1) j)) 1 k e1 /\
    err (wr p) e1 y <= 1 /\ rd p2 (zip_add (wr p) y) = Ok q /\ p' = collect q false /\ Inv p2 /\ h1 = hk * lim (2 * k + 1)%nat ratio.
Proof.
  intros HM HS RP Hi Hr H. assert (Fr : fresh rd Inv (wr p) (collect p true)) by (exists (collect p true); auto).
  destruct (attempts_ok M kdk rd collect run err next lim Inv (wr p) row RP HM _ _ _ _ _ _ _ HS Fr H) as (HS' & hk & k & p2 & q & ra & K1 & K2 & K3 & K4 & K5 & K6 & K7 & K8).
  exists hk, k, (tabv (M + 1) (length (wr p)) (Tr M row hk) 0 k), (tabv (M + 1) (length (wr p)) (Tr M row hk) 1 k), p2, q, ra.
  rewrite <- zipw_plus. split; auto. split; auto. split; [apply tabv_extrapolant; lia|]. split; [apply tabv_extrapolant; lia|]. auto 10.
Qed.
(** Both Cartesian systems replay a step from its initial array, whatever was integrated before. *)
Theorem C32_systems_replay I r kdk s : sized I ->
  (well_sized I 1 s -> exists Inv row, replays (read I) (simple_run I kdk) Inv (write I s) row /\ Inv (set_sync s true) /\
                                       read I (set_sync s true) (write I s) = Ok (set_sync s true)) /\
  (well_sized I 3 s -> exists Inv row, replays (rread I) (regu_run I r kdk) Inv (rwrite I s) row /\ Inv (set_sync s true) /\
                                       rread I (set_sync s true) (rwrite I s) = Ok (set_sync s true)).
Proof. intros HI. split; [apply simple_replays; auto|apply regu_replays; auto]. Qed.
(** An accepted step of the plain system: extrapolated state, error <= 1, time advanced by the tried step. *)
Theorem C32_simple_step I tries M kdk err next lim b s h b' s' h1 : (1 <= M)%nat -> sized I -> well_sized I 1 s -> sizes M b ->
  iterate tries M kdk st (write I) (read I) set_sync (simple_run I kdk) err next lim b s h = Ok (b', s', h1) ->
  exists y hk k, accepted_step M kdk (write I) drift (kick I) err lim s h s' h1 y hk k /\ s_t s' = s_t s + hk.
Proof.
  intros HM HI W HS H. destruct (simple_step I tries M kdk err next lim b s h b' s' h1 HM HI W HS H) as (_ & _ & _ & y & hk & k & A & T & _). eauto.
Qed.
Theorem C32_regularised_step I r tries M kdk err next lim b s h b' s' h1 : (1 <= M)%nat -> sized I -> well_sized I 3 s -> sizes M b ->
  iterate tries M kdk st (rwrite I) (rread I) set_sync (regu_run I r kdk) err next lim b s h = Ok (b', s', h1) ->
  exists y hk k, accepted_step M kdk (rwrite I) (rdrift r) (rkick I r) err lim s h s' h1 y hk k.
Proof.
  intros HM HI W HS H. destruct (regu_step I r tries M kdk err next lim b s h b' s' h1 HM HI W HS H) as (_ & _ & _ & y & hk & k & A & _). eauto.
Qed.
(** If every row of every tried step is rejected, the iterator aborts. *)
Theorem C32_all_rejected_aborts tries M kdk (P : Type) wr rd collect run err next lim Inv row b (p : P) h :
  (3 <= M)%nat -> safe M b -> b_first b = false -> replays rd run Inv (wr p) row -> Inv (collect p true) -> rd (collect p true) (wr p) = Ok (collect p true) ->
  (forall e1 e0, 1 < err (wr p) e1 e0) ->
  iterate tries M kdk P wr rd collect run err next lim b p h = Abort.
Proof.
  intros HM HS Hf RP Hi Hr Hbad. assert (Fr : fresh rd Inv (wr p) (collect p true)) by (exists (collect p true); auto).
  destruct (attempts_safe M kdk rd collect run err next lim Inv (wr p) row RP HM tries b _ h HS Hf Fr) as [A|(b' & p' & h1 & A & _)]; [exact A|].
  destruct (C32_accepted_is_extrapolated tries M kdk P wr rd collect run err next lim Inv row b p h b' p' h1) as (hk & k & y & e1 & p2 & q & ra & _ & _ & _ & _ & E & _); auto; try lia; [apply HS|].
  specialize (Hbad e1 y). lra.
Qed.
(** The very first call never shortens its step: it accepts the first row that meets the tolerance with the
    given step, or aborts. *)
Theorem C32_first_call tries M kdk (P : Type) wr rd collect run err next lim Inv row (p : P) h : (3 <= M)%nat -> (1 <= tries)%nat ->
  replays rd run Inv (wr p) row -> Inv (collect p true) -> rd (collect p true) (wr p) = Ok (collect p true) ->
  let N := (M + 1)%nat in let T := fun j => row h (h_at N j) in
  let passes := fun k => exists y e1, extrapolant N (length (wr p)) T 0 k y /\ extrapolant N (length (wr p)) T 1 k e1 /\ err (wr p) e1 y <= 1 in
  match iterate tries M kdk P wr rd collect run err next lim (bs_init M) p h with
  | Ok (b', p', h1) => exists k y p2 q, (1 <= k <= M)%nat /\ passes k /\ (forall j, (1 <= j < k)%nat -> ~ passes j) /\ b_rank b' = k /\ b_first b' = false /\ sizes M b' /\
                         extrapolant N (length (wr p)) T 0 k y /\ rd p2 (zip_add (wr p) y) = Ok q /\ p' = collect q false
  | Abort => forall k, (1 <= k <= M)%nat -> ~ passes k
  | UB => False
  end.
Proof.
  intros HM Ht RP Hi Hr N T passes. assert (Fr : fresh rd Inv (wr p) (collect p true)) by (exists (collect p true); auto).
  assert (PE : forall k, (1 <= k <= M)%nat -> passes k <-> rerr M err (wr p) row h k <= 1).
  { intros k Hk. unfold passes. split.
    - intros (y & e1 & Y & E1 & L). unfold rerr.
      assert (Y' : extrapolant N (length (wr p)) T 0 k (tabv N (length (wr p)) T 0 k)) by (apply tabv_extrapolant; lia).
      assert (E1' : extrapolant N (length (wr p)) T 1 k (tabv N (length (wr p)) T 1 k)) by (apply tabv_extrapolant; lia).
      rewrite (extrapolant_unique _ _ _ _ _ _ _ Y Y'), (extrapolant_unique _ _ _ _ _ _ _ E1 E1') in L. exact L.
    - intros L. exists (tabv N (length (wr p)) T 0 k), (tabv N (length (wr p)) T 1 k). split; [apply tabv_extrapolant; lia|]. split; [apply tabv_extrapolant; lia|]. exact L. }
  unfold iterate. cbv zeta.
  destruct (attempts_first M kdk rd collect run err next lim Inv (wr p) row RP HM tries (bs_init M) (collect p true) h (init_ready M HM) eq_refl eq_refl Fr)
    as [[A ->]|[A|(b1 & p1 & h1 & k & -> & S1 & F1 & R1 & Rk & Hk & E1 & Hlow & p2 & q & ra & _ & Q1 & Q2 & Q3)]].
  - intros k Hk X. apply PE in X; auto. cbn [bs_init b_rank] in A. specialize (A k ltac:(lia)). lra.
  - lia.
  - cbn [bs_init b_rank] in Hk. assert (HkM : (1 <= k <= M)%nat) by lia. exists k, (tabv N (length (wr p)) T 0 k), p2, q. split; auto. split; [apply PE; auto|].
    split. { intros j Hj X. apply PE in X; [|lia]. specialize (Hlow j Hj). lra. }
    split; auto. split; auto. split; auto. split; [apply tabv_extrapolant; lia|]. rewrite <- zipw_plus. auto.
Qed.
(** A two-body system steps: with an error estimate of zero the first row is accepted. *)
Example C32_example_accepts tries M kdk next lim h : (3 <= M)%nat -> (1 <= tries)%nat ->
  let s := mkSt [1; 2] 0 [mkV 1 0 0; mkV 0 0 0] [mkV 0 1 0; mkV 0 0 0] [] 0 0 0 (repeat 0 13) false in
  well_sized newton_only 1 s /\
  exists b' s' h1, iterate tries M kdk st (write newton_only) (read newton_only) set_sync (simple_run newton_only kdk) (fun _ _ _ => 0) next lim (bs_init M) s h = Ok (b', s', h1) /\ b_rank b' = 1%nat.
Proof.
  intros HM Ht s. assert (W : well_sized newton_only 1 s) by (repeat split; discriminate). split; auto.
  destruct (simple_replays newton_only kdk s newton_sized W) as (Inv & row & RP & Hi & Hr).
  pose proof (C32_first_call tries M kdk st (write newton_only) (read newton_only) set_sync (simple_run newton_only kdk) (fun _ _ _ => 0) next lim Inv row s h HM Ht RP Hi Hr) as X.
  cbv zeta in X. destruct (iterate tries M kdk st (write newton_only) (read newton_only) set_sync (simple_run newton_only kdk) (fun _ _ _ => 0) next lim (bs_init M) s h) as [[[b' s'] h1]| |] eqn:E.
  - exists b', s', h1. split; auto. destruct X as (k1 & y1 & p2 & q & K1 & _ & K2 & K3 & _). rewrite K3.
    destruct (Nat.eq_dec k1 1) as [|Hne]; auto. exfalso. apply (K2 1%nat ltac:(lia)).
    exists (tabv (M + 1) (length (write newton_only s)) (fun j => row h (h_at (M + 1) j)) 0 1), (tabv (M + 1) (length (write newton_only s)) (fun j => row h (h_at (M + 1) j)) 1 1).
    split; [apply tabv_extrapolant; lia|]. split; [apply tabv_extrapolant; lia|]. lra.
  - exfalso. apply (X 1%nat ltac:(lia)). exists (tabv (M + 1) (length (write newton_only s)) (fun j => row h (h_at (M + 1) j)) 0 1), (tabv (M + 1) (length (write newton_only s)) (fun j => row h (h_at (M + 1) j)) 1 1).
    split; [apply tabv_extrapolant; lia|]. split; [apply tabv_extrapolant; lia|]. lra.
  - destruct X.
Qed.
Print Assumptions C32_accepted_is_extrapolated. Print Assumptions C32_systems_replay. Print Assumptions C32_simple_step.
Print Assumptions C32_regularised_step. Print Assumptions C32_all_rejected_aborts. Print Assumptions C32_first_call.

(** * C33: table indices *)
(** From a rank within [1, max - 1] (not the first call) no call leaves the tables, and the rank stays there. *)
Theorem C33_in_bounds tries M kdk (P : Type) wr rd collect run err next lim Inv row b (p : P) h :
  (3 <= M)%nat -> safe M b -> b_first b = false -> replays rd run Inv (wr p) row -> Inv (collect p true) -> rd (collect p true) (wr p) = Ok (collect p true) ->
  match iterate tries M kdk P wr rd collect run err next lim b p h with
  | Ok (b', _, _) => safe M b' /\ b_first b' = false
  | Abort => True
  | UB => False
  end.
Proof.
  intros HM HS Hf RP Hi Hr. assert (Fr : fresh rd Inv (wr p) (collect p true)) by (exists (collect p true); auto).
  unfold iterate. cbv zeta. destruct (attempts_safe M kdk rd collect run err next lim Inv (wr p) row RP HM tries b _ h HS Hf Fr) as [->|(b' & p' & h1 & -> & A)]; auto.
Qed.
(** The first call is in bounds too; its rank becomes the accepted row, so it leaves a safe state unless
    only the last row was accepted. *)
Theorem C33_first_call_in_bounds tries M kdk (P : Type) wr rd collect run err next lim Inv row (p : P) h : (3 <= M)%nat -> (1 <= tries)%nat ->
  replays rd run Inv (wr p) row -> Inv (collect p true) -> rd (collect p true) (wr p) = Ok (collect p true) ->
  match iterate tries M kdk P wr rd collect run err next lim (bs_init M) p h with
  | Ok (b', _, _) => b_first b' = false /\ (safe M b' \/ b_rank b' = M)
  | Abort => True
  | UB => False
  end.
Proof.
  intros HM Ht RP Hi Hr. pose proof (C32_first_call tries M kdk P wr rd collect run err next lim Inv row p h HM Ht RP Hi Hr) as X. cbv zeta in X.
  destruct (iterate tries M kdk P wr rd collect run err next lim (bs_init M) p h) as [[[b' p'] h1]| |]; auto.
  destruct X as (k & y & p2 & q & K1 & _ & _ & K2 & K3 & K4 & _). split; auto. destruct (Nat.eq_dec k M); [right; congruence|left]. split; auto. lia.
Qed.
(** Witness, for every depth: a first call whose last row is the first to pass sets the rank to max_depth, and the
    next call then reads past the end of the tables. *)
Theorem C33_last_row_first_refuted M kdk next lim t h : (3 <= M)%nat -> exists run err b1 y h1,
  let call := iterate (S t) M kdk (list R) (fun p => p) (fun _ y => Ok y) (fun p _ => p) run err next lim in
  call (bs_init M) [0] h = Ok (b1, y, h1) /\ b_rank b1 = M /\ call b1 y h1 = UB.
Proof.
  intros HM. destruct (witness M HM kdk next lim t h) as (b1 & y & h1 & A & B & C). exists (w_run M), w_err, b1, y, h1. cbv zeta. auto.
Qed.
(** Non-trivial safe states exist: the state left by the example above. *)
Example C33_safe_reachable M : (3 <= M)%nat -> safe M (set_rank (not_first (bs_init M)) 1).
Proof. intros H. destruct (init_ready M H) as (S & _). split; [exact S|]. cbn. lia. Qed.
Print Assumptions C33_in_bounds. Print Assumptions C33_first_call_in_bounds. Print Assumptions C33_last_row_first_refuted.

(** * C34: time on plain ODE functions *)
(** One row of the modified midpoint rule advances the caller's time by the whole step... *)
Theorem C34_row_advances_time func input t step n : (0 < n)%nat -> snd (midpoint func input t step n) = t + step.
Proof. apply midpoint_time. Qed.
(** ... so a call accepted at its first attempt (row k) advances time by (k + 2) steps instead of one. *)
Theorem C34_time_advances_k_plus_2 tries M kdk err next lim func b data time h b' data' time' h1 :
  fiterate tries M kdk err next lim func b data time h = Ok (b', data', time', h1) -> b_iter b' = S (b_iter b) ->
  exists k, (1 <= k <= M)%nat /\ time' = time + (INR k + 2) * h.
Proof. apply fattempts_first. Qed.
Theorem C34_single_step_refuted tries M kdk err next lim func b data time h b' data' time' h1 : 0 < h ->
  fiterate tries M kdk err next lim func b data time h = Ok (b', data', time', h1) -> b_iter b' = S (b_iter b) -> time' >= time + 3 * h.
Proof.
  intros Hh H Hi. destruct (C34_time_advances_k_plus_2 _ _ _ _ _ _ _ _ _ _ _ _ _ _ _ H Hi) as (k & Hk & ->).
  assert (1 <= INR k) by (change 1 with (INR 1); apply le_INR; lia). nra.
Qed.
(** Such calls exist: every function with an error estimate of zero. *)
Theorem C34_example_calls_exist tries M kdk next lim func data t h : (3 <= M)%nat -> exists b' d' t' h1 k,
  fiterate (S tries) M kdk (fun _ _ _ => 0) next lim func (bs_init M) data t h = Ok (b', d', t', h1) /\ b_iter b' = 1%nat /\
  (1 <= k)%nat /\ t' = t + (INR k + 2) * h.
Proof.
  intros HM. destruct (fiterate_zero_error tries M kdk next lim func data t h HM) as (b' & d' & t' & h1 & E & Hi).
  destruct (C34_time_advances_k_plus_2 _ _ _ _ _ _ _ _ _ _ _ _ _ _ _ E Hi) as (k & Hk & T). exists b', d', t', h1, k. repeat split; auto; lia.
Qed.
Print Assumptions C34_row_advances_time. Print Assumptions C34_time_advances_k_plus_2. Print Assumptions C34_single_step_refuted.

(** * C58: accepted steps conserve momentum and move the centre of mass uniformly *)
Theorem C58_simple_conserves_momentum I tries M kdk err next lim b s h b' s' h1 : (1 <= M)%nat -> sized I -> balanced I -> well_sized I 1 s -> sizes M b ->
  iterate tries M kdk st (write I) (read I) set_sync (simple_run I kdk) err next lim b s h = Ok (b', s', h1) ->
  momentum s' = momentum s /\ moment s' = vadd (moment s) (vscal (s_t s' - s_t s) (momentum s)) /\ s_m s' = s_m s.
Proof.
  intros HM HI HB W HS H. destruct (simple_step I tries M kdk err next lim b s h b' s' h1 HM HI W HS H) as (_ & _ & _ & y & hk & k & A & T & C).
  destruct (C HB) as [C1 C2]. replace (s_t s' - s_t s) with hk by lra. split; auto. split; auto. apply A.
Qed.
Theorem C58_regularised_conserves_momentum I r tries M kdk err next lim b s h b' s' h1 : (1 <= M)%nat -> sized I -> balanced I -> well_sized I 3 s -> sizes M b ->
  iterate tries M kdk st (rwrite I) (rread I) set_sync (regu_run I r kdk) err next lim b s h = Ok (b', s', h1) ->
  momentum s' = momentum s /\ moment s' = vadd (moment s) (vscal (s_t s' - s_t s) (momentum s)) /\ s_m s' = s_m s.
Proof.
  intros HM HI HB W HS H. destruct (regu_step I r tries M kdk err next lim b s h b' s' h1 HM HI W HS H) as (_ & _ & _ & y & hk & k & A & C).
  destruct (C HB) as [C1 C2]. split; auto. split; auto. apply A.
Qed.
Theorem C58_newton_instance : sized newton_only /\ balanced newton_only.
Proof. split; [apply newton_sized|apply newton_balanced]. Qed.
Print Assumptions C58_simple_conserves_momentum. Print Assumptions C58_regularised_conserves_momentum.
