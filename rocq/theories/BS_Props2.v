(** More on C32 (sub-steps are leapfrog steps) and C34 (time of every call on a function). *)
From Verif Require Import System_Spec Chain_Proofs System_Proofs System_Proofs2 BS_Model BS_Spec BS_Proofs BS_Proofs2 BS_Proofs3 BS_Proofs4 BS_Proofs5.
Open Scope R_scope.

(** [n] applications of [f]. *)
Fixpoint repeated {S : Type} (n : nat) (f : S -> S) (s : S) : S := match n with O => s | Datatypes.S k => repeated k f (f s) end.
Lemma times_repeated {S : Type} n (f : S -> S) s : times n f s = repeated n f s.
Proof. revert s. induction n as [|n IH]; intros s; [reflexivity|apply IH]. Qed.
(** A row with [n] drift-kick-drift sub-steps over [h] is [n] leapfrog steps of [h / n], for any interaction; on the regularised system too. *)
Theorem C32_dkd_rows_are_leapfrog I r s h n : sized I -> (0 < n)%nat ->
  (well_sized I 1 s -> integrate drift (kick I) (nsteps_ops false n) s (h / INR n) = repeated n (fun z => integrate drift (kick I) leapfrog_dkd z (h / INR n)) s) /\
  (well_sized I 3 s -> integrate (rdrift r) (rkick I r) (nsteps_ops false n) s (h / INR n) = repeated n (fun z => integrate (rdrift r) (rkick I r) leapfrog_dkd z (h / INR n)) s).
Proof.
  intros HI Hn. destruct n as [|n]; [lia|]. cbn [nsteps_ops]. split; intros W.
  - rewrite <- times_repeated. apply (dkd_compose drift (kick I) (well_sized I 1)); auto.
    + intros; apply ws_drift; auto.
    + intros; apply ws_kick; auto.
    + intros z a b (P & V & _). apply drift_merge. congruence.
  - rewrite <- times_repeated. apply (dkd_compose (rdrift r) (rkick I r) (well_sized I 3)); auto.
    + intros; apply ws_rdrift; auto.
    + intros; apply ws_rkick; auto.
    + intros z a b (P & V & _). apply rdrift_merge. congruence.
Qed.
(** The same for kick-drift-kick when no force depends on the velocities. *)
Theorem C32_kdk_rows_are_leapfrog I s h n : sized I -> I_dep I = false -> (0 < n)%nat -> well_sized I 1 s ->
  integrate drift (kick I) (nsteps_ops true n) s (h / INR n) = repeated n (fun z => integrate drift (kick I) leapfrog_kdk z (h / INR n)) s.
Proof.
  intros HI Hd Hn W. destruct n as [|n]; [lia|]. cbn [nsteps_ops]. rewrite <- times_repeated. apply (kdk_compose drift (kick I) (well_sized I 1)); auto.
  - intros; apply ws_drift; auto.
  - intros; apply ws_kick; auto.
  - intros; apply kick_merge; auto.
Qed.
Example C32_leapfrog_case : let s := mkSt [1; 2] 0 [mkV 1 0 0; mkV 0 0 0] [mkV 0 1 0; mkV 0 0 0] [] 0 0 0 (repeat 0 13) true in
  sized newton_only /\ I_dep newton_only = false /\ well_sized newton_only 1 s.
Proof. split; [apply newton_sized|]. split; [reflexivity|]. repeat split; discriminate. Qed.

(** Time after any call on a function: every row of every attempt, also of the failed ones, has advanced the caller's time by the
    step of its attempt, and the accepted step is added once more. *)
Theorem C34_time_of_every_call tries M kdk err next lim func b data time h b' data' time' h1 :
  fiterate tries M kdk err next lim func b data time h = Ok (b', data', time', h1) ->
  exists (failed : list (R * nat)) hk k, time' = time + fold_right (fun a acc => INR (snd a) * fst a + acc) 0 failed + (INR k + 2) * hk /\
    (1 <= k <= M)%nat /\ (forall a, In a failed -> (2 <= snd a <= M + 1)%nat) /\ hd hk (map fst failed) = h /\ b_iter b' = (b_iter b + length failed + 1)%nat.
Proof.
  intros H. destruct (fattempts_time M kdk err next lim func _ _ _ _ _ _ _ _ _ H) as (l & hk & k & H1 & H2 & H3 & H4 & H5). exists l, hk, k. auto.
Qed.
(** A second attempt therefore integrates from a later time than the first. *)
Corollary C34_rejected_time_restored_refuted tries M kdk err next lim func b data time h b' data' time' h1 : 
  fiterate tries M kdk err next lim func b data time h = Ok (b', data', time', h1) -> 0 < h -> b_iter b' = (b_iter b + 2)%nat ->
  exists r hk k, (2 <= r <= M + 1)%nat /\ (1 <= k <= M)%nat /\ time' = time + INR r * h + (INR k + 2) * hk /\ time' - (time + hk) >= 2 * h + (INR k + 1) * hk.
Proof.
  intros H Hp Hi. destruct (C34_time_of_every_call _ _ _ _ _ _ _ _ _ _ _ _ _ _ _ H) as (l & hk & k & H1 & H2 & H3 & H4 & H5).
  destruct l as [|[g r] [|]]; cbn [length] in H5; try lia. cbn [map hd fst] in H4. subst g. cbn [fold_right fst snd] in H1. specialize (H3 (h, r) (or_introl eq_refl)). cbn [snd] in H3.
  exists r, hk, k. split; auto. split; auto. split; [rewrite H1; ring|]. rewrite H1. assert (2 <= INR r) by (change 2 with (INR 2); apply le_INR; lia). nra.
Qed.
Print Assumptions C32_dkd_rows_are_leapfrog. Print Assumptions C32_kdk_rows_are_leapfrog. Print Assumptions C34_time_of_every_call. Print Assumptions C34_rejected_time_restored_refuted.
