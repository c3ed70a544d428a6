(** Lemmas for C100: every step keeps the invariant, and every step of the executor lowers the measure. *)
From Verif Require Import Tgr_Model Tgr_Spec Tgr_Proofs Tgr_Proofs2 Tgr_Proofs3.
From Coq Require Import List Arith Lia Bool.
Import ListNotations.
Section P.
Variable W : nat.
Variable g : graph.
Variable stop : nat -> nat -> bool.
Notation n := (size g).
Hypothesis WF : well_formed g.
Hypothesis AC : acyclic g.
Variable last : nat -> nat.
Notation inv := (inv g stop). Notation M := (M g last). Notation within := (within stop last). Notation shape := (shape g stop).
(** The books about futures do not change when neither the runs nor the debts do and no future becomes ready. *)
Lemma books ph s ph' s' es : inv ph s -> shape ph' s' -> cur s' = cur s -> sub s' = sub s -> owe s' = owe s -> pend s' = pend s -> num s' + bdec (drv s) = num s + bdec (drv s') -> log s' = log s ++ es -> length es <= 1 -> (forall d, ~ In (Ready d) es) -> inv ph' s'.
Proof.
  intros I Sh Ec Es Eo Ep En El Le Nr. assert (Rd : forall c, In (Ready c) (log s') <-> In (Ready c) (log s)) by (intros c; rewrite El, in_app_iff; pose proof (Nr c); tauto).
  constructor; rewrite ?Ec, ?Es, ?Eo, ?Ep; [exact Sh|apply (i_size _ _ _ _ I)| |apply (i_cur _ _ _ _ I)| |apply (i_nd _ _ _ _ I)| |].
  - pose proof (i_num _ _ _ _ I). lia.
  - rewrite El. pose proof (i_rok _ _ _ _ I) as R. destruct es as [|e [|e2 es]]; [now rewrite app_nil_r| |cbn in Le; lia]. apply ready_snoc; auto. intros c ->. exfalso. apply (Nr c). now left.
  - intros c Hc. rewrite Rd. apply (i_all _ _ _ _ I c Hc).
  - intros c Hc. rewrite Rd in Hc. apply (i_no _ _ _ _ I c Hc).
Qed.
Lemma internal_step ph s s' : inv ph s -> internal W g stop s s' -> exists ph', inv ph' s' /\ (within s -> M ph' s' < M ph s /\ within s').
Proof.
  intros I St. pose proof (i_shape _ _ _ _ I) as Sh. unfold Tgr_Proofs3.shape in Sh. destruct St as [q1 q2 u Eq Lt|a c u p s' Ea Wk|Ed|v l Ed|Ed Es|Ed Es|Ed|Ed Lt|Ed|Ed Lt|o1 o2 c Eo|o1 o2 c Eo].
  - assert (Dr : exists l, drv s = Push l). { destruct (drv s); eauto; destruct Sh as ((Q & _) & _); rewrite Q in Eq; destruct q1; discriminate. } destruct Dr as (l & Dr). rewrite Dr in Sh. destruct Sh as (L & Tj & Cu & k & h & r & Ek & El & H & T).
    set (s' := mkS _ _ _ _ _ _ _ _ _ _ _ _). destruct (take_live g stop ph l s q1 q2 u s' L Eq eq_refl eq_refl eq_refl eq_refl) as (L' & Wt & T'). exists (pupd ph u (Act Got)). split.
    + apply (books ph s _ s' []); auto; [|cbn [log s']; now rewrite app_nil_r]. unfold Tgr_Proofs3.shape. cbn [drv s']. rewrite Dr. split; [exact L'|]. split; [exact Tj|]. split; [exact Cu|]. exists k, h, r. auto.
    + unfold Tgr_Proofs3.within, Tgr_Proofs3.M, dw. cbn [drv cur sub calls owe s']. rewrite Dr. intros X. split; [lia|exact X].
  - assert (Dr : exists l, drv s = Push l). { destruct (drv s); eauto; destruct Sh as ((_ & Q) & _); rewrite Q in Ea; destruct a; discriminate. } destruct Dr as (l & Dr). rewrite Dr in Sh. destruct Sh as (L & Tj & Cu & k & h & r & Ek & El & H & T).
    destruct (work_live g WF ph l s a u p c s' L Ea Wk) as (ph' & L' & Wt & Tr). destruct (Tr h r El T) as (r' & El' & T'). destruct (work_frame g s a c u p s' Wk) as (F1 & F2 & F3 & F4 & F5 & F6 & (es & F7 & F8 & F9) & F).
    assert (C : (drv s' = Push l /\ 1 <= tj s') \/ (drv s' = Ask /\ tj s' = 0)). { destruct F as [(Fd & Ft)|(Ft & Fd)]; [left; split; [congruence|lia]|]. destruct (Nat.eqb_spec (tj s) 1); [right; split; [auto|lia]|left; split; [congruence|lia]]. }
    exists ph'. destruct C as [(Cd & Ct)|(Cd & Ct)].
    + split; [apply (books ph s _ s' es); auto; [|rewrite Cd, Dr, F4; reflexivity]|].
      * unfold Tgr_Proofs3.shape. rewrite Cd, F1, F2, F3. split; [exact L'|]. split; [exact Ct|]. split; [exact Cu|]. exists k, h, r'. auto.
      * unfold Tgr_Proofs3.within, Tgr_Proofs3.M, dw. rewrite Cd, Dr, F1, F2, F3, F6. intros X. split; [lia|exact X].
    + assert (Z : queue s' = [] /\ act s' = [] /\ l = []). { pose proof (l_tj _ _ _ _ L') as X. rewrite Ct in X. repeat split; apply length_zero_iff_nil; lia. } destruct Z as (Zq & Za & ->). pose proof (all_gone g WF ph' s' AC L' Zq Za) as Ag. split; [apply (books ph s _ s' es); auto; [|rewrite Cd, Dr, F4; reflexivity]|].
      * unfold Tgr_Proofs3.shape. rewrite Cd, F1, F2, F3. split; [split; auto|]. split; [exact Cu|]. split; [intros v Hv; rewrite (l_jc _ _ _ _ L' v Hv), (Ag v Hv); reflexivity|]. exists k, h, r'. split; [exact Ek|]. split; [exact El'|]. split; [exact H|]. destruct T' as (T1 & T2). split; [exact T1|]. intros v Hv. apply (T2 v Hv). rewrite (Ag v Hv). exact Logic.I.
      * unfold Tgr_Proofs3.within, Tgr_Proofs3.M, dw. rewrite Cd, Dr, F1, F2, F3, F6. intros X. split; [lia|exact X].
  - rewrite Ed in Sh. destruct Sh as (Q & Cu & H). set (s' := mkS _ _ _ _ _ _ _ _ _ _ _ _). pose proof (start_live g stop s' (fun v _ => eq_refl) Q eq_refl) as L. exists (fun _ => Idle). split.
    + apply (books ph s _ s' []); auto; [|cbn [drv num s']; rewrite Ed; reflexivity|cbn [log s']; now rewrite app_nil_r]. unfold Tgr_Proofs3.shape. cbn [drv s']. split; [exact L|]. split; [cbn [tj s']; apply (some_source g stop WF AC), (i_size _ _ _ _ I Cu)|]. split; [exact Cu|]. exists 0, (body (log s)), []. split; [reflexivity|]. split; [cbn [log s']; now rewrite app_nil_r|]. split; [exact H|apply (tracks_start g stop)].
    + unfold Tgr_Proofs3.within, Tgr_Proofs3.M, dw. cbn [drv cur sub calls owe s']. rewrite Ed. intros (X & _). destruct (X (cur s)) as (X1 & X2). split; [|split; [exact X|exact X1]]. fold (K g). set (R := list_sum (map (cost g last) (seq (S (cur s)) (sub s - cur s - 1)))). clearbody R. destruct (last (cur s)) as [|m]; [lia|]. replace (S m - 1) with m by lia. lia.
  - rewrite Ed in Sh. destruct Sh as (L & Tj & Cu & k & h & r & Ek & El & H & T). set (s' := mkS _ _ _ _ _ _ _ _ _ _ _ _). destruct (push_live g stop ph v l s s' L eq_refl eq_refl eq_refl eq_refl) as (L' & Wt & T'). exists (pupd ph v Queued). split.
    + apply (books ph s _ s' []); auto; [|cbn [drv num s']; rewrite Ed; reflexivity|cbn [log s']; now rewrite app_nil_r]. unfold Tgr_Proofs3.shape. cbn [drv s']. split; [exact L'|]. split; [exact Tj|]. split; [exact Cu|]. exists k, h, r. auto.
    + unfold Tgr_Proofs3.within, Tgr_Proofs3.M, dw. cbn [drv cur sub calls owe s']. rewrite Ed. intros X. split; [lia|exact X].
  - rewrite Ed in Sh. destruct Sh as (Q & Cu & J & k & h & r & Ek & El & H & P). set (s' := mkS _ _ _ _ _ _ _ _ _ _ _ _). pose proof (start_live g stop s' J Q eq_refl) as L. exists (fun _ => Idle). split.
    + apply (books ph s _ s' [Asked (cur s) false]); auto; [|cbn [drv num s']; rewrite Ed; reflexivity|intros d [X|[]]; discriminate]. unfold Tgr_Proofs3.shape. cbn [drv s']. split; [exact L|]. split; [cbn [tj s']; apply (some_source g stop WF AC), (i_size _ _ _ _ I Cu)|]. split; [exact Cu|]. exists (S k), (h ++ r ++ [Asked (cur s) false]), [].
      split; [cbn [calls s']; now rewrite Ek|]. split; [cbn [log s']; rewrite body_1 by reflexivity; rewrite El, app_nil_r, app_assoc; reflexivity|]. split; [|apply (tracks_start g stop)]. cbn [cur s']. apply h_pass; auto. now rewrite <- Ek.
    + unfold Tgr_Proofs3.within, Tgr_Proofs3.M, dw. cbn [drv cur sub calls owe s']. rewrite Ed. intros (X & X0). destruct (X (cur s)) as (X1 & X2). assert (Nl : calls s <> last (cur s)) by congruence. split; [|split; [exact X|lia]]. fold (K g). set (R := list_sum (map (cost g last) (seq (S (cur s)) (sub s - cur s - 1)))). clearbody R.
      assert (Em : last (cur s) - calls s = S (last (cur s) - S (calls s))) by lia. rewrite Em. generalize (last (cur s) - S (calls s)) as m. intros m. fold (K g). generalize (K g). intros kk. rewrite Nat.mul_succ_l. generalize (m * (kk + 2)). intros. lia.
  - rewrite Ed in Sh. destruct Sh as (Q & Cu & J & k & h & r & Ek & El & H & P). set (s' := mkS _ _ _ _ _ _ _ _ _ _ _ _). exists ph. split.
    + apply (books ph s _ s' [Asked (cur s) true]); auto; [|cbn [drv num s']; rewrite Ed; reflexivity|intros d [X|[]]; discriminate]. unfold Tgr_Proofs3.shape. cbn [drv s']. split; [exact Q|]. split; [exact Cu|]. exists k, h, r. cbn [log cur s']. split; [rewrite body_1 by reflexivity; rewrite El, app_assoc; reflexivity|]. split; [exact H|]. split; [exact P|]. now rewrite <- Ek.
    + unfold Tgr_Proofs3.within, Tgr_Proofs3.M, dw. cbn [drv cur sub calls owe s']. rewrite Ed. intros (X & _). split; [generalize ((last (cur s) - calls s) * (K g + 2)); intros; lia|split; [exact X|exact Logic.I]].
  - rewrite Ed in Sh. destruct Sh as (Q & Cu & k & h & r & El & H & P & Sp). set (s' := mkS _ _ _ _ _ _ _ _ _ _ _ _). exists ph. split.
    + apply (books ph s _ s' [Called (cur s)]); auto; [|cbn [drv num s']; rewrite Ed; reflexivity|intros d [X|[]]; discriminate]. unfold Tgr_Proofs3.shape. cbn [drv s']. split; [exact Q|]. split; [exact Cu|]. cbn [log cur s']. rewrite body_1 by reflexivity. rewrite El, <- !app_assoc. cbn [app]. apply (h_run _ _ _ k); auto.
    + unfold Tgr_Proofs3.within, Tgr_Proofs3.M, dw. cbn [drv cur sub calls owe s']. rewrite Ed. intros (X & _). split; [lia|split; [exact X|exact Logic.I]].
  - rewrite Ed in Sh. destruct Sh as (Q & Cu & H). set (s' := mkS _ _ _ _ _ _ _ _ _ _ _ _). exists ph. split.
    + assert (Nr : ~ In (Ready (cur s)) (log s)) by (intros J; apply (i_no _ _ _ _ I) in J; lia). constructor; cbn [drv cur sub num pend owe log s'].
      * unfold Tgr_Proofs3.shape. cbn [drv cur sub log s']. rewrite body_ready. split; [exact Q|]. split; [lia|exact H].
      * intros _. apply (i_size _ _ _ _ I Cu).
      * pose proof (i_num _ _ _ _ I) as X. rewrite Ed in X. cbn [bdec] in *. lia.
      * lia.
      * apply ready_snoc; [apply (i_rok _ _ _ _ I)|]. intros c [= <-]. split; [|exact Nr]. apply in_body. apply (history_called g stop _ _ _ H). lia.
      * destruct (i_nd _ _ _ _ I) as (A & B). split; auto. intros c x J. specialize (B c x J). lia.
      * intros c Hc. rewrite in_app_iff. cbn [In]. destruct (Nat.eq_dec c (cur s)) as [->|]; auto. destruct (i_all _ _ _ _ I c); auto. lia.
      * intros c J. apply in_app_or in J. destruct J as [J|[J|[]]]; [destruct (i_no _ _ _ _ I c J); split; [lia|auto]|]. injection J as <-. split; [lia|]. intros J. destruct (i_nd _ _ _ _ I) as (_ & B). specialize (B _ _ J). lia.
    + unfold Tgr_Proofs3.within, Tgr_Proofs3.M, dw. cbn [drv cur sub calls owe s']. rewrite Ed. intros (X & _). split; [|split; [exact X|exact Logic.I]]. assert (Em : sub s - cur s - 1 = S (sub s - S (cur s) - 1)) by lia. rewrite Em. cbn [seq map]. change (list_sum (cost g last (S (cur s)) :: map (cost g last) (seq (S (S (cur s))) (sub s - S (cur s) - 1)))) with (cost g last (S (cur s)) + list_sum (map (cost g last) (seq (S (S (cur s))) (sub s - S (cur s) - 1)))). unfold cost at 2. lia.
  - rewrite Ed in Sh. destruct Sh as (Q & Cu & H). set (s' := mkS _ _ _ _ _ _ _ _ _ _ _ _). exists ph. split.
    + apply (books ph s _ s' []); auto; [|cbn [drv num s']; rewrite Ed; cbn [bdec]; pose proof (i_num _ _ _ _ I) as X; rewrite Ed in X; cbn [bdec] in X; lia|cbn [log s']; now rewrite app_nil_r]. unfold Tgr_Proofs3.shape. cbn [drv s']. auto.
    + unfold Tgr_Proofs3.within, Tgr_Proofs3.M, dw. cbn [drv cur sub calls owe s']. rewrite Ed. intros (X & _). split; [lia|split; [exact X|exact Logic.I]].
  - rewrite Ed in Sh. destruct Sh as (Q & Cu & H). set (s' := mkS _ _ _ _ _ _ _ _ _ _ _ _). exists ph. split.
    + assert (Nr : ~ In (Ready (cur s)) (log s)) by (intros J; apply (i_no _ _ _ _ I) in J; lia). constructor; cbn [drv cur sub num pend owe log s'].
      * unfold Tgr_Proofs3.shape. cbn [drv cur sub log s']. split; [exact Q|]. split; [lia|exact H].
      * lia.
      * pose proof (i_num _ _ _ _ I) as X. rewrite Ed in X. cbn [bdec length] in *. lia.
      * lia.
      * apply (i_rok _ _ _ _ I).
      * destruct (i_nd _ _ _ _ I) as (A & B). split; [cbn [map fst]; constructor; auto; intros J; apply in_map_iff in J; destruct J as ((d, x) & E & J); cbn [fst] in E; subst d; specialize (B _ _ J); lia|]. intros c x [[= <- <-]|J]; [lia|]. specialize (B c x J). lia.
      * intros c Hc. cbn [In]. destruct (Nat.eq_dec c (cur s)) as [->|]; auto. destruct (i_all _ _ _ _ I c); auto. lia.
      * intros c J. pose proof (i_no _ _ _ _ I c J) as (A & B). split; [lia|]. intros [[= E]|X]; [lia|auto].
    + unfold Tgr_Proofs3.within, Tgr_Proofs3.M, dw. cbn [drv cur sub calls owe s']. rewrite Ed. intros (X & _). split; [|split; [exact X|exact Logic.I]]. assert (E1 : sub s - cur s - 1 = 0) by lia. assert (E2 : sub s - S (cur s) - 1 = 0) by lia. rewrite E1, E2. cbn [seq map snd]. change (list_sum (2 :: map (fun o : nat * bool => if snd o then 1 else 2) (owe s))) with (2 + list_sum (map (fun o : nat * bool => if snd o then 1 else 2) (owe s))). lia.
  - set (s' := mkS _ _ _ _ _ _ _ _ _ _ _ _). exists ph. destruct (i_nd _ _ _ _ I) as (A & B). pose proof A as A0. rewrite Eo, map_app in A. cbn [map fst] in A. apply NoDup_remove_2 in A. rewrite <- map_app in A. assert (J0 : In (c, false) (owe s)) by (rewrite Eo; apply in_elt). pose proof (B _ _ J0) as Hc. assert (Nr : ~ In (Ready c) (log s)) by (intros J; apply (i_no _ _ _ _ I) in J; tauto). split.
    + constructor; cbn [drv cur sub num pend owe log s'].
      * pose proof (i_shape _ _ _ _ I) as X. unfold Tgr_Proofs3.shape in *. cbn [drv cur sub log calls jc tj s']. rewrite body_ready. unfold quiet in *. cbn [queue act s']. destruct (drv s); try exact X. destruct X as (L & X). split; [|exact X]. destruct L. constructor; auto.
      * apply (i_size _ _ _ _ I).
      * pose proof (i_num _ _ _ _ I) as X. rewrite Eo in X. rewrite app_length in *. cbn [length] in *. lia.
      * apply (i_cur _ _ _ _ I).
      * apply ready_snoc; [apply (i_rok _ _ _ _ I)|]. intros d [= <-]. split; [|exact Nr]. apply (shape_called g stop ph s (i_shape _ _ _ _ I)). exact Hc.
      * split; [rewrite Eo in A0; rewrite map_app in *; exact A0|]. intros d x J. apply in_app_or in J. destruct J as [J|[[= <- <-]|J]]; auto; apply (B d x); rewrite Eo; apply in_or_app; [now left|right; now right].
      * intros d Hd. rewrite in_app_iff. destruct (i_all _ _ _ _ I d Hd) as [J|J]; auto. rewrite Eo in J. apply in_app_or in J. destruct J as [J|[[= <-]|J]]; [right; apply in_or_app; auto|left; right; now left|right; apply in_or_app; right; now right].
      * intros d J. apply in_app_or in J. destruct J as [J|[[= <-]|[]]].
        -- destruct (i_no _ _ _ _ I d J) as (X & Y). split; auto. intros Z. apply Y. rewrite Eo. apply in_app_or in Z. apply in_or_app. destruct Z as [Z|[Z|Z]]; [auto|discriminate|right; now right].
        -- split; auto. intros Z. apply A. apply in_app_or in Z. rewrite map_app. apply in_or_app. destruct Z as [Z|[Z|Z]]; [left|discriminate|right]; apply (in_map fst) in Z; exact Z.
    + unfold Tgr_Proofs3.within, Tgr_Proofs3.M, dw. cbn [drv cur sub calls owe s']. intros X. split; [|exact X]. rewrite Eo. rewrite !owe_sum. cbn [snd]. lia.
  - set (s' := mkS _ _ _ _ _ _ _ _ _ _ _ _). exists ph. destruct (i_nd _ _ _ _ I) as (A & B). split.
    + constructor; cbn [drv cur sub num pend owe log s'].
      * pose proof (i_shape _ _ _ _ I) as X. unfold Tgr_Proofs3.shape in *. cbn [drv cur sub log calls jc tj s']. unfold quiet in *. cbn [queue act s']. destruct (drv s); try exact X. destruct X as (L & X). split; [|exact X]. destruct L. constructor; auto.
      * apply (i_size _ _ _ _ I).
      * pose proof (i_num _ _ _ _ I) as X. rewrite Eo in X. rewrite app_length in *. cbn [length] in *. lia.
      * apply (i_cur _ _ _ _ I).
      * apply (i_rok _ _ _ _ I).
      * rewrite Eo in A. split; [rewrite map_app in *; cbn [map fst] in A; eapply NoDup_remove_1; eauto|]. intros d x J. apply (B d x). rewrite Eo. apply in_app_or in J. apply in_or_app. destruct J; [auto|right; now right].
      * intros d Hd. destruct (i_all _ _ _ _ I d Hd) as [J|J]; auto. rewrite Eo in J. right. apply in_app_or in J. apply in_or_app. destruct J as [J|[J|J]]; [auto|discriminate|auto].
      * intros d J. destruct (i_no _ _ _ _ I d J) as (X & Y). split; auto. intros Z. apply Y. rewrite Eo. apply in_app_or in Z. apply in_or_app. destruct Z; [auto|right; now right].
    + unfold Tgr_Proofs3.within, Tgr_Proofs3.M, dw. cbn [drv cur sub calls owe s']. intros X. split; [|exact X]. rewrite Eo. rewrite !owe_sum. cbn [snd]. lia.
Qed.
Lemma user_step ph s s' : inv ph s -> user g s s' -> inv ph s'.
Proof.
  intros I St. pose proof (i_shape _ _ _ _ I) as Sh. pose proof (i_num _ _ _ _ I) as Nm. pose proof (i_cur _ _ _ _ I) as Ic. destruct St as [|Hp|Hp Z].
  - destruct I. constructor; cbn [drv cur sub num pend owe log]; auto; [|lia]. unfold Tgr_Proofs3.shape in *. cbn [drv cur sub log calls jc tj]. unfold quiet in *. cbn [queue act]. destruct (drv s); try exact Sh. destruct Sh as (L & X). split; [|exact X]. destruct L. constructor; auto.
  - destruct I. constructor; cbn [drv cur sub num pend owe log]; auto; [|lia]. unfold Tgr_Proofs3.shape in *. cbn [drv cur sub log calls jc tj]. unfold quiet in *. cbn [queue act]. destruct (drv s); try exact Sh. destruct Sh as (L & X). split; [|exact X]. destruct L. constructor; auto.
  - assert (Dq : bdec (if S (sub s) - cur s =? 1 then SetUp else drv s) = bdec (drv s)). { destruct (Nat.eqb_spec (S (sub s) - cur s) 1) as [E|E]; auto. unfold Tgr_Proofs3.shape in Sh. destruct (drv s); auto. destruct Sh as (_ & ? & _). lia. }
    destruct I. constructor; cbn [drv cur sub num pend owe log]; auto; [|rewrite Dq; lia]. unfold Tgr_Proofs3.shape in *. cbn [drv cur sub log calls jc tj]. unfold quiet in *. cbn [queue act]. destruct (Nat.eqb_spec (S (sub s) - cur s) 1) as [E|E].
    + destruct (drv s); try (exfalso; destruct Sh as (_ & ? & _); lia). destruct Sh as (Q & Y & H). split; [exact Q|]. split; [lia|exact H].
    + destruct (drv s).
      * exfalso. destruct Sh as (_ & ? & _). lia.
      * destruct Sh as (Q & Y & H). split; [exact Q|]. split; [lia|exact H].
      * destruct Sh as (L & X & Y & R). split; [destruct L; constructor; auto|]. split; [exact X|]. split; [lia|exact R].
      * destruct Sh as (Q & Y & H). split; [exact Q|]. split; [lia|exact H].
      * destruct Sh as (Q & Y & H). split; [exact Q|]. split; [lia|exact H].
      * destruct Sh as (Q & Y & H). split; [exact Q|]. split; [lia|exact H].
      * destruct Sh as (Q & Y & H). split; [exact Q|]. split; [lia|exact H].
Qed.
Lemma reach_inv s : reachable W g stop s -> exists ph, inv ph s.
Proof.
  induction 1 as [|s s' R (ph & I) St|s s' R (ph & I) St].
  - exists (fun _ => Idle). constructor; cbn [init drv cur sub num pend owe log]; auto; try lia.
    + unfold Tgr_Proofs3.shape. cbn [init drv cur sub log]. split; [split; reflexivity|]. split; [reflexivity|]. constructor.
    + intros pre c post E. destruct pre; discriminate.
    + split; [constructor|intros c x []].
    + intros c [].
  - destruct (internal_step ph s s' I St) as (ph' & I' & _). eauto.
  - exists ph. eapply user_step; eauto.
Qed.
End P.
