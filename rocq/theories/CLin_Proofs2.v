(** Proofs about eof() mixed with reads. *)
From Verif Require Export Text CLin_Model CLin_Spec CLin_Proofs.


Lemma rd_word_more n : forall w s s' r, alone (rd_word n w) s = Some (s', r) -> length (rest s) <= n ->
  exists u, rest s = u ++ rest s' /\ forallb (fun c => negb (isspace c)) u = true /\ (eofbit s = false -> (eofbit s' = true <-> rest s' = [])) /\
            (forall c t, rest s = c :: t -> isspace c = false -> u <> []).
Proof.
  induction n as [|n IH]; intros w s s' r H L.
  - simpl in H. destruct (rest s) as [|c t] eqn:Er; [|simpl in L; lia]. injection H as <- _. exists []. simpl. repeat split; auto. intros; discriminate.
  - cbn [rd_word alone] in H. destruct (rest s) as [|c t] eqn:Er.
    + cbn [alone] in H. injection H as <- _. exists []. simpl. repeat split; auto. intros; discriminate.
    + destruct (isspace c) eqn:Ec.
      * cbn [alone] in H. injection H as <- _. exists []. rewrite Er. simpl. split; auto. split; auto. split; [intros E; split; [congruence|discriminate]|]. intros c1 t1 X Y. congruence.
      * apply IH in H; [|simpl in *; lia]. cbn [rest eofbit] in H. destruct H as (u & A & B & D & _). exists (c :: u). rewrite A. split; auto. cbn [forallb]. rewrite Ec. split; auto. split; auto. intros; discriminate.
Qed.
Lemma rd_skip_more n : forall s s' r, alone (rd_skip n) s = Some (s', r) -> length (rest s) <= n -> r <> RWord None ->
  exists u v, rest s = u ++ v ++ rest s' /\ forallb (fun c => negb (isspace c)) v = true /\ v <> [] /\ (eofbit s = false -> (eofbit s' = true <-> rest s' = [])).
Proof.
  induction n as [|n IH]; intros s s' r H L N.
  - simpl in H. destruct (rest s) as [|c t] eqn:Er; [|simpl in L; lia]. injection H as _ <-. congruence.
  - cbn [rd_skip alone] in H. destruct (rest s) as [|c t] eqn:Er.
    + cbn [alone] in H. injection H as _ <-. congruence.
    + destruct (isspace c) eqn:Ec.
      * apply IH in H; auto; [|simpl in *; lia]. cbn [rest eofbit] in H. destruct H as (u & v & A & B). exists (c :: u), v. rewrite A. split; auto.
      * apply rd_word_more in H; [|rewrite Er; auto]. destruct H as (u & A & B & D & E). exists [], u. cbn [app]. rewrite <- Er. split; auto. split; auto. split; [eapply E; eauto|auto].
Qed.
Lemma all_spaces t : words t = [] -> forallb isspace t = true.
Proof.
  unfold words. assert (W : forall t w, w <> [] -> words_from w t <> []).
  { induction t0 as [|c t0 IH]; intros w Hw; simpl; [destruct w; congruence|]. destruct (isspace c); [destruct w; congruence|]. apply IH. destruct w; discriminate. }
  induction t as [|c t IH]; simpl; auto. destruct (isspace c) eqn:E; simpl; auto. intros X. exfalso. revert X. apply W. discriminate.
Qed.
Lemma ends_app t u : u <> [] -> ends_in_space (t ++ u) = ends_in_space u.
Proof. intros H. unfold ends_in_space. rewrite rev_app_distr. destruct (rev u) eqn:E; auto. apply (f_equal (@rev _)) in E. rewrite rev_involutive in E. simpl in E. congruence. Qed.
Lemma ends_all f u b : (forall c, f c = b -> isspace c = b) -> u <> [] -> forallb (fun c => if b then f c else negb (f c)) u = true -> ends_in_space u = b.
Proof.
  intros Hf Hu H. unfold ends_in_space. destruct (rev u) as [|c l] eqn:E; [apply (f_equal (@rev _)) in E; rewrite rev_involutive in E; simpl in E; congruence|].
  rewrite forallb_forall in H. assert (I : In c u) by (apply in_rev; rewrite E; left; auto). specialize (H c I). apply Hf. destruct b; [auto|]. destruct (f c); [discriminate|auto].
Qed.
(** The three states a file can be in after [k] reads. *)
Definition after_reads (t : text) (k : nat) (s : istr) : Prop :=
  (eofbit s = false /\ failbit s = false /\ k <= length (words t) /\ skipn k (words t) = words (rest s) /\ (exists pre, t = pre ++ rest s) /\ (k = 0 \/ rest s <> [])) \/
  (eofbit s = true /\ failbit s = false /\ rest s = [] /\ k = length (words t) /\ 0 < k /\ ends_in_space t = false) \/
  (eofbit s = true /\ failbit s = true /\ rest s = [] /\ length (words t) < k).
Lemma skipn_cons {A} (l : list A) k v r : skipn k l = v :: r -> nth_error l k = Some v /\ skipn (S k) l = r /\ k < length l.
Proof.
  revert k. induction l as [|a l IH]; intros [|k] H; try discriminate; simpl in *.
  - injection H as -> ->. repeat split; auto. lia.
  - apply IH in H. destruct H as (A1 & B & D). repeat split; auto. lia.
Qed.
Lemma eof_answer t k s : after_reads t k s -> eofbit s = at_end t k.
Proof.
  unfold at_end. intros [(A & B & D & E & (pre & F) & G)|[(A & B & D & E & F & G)|(A & B & D & E)]].
  - rewrite A. destruct (Nat.ltb_spec (length (words t)) k); [lia|]. destruct (Nat.eqb_spec (length (words t)) k) as [Q|Q]; simpl; auto. destruct (Nat.ltb_spec 0 k); simpl; auto.
    destruct G as [G|G]; [lia|]. rewrite <- Q, skipn_all in E. symmetry in E. apply all_spaces in E. rewrite F, ends_app by auto. rewrite (ends_all isspace (rest s) true); auto.
  - rewrite A, E. rewrite Nat.eqb_refl, G. destruct (Nat.ltb_spec 0 (length (words t))); [|lia]. simpl. rewrite orb_true_r. auto.
  - rewrite A. destruct (Nat.ltb_spec (length (words t)) k); [auto|lia].
Qed.
Lemma step_after t k s o : after_reads t k s -> exists s', alone (run_of o) s = Some (s', expected t k o) /\ after_reads t (match o with Read => S k | _ => k end) s'.
Proof.
  intros H. destruct o; simpl run_of; cbn [expected].
  - assert (GI : good_inv s) by (destruct H as [(A & _)|[(A & _ & D & _)|(A & _ & D & _)]]; intros ?; auto; congruence).
    assert (FE : failbit s = true -> eofbit s = true) by (destruct H as [(A & B & _)|[(A & B & _)|(A & B & _)]]; congruence).
    destruct (alone_read s GI FE) as (o & s' & E & G1 & F1 & Mt). destruct H as [(A & B & D & Sk & (pre & F) & G)|[(A & B & D & Q & F & G)|(A & B & D & Q)]].
    + destruct o as [v|].
      * rewrite Mt in Sk. destruct (skipn_cons _ _ _ _ Sk) as (N & S1 & Lt). exists s'. rewrite N. split; auto.
        unfold op_read in E. cbn [alone] in E. rewrite A, B in E. cbn [orb] in E.
        assert (Fb : failbit s' = false).
        { destruct (alone_rd_skip (length (rest s)) s) as [o [s2 [A1 A2]]]; auto. rewrite E in A1. injection A1 as <- <-. apply A2. }
        apply rd_skip_more in E; [|auto|discriminate]. destruct E as (u & v' & R1 & R2 & R3 & R4). specialize (R4 A). destruct (rest s') as [|c r] eqn:Er.
        -- right. left. rewrite (proj2 R4 eq_refl), Er. split; auto. split; auto. split; auto.
           assert (L : length (words t) = S k).
           { assert (length (skipn (S k) (words t)) = 0) by (rewrite S1; reflexivity). rewrite skipn_length in H. lia. }
           split; auto. split; [lia|]. rewrite app_nil_r in R1. rewrite F, R1, app_assoc, ends_app by auto. apply (ends_all isspace v' false); auto.
        -- left. split; [destruct (eofbit s'); auto; pose proof (proj1 R4 eq_refl); discriminate|]. split; auto. split; [lia|]. rewrite Er. split; auto. split; [|right; discriminate].
           exists (pre ++ u ++ v'). rewrite F, R1, <- !app_assoc. reflexivity.
      * destruct Mt as [M1 M2]. exists s'. assert (L : length (words t) = k).
        { assert (length (skipn k (words t)) = 0) by (rewrite Sk, M1; reflexivity). rewrite skipn_length in H. lia. }
        rewrite (proj2 (nth_error_None (words t) k)) by lia. split; auto. right. right.
        unfold op_read in E. cbn [alone] in E. rewrite A, B in E. cbn [orb] in E.
        destruct (alone_rd_skip (length (rest s)) s) as [o [s2 [A1 A2]]]; auto. rewrite E in A1. injection A1 as <- <-. destruct A2 as (X1 & X2 & _ & X3). repeat split; auto. lia.
    + exists (mkI (rest s) true true). unfold op_read. cbn [alone]. rewrite A. cbn [orb alone]. rewrite (proj2 (nth_error_None (words t) k)) by lia. split; auto. right. right. simpl. repeat split; auto. lia.
    + exists (mkI (rest s) true true). unfold op_read. cbn [alone]. rewrite A. cbn [orb alone]. rewrite (proj2 (nth_error_None (words t) k)) by lia. split; auto. right. right. simpl. repeat split; auto; lia.
  - exists s. unfold op_eof. cbn [alone]. rewrite (eof_answer t k s H). auto.
  - exists s. unfold op_flush. cbn [alone]. auto.
Qed.
Lemma opened_after t : after_reads t 0 (opened t).
Proof. left. simpl. repeat split; auto; [lia|exists []; auto]. Qed.
Lemma sequential_mixed t (l : list (entry istr res)) : forall os k x y, after_reads t k x -> map (fun e => snd (fst e)) l = map run_of os ->
  sequential x l y -> results l = expected_all t k os.
Proof.
  induction l as [|[[i p] r] l IH]; intros os k x y A M H; destruct os as [|o os]; try discriminate; simpl in *; auto.
  destruct H as (z & E & H). injection M as -> M. destruct (step_after t k x o A) as (s' & E1 & A1). rewrite E in E1. injection E1 as <- ->.
  unfold results in *. simpl. f_equal. eapply IH; eauto.
Qed.
