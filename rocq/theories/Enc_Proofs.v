(** Lemmas for C101. *)
From Verif Require Import Enc_Model Enc_Spec.
From Coq Require Import List Arith Lia Bool.
Import ListNotations.
Lemma set_same A (f : nat -> A) i x : set f i x i = x.
Proof. unfold set. now rewrite Nat.eqb_refl. Qed.
Lemma set_other A (f : nat -> A) i x j : j <> i -> set f i x j = f j.
Proof. intros N. unfold set. destruct (Nat.eqb_spec j i); congruence. Qed.
(** The linked list that begins at o. *)
Fixpoint chain (nx : nat -> option nat) (o : option nat) (l : list nat) : Prop := match l with [] => o = None | w :: l => o = Some w /\ chain nx (nx w) l end.
Lemma chain_set nx o l w x : chain nx o l -> ~ In w l -> chain (set nx w x) o l.
Proof. revert o. induction l as [|v l IH]; intros o; cbn [chain In]; auto. intros (-> & C) N. split; auto. rewrite set_other by (intros ->; tauto). apply IH; tauto. Qed.
Lemma chain_head nx o l w : chain nx o l -> o = Some w -> exists l', l = w :: l' /\ chain nx (nx w) l'.
Proof. destruct l as [|v l]; cbn [chain]; [intros ->; discriminate|]. intros (-> & C) [= ->]. eauto. Qed.
(** The ticket of a waiter that has prepared. *)
Definition ticket (x : wst) : option nat := match x with Pre t | Com t | Str t _ | Cas t _ | Can t | Cnl t _ => Some t | _ => None end.
(** The waiters a notifying thread still has to signal. *)
Definition owns (nx : nat -> option nat) (x : nst) (l : list nat) : Prop := match x with
  | Null w => l = [w] | Unp o => chain nx o l | Sig w o => exists l', l = w :: l' /\ chain nx o l' | _ => l = [] end.
(** Words and pointers read earlier. *)
Definition snapw (s : st) (w : nat) (x : wst) : Prop := match x with
  | Com t => sig s w = false | Str t y => sig s w = false /\ ep y = t | Cnl t y => ep y = t | Cas t y => sig s w = false /\ ep y = t /\ next s w = stk y | _ => True end.
Definition snapn (s : st) (l : list nat) (x : nst) : Prop := match x with
  | Have false y => ep y <= ep (wd s) /\ (ep y = ep (wd s) -> forall w, wc y = 0 -> stk y = Some w -> ~ In w l \/ stk (wd s) = Some w)
  | Popp y nx => ep y <= ep (wd s) /\ wc y = 0 /\ (ep y = ep (wd s) -> forall w, stk y = Some w -> ~ In w l \/ (stk (wd s) = Some w /\ nx = next s w))
  | _ => True end.
Record inv (l : list nat) (own : nat -> list nat) (s : st) : Prop := mkI {
  i_chain : chain (next s) (stk (wd s)) l;
  i_nd : NoDup l;
  i_park : forall w, In w l -> ws s w = Park /\ sig s w = false;
  i_lt : forall w t, ticket (ws s w) = Some t -> t < ep (wd s) + wc (wd s);
  i_uni : forall v w t, ticket (ws s v) = Some t -> ticket (ws s w) = Some t -> ep (wd s) <= t -> v = w;
  i_all : forall t, ep (wd s) <= t < ep (wd s) + wc (wd s) -> exists w, ticket (ws s w) = Some t;
  i_own : forall k, owns (next s) (ns s k) (own k);
  i_ond : forall k, NoDup (own k);
  i_dis : forall k j w, k <> j -> In w (own k) -> ~ In w (own j);
  i_dst : forall k w, In w (own k) -> ~ In w l /\ ws s w = Park /\ sig s w = false;
  i_cov : forall w, ws s w = Park -> sig s w = false -> In w l \/ exists k, In w (own k);
  i_sw : forall w, snapw s w (ws s w);
  i_sn : forall k, snapn s l (ns s k);
  i_told : forall w, In w l \/ (exists t, ticket (ws s w) = Some t /\ ep (wd s) <= t) -> told (log s) w = false;
  i_owed : owed (log s) = wc (wd s) + length l }.
Definition out (l : list nat) (own : nat -> list nat) (w : nat) : Prop := ~ In w l /\ forall k, ~ In w (own k).
Lemma out_awake l own s w : inv l own s -> ws s w <> Park -> out l own w.
Proof. intros I N. split; [intros J; apply (i_park _ _ _ I) in J; tauto|intros k J; apply (i_dst _ _ _ I) in J; tauto]. Qed.
Lemma out_sig l own s w : inv l own s -> sig s w = true -> out l own w.
Proof. intros I N. split; [intros J; apply (i_park _ _ _ I) in J; destruct J; congruence|intros k J; apply (i_dst _ _ _ I) in J; destruct J as (_ & _ & J); congruence]. Qed.
Lemma owns_set nx x l w v : owns nx x l -> ~ In w l -> owns (set nx w v) x l.
Proof. destruct x; cbn [owns]; auto; [apply chain_set|]. intros (l' & -> & C) N. exists l'. split; auto. apply chain_set; auto. intros J. apply N. now right. Qed.
(** A waiter's private move: only its own state changes, and neither its ticket nor what the snapshots say. *)
Lemma private l own s w x sg nx : inv l own s -> out l own w -> x <> Park -> (ticket x = ticket (ws s w) \/ ticket x = None /\ (forall t, ticket (ws s w) = Some t -> t < ep (wd s))) ->
  snapw (mkS (wd s) nx sg (set (ws s) w x) (ns s) (log s)) w x -> (forall v, v <> w -> sg v = sig s v) -> (nx = next s \/ exists o, nx = set (next s) w o) -> inv l own (mkS (wd s) nx sg (set (ws s) w x) (ns s) (log s)).
Proof.
  intros I (Nl & No) Nx T Sw Sg Hn. assert (Tk : forall v t, ticket (set (ws s) w x v) = Some t -> ticket (ws s v) = Some t). { intros v t. destruct (Nat.eq_dec v w) as [->|Nv]; [rewrite set_same|rewrite set_other; auto]. destruct T as [->|(-> & _)]; [auto|discriminate]. }
  assert (Hx : forall v, v <> w -> nx v = next s v) by (intros v Nv; destruct Hn as [->|(o & ->)]; [auto|now rewrite set_other]).
  constructor; cbn [wd next sig ws ns log].
  - destruct Hn as [->|(o & ->)]; [|apply chain_set; auto]; apply I.
  - apply I.
  - intros v J. assert (Nv : v <> w) by congruence. rewrite set_other, Sg by auto. apply (i_park _ _ _ I v J).
  - intros v t E. apply (i_lt _ _ _ I v t). auto.
  - intros v u t E1 E2. apply (i_uni _ _ _ I v u t); auto.
  - intros t Ht. destruct (i_all _ _ _ I t Ht) as (v & E). exists v. destruct (Nat.eq_dec v w) as [->|Nv]; [rewrite set_same|rewrite set_other; auto]. destruct T as [->|(_ & L)]; auto. apply L in E. lia.
  - intros k. destruct Hn as [->|(o & ->)]; [|apply owns_set; auto]; apply I.
  - apply I.
  - apply I.
  - intros k v J. destruct (i_dst _ _ _ I k v J) as (A & B & C). assert (Nv : v <> w) by (intros ->; exact (No k J)). rewrite set_other, Sg; auto.
  - intros v E S0. destruct (Nat.eq_dec v w) as [->|Nv]; [rewrite set_same in E; congruence|]. rewrite set_other in E by auto. rewrite Sg in S0 by auto. apply (i_cov _ _ _ I v E S0).
  - intros v. destruct (Nat.eq_dec v w) as [->|Nv]; [rewrite set_same; destruct x; exact Sw|]. rewrite set_other by auto. pose proof (i_sw _ _ _ I v) as X. destruct (ws s v); cbn [snapw sig next] in *; rewrite ?Sg, ?Hx by auto; exact X.
  - intros k. pose proof (i_sn _ _ _ I k) as X. destruct (ns s k) as [| |[]|y o| | |]; try exact X. cbn [snapn wd next] in *. destruct X as (A & B & X). repeat split; auto. intros Q v Ev. destruct (Nat.eq_dec v w) as [->|Nv]; [now left|]. rewrite Hx; auto.
  - intros v [J|(t & E & L)]; apply (i_told _ _ _ I v); [auto|right; exists t; auto].
  - apply I.
Qed.
(** A notifying thread's private move. *)
Lemma noter l own s k x lg : inv l own s -> (forall w, told lg w = told (log s) w) -> owed lg = owed (log s) -> owns (next s) x (own k) -> snapn s l x -> inv l own (mkS (wd s) (next s) (sig s) (ws s) (set (ns s) k x) lg).
Proof.
  intros I Tl Ow O Sn. constructor; cbn [wd next sig ws ns log]; try (apply I; fail).
  - intros j. destruct (Nat.eq_dec j k) as [->|Nj]; [rewrite set_same; auto|rewrite set_other by auto; apply (i_own _ _ _ I j)].
  - intros j. destruct (Nat.eq_dec j k) as [->|Nj]; [rewrite set_same; destruct x as [| |[]| | | |]; exact Sn|]. rewrite set_other by auto. pose proof (i_sn _ _ _ I j) as X. destruct (ns s j) as [| |[]| | | |]; exact X.
  - intros w J. rewrite Tl. apply (i_told _ _ _ I w J).
  - rewrite Ow. apply (i_owed _ _ _ I).
Qed.
(** prepare_wait. *)
Lemma prep l own s w : inv l own s -> ws s w = Away -> inv l own (mkS (mkW (ep (wd s)) (S (wc (wd s))) (stk (wd s))) (next s) (sig s) (set (ws s) w (Pre (ep (wd s) + wc (wd s)))) (ns s) (Prep w :: log s)).
Proof.
  intros I Ew. destruct (out_awake _ _ _ w I) as (Nl & No); [congruence|].
  assert (Tk : forall v t, ticket (set (ws s) w (Pre (ep (wd s) + wc (wd s))) v) = Some t -> v = w /\ t = ep (wd s) + wc (wd s) \/ v <> w /\ ticket (ws s v) = Some t).
  { intros v t. destruct (Nat.eq_dec v w) as [->|Nv]; [rewrite set_same; cbn [ticket]; intros [= <-]; auto|rewrite set_other; auto]. }
  constructor; cbn [wd next sig ws ns log ep wc stk]; try (apply I; fail).
  - intros v J. assert (Nv : v <> w) by congruence. rewrite set_other by auto. apply (i_park _ _ _ I v J).
  - intros v t E. destruct (Tk v t E) as [(_ & ->)|(_ & E')]; [lia|]. apply (i_lt _ _ _ I) in E'. lia.
  - intros v u t E1 E2 L. destruct (Tk v t E1) as [(-> & ->)|(Nv & E1')]; destruct (Tk u _ E2) as [(-> & Q)|(Nu & E2')]; auto; subst; try (apply (i_lt _ _ _ I) in E1'; lia); try (apply (i_lt _ _ _ I) in E2'; lia). apply (i_uni _ _ _ I v u t); auto.
  - intros t Ht. destruct (Nat.eq_dec t (ep (wd s) + wc (wd s))) as [->|Nt]; [exists w; now rewrite set_same|]. destruct (i_all _ _ _ I t) as (v & E); [lia|]. exists v. rewrite set_other; auto. intros ->. now rewrite Ew in E.
  - intros k v J. destruct (i_dst _ _ _ I k v J) as (A & B & C). assert (Nv : v <> w) by (intros ->; exact (No k J)). rewrite set_other; auto.
  - intros v E S0. destruct (Nat.eq_dec v w) as [->|Nv]; [rewrite set_same in E; congruence|]. rewrite set_other in E by auto. apply (i_cov _ _ _ I v E S0).
  - intros v. destruct (Nat.eq_dec v w) as [->|Nv]; [now rewrite set_same|]. rewrite set_other by auto. pose proof (i_sw _ _ _ I v) as X. destruct (ws s v); exact X.
  - intros v J. cbn [told]. destruct (Nat.eqb_spec w v) as [E|E]; auto. apply (i_told _ _ _ I v). destruct J as [J|(t & E1 & L)]; auto. right. destruct (Tk v t E1) as [(-> & _)|(_ & E')]; [congruence|eauto].
  - cbn [owed]. rewrite (i_owed _ _ _ I). lia.
Qed.
(** The lowest ticket is used up. *)
Lemma tick l own s e : inv l own s -> wc (wd s) <> 0 -> (forall w, told (e :: log s) w = told (log s) w) -> owed (e :: log s) = owed (log s) - 1 -> inv l own (mkS (mkW (S (ep (wd s))) (wc (wd s) - 1) (stk (wd s))) (next s) (sig s) (ws s) (ns s) (e :: log s)).
Proof.
  intros I N Tl Ow. constructor; cbn [wd next sig ws ns log ep wc stk]; try (apply I; fail).
  - intros w t E. apply (i_lt _ _ _ I) in E. lia.
  - intros v u t E1 E2 L. apply (i_uni _ _ _ I v u t); auto; lia.
  - intros t Ht. apply (i_all _ _ _ I). lia.
  - intros k. pose proof (i_sn _ _ _ I k) as X. destruct (ns s k) as [| |[]|y o| | |]; try exact X; cbn [snapn wd ep] in *; [destruct X as (X & _)|destruct X as (X & Y & _)]; repeat split; auto; intros; lia.
  - intros w J. rewrite Tl. apply (i_told _ _ _ I w). destruct J as [J|(t & E & L)]; auto. right. exists t. split; auto. lia.
  - rewrite Ow, (i_owed _ _ _ I). lia.
Qed.
(** The compare_exchange of commit_wait. *)
Lemma push l own s w t : inv l own s -> ws s w = Cas t (wd s) -> inv (w :: l) own (mkS (mkW (S (ep (wd s))) (wc (wd s) - 1) (Some w)) (next s) (sig s) (set (ws s) w Park) (ns s) (log s)).
Proof.
  intros I Ew. destruct (out_awake _ _ _ w I) as (Nl & No); [congruence|]. pose proof (i_sw _ _ _ I w) as Sw. rewrite Ew in Sw. cbn [snapw] in Sw. destruct Sw as (Sg & Et & En).
  assert (Tw : ticket (ws s w) = Some t) by now rewrite Ew. pose proof (i_lt _ _ _ I w t Tw) as Lt.
  assert (Tk : forall v t, ticket (set (ws s) w Park v) = Some t -> v <> w /\ ticket (ws s v) = Some t).
  { intros v u. destruct (Nat.eq_dec v w) as [->|Nv]; [rewrite set_same; discriminate|rewrite set_other; auto]. }
  constructor; cbn [wd next sig ws ns log ep wc stk]; try (apply I; fail).
  - cbn [chain]. split; auto. rewrite En. apply I.
  - constructor; auto. apply I.
  - intros v [<-|J]; [now rewrite set_same|]. assert (Nv : v <> w) by congruence. rewrite set_other by auto. apply (i_park _ _ _ I v J).
  - intros v u E. apply Tk in E as (_ & E). apply (i_lt _ _ _ I) in E. lia.
  - intros v u z E1 E2 L. apply Tk in E1 as (_ & E1). apply Tk in E2 as (_ & E2). apply (i_uni _ _ _ I v u z); auto; lia.
  - intros u Hu. destruct (i_all _ _ _ I u) as (v & E); [lia|]. exists v. rewrite set_other; auto. intros ->. rewrite Tw in E. injection E as <-. lia.
  - intros k v J. destruct (i_dst _ _ _ I k v J) as (A & B & C). assert (Nv : v <> w) by (intros ->; exact (No k J)). rewrite set_other by auto. repeat split; auto. intros [<-|J']; auto.
  - intros v E S0. destruct (Nat.eq_dec v w) as [->|Nv]; [left; now left|]. rewrite set_other in E by auto. destruct (i_cov _ _ _ I v E S0); [left; now right|now right].
  - intros v. destruct (Nat.eq_dec v w) as [->|Nv]; [now rewrite set_same|]. rewrite set_other by auto. pose proof (i_sw _ _ _ I v) as X. destruct (ws s v); exact X.
  - intros k. pose proof (i_sn _ _ _ I k) as X. destruct (ns s k) as [| |[]|y o| | |]; try exact X; cbn [snapn wd ep] in *; [destruct X as (X & _)|destruct X as (X & Y & _)]; repeat split; auto; intros; lia.
  - intros v J. apply (i_told _ _ _ I v). destruct J as [[<-|J]|(u & E & L)]; auto; [right; exists t; split; auto; lia|]. apply Tk in E as (_ & E). right. exists u. split; auto. lia.
  - rewrite (i_owed _ _ _ I). cbn [length]. lia.
Qed.
(** notify(true). *)
Lemma all_off l own s k : inv l own s -> own k = [] -> inv [] (set own k l) (mkS (mkW (ep (wd s) + wc (wd s)) 0 None) (next s) (sig s) (ws s) (set (ns s) k (Unp (stk (wd s)))) (All :: log s)).
Proof.
  intros I Ok. constructor; cbn [wd next sig ws ns log ep wc stk]; try (apply I; fail).
  - reflexivity.
  - constructor.
  - intros w [].
  - intros w t E. apply (i_lt _ _ _ I) in E. lia.
  - intros v w t E _ L. apply (i_lt _ _ _ I) in E. lia.
  - intros t Ht. lia.
  - intros j. destruct (Nat.eq_dec j k) as [->|Nj]; [rewrite !set_same; apply I|rewrite !set_other by auto; apply I].
  - intros j. destruct (Nat.eq_dec j k) as [->|Nj]; [rewrite set_same; apply I|rewrite set_other by auto; apply I].
  - intros i j w N. destruct (Nat.eq_dec i k) as [->|Ni]; [rewrite set_same|rewrite set_other by auto].
    + rewrite set_other by auto. intros J J'. apply (i_dst _ _ _ I) in J'. tauto.
    + destruct (Nat.eq_dec j k) as [->|Nj]; [rewrite set_same|rewrite set_other by auto; now apply (i_dis _ _ _ I)]. intros J J'. apply (i_dst _ _ _ I) in J. tauto.
  - intros j w. destruct (Nat.eq_dec j k) as [->|Nj]; [rewrite set_same|rewrite set_other by auto]; intros J; (split; [intros []|]); [apply (i_park _ _ _ I w J)|apply (i_dst _ _ _ I j w J)].
  - intros w E S0. right. destruct (i_cov _ _ _ I w E S0) as [J|(j & J)]; [exists k; now rewrite set_same|]. exists j. rewrite set_other; auto. intros ->. rewrite Ok in J. destruct J.
  - intros j. destruct (Nat.eq_dec j k) as [->|Nj]; [now rewrite set_same|]. rewrite set_other by auto. pose proof (i_sn _ _ _ I j) as X. destruct (ns s j) as [| |[]|y o| | |]; try exact X; cbn [snapn wd ep] in *; [destruct X as (X & _)|destruct X as (X & Y & _)]; repeat split; auto; intros; try lia; left; intros [].
  - intros w [[]|(t & E & L)]. apply (i_lt _ _ _ I) in E. lia.
  - reflexivity.
Qed.
(** The pop. *)
Lemma pop l own s k w nx : inv l own s -> ns s k = Popp (wd s) nx -> stk (wd s) = Some w -> exists l', l = w :: l' /\ inv l' (set own k [w]) (mkS (mkW (ep (wd s)) 0 nx) (next s) (sig s) (ws s) (set (ns s) k (Null w)) (One :: log s)).
Proof.
  intros I Ek Es. destruct (chain_head _ _ _ w (i_chain _ _ _ I) Es) as (l' & -> & C'). exists l'. split; auto.
  pose proof (i_sn _ _ _ I k) as X. rewrite Ek in X. cbn [snapn] in X. destruct X as (_ & W0 & X). destruct (X eq_refl w Es) as [X'|(_ & ->)]; [destruct X'; now left|clear X].
  pose proof (i_own _ _ _ I k) as Ok. rewrite Ek in Ok. cbn [owns] in Ok. pose proof (i_nd _ _ _ I) as Nd. inversion Nd as [|? ? Nw Nd']; subst.
  constructor; cbn [wd next sig ws ns log ep wc stk]; try (apply I; fail); auto.
  - intros v J. apply (i_park _ _ _ I). now right.
  - intros v t E. apply (i_lt _ _ _ I) in E. lia.
  - intros t Ht. lia.
  - intros j. destruct (Nat.eq_dec j k) as [->|Nj]; [rewrite !set_same; reflexivity|rewrite !set_other by auto; apply I].
  - intros j. destruct (Nat.eq_dec j k) as [->|Nj]; [rewrite set_same; repeat constructor; intros []|rewrite set_other by auto; apply I].
  - intros i j v N. destruct (Nat.eq_dec i k) as [->|Ni]; [rewrite set_same|rewrite set_other by auto].
    + rewrite set_other by auto. intros [<-|[]] J'. apply (i_dst _ _ _ I) in J'. destruct J' as (J' & _). destruct J'. now left.
    + destruct (Nat.eq_dec j k) as [->|Nj]; [rewrite set_same|rewrite set_other by auto; now apply (i_dis _ _ _ I)]. intros J [<-|[]]. apply (i_dst _ _ _ I) in J. destruct J as (J & _). destruct J. now left.
  - intros j v. destruct (Nat.eq_dec j k) as [->|Nj]; [rewrite set_same|rewrite set_other by auto].
    + intros [<-|[]]. split; auto. apply (i_park _ _ _ I). now left.
    + intros J. destruct (i_dst _ _ _ I j v J) as (A & B). split; auto. intros J'. apply A. now right.
  - intros v E S0. destruct (i_cov _ _ _ I v E S0) as [[<-|J]|(j & J)]; [right; exists k; rewrite set_same; now left|now left|]. right. exists j. rewrite set_other; auto. intros ->. rewrite Ok in J. destruct J.
  - intros j. destruct (Nat.eq_dec j k) as [->|Nj]; [now rewrite set_same|]. rewrite set_other by auto. pose proof (i_sn _ _ _ I j) as X. destruct (ns s j) as [| |[]|y o| | |]; try exact X; cbn [snapn wd ep stk] in *.
    + destruct X as (X & Y). split; auto. intros Q v Hv Ev. left. destruct (Y Q v Hv Ev) as [Z|Z]; [intros J; apply Z; now right|]. rewrite Es in Z. injection Z as <-. auto.
    + destruct X as (X & Y & Z). repeat split; auto. intros Q v Ev. left. destruct (Z Q v Ev) as [Z'|(Z' & _)]; [intros J; apply Z'; now right|]. rewrite Es in Z'. injection Z' as <-. auto.
  - intros v J. cbn [told]. apply (i_told _ _ _ I v). destruct J as [J|J]; [left; now right|now right].
  - cbn [owed]. rewrite (i_owed _ _ _ I), W0. cbn [length]. lia.
Qed.
(** The popped waiter's next pointer is cleared. *)
Lemma clear l own s k w : inv l own s -> ns s k = Null w -> inv l own (mkS (wd s) (set (next s) w None) (sig s) (ws s) (set (ns s) k (Unp (Some w))) (log s)).
Proof.
  intros I Ek. pose proof (i_own _ _ _ I k) as Ok. rewrite Ek in Ok. cbn [owns] in Ok. assert (Jw : In w (own k)) by (rewrite Ok; now left). destruct (i_dst _ _ _ I k w Jw) as (Nl & Pw & Sw).
  constructor; cbn [wd next sig ws ns log]; try (apply I; fail).
  - apply chain_set; auto. apply I.
  - intros j. destruct (Nat.eq_dec j k) as [->|Nj]; [rewrite set_same, Ok; cbn [owns chain]; now rewrite set_same|rewrite set_other by auto]. apply owns_set; [apply I|]. apply (i_dis _ _ _ I k j w); auto.
  - intros v. pose proof (i_sw _ _ _ I v) as X. destruct (ws s v) eqn:Ev; try exact X. cbn [snapw next sig] in *. rewrite set_other by congruence. exact X.
  - intros j. destruct (Nat.eq_dec j k) as [->|Nj]; [now rewrite set_same|]. rewrite set_other by auto. pose proof (i_sn _ _ _ I j) as X. destruct (ns s j) as [| |[]|y o| | |]; try exact X. cbn [snapn wd next] in *. destruct X as (A & B & X). repeat split; auto. intros Q v Ev. destruct (Nat.eq_dec v w) as [->|Nv]; [now left|]. rewrite set_other; auto.
Qed.
(** A waiter is signalled. *)
Lemma signal l own s k w nx : inv l own s -> ns s k = Sig w nx -> exists l', own k = w :: l' /\ inv l (set own k l') (mkS (wd s) (next s) (set (sig s) w true) (ws s) (set (ns s) k (Unp nx)) (log s)).
Proof.
  intros I Ek. pose proof (i_own _ _ _ I k) as Ok. rewrite Ek in Ok. cbn [owns] in Ok. destruct Ok as (l' & Ok & C). exists l'. split; auto. assert (Jw : In w (own k)) by (rewrite Ok; now left). destruct (i_dst _ _ _ I k w Jw) as (Nl & Pw & Sw).
  pose proof (i_ond _ _ _ I k) as Nd. rewrite Ok in Nd. inversion Nd as [|? ? Nw Nd']; subst.
  assert (Sub : forall j v, In v (set own k l' j) -> In v (own j) /\ v <> w). { intros j v. destruct (Nat.eq_dec j k) as [->|Nj]; [rewrite set_same, Ok|rewrite set_other by auto]; intros J; split; try (now right); auto; intros ->; auto. apply (i_dis _ _ _ I j k w); auto. }
  constructor; cbn [wd next sig ws ns log]; try (apply I; fail).
  - intros v J. rewrite set_other by congruence. apply (i_park _ _ _ I v J).
  - intros j. destruct (Nat.eq_dec j k) as [->|Nj]; [rewrite !set_same; exact C|rewrite !set_other by auto; apply I].
  - intros j. destruct (Nat.eq_dec j k) as [->|Nj]; [rewrite set_same; auto|rewrite set_other by auto; apply I].
  - intros i j v N J J'. apply Sub in J as (J & _). apply Sub in J' as (J' & _). exact (i_dis _ _ _ I i j v N J J').
  - intros j v J. apply Sub in J as (J & Nv). rewrite set_other by auto. apply (i_dst _ _ _ I j v J).
  - intros v E S0. destruct (Nat.eq_dec v w) as [->|Nv]; [rewrite set_same in S0; discriminate|]. rewrite set_other in S0 by auto. destruct (i_cov _ _ _ I v E S0) as [J|(j & J)]; [now left|right]. exists j. destruct (Nat.eq_dec j k) as [->|Nj]; [rewrite set_same|rewrite set_other; auto]. rewrite Ok in J. destruct J; [congruence|auto].
  - intros v. pose proof (i_sw _ _ _ I v) as X. destruct (ws s v) eqn:Ev; try exact X; cbn [snapw next sig] in *; rewrite set_other by congruence; exact X.
  - intros j. destruct (Nat.eq_dec j k) as [->|Nj]; [now rewrite set_same|]. rewrite set_other by auto. pose proof (i_sn _ _ _ I j) as X. destruct (ns s j) as [| |[]| | | |]; exact X.
Qed.
Lemma init_inv e : inv [] (fun _ => []) (init e).
Proof.
  constructor; cbn [init wd next sig ws ns log ep wc stk chain ticket owns snapw snapn told owed length]; auto; try discriminate; try constructor; try lia; try (intros; tauto).
  - destruct H.
  - destruct H.
Qed.
