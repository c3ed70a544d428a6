(** Lemmas about Gauss-Radau, part 4: one corrector pass, linear invariants, IAS15. *)
From Verif Require Export Radau_Proofs3.
From Verif Require Import Chain_Proofs System_Proofs Ctrl_Proofs.
From Coq Require Import Psatz.
Open Scope R_scope.

(** Difference between the stored monomial coefficients and those converted from the Newton ones. *)
Definition disc (G : gr) (x i : nat) : R := comp (g_b G) x i - conv g2b (comp (g_g G) x) i.
Lemma comp_at T x i : comp T x i = at_ (T i) x. Proof. reflexivity. Qed.
Lemma new_g_ext g g' dy0 dyh k : (forall j, (j < k)%nat -> g j = g' j) -> new_g g dy0 dyh k = new_g g' dy0 dyh k.
Proof. intros H. rewrite !new_g_val. f_equal. apply rsum_ext. intros. rewrite H; auto. Qed.

(** One update. *)
Lemma update_spec n G dyh k : gr_sized n G -> (k < 7)%nat -> let G' := update_b G dyh k in
  gr_sized n G' /\ g_in G' = g_in G /\ g_dy0 G' = g_dy0 G /\ g_old G' = g_old G /\ g_dyh G' = dyh /\
  (forall j, j <> k -> g_g G' j = g_g G j) /\
  forall x, (x < n)%nat ->
    comp (g_g G') x k = new_g (comp (g_g G) x) (at_ (g_dy0 G) x) (at_ dyh x) k /\
    at_ (g_dg G') x = comp (g_g G') x k - comp (g_g G) x k /\
    (forall i, (i < 7)%nat -> comp (g_b G') x i = comp (g_b G) x i + (if (i <=? k)%nat then (comp (g_g G') x k - comp (g_g G) x k) * g2b k i else 0)).
Proof.
  intros [Hn Hl] Hk G'.
  assert (A : gr_sized n G').
  { split; [exact Hn|]. intros i Hi. destruct (Hl i Hi) as (L1 & L2 & L3). unfold G', update_b. cbn [g_b g_g g_old]. rewrite Hn. split; [|split; auto].
    - destruct (i <=? k)%nat; auto. rewrite advance_len. auto.
    - unfold tset. destruct (i =? k)%nat; auto. apply arr_len. }
  split; [exact A|]. split; [reflexivity|]. split; [reflexivity|]. split; [reflexivity|]. split; [reflexivity|]. split.
  - intros j Hj. unfold G', update_b. cbn [g_g]. unfold tset. destruct (Nat.eqb_spec j k); [contradiction|auto].
  - intros x Hx. assert (E : comp (g_g G') x k = new_g (comp (g_g G) x) (at_ (g_dy0 G) x) (at_ dyh x) k).
    { unfold G', update_b, comp. cbn [g_g]. unfold tset. rewrite Nat.eqb_refl, Hn. fold (at_ (arr n (fun x => new_g (fun j => at_ (g_g G j) x) (at_ (g_dy0 G) x) (at_ dyh x) k)) x). rewrite arr_at by auto. reflexivity. }
    assert (D : at_ (g_dg G') x = comp (g_g G') x k - comp (g_g G) x k).
    { rewrite E. unfold G', update_b. cbn [g_dg]. rewrite Hn, !arr_at by auto. reflexivity. }
    split; [exact E|]. split; [exact D|]. intros i Hi. rewrite <- D. unfold G', update_b, comp. cbn [g_b g_dg]. destruct (i <=? k)%nat; [|ring].
    destruct (Hl i Hi) as (L1 & _). match goal with |- nth x (array_advance ?a ?b ?c) 0 = _ => fold (at_ (array_advance a b c) x) end. rewrite advance_at by lia. unfold at_. reflexivity.
Qed.
Lemma conv_tset c v v' k m : (k < 7)%nat -> (forall j, j <> k -> v' j = v j) -> conv c v' m = conv c v m + (if (m <=? k)%nat then (v' k - v k) * c k m else 0).
Proof.
  intros Hk H. unfold conv. assert (G : forall n, (k < n)%nat -> rsum (fun j => if (m <=? j)%nat then v' j * c j m else 0) n =
    rsum (fun j => if (m <=? j)%nat then v j * c j m else 0) n + (if (m <=? k)%nat then (v' k - v k) * c k m else 0)).
  { induction n as [|n IH]; intros Hn; [lia|]. cbn [rsum]. destruct (Nat.eq_dec n k) as [->|].
    - rewrite (rsum_ext _ (fun j => if (m <=? j)%nat then v j * c j m else 0)); [destruct (m <=? k)%nat; ring|].
      intros j Hj. rewrite H by lia. auto.
    - rewrite IH by lia. rewrite (H n) by auto. ring. }
  apply G; auto.
Qed.
Lemma update_disc n G dyh k x i : gr_sized n G -> (k < 7)%nat -> (x < n)%nat -> (i < 7)%nat -> disc (update_b G dyh k) x i = disc G x i.
Proof.
  intros HG Hk Hx Hi. destruct (update_spec n G dyh k HG Hk) as (_ & _ & _ & _ & _ & U & V). specialize (V x Hx). destruct V as (_ & _ & V).
  unfold disc. rewrite V by auto. rewrite (conv_tset g2b (comp (g_g G) x) (comp (g_g (update_b G dyh k)) x) k) by (auto; intros; unfold comp; rewrite U; auto).
  destruct (i <=? k)%nat; ring.
Qed.

Section P.
  Context {P : Type} (wr : P -> list R) (rd : P -> list R -> outcome P) (deriv : P -> outcome (list R * P)) (n : nat).
  Notation stages := (stages rd deriv).
  (** What one pass does, from stage 7 - k on. *)
  Lemma stages_spec step : forall k G p G' p', (k <= 7)%nat -> gr_sized n G -> stages k G p step = Ok (G', p') ->
    gr_sized n G' /\ g_in G' = g_in G /\ g_dy0 G' = g_dy0 G /\ g_old G' = g_old G /\
    (forall j, (j < 7 - k)%nat -> g_g G' j = g_g G j) /\
    (forall x i, (x < n)%nat -> (i < 7)%nat -> disc G' x i = disc G x i) /\
    (forall x m, (x < n)%nat -> (m < 7)%nat -> (forall l, (l < 7)%nat -> comp (g_g G') x l = comp (g_g G) x l) -> comp (g_b G') x m = comp (g_b G) x m) /\
    (forall j, (7 - k <= j < 7)%nat -> exists Gj pj qj dj rj, gr_sized n Gj /\ g_in Gj = g_in G /\ g_dy0 Gj = g_dy0 G /\
       rd pj (stage_state Gj step j) = Ok qj /\ deriv qj = Ok (dj, rj) /\ (j = 6%nat -> g_dyh G' = dj) /\
       (forall x, (x < n)%nat -> comp (g_g G') x j = new_g (comp (g_g G') x) (at_ (g_dy0 G) x) (at_ dj x) j) /\
       (forall x m, (x < n)%nat -> (m < 7)%nat -> (forall l, (l < 7)%nat -> comp (g_g G') x l = comp (g_g G) x l) -> comp (g_b Gj) x m = comp (g_b G) x m)) /\
    (k <> 0%nat -> exists q, rd q (g_in G) = Ok p').
  Proof.
    induction k as [|k IH]; intros G p G' p' Hk HG H.
    - cbn [Radau_Model.stages] in H. assert (G' = G) by congruence. subst G'. repeat split; try apply HG; auto; intros; lia.
    - change (stages (S k) G p step) with (obind (rd p (stage_state G step (7 - S k))) (fun p1 =>
        obind (deriv p1) (fun '(d, p2) => let G1 := update_b G d (7 - S k) in obind (rd p2 (g_in G)) (fun p3 => stages k G1 p3 step)))) in H.
      set (i := (7 - S k)%nat) in *. assert (Hi : (i < 7)%nat) by (unfold i; lia).
      destruct (rd p (stage_state G step i)) as [p1| |] eqn:E1; cbn [obind] in H; try discriminate. cbv zeta in H.
      destruct (deriv p1) as [[d pd]| |] eqn:Ed; cbn [obind] in H; try discriminate. cbv zeta in H.
      destruct (rd pd (g_in G)) as [p2| |] eqn:E2; cbn [obind] in H; try discriminate.
      pose proof (update_spec n G d i HG Hi) as U. cbv zeta in U. pose proof (fun x j => update_disc n G d i x j HG Hi) as UD.
      set (G1 := update_b G d i) in *. destruct U as (U1 & U2 & U3 & U4 & U5 & U6 & U7).
      pose proof H as H0. apply IH in H; [|lia|exact U1]. destruct H as (H1 & H2 & H3 & H4 & H5 & H6 & H7 & H8 & H9).
      assert (EX : forall x l, (l < 7)%nat -> (x < n)%nat -> (forall l, (l < 7)%nat -> comp (g_g G') x l = comp (g_g G) x l) -> comp (g_g G1) x l = comp (g_g G) x l).
      { intros x l Hl Hx EE. destruct (Nat.eq_dec l i) as [->|]; [|unfold comp; rewrite U6; auto].
        rewrite <- EE by auto. unfold comp. rewrite H5 by (unfold i; lia). auto. }
      assert (BX : forall x m, (x < n)%nat -> (m < 7)%nat -> (forall l, (l < 7)%nat -> comp (g_g G') x l = comp (g_g G) x l) -> comp (g_b G1) x m = comp (g_b G) x m).
      { intros x m Hx Hm EE. destruct (U7 x Hx) as (_ & _ & W). rewrite W by auto. rewrite (EX x i) by auto. destruct (m <=? i)%nat; ring. }
      split; [auto|]. split; [congruence|]. split; [congruence|]. split; [congruence|]. split; [|split; [|split; [|split]]].
      + intros j Hj. rewrite H5 by lia. apply U6. unfold i in *. lia.
      + intros x m Hx Hm. rewrite H6, UD by auto. auto.
      + intros x m Hx Hm EE. rewrite H7; auto. intros l Hl. rewrite EE, EX; auto.
      + intros j Hj. destruct (Nat.eq_dec j i) as [->|].
        * exists G, p, p1, d, pd. split; [auto|]. split; [auto|]. split; [auto|]. split; [auto|]. split; [auto|]. split.
          -- intros E6. assert (k = 0%nat) by (unfold i in *; lia). subst k. cbn in H0. assert (G' = G1) by congruence. subst G'. exact U5.
          -- split; [|auto]. intros x Hx. destruct (U7 x Hx) as (W & _ & _). unfold comp in W |- *. rewrite H5 by (unfold i; lia). rewrite W. apply new_g_ext.
             intros l Hl. rewrite H5 by (unfold i in *; lia). unfold comp. rewrite U6 by lia. auto.
        * destruct (H8 j ltac:(unfold i in *; lia)) as (Gj & pj & qj & dj & rj & A1 & A2 & A3 & A4 & A4' & A5 & A6 & A7). exists Gj, pj, qj, dj, rj.
          split; [auto|]. split; [congruence|]. split; [congruence|]. split; [auto|]. split; [auto|]. split; [auto|]. split.
          -- rewrite <- U3. auto.
          -- intros x m Hx Hm EE. rewrite A7; auto. intros l Hl. rewrite EE, EX; auto.
      + intros _. destruct k as [|k]; [|rewrite <- U2; apply H9; lia]. exists pd. cbn in H0. congruence.
  Qed.

  Notation correct := (correct wr rd deriv).
  (** The tables at the start of a pass: kept, or zero when the array size changed. *)
  Definition entry (G : gr) : gr := check_size n G.
  Lemma entry_sized G : gr_sized (g_n G) G -> gr_sized n (entry G).
  Proof.
    intros H. unfold entry, check_size. destruct (Nat.eqb_spec (g_n G) n) as [E|]; [rewrite E in H; auto|].
    split; [reflexivity|]. intros i Hi. cbn [g_b g_g g_old]. rewrite arr_len. auto.
  Qed.
  Lemma correct_spec G p step G' p' : gr_sized (g_n G) G -> length (wr p) = n -> correct G p step = Ok (G', p') -> exists d0 p0, deriv p = Ok (d0, p0) /\
    gr_sized n G' /\ g_in G' = wr p /\ g_dy0 G' = d0 /\ g_old G' = g_old (entry G) /\
    (forall x i, (x < n)%nat -> (i < 7)%nat -> disc G' x i = disc (entry G) x i) /\
    (forall x m, (x < n)%nat -> (m < 7)%nat -> (forall l, (l < 7)%nat -> comp (g_g G') x l = comp (g_g (entry G)) x l) -> comp (g_b G') x m = comp (g_b (entry G)) x m) /\
    (forall j, (j < 7)%nat -> exists Gj pj qj dj rj, gr_sized n Gj /\ g_in Gj = wr p /\ g_dy0 Gj = d0 /\
       rd pj (stage_state Gj step j) = Ok qj /\ deriv qj = Ok (dj, rj) /\ (j = 6%nat -> g_dyh G' = dj) /\
       (forall x, (x < n)%nat -> comp (g_g G') x j = new_g (comp (g_g G') x) (at_ d0 x) (at_ dj x) j) /\
       (forall x m, (x < n)%nat -> (m < 7)%nat -> (forall l, (l < 7)%nat -> comp (g_g G') x l = comp (g_g (entry G)) x l) -> comp (g_b Gj) x m = comp (g_b (entry G)) x m)) /\
    (exists q, rd q (wr p) = Ok p').
  Proof.
    intros HG L H. unfold Radau_Model.correct in H. cbv zeta in H. rewrite L in H. fold (entry G) in H. pose proof (entry_sized G HG) as S. set (E := entry G) in *.
    destruct (deriv p) as [[d0 p0]| |] eqn:Ed; cbn [obind] in H; try discriminate. exists d0, p0. split; [reflexivity|].
    apply stages_spec in H; [|lia|destruct S as [S1 S2]; split; [exact S1|exact S2]].
    destruct H as (H1 & H2 & H3 & H4 & H5 & H6 & H7 & H8 & H9). cbn [g_in g_dy0 g_old g_g g_b] in *.
    split; [auto|]. split; [auto|]. split; [auto|]. split; [auto|]. split; [intros x i Hx Hi; rewrite H6 by auto; reflexivity|]. split; [auto|]. split; [|apply H9; lia].
    intros j Hj. apply H8. lia.
  Qed.
End P.

(** * Linear functionals *)
Lemma lin_ext n c y z : (forall x, (x < n)%nat -> at_ y x = at_ z x) -> lin n c y = lin n c z.
Proof. intros H. unfold lin. apply rsum_ext. intros x Hx. specialize (H x Hx). unfold at_ in H. rewrite H. auto. Qed.
Lemma lin_val n c y f : (forall x, (x < n)%nat -> at_ y x = f x) -> lin n c y = rsum (fun x => c x * f x) n.
Proof. intros H. unfold lin. apply rsum_ext. intros x Hx. specialize (H x Hx). unfold at_ in H. rewrite H. auto. Qed.
Lemma rsum_rsum_scal (a : nat -> R) (T : nat -> nat -> R) (c : nat -> R) n m :
  rsum (fun x => c x * rsum (fun j => T j x * a j) m) n = rsum (fun j => rsum (fun x => c x * T j x) n * a j) m.
Proof.
  rewrite (rsum_ext _ (fun x => rsum (fun j => c x * T j x * a j) m)).
  - rewrite rsum_swap. apply rsum_ext. intros j _. rewrite (Rmult_comm (rsum _ n)), <- rsum_scal. apply rsum_ext. intros; ring.
  - intros x _. rewrite <- rsum_scal. apply rsum_ext. intros; ring.
Qed.
Definition flat (n : nat) (c : nat -> R) (G : gr) : Prop :=
  forall i, (i < 7)%nat -> lin n c (g_b G i) = 0 /\ lin n c (g_g G i) = 0 /\ lin n c (g_old G i) = 0.
Lemma lin_path n c G step s y : (forall x, (x < n)%nat -> at_ y x = path (at_ (g_in G) x) (at_ (g_dy0 G) x) (comp (g_b G) x) step s) -> flat n c G ->
  lin n c y = lin n c (g_in G) + lin n c (g_dy0 G) * (step * s).
Proof.
  intros H F. rewrite (lin_val n c y _ H).
  rewrite (rsum_ext _ (fun x => c x * at_ (g_in G) x + (step * s) * (c x * at_ (g_dy0 G) x) + step * (c x * rsum (fun i => comp (g_b G) x i * (s ^ (i + 2) / INR (i + 2))) 7))).
  - rewrite !rsum_add, !rsum_scal. rewrite (rsum_rsum_scal (fun i => s ^ (i + 2) / INR (i + 2)) (fun i x => comp (g_b G) x i) c n 7).
    rewrite (rsum_ext (fun j => rsum (fun x => c x * comp (g_b G) x j) n * (s ^ (j + 2) / INR (j + 2))) (fun _ => 0)).
    + rewrite rsum_zero. unfold lin, at_. ring.
    + intros i Hi. destruct (F i Hi) as (F1 & _). unfold lin in F1. unfold comp. rewrite F1. ring.
  - intros x Hx. unfold path. rewrite (rsum_ext (fun i => comp (g_b G) x i * (s ^ (i + 2) / INR (i + 2))) (fun i => comp (g_b G) x i * s ^ (i + 2) / INR (i + 2))) by (intros; unfold Rdiv; ring). ring.
Qed.
Lemma stage_path n G step j x : gr_sized n G -> (x < n)%nat -> at_ (stage_state G step j) x = path (at_ (g_in G) x) (at_ (g_dy0 G) x) (comp (g_b G) x) step (hs j).
Proof. intros [Hn _] Hx. unfold stage_state. rewrite Hn, arr_at, stage_value_path by auto. reflexivity. Qed.
Lemma stage_len n G step j : gr_sized n G -> length (stage_state G step j) = n.
Proof. intros [Hn _]. unfold stage_state. rewrite Hn. apply arr_len. Qed.
Lemma update_flat n c G dyh k : gr_sized n G -> (k < 7)%nat -> flat n c G -> lin n c dyh = lin n c (g_dy0 G) -> flat n c (update_b G dyh k).
Proof.
  intros HG Hk F D. destruct (update_spec n G dyh k HG Hk) as (_ & _ & _ & U4 & _ & U6 & U7). set (G' := update_b G dyh k) in *.
  assert (N : lin n c (g_g G' k) = 0).
  { rewrite (lin_val n c _ (fun x => (at_ dyh x - at_ (g_dy0 G) x) * rs k 0 - rsum (fun j => comp (g_g G) x j * rs k (j + 1)) k)).
    - rewrite (rsum_ext _ (fun x => rs k 0 * (c x * at_ dyh x) - rs k 0 * (c x * at_ (g_dy0 G) x) - c x * rsum (fun j => comp (g_g G) x j * rs k (j + 1)) k)) by (intros; ring).
      rewrite !rsum_sub, !rsum_scal, (rsum_rsum_scal (fun j => rs k (j + 1)) (fun j x => comp (g_g G) x j) c n k).
      unfold lin in D. unfold at_. rewrite D. rewrite (rsum_ext (fun j => rsum (fun x => c x * comp (g_g G) x j) n * rs k (j + 1)) (fun _ => 0)); [rewrite rsum_zero; ring|].
      intros j Hj. destruct (F j ltac:(lia)) as (_ & F2 & _). unfold lin in F2. unfold comp. rewrite F2. ring.
    - intros x Hx. destruct (U7 x Hx) as (W & _). unfold comp in W at 1. unfold at_ at 1. rewrite W, new_g_val. auto. }
  assert (Gk : forall i, (i < 7)%nat -> lin n c (g_g G' i) = 0).
  { intros i Hi. destruct (Nat.eq_dec i k) as [->|]; auto. rewrite U6 by auto. apply F; auto. }
  intros i Hi. split; [|split; [auto|rewrite U4; apply F; auto]].
  rewrite (lin_val n c _ (fun x => comp (g_b G) x i + (if (i <=? k)%nat then (comp (g_g G') x k - comp (g_g G) x k) * g2b k i else 0))).
  - destruct (F i Hi) as (F1 & _). destruct (F k Hk) as (_ & F2 & _). unfold lin in *. destruct (i <=? k)%nat.
    + rewrite (rsum_ext _ (fun x => c x * comp (g_b G) x i + (g2b k i * (c x * comp (g_g G') x k) - g2b k i * (c x * comp (g_g G) x k)))) by (intros; ring).
      rewrite rsum_add, rsum_sub, !rsum_scal. unfold comp. rewrite F1, F2, N. ring.
    + rewrite (rsum_ext _ (fun x => c x * comp (g_b G) x i)) by (intros; ring). unfold comp. exact F1.
  - intros x Hx. destruct (U7 x Hx) as (_ & _ & W). rewrite <- comp_at. apply W. auto.
Qed.
Lemma conv_flat n c (C : nat -> nat -> R) (T : nat -> nat -> R) m : (forall j, (j < 7)%nat -> rsum (fun x => c x * T j x) n = 0) ->
  rsum (fun x => c x * conv C (fun j => T j x) m) n = 0.
Proof.
  intros H. unfold conv. rewrite (rsum_ext _ (fun x => c x * rsum (fun j => T j x * (if (m <=? j)%nat then C j m else 0)) 7)).
  - rewrite (rsum_rsum_scal (fun j => if (m <=? j)%nat then C j m else 0) T c n 7). rewrite (rsum_ext _ (fun _ => 0)); [apply rsum_zero|]. intros j Hj. rewrite H by auto. ring.
  - intros x _. f_equal. apply rsum_ext. intros j _. destruct (m <=? j)%nat; ring.
Qed.
Lemma predict_flat n c q G : g_n G = n -> flat n c G -> flat n c (predict q G).
Proof.
  intros Hn F. destruct (predict_spec q n G Hn) as (S & _ & _ & _ & _ & V). set (G' := predict q G) in *.
  assert (O : forall i, (i < 7)%nat -> lin n c (g_old G' i) = 0).
  { intros i Hi. rewrite (lin_val n c _ (fun x => conv est_b (fun j => comp (g_b G) x j) i * q ^ (i + 1))).
    - rewrite (rsum_ext _ (fun x => q ^ (i + 1) * (c x * conv est_b (fun j => comp (g_b G) x j) i))) by (intros; ring).
      rewrite rsum_scal, (conv_flat n c est_b (fun j x => comp (g_b G) x j)); [ring|]. intros j Hj. apply (F j Hj).
    - intros x Hx. rewrite <- comp_at. destruct (V i x Hi Hx) as (-> & _). reflexivity. }
  assert (B : forall i, (i < 7)%nat -> lin n c (g_b G' i) = 0).
  { intros i Hi. rewrite (lin_val n c _ (fun x => comp (g_old G') x i + (comp (g_b G) x i - comp (g_old G) x i))).
    - rewrite (rsum_ext _ (fun x => c x * comp (g_old G') x i + (c x * comp (g_b G) x i - c x * comp (g_old G) x i))) by (intros; ring).
      rewrite rsum_add, rsum_sub. destruct (F i Hi) as (F1 & _ & F3). unfold lin in *. unfold comp. rewrite F1, F3. specialize (O i Hi). rewrite O. ring.
    - intros x Hx. rewrite <- comp_at. destruct (V i x Hi Hx) as (-> & -> & _). auto. }
  intros i Hi. split; [auto|]. split; [|auto].
  rewrite (lin_val n c _ (fun x => conv b2g (fun j => comp (g_b G') x j) i)).
  - apply (conv_flat n c b2g (fun j x => comp (g_b G') x j)). intros j Hj. apply (B j Hj).
  - intros x Hx. rewrite <- comp_at. destruct (V i x Hi Hx) as (_ & _ & ->). reflexivity.
Qed.
Lemma lin_zero n c m : lin n c (arr m (fun _ => 0)) = 0.
Proof.
  unfold lin. rewrite (rsum_ext _ (fun _ => 0)); [apply rsum_zero|]. intros x _. destruct (Nat.ltb_spec x m) as [H|H].
  - pose proof (arr_at m (fun _ => 0) x H) as E. unfold at_ in E. rewrite E. ring.
  - rewrite nth_overflow by (rewrite arr_len; lia). ring.
Qed.

Section L.
  Context {P : Type} (wr : P -> list R) (rd : P -> list R -> outcome P) (deriv : P -> outcome (list R * P)) (n : nat).
  Context (c c2 : nat -> R) (K kap : R) (ok : P -> Prop).
  (** [c] is conserved; where its value is [K], the rate of [c2] is [kap]. *)
  Context (rd_ok : forall p y q, ok p -> length y = n -> rd p y = Ok q -> ok q /\ wr q = y).
  Context (dv_ok : forall p d q, ok p -> deriv p = Ok (d, q) -> ok q).
  Context (cons : forall p d q, ok p -> deriv p = Ok (d, q) -> lin n c d = 0) (rate : forall p d q, ok p -> deriv p = Ok (d, q) -> lin n c (wr p) = K -> lin n c2 d = kap).
  Definition flat2 (G : gr) : Prop := flat n c G /\ flat n c2 G.
  Lemma stages_flat step : forall k G p G' p', (k <= 7)%nat -> gr_sized n G -> length (g_in G) = n -> ok p -> flat2 G ->
    lin n c (g_dy0 G) = 0 -> lin n c (g_in G) = K -> lin n c2 (g_dy0 G) = kap ->
    stages rd deriv k G p step = Ok (G', p') -> flat2 G' /\ ok p' /\ (k <> 0%nat -> wr p' = g_in G).
  Proof.
    induction k as [|k IH]; intros G p G' p' Hk HG L Hp [F1 F2] D1 DK D2 H.
    - cbn in H. assert (G' = G) by congruence. assert (p' = p) by congruence. subst. split; [split; auto|]. split; auto. lia.
    - change (stages rd deriv (S k) G p step) with (obind (rd p (stage_state G step (7 - S k))) (fun p1 =>
        obind (deriv p1) (fun '(d, p2) => let G1 := update_b G d (7 - S k) in obind (rd p2 (g_in G)) (fun p3 => stages rd deriv k G1 p3 step)))) in H.
      set (i := (7 - S k)%nat) in *. assert (Hi : (i < 7)%nat) by (unfold i; lia).
      destruct (rd p (stage_state G step i)) as [p1| |] eqn:E1; cbn [obind] in H; try discriminate. cbv zeta in H.
      destruct (deriv p1) as [[d pd]| |] eqn:Ed; cbn [obind] in H; try discriminate. cbv zeta in H.
      destruct (rd pd (g_in G)) as [p2| |] eqn:E2; cbn [obind] in H; try discriminate.
      apply rd_ok in E1; auto; [|apply stage_len; auto]. destruct E1 as [O1 W1]. pose proof (dv_ok _ _ _ O1 Ed) as Od. apply rd_ok in E2; auto. destruct E2 as [O2 W2].
      pose proof (fun x => stage_path n G step i x HG) as SP.
      assert (C1 : lin n c (wr p1) = K) by (rewrite W1, (lin_path n c G step (hs i) _ SP F1), D1, DK; ring).
      assert (X1 : flat n c (update_b G d i)) by (apply update_flat; auto; rewrite (cons _ _ _ O1 Ed), D1; auto).
      assert (X2 : flat n c2 (update_b G d i)) by (apply update_flat; auto; rewrite (rate _ _ _ O1 Ed), D2; auto).
      destruct (update_spec n G d i HG Hi) as (U1 & U2 & U3 & _). pose proof H as H0.
      apply IH in H; [|lia|exact U1|rewrite U2; auto|auto|split; auto|rewrite U3; auto|rewrite U2; auto|rewrite U3; auto]. destruct H as (HF & HO & HW).
      split; [auto|]. split; [auto|]. intros _. destruct k; [|rewrite <- U2; apply HW; lia]. cbn in H0. assert (p' = p2) by congruence. subst. auto.
  Qed.
  Lemma entry_flat G : flat2 G -> flat2 (entry n G).
  Proof.
    intros [F1 F2]. unfold entry, check_size. destruct (g_n G =? n)%nat; [split; auto|].
    split; intros i Hi; cbn [g_b g_g g_old]; rewrite !lin_zero; auto.
  Qed.
  Lemma correct_flat G p step G' p' : gr_sized (g_n G) G -> length (wr p) = n -> ok p -> flat2 G -> lin n c (wr p) = K -> correct wr rd deriv G p step = Ok (G', p') ->
    flat2 G' /\ ok p' /\ wr p' = wr p.
  Proof.
    intros HG L Hp F HK H. unfold correct in H. cbv zeta in H. rewrite L in H. fold (entry n G) in H. pose proof (entry_sized n G HG) as S. pose proof (entry_flat G F) as FE. set (E := entry n G) in *.
    destruct (deriv p) as [[d0 p0]| |] eqn:Ed; cbn [obind] in H; try discriminate.
    apply stages_flat in H; cbn [g_in g_dy0]; [|lia|destruct S as [S1 S2]; split; [exact S1|exact S2]|exact L|exact (dv_ok _ _ _ Hp Ed)|exact FE|exact (cons _ _ _ Hp Ed)|exact HK|exact (rate _ _ _ Hp Ed HK)].
    destruct H as (H1 & H2 & H3). split; [exact H1|]. split; [exact H2|]. apply H3. lia.
  Qed.
  Lemma evaluate_flat G p step p' : length (g_in G) = n -> ok p -> flat2 G -> lin n c (g_dy0 G) = 0 -> lin n c2 (g_dy0 G) = kap ->
    evaluate rd G p step = Ok p' ->
    ok p' /\ length (wr p') = n /\ lin n c (wr p') = lin n c (g_in G) /\ lin n c2 (wr p') = lin n c2 (g_in G) + step * kap.
  Proof.
    intros L Hp [F1 F2] D1 D2 H. unfold evaluate in H. apply rd_ok in H; auto; [|rewrite evaluate_len; auto]. destruct H as [H ->].
    split; auto. split; [rewrite evaluate_len; auto|].
    assert (Pth : forall x, (x < n)%nat -> at_ (evaluate_state G step) x = path (at_ (g_in G) x) (at_ (g_dy0 G) x) (comp (g_b G) x) step 1) by (intros; apply evaluate_path; lia).
    rewrite (lin_path n c G step 1 _ Pth F1), (lin_path n c2 G step 1 _ Pth F2), D1, D2. split; ring.
  Qed.

  (** * One call of IAS15::iterate *)
  Context (pcerr : list R -> list R -> ext) (serr : list R -> list R -> P -> R -> outcome R) (ratio_of lim : R -> R) (lmin : R).
  Notation loop := (ias_loop wr rd deriv pcerr serr ratio_of lim lmin).
  Lemma ias_flat : forall fuel k I p h I' p' h', gr_sized (g_n (i_gr I)) (i_gr I) -> length (wr p) = n -> ok p -> flat2 (i_gr I) -> lin n c (wr p) = K ->
    loop fuel k I p h = Some (Ok (I', p', h')) ->
    gr_sized n (i_gr I') /\ flat2 (i_gr I') /\ ok p' /\ length (wr p') = n /\
    exists hacc r, shrunk ratio_of lmin h hacc /\ lmin < r /\ h' = hacc * lim r /\
      lin n c (wr p') = K /\ lin n c2 (wr p') = lin n c2 (wr p) + hacc * kap.
  Proof.
    induction fuel as [|f IH]; intros k I p h I' p' h' HG L Hp F HK H; [discriminate|]. cbn [ias_loop] in H.
    destruct (k <? 30)%nat; [|discriminate].
    destruct (correct wr rd deriv (i_gr I) p h) as [[G1 p1]| |] eqn:C; try discriminate.
    destruct (correct_flat _ _ _ _ _ HG L Hp F HK C) as (F1 & O1 & W1). apply correct_spec with (n := n) in C; auto. destruct C as (d0 & p0 & Ed & S1 & C1 & C2 & _).
    unfold in_window in H. cbn [i_gr i_last i_warm] in H. set (e := pcerr (g_dyh G1) (g_dg G1)) in *.
    assert (Gn : g_n G1 = n) by apply S1.
    destruct (egt (Fin 1) e || ele (i_last I) e); cbn [i_gr i_last i_warm] in H.
    - destruct (serr (g_dyh G1) (g_b G1 6%nat) p1 h) as [es| |]; try discriminate. set (r := ratio_of _) in *. destruct (rgtb r lmin) eqn:Er.
      + destruct (evaluate rd G1 p1 h) as [p2| |] eqn:Ev; cbn [obind] in H; try discriminate. cbv zeta in H.
        assert (X : I' = mkIas (predict (lim r) G1) PInf true) by congruence. assert (p' = p2) by congruence. assert (h' = h * lim r) by congruence. subst I' p' h'. cbn [i_gr].
        apply evaluate_flat in Ev; auto; [|rewrite C1; auto|rewrite C2; apply (cons _ _ _ Hp Ed)|rewrite C2; apply (rate _ _ _ Hp Ed HK)]. destruct Ev as (V1 & V2 & V3 & V4). rewrite C1 in *.
        split; [apply predict_spec; auto|]. split; [destruct F1; split; apply predict_flat; auto|]. split; auto. split; auto.
        exists h, r. split; [constructor|]. split; [revert Er; unfold rgtb; destruct (Rlt_dec lmin r); [auto|discriminate]|]. split; auto. split; [congruence|auto].
      + assert (Hs : forall I2, gr_sized n (i_gr I2) -> flat2 (i_gr I2) -> loop f 1 I2 p1 (h * r) = Some (Ok (I', p', h')) ->
          gr_sized n (i_gr I') /\ flat2 (i_gr I') /\ ok p' /\ length (wr p') = n /\
          exists hacc r, shrunk ratio_of lmin h hacc /\ lmin < r /\ h' = hacc * lim r /\ lin n c (wr p') = K /\ lin n c2 (wr p') = lin n c2 (wr p) + hacc * kap).
        { intros I2 S2 F2 H2. apply IH in H2; auto; try (rewrite W1; auto); [|assert (X : g_n (i_gr I2) = n) by apply S2; rewrite X; auto].
          destruct H2 as (A & B & D & E & hacc & r2 & M1 & M2 & M3 & M4 & M5). split; auto. split; auto. split; auto. split; auto. exists hacc, r2. split.
          - apply shr_first with r; [|eexists; reflexivity|exact M1]. revert Er. unfold rgtb. destruct (Rlt_dec lmin r); [discriminate|lra].
          - split; auto. split; auto. split; auto. rewrite M5, W1. auto. }
        apply Hs in H; auto; cbn [i_gr]; destruct (i_warm I); auto; [apply predict_spec; auto|destruct F1; split; apply predict_flat; auto].
    - apply IH in H; cbn [i_gr]; auto; try (rewrite W1; auto); [|rewrite Gn; auto]. rewrite W1 in H. exact H.
  Qed.
End L.
