From Verif Require Import Ikah_Model Ikah_Spec Ikah_Proofs Ikah_Proofs2 Ieee_Proofs Ieee_Proofs2 Ieee_Proofs3 Kahan_Proofs Islice_Proofs2.
From Coq Require Import Lra Lia Bool Arith.
Open Scope R_scope.
Section P.
Context {prec emax : Z} { prec_gt_0_ : Prec_gt_0 prec } { prec_lt_emax_ : Prec_lt_emax prec emax }.
Notation fl := (binary_float prec emax).
Notation knum := (knum prec emax).
Notation heap := (heap prec emax).
Notation L := (least prec emax).
Notation fin a := (is_finite a = true).

Lemma n_link (k : knum) (x : fl) : fin (kr (n_val k x)) ->
  fin (kr k) /\ fin (ke k) /\ fin x /\ fin (ke (n_val k x)) /\ pair_of (n_val k x) = n_add L prec even_choice (pair_of k) (B2R x).
Proof.
  unfold n_val. cbn [kr ke]. intros F. destruct (iadd_finite _ _ F) as (F1 & F2 & V). destruct (iadd_finite _ _ F2) as (F3 & F4 & V2).
  destruct (res_link _ _ F) as (G & W). repeat split; auto. unfold pair_of, n_add. cbn [kr ke k_real k_err]. rewrite V, W, V2. reflexivity.
Qed.
Lemma k_link (k : knum) (x : fl) : fin (kr (k_val k x)) -> fin (kr k) /\ fin (ke k) /\ fin x /\
  (fin (ke (k_val k x)) -> pair_of (k_val k x) = k_add L prec even_choice (pair_of k) (B2R x)).
Proof.
  unfold k_val. cbn [kr ke]. intros F. destruct (iadd_finite _ _ F) as (F1 & F2 & V). destruct (isub_finite _ _ F2) as (F3 & F4 & V2).
  repeat split; auto. intros G. destruct (isub_finite _ _ G) as (G1 & _ & W). destruct (isub_finite _ _ G1) as (_ & _ & W1).
  unfold pair_of, k_add. cbn [kr ke k_real k_err]. rewrite V, W, W1, V, V2. reflexivity.
Qed.
Lemma e_link (k : knum) (x : fl) : fin (kr (e_val k x (e_o k x))) ->
  fin (kr k) /\ fin (ke k) /\ fin (ko k) /\ fin x /\ fin (ke (e_val k x (e_o k x))) /\ fin (ko (e_val k x (e_o k x))) /\
  triple_of (e_val k x (e_o k x)) = e_add L prec even_choice (triple_of k) (B2R x).
Proof.
  unfold e_val, e_o. cbn [kr ke ko]. intros F. destruct (iadd_finite _ _ F) as (F1 & F2 & V). destruct (iadd_finite _ _ F2) as (F3 & F4 & V2). destruct (iadd_finite _ _ F4) as (F5 & F6 & V3).
  destruct (res_link _ _ F) as (G & W). destruct (res_link _ _ F2) as (G2 & W2). repeat split; auto.
  unfold triple_of, e_add. cbn [kr ke ko e_real e_err e_eoe]. rewrite V, W, W2, V2, V3. reflexivity.
Qed.
Lemma mabs_neg_lt (a x : fl) : fin a -> fin x -> ilt (mabs a) (mabs (ineg x)) = ilt (mabs a) (mabs x).
Proof.
  intros Fa Fx. assert (Fn : fin (ineg x)) by (unfold ineg; rewrite is_finite_Bopp; auto).
  assert (E : Rabs (B2R (ineg x)) = Rabs (B2R x)) by (unfold ineg; rewrite B2R_Bopp; apply Rabs_Ropp).
  pose proof (mabs_lt a x Fa Fx) as A. pose proof (mabs_lt a (ineg x) Fa Fn) as B. rewrite E in B.
  destruct (ilt (mabs a) (mabs (ineg x))), (ilt (mabs a) (mabs x)); auto; exfalso.
  - destruct A as (_ & A). destruct B as (B & _). specialize (A (B eq_refl)). discriminate.
  - destruct B as (_ & B). destruct A as (A & _). specialize (B (A eq_refl)). discriminate.
Qed.
Lemma e_om_o (k : knum) (x : fl) : fin (iadd (ke k) (ko k)) -> fin x -> e_om k x = e_o k (ineg x).
Proof.
  intros F Fx. unfold e_om, e_o, res. rewrite mabs_neg_lt by auto. rewrite (isub_iadd (isub (iadd (ke k) (ko k)) _) x). reflexivity.
Qed.
Lemma val_real c g (k : knum) (x : fl) : kr (val c g k x) = kr (match c with TKahan => k_val k (match g with Plus => x | Minus => ineg x end)
  | TNeumaier => n_val k (match g with Plus => x | Minus => ineg x end)
  | TKlein => e_val k (match g with Plus => x | Minus => ineg x end) izero end).
Proof. destruct c, g; reflexivity. Qed.
Lemma e_minus_link (k : knum) (x : fl) : fin (kr (val TKlein Minus k x)) -> val TKlein Minus k x = val TKlein Plus k (ineg x).
Proof.
  cbn [val]. intros F. change (kr (e_val k (ineg x) (e_om k x))) with (kr (e_val k (ineg x) (e_o k (ineg x)))) in F.
  destruct (e_link k (ineg x) F) as (_ & A & B & Fx & _). f_equal. unfold e_val in F. cbn [kr] in F.
  destruct (iadd_finite _ _ F) as (_ & F2 & _). destruct (iadd_finite _ _ F2) as (_ & F4 & _). apply e_om_o; auto.
  unfold ineg in Fx. rewrite is_finite_Bopp in Fx. auto.
Qed.
(** A real that is not finite stays so. *)
Lemma nonfinite_stays c g (k : knum) (x : fl) : is_finite (kr k) = false -> is_finite (kr (val c g k x)) = false.
Proof.
  intros H. apply not_true_iff_false. intros E. rewrite val_real in E.
  destruct c; unfold k_val, n_val, e_val in E; cbn [kr] in E; destruct (iadd_finite _ _ E) as (E1 & _); congruence.
Qed.
Lemma statements_nonfinite c os : forall (h : heap) o, is_finite (kr (h o)) = false -> is_finite (kr (statements c os h o)) = false.
Proof.
  induction os as [|[[g l] r] os IH]; intros h o H; [exact H|]. cbn [statements]. apply IH. destruct (Nat.eq_dec o l) as [->|N].
  - rewrite assign_at. apply nonfinite_stays; auto.
  - rewrite assign_other; auto.
Qed.
Lemma statements_nan c os : forall (h : heap) o, kr (h o) = B754_nan -> kr (statements c os h o) = B754_nan.
Proof.
  induction os as [|[[g l] r] os IH]; intros h o H; [exact H|]. cbn [statements]. apply IH. destruct (Nat.eq_dec o l) as [->|N].
  - rewrite assign_at. apply nan_stays; auto.
  - rewrite assign_other; auto.
Qed.
(** A list of additions of other objects. *)
Lemma sum_fin c rs : forall l (h : heap), ~ In l rs -> fin (kr (sum_into c l rs h l)) ->
  fin (kr (h l)) /\ Forall (fun r => fin (kr (h r))) rs.
Proof.
  induction rs as [|r rs IH]; intros l h N F; [split; [exact F|constructor]|]. cbn in N.
  assert (N' : ~ In l rs) by tauto. unfold sum_into in F. cbn [map statements] in F. destruct (IH l (assign c Plus l r h) N' F) as (A & B).
  rewrite assign_at, val_real in A. assert (G : fin (kr (h l)) /\ fin (kr (h r))).
  { destruct c; unfold k_val, n_val, e_val in A; cbn [kr] in A; destruct (iadd_finite _ _ A) as (A1 & A2 & _); split; auto; [destruct (isub_finite _ _ A2) as (A3 & _)|destruct (iadd_finite _ _ A2) as (A3 & _)|destruct (iadd_finite _ _ A2) as (A3 & _)]; auto. }
  split; [tauto|]. constructor; [tauto|]. rewrite Forall_forall in *. intros q Hq. specialize (B q Hq). rewrite assign_other in B; auto. intros ->. tauto.
Qed.
Lemma n_sum_link rs : forall l (h : heap), ~ In l rs -> fin (kr (sum_into TNeumaier l rs h l)) ->
  pair_of (sum_into TNeumaier l rs h l) = n_sum L prec even_choice (pair_of (h l)) (map (fun r => B2R (kr (h r))) rs).
Proof.
  induction rs as [|r rs IH]; intros l h N F; [reflexivity|]. cbn in N. assert (N' : ~ In l rs) by tauto.
  destruct (sum_fin TNeumaier rs l (assign TNeumaier Plus l r h) N' F) as (A & _). unfold sum_into in F |- *. cbn [map statements] in F |- *.
  fold (sum_into TNeumaier l rs (assign TNeumaier Plus l r h)) in *. rewrite IH by auto. unfold n_sum. cbn [fold_left]. rewrite assign_at in A |- *. cbn [val] in A |- *.
  destruct (n_link _ _ A) as (_ & _ & _ & _ & ->). f_equal. apply map_ext_in. intros q Hq. rewrite assign_other; auto. intros ->. tauto.
Qed.
Lemma e_sum_link rs : forall l (h : heap), ~ In l rs -> fin (kr (sum_into TKlein l rs h l)) ->
  triple_of (sum_into TKlein l rs h l) = e_sum L prec even_choice (triple_of (h l)) (map (fun r => B2R (kr (h r))) rs).
Proof.
  induction rs as [|r rs IH]; intros l h N F; [reflexivity|]. cbn in N. assert (N' : ~ In l rs) by tauto.
  destruct (sum_fin TKlein rs l (assign TKlein Plus l r h) N' F) as (A & _). unfold sum_into in F |- *. cbn [map statements] in F |- *.
  fold (sum_into TKlein l rs (assign TKlein Plus l r h)) in *. rewrite IH by auto. unfold e_sum. cbn [fold_left]. rewrite assign_at in A |- *. cbn [val] in A |- *.
  destruct (e_link _ _ A) as (_ & _ & _ & _ & _ & _ & ->). f_equal. apply map_ext_in. intros q Hq. rewrite assign_other; auto. intros ->. tauto.
Qed.
(** Adding to a fresh number. *)
Lemma sub_zero (y : fl) : isub y izero = y. Proof. destruct y as [[]| | |]; reflexivity. Qed.
Lemma add_zero (y : fl) : same (iadd y izero) y.
Proof. destruct y as [[]| | |]; try (left; reflexivity). right. exists false, true. split; reflexivity. Qed.
Lemma same_add (x y y' : fl) : same y y' -> same (iadd x y) (iadd x y').
Proof.
  intros [-> |(s & t & -> & ->)]; [left; reflexivity|]. destruct x as [z|z| |z m e Hb]; try (left; reflexivity).
  right. assert (Q : forall u v, exists w, iadd (B754_zero u : fl) (B754_zero v) = B754_zero w) by (intros [] []; eexists; reflexivity).
  destruct (Q z s) as (w & ->), (Q z t) as (w' & ->). eauto.
Qed.
End P.
