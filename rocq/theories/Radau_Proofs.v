(** Lemmas about Gauss-Radau, part 1: componentwise view, predictor, path. *)
From Verif Require Export Radau_Spec.
From Verif Require Import System_Proofs.
From Coq Require Import Psatz.
Open Scope R_scope.

Lemma arr_len n f : length (arr n f) = n.
Proof. unfold arr, tolist. rewrite map_length, seq_length. reflexivity. Qed.
Lemma arr_at n f x : (x < n)%nat -> at_ (arr n f) x = f x.
Proof.
  intros H. unfold at_, arr, tolist. rewrite (nth_indep _ 0 (f 0%nat)) by (rewrite map_length, seq_length; auto).
  rewrite map_nth, seq_nth by auto. reflexivity.
Qed.
Lemma advance_len v a k : length (array_advance v a k) = length v.
Proof. apply arr_len. Qed.
Lemma advance_at v a k x : (x < length v)%nat -> at_ (array_advance v a k) x = at_ v x + at_ a x * k.
Proof. intros H. unfold array_advance. rewrite arr_at; auto. Qed.
Lemma scale_len n a k : length (array_scale n a k) = n. Proof. apply arr_len. Qed.
Lemma scale_at n a k x : (x < n)%nat -> at_ (array_scale n a k) x = at_ a x * k.
Proof. intros H. unfold array_scale. rewrite arr_at; auto. Qed.

Lemma advance_down_spec T c i x : forall j dst, (x < length dst)%nat ->
  length (advance_down j i T c dst) = length dst /\
  at_ (advance_down j i T c dst) x = at_ dst x + rsum (fun m => if (i <=? m)%nat then at_ (T m) x * c m i else 0) j.
Proof.
  induction j as [|j IH]; intros dst Hx; cbn [advance_down rsum]; [split; [auto|ring]|].
  destruct (Nat.ltb_spec i (S j)).
  - destruct (IH (array_advance dst (T j) (c j i))) as [A B]; [rewrite advance_len; auto|]. rewrite advance_len in A. split; auto.
    rewrite B, advance_at by auto. destruct (Nat.leb_spec i j); [ring|lia].
  - split; auto. destruct (Nat.leb_spec i j); [lia|]. rewrite (rsum_ext _ (fun _ => 0)); [rewrite rsum_zero; ring|].
    intros m Hm. destruct (Nat.leb_spec i m); [lia|auto].
Qed.
Lemma combine_at n T c i x : (x < n)%nat -> (i < 7)%nat ->
  length (combine_rows n T c i) = n /\ at_ (combine_rows n T c i) x = rsum (fun m => if (i <=? m)%nat then at_ (T m) x * c m i else 0) 7.
Proof.
  intros Hx Hi. unfold combine_rows. destruct (advance_down_spec T c i x 6 (array_scale n (T 6%nat) (c 6%nat i))) as [A B]; [rewrite scale_len; auto|].
  rewrite scale_len in A. split; auto. rewrite B, scale_at by auto. cbn [rsum]. destruct (Nat.leb_spec i 6); [ring|lia].
Qed.
Lemma combine_len n T c i : length (combine_rows n T c i) = n.
Proof.
  assert (G : forall j dst, length (advance_down j i T c dst) = length dst).
  { induction j; intros; cbn [advance_down]; auto. destruct (i <? S j)%nat; auto. rewrite IHj, advance_len. auto. }
  unfold combine_rows. rewrite G, scale_len. auto.
Qed.

(** * The path *)
Lemma stage_value_path b y dy0 h step : stage_value b y dy0 h step = path y dy0 b step h.
Proof. unfold stage_value, path. cbn [rsum Nat.add INR pow]. lra. Qed.
Lemma eval_loop_spec b step x : forall i y, (x < length y)%nat ->
  length (eval_loop i b step y) = length y /\
  at_ (eval_loop i b step y) x = at_ y x + rsum (fun m => at_ (b m) x * (step / INR (S m + 1))) i.
Proof.
  induction i as [|i IH]; intros y Hx; cbn [eval_loop rsum]; [split; [auto|ring]|].
  destruct (IH (array_advance y (b i) (step / INR (S i + 1)))) as [A B]; [rewrite advance_len; auto|]. rewrite advance_len in A. split; auto.
  rewrite B, advance_at by auto. ring.
Qed.
Lemma evaluate_len G step : length (evaluate_state G step) = length (g_in G).
Proof.
  unfold evaluate_state. rewrite advance_len. generalize 7%nat as i, (g_in G) as y.
  induction i; intros y; cbn [eval_loop]; auto. rewrite IHi, advance_len. auto.
Qed.
Lemma evaluate_path G step x : (x < length (g_in G))%nat ->
  at_ (evaluate_state G step) x = path (at_ (g_in G) x) (at_ (g_dy0 G) x) (comp (g_b G) x) step 1.
Proof.
  intros Hx. unfold evaluate_state. destruct (eval_loop_spec (g_b G) step x 7 (g_in G) Hx) as [A B].
  rewrite advance_at by lia. rewrite B. unfold path, comp, at_. rewrite (rsum_ext (fun i => nth x (g_b G i) 0 * 1 ^ (i + 2) / INR (i + 2)) (fun i => nth x (g_b G i) 0 / INR (S i + 1))).
  - rewrite (rsum_ext (fun m => nth x (g_b G m) 0 * (step / INR (S m + 1))) (fun m => step * (nth x (g_b G m) 0 / INR (S m + 1)))).
    + rewrite rsum_scal. ring.
    + intros. unfold Rdiv. ring.
  - intros. rewrite pow1. replace (S i + 1)%nat with (i + 2)%nat by lia. unfold Rdiv. ring.
Qed.
Lemma derive_term b i s : derivable_pt_lim (fun s => b * s ^ (i + 2) / INR (i + 2)) s (b * s ^ (i + 1)).
Proof.
  replace (i + 2)%nat with (S (i + 1)) by lia. assert (H := derivable_pt_lim_pow_pos s (S (i + 1)) ltac:(lia)).
  apply (derivable_pt_lim_scal _ (b / INR (S (i + 1)))) in H.
  assert (N : INR (S (i + 1)) <> 0) by (apply not_0_INR; lia).
  replace (b / INR (S (i + 1)) * (INR (S (i + 1)) * s ^ pred (S (i + 1)))) with (b * s ^ (i + 1)) in H by (cbn [pred]; field; auto).
  intros eps He. destruct (H eps He) as [d Hd]. exists d. intros h Hh Hd'. specialize (Hd h Hh Hd'). unfold mult_real_fct in Hd.
  replace (b * (s + h) ^ S (i + 1) / INR (S (i + 1)) - b * s ^ S (i + 1) / INR (S (i + 1)))
    with (b / INR (S (i + 1)) * (s + h) ^ S (i + 1) - b / INR (S (i + 1)) * s ^ S (i + 1)) by (unfold Rdiv; ring). exact Hd.
Qed.
Lemma derive_rsum f f' s n : (forall i, (i < n)%nat -> derivable_pt_lim (f i) s (f' i)) ->
  derivable_pt_lim (fun s => rsum (fun i => f i s) n) s (rsum f' n).
Proof.
  induction n as [|n IH]; intros H; cbn [rsum]; [apply derivable_pt_lim_const|].
  apply (derivable_pt_lim_plus (fun s => rsum (fun i => f i s) n) (f n)); auto.
Qed.
Lemma path_derive y dy0 b step s : derivable_pt_lim (path y dy0 b step) s (step * force_poly dy0 b s).
Proof.
  unfold path, force_poly. set (q := rsum _ 7).
  replace (step * (dy0 + q)) with (0 + step * (dy0 * 1 + q)) by ring.
  apply (derivable_pt_lim_plus (fun _ => y) (fun s => step * (dy0 * s + rsum (fun i => b i * s ^ (i + 2) / INR (i + 2)) 7))); [apply derivable_pt_lim_const|].
  apply (derivable_pt_lim_scal (fun s => dy0 * s + rsum (fun i => b i * s ^ (i + 2) / INR (i + 2)) 7)).
  apply (derivable_pt_lim_plus (fun s => dy0 * s) (fun s => rsum (fun i => b i * s ^ (i + 2) / INR (i + 2)) 7)).
  - apply (derivable_pt_lim_scal (fun s => s)). apply derivable_pt_lim_id.
  - apply (derive_rsum (fun i s => b i * s ^ (i + 2) / INR (i + 2)) (fun i => b i * s ^ (i + 1))). intros. apply derive_term.
Qed.

(** * Predictor *)
Definition oldv (q : R) (b : nat -> R) (i : nat) : R :=
  rsum (fun m => if (i <=? m)%nat then b m * est_b m i else 0) 7 * q ^ (i + 1).
Lemma Qpow q i : (i < 7)%nat ->
  nth i [q; q * q; q * q * q; q * q * (q * q); q * q * q * (q * q); q * q * q * (q * q * q); q * q * (q * q) * (q * q * q)] 0 = q ^ (i + 1).
Proof. intros H. do 7 (destruct i as [|i]; [cbn; ring|]). lia. Qed.
(** State after the first i iterations of the predictor loop. *)
Lemma predict_loop q n G0 : g_n G0 = n -> forall i, (i <= 7)%nat -> let G := fold_left (fun G i => predict_one q i G) (seq 0 i) G0 in
  g_n G = n /\ g_in G = g_in G0 /\ g_dy0 G = g_dy0 G0 /\ g_dyh G = g_dyh G0 /\ g_dg G = g_dg G0 /\ g_g G = g_g G0 /\
  (forall m, (i <= m)%nat -> g_b G m = g_b G0 m /\ g_old G m = g_old G0 m) /\
  (forall m, (m < i)%nat -> length (g_b G m) = n /\ length (g_old G m) = n /\ forall x, (x < n)%nat ->
     comp (g_old G) x m = oldv q (comp (g_b G0) x) m /\
     comp (g_b G) x m = oldv q (comp (g_b G0) x) m + (comp (g_b G0) x m - comp (g_old G0) x m)).
Proof.
  intros Hn. induction i as [|i IH]; intros Hi; cbv zeta in *.
  - cbn [seq fold_left]. repeat split; auto; lia.
  - rewrite seq_S, fold_left_app. cbn [fold_left Nat.add]. destruct IH as (A & B & C & D & E & F & H & K); [lia|].
    set (G := fold_left (fun G i => predict_one q i G) (seq 0 i) G0) in *. unfold predict_one. cbn [g_n g_b g_g g_old g_dy0 g_dyh g_dg g_in]. rewrite A.
    set (o := array_scale n _ _).
    assert (Lo : length o = n) by apply scale_len.
    assert (O : forall x, (x < n)%nat -> at_ o x = oldv q (comp (g_b G0) x) i).
    { intros x Hx. unfold o. rewrite scale_at by auto. destruct (combine_at n (g_b G) est_b i x Hx) as [_ ->]; [lia|]. rewrite Qpow by lia. unfold oldv. f_equal.
      apply rsum_ext. intros m Hm. destruct (Nat.leb_spec i m); auto. destruct (H m) as [-> _]; auto. }
    split; [auto|]. split; [auto|]. split; [auto|]. split; [auto|]. split; [auto|]. split; [auto|]. split.
    + intros m Hm. unfold tset. destruct (Nat.eqb_spec m i); [lia|]. apply H; lia.
    + intros m Hm. unfold tset, comp in *. destruct (Nat.eqb_spec m i) as [->|].
      * split; [apply arr_len|]. split; [exact Lo|]. intros x Hx. split; [apply O; auto|].
        fold (at_ (arr n (fun x => at_ o x + at_ (arr n (fun x => at_ (g_b G i) x - at_ (g_old G i) x)) x)) x).
        rewrite !arr_at by auto. rewrite O by auto. destruct (H i) as [-> ->]; auto.
      * apply K. lia.
Qed.
Lemma predict_spec q n G0 : g_n G0 = n -> let G := predict q G0 in
  gr_sized n G /\ g_in G = g_in G0 /\ g_dy0 G = g_dy0 G0 /\ g_dyh G = g_dyh G0 /\ g_dg G = g_dg G0 /\
  (forall m x, (m < 7)%nat -> (x < n)%nat ->
     comp (g_old G) x m = oldv q (comp (g_b G0) x) m /\
     comp (g_b G) x m = oldv q (comp (g_b G0) x) m + (comp (g_b G0) x m - comp (g_old G0) x m) /\
     comp (g_g G) x m = rsum (fun j => if (m <=? j)%nat then comp (g_b G) x j * b2g j m else 0) 7).
Proof.
  intros Hn. cbv zeta. unfold predict. destruct (predict_loop q n G0 Hn 7 ltac:(lia)) as (A & B & C & D & E & F & H & K).
  cbv zeta in *. set (G := fold_left _ _ G0) in *. cbn [g_n g_b g_g g_old g_dy0 g_dyh g_dg g_in]. rewrite A.
  unfold gr_sized. cbn [g_n g_b g_g g_old].
  split; [split; [reflexivity|]; intros i Hi; destruct (K i Hi) as (K1 & K2 & _); split; [exact K1|]|].
  { split; [unfold transform_b2g; exact (combine_len n (g_b G) b2g i)|exact K2]. }
  split; [exact B|]. split; [exact C|]. split; [exact D|]. split; [exact E|].
  intros m x Hm Hx. destruct (K m Hm) as (_ & _ & K3). destruct (K3 x Hx) as [K4 K5]. split; [exact K4|]. split; [exact K5|].
  pose proof (proj2 (combine_at n (g_b G) b2g m x Hx Hm)) as Q. exact Q.
Qed.
(** old_b' are the coefficients of F(1 + q s) - F(1). *)
Lemma oldv_shift q b dy0 s : rsum (fun i => oldv q b i * s ^ (i + 1)) 7 = force_poly dy0 b (1 + q * s) - force_poly dy0 b 1.
Proof.
  unfold oldv, force_poly, est_b, tri, radau_est_b. cbn [rsum Nat.leb Nat.add Nat.mul Nat.div Nat.divmod fst snd Nat.sub nth pow]. lra.
Qed.
