(** Further properties of C34 (the modified midpoint rule on plain ODE functions) and C36 (MaxRatioError with two arrays). *)
From Verif Require Import BS_Model BS_Spec BS_Proofs Ctrl_Model Ctrl_Spec Ctrl_Proofs Ctrl_Props.
From Coq Require Import List Lia Lra Reals Psatz.
Import ListNotations.
Open Scope R_scope.

(** * C34 *)
(** One row with n sub-steps is Gragg's modified midpoint rule: for the sequence z of the textbook recursion,
    the row returns (z_n + z_{n-1} + h f(z_n, t + n h)) / 2, h = step / n. *)
Definition gragg (func : list R -> R -> list R) (input : list R) (t h : R) (z : nat -> list R) : Prop :=
  z 0%nat = input /\ (forall i, length (z i) = length input) /\
  (forall c, (c < length input)%nat -> nth c (z 1%nat) 0 = nth c input 0 + h * nth c (func input t) 0) /\
  (forall i c, (c < length input)%nat -> nth c (z (i + 2)%nat) 0 = nth c (z i) 0 + 2 * h * nth c (func (z (i + 1)%nat) (t + INR (i + 1) * h)) 0).
Theorem C34_midpoint_rule func input t step n z : (0 < n)%nat -> (forall x s, length (func x s) = length x) ->
  gragg func input t (step / INR n) z ->
  let y := fst (midpoint func input t step n) in length y = length input /\
  forall c, (c < length input)%nat ->
    2 * nth c y 0 = nth c (z n) 0 + nth c (z (n - 1)%nat) 0 + step / INR n * nth c (func (z n) (t + step)) 0.
Proof.
  intros Hn LF (Z0 & ZL & Z1 & ZS). cbv zeta. unfold midpoint. set (h := step / INR n) in *.
  assert (AL : forall x d k, length d = length x -> length (adv x d k) = length x) by (intros; apply zipw_length; auto).
  assert (AE : forall x d k c, length d = length x -> (c < length x)%nat -> nth c (adv x d k) 0 = nth c x 0 + nth c d 0 * k) by (intros; unfold adv; rewrite zipw_nth; auto).
  assert (EQ : forall x y : list R, length x = length y -> (forall c, (c < length x)%nat -> nth c x 0 = nth c y 0) -> x = y) by (intros x y L E; apply nth_ext with (d := 0) (d' := 0); auto).
  assert (E1 : adv input (func input t) h = z 1%nat).
  { apply EQ; [rewrite AL, ZL; auto|]. intros c Hc. rewrite AL in Hc by auto. rewrite AE, Z1 by auto. ring. }
  rewrite E1.
  assert (LOOP : forall i k, mid_loop func i h (z k) (z (k + 1)%nat) (t + INR (k + 1) * h) = (z (k + i)%nat, z (k + i + 1)%nat, t + INR (k + i + 1) * h)).
  { induction i as [|i IH]; intros k; cbn [mid_loop]; [rewrite Nat.add_0_r; auto|].
    assert (E : adv (z k) (func (z (k + 1)%nat) (t + INR (k + 1) * h)) (2 * h) = z (k + 1 + 1)%nat).
    { replace (k + 1 + 1)%nat with (k + 2)%nat by lia. apply EQ; [rewrite AL, !ZL; auto; rewrite LF, !ZL; auto|].
      intros c Hc. rewrite AL, ZL in Hc by (rewrite LF, !ZL; auto). rewrite AE, ZS by (try rewrite LF; rewrite ?ZL; auto). ring. }
    rewrite E. replace (t + INR (k + 1) * h + h) with (t + INR (k + 1 + 1) * h) by (rewrite (plus_INR (k + 1) 1); simpl; ring).
    rewrite IH. replace (k + 1 + i)%nat with (k + S i)%nat by lia. auto. }
  specialize (LOOP (n - 1)%nat 0%nat). rewrite Z0 in LOOP. cbn [Nat.add] in LOOP. replace (INR 1) with 1 in LOOP by reflexivity. rewrite Rmult_1_l in LOOP.
  rewrite LOOP. replace (n - 1 + 1)%nat with n by lia. cbn [fst].
  assert (NH : t + INR n * h = t + step). { unfold h. field. apply not_0_INR. lia. }
  rewrite NH. set (mid := adv (z (n - 1)%nat) (func (z n) (t + step)) h).
  assert (LM : length mid = length input) by (unfold mid; rewrite AL; rewrite ?LF, ?ZL; auto).
  assert (LZ : length (z n) = length mid) by (rewrite LM; auto).
  split.
  - rewrite map_length, zipw_length; auto.
  - intros c Hc. transitivity (2 * nth c (map (fun x => x * 0.5) (zipw Rplus mid (z n))) (0 * 0.5)); [rewrite Rmult_0_l; auto|].
    rewrite (map_nth (fun x => x * 0.5)). rewrite zipw_nth by (auto; lia). unfold mid. rewrite AE by (rewrite ?LF, ?ZL; auto). lra.
Qed.
(** Such a sequence exists for every function that returns as many derivatives as there are variables. *)
Fixpoint zseq (func : list R -> R -> list R) (input : list R) (t h : R) (i : nat) : list R * list R :=
  match i with
  | O => (input, map (fun c => nth c input 0 + h * nth c (func input t) 0) (seq 0 (length input)))
  | S k => let '(a, b) := zseq func input t h k in
      (b, map (fun c => nth c a 0 + 2 * h * nth c (func b (t + INR (k + 1) * h)) 0) (seq 0 (length input)))
  end.
Lemma map_seq_nth (g : nat -> R) n c : (c < n)%nat -> nth c (map g (seq 0 n)) 0 = g c.
Proof. intros H. rewrite (nth_indep _ 0 (g 0%nat)) by (rewrite map_length, seq_length; auto). rewrite map_nth, seq_nth by auto. auto. Qed.
Theorem C34_midpoint_sequence_exists func input t h : exists z, gragg func input t h z.
Proof.
  exists (fun i => fst (zseq func input t h i)).
  assert (L : forall i, length (fst (zseq func input t h i)) = length input /\ length (snd (zseq func input t h i)) = length input).
  { induction i; cbn [zseq]; [simpl; rewrite map_length, seq_length; auto|]. destruct (zseq func input t h i) as [a b]. simpl in *. rewrite map_length, seq_length. tauto. }
  assert (N : forall i, fst (zseq func input t h (S i)) = snd (zseq func input t h i)) by (intros; cbn [zseq]; destruct (zseq func input t h i); auto).
  split; [reflexivity|]. split; [intros; apply L|]. split.
  - intros c Hc. rewrite N. cbn [zseq snd]. apply map_seq_nth; auto.
  - intros i c Hc. replace (i + 2)%nat with (S (S i)) by lia. replace (i + 1)%nat with (S i) by lia. rewrite !N. cbn [zseq].
    destruct (zseq func input t h i) as [a b]. cbn [fst snd]. rewrite map_seq_nth by auto. rewrite Nat.add_1_r. reflexivity.
Qed.
(** For a function of time alone a row is the composite trapezoidal rule; it integrates linear functions exactly. *)
Theorem C34_row_is_trapezoidal (g : R -> R) y t step n : (0 < n)%nat ->
  let h := step / INR n in
  exists y', fst (midpoint (fun x s => map (fun _ => g s) x) [y] t step n) = [y'] /\
    y' = y + h * (Vec.rsum (fun i => (g (t + INR i * h) + g (t + INR (S i) * h)) / 2) n).
Proof.
  intros Hn h. set (f := fun (x : list R) (s : R) => map (fun _ : R => g s) x).
  destruct (C34_midpoint_sequence_exists f [y] t h) as (z & HZ).
  destruct (C34_midpoint_rule f [y] t step n z Hn) as (L & E); [intros; apply map_length|exact HZ|]. fold f.
  destruct (fst (midpoint f [y] t step n)) as [|y' [|? ?]] eqn:Q; try discriminate. exists y'. split; auto.
  specialize (E 0%nat ltac:(simpl; lia)). fold h in E. destruct HZ as (Z0 & ZL & Z1 & ZS).
  assert (F : forall i s, nth 0 (f (z i) s) 0 = g s). { intros i s. pose proof (ZL i) as Li. destruct (z i); [discriminate|]. reflexivity. }
  rewrite F in E. cbn [nth] in E.
  assert (SUM : forall k, nth 0 (z (S k)) 0 + nth 0 (z k) 0 = 2 * y + h * g t + 2 * h * Vec.rsum (fun i => g (t + INR (S i) * h)) k).
  { induction k as [|k IH]; cbn [Vec.rsum].
    - rewrite Z0, Z1 by (simpl; lia). cbn [nth f map]. ring.
    - pose proof (ZS k 0%nat ltac:(simpl; lia)) as H. rewrite F in H. replace (k + 2)%nat with (S (S k)) in H by lia. replace (k + 1)%nat with (S k) in H by lia. rewrite H.
      lra. }
  assert (TRAP : forall k, h * Vec.rsum (fun i => (g (t + INR i * h) + g (t + INR (S i) * h)) / 2) (S k) =
     h * g t / 2 + h * Vec.rsum (fun i => g (t + INR (S i) * h)) k + h * g (t + INR (S k) * h) / 2).
  { induction k as [|k IH].
    - cbn [Vec.rsum]. replace (t + INR 0 * h) with t by (simpl; ring). lra.
    - cbn [Vec.rsum] in *. lra. }
  destruct n as [|k]; [lia|]. rewrite TRAP. replace (S k - 1)%nat with k in E by lia. specialize (SUM k).
  replace (t + INR (S k) * h) with (t + step) by (unfold h; field; apply not_0_INR; lia). lra.
Qed.
Corollary C34_row_exact_for_linear a b y t step n : (0 < n)%nat ->
  fst (midpoint (fun x s => map (fun _ => a + 2 * b * s) x) [y] t step n) = [y + (a * (t + step) + b * (t + step) * (t + step)) - (a * t + b * t * t)].
Proof.
  intros Hn. destruct (C34_row_is_trapezoidal (fun s => a + 2 * b * s) y t step n Hn) as (y' & E & ->). rewrite E. f_equal.
  set (h := step / INR n). assert (NH : step = INR n * h) by (unfold h; field; apply not_0_INR; lia). rewrite NH.
  assert (S : forall k, h * Vec.rsum (fun i => (a + 2 * b * (t + INR i * h) + (a + 2 * b * (t + INR (S i) * h))) / 2) k =
     (a * (t + INR k * h) + b * (t + INR k * h) * (t + INR k * h)) - (a * t + b * t * t)).
  { induction k as [|k IH]; cbn [Vec.rsum]; [simpl; ring|]. rewrite Rmult_plus_distr_l, IH, S_INR. field. }
  rewrite S. ring.
Qed.

(** * C36 *)
(** MaxRatioError on two arrays: the error is at most one exactly when every difference is at most the largest
    tolerance. *)
Theorem C36_max_ratio_arrays atol rtol scale y1 y2 : 0 < atol -> 0 <= rtol -> length y1 = length scale -> length y2 = length scale -> scale <> [] ->
  ele (mr_error Rabs Rminus atol rtol scale y1 y2) (Fin 1) = true <->
  exists j, (j < length scale)%nat /\ forall i, (i < length scale)%nat -> Rabs (nth i y2 0 - nth i y1 0) <= atol + rtol * Rabs (nth j scale 0).
Proof.
  intros Ha Hr L1 L2 Hs. set (d := zipw (fun a b => b - a) y1 y2).
  assert (LD : length d = length scale) by (unfold d; rewrite zipw_length; lia).
  assert (E : mr_error Rabs Rminus atol rtol scale y1 y2 = mr_error2 Rabs atol rtol scale d).
  { unfold mr_error, mr_error2. apply (f_equal (fun '(md, ms) => ediv (Fin md) (Fin ms))). generalize (0, 0). unfold d, zip3. clear d LD Ha Hr Hs.
    revert y1 y2 L1 L2. induction scale as [|s sc IH]; intros [|a y1] [|b y2] L1 L2 [u v]; simpl in L1, L2; try discriminate; try reflexivity.
    cbn [combine zipw map fold_left fst snd]. unfold zipw in *. cbn [combine map fold_left fst snd]. apply IH; lia. }
  rewrite E, C36_max_ratio by auto. split; intros (j & Hj & H); exists j; split; auto; intros i Hi; specialize (H i Hi); unfold d in *; rewrite zipw_nth in *; auto; lia.
Qed.
Example C36_max_ratio_arrays_case : ele (mr_error Rabs Rminus 1 0 [5; 5] [1; 2] [1; 3]) (Fin 1) = true /\ ele (mr_error Rabs Rminus 1 0 [5; 5] [1; 2] [1; 4]) (Fin 1) = false.
Proof.
  split; [|apply Bool.not_true_is_false]; rewrite C36_max_ratio_arrays by (auto; try lra; discriminate).
  - exists 0%nat. split; [simpl; lia|]. intros i Hi. destruct i as [|[|i]]; simpl in *; [..|lia]; apply Rabs_le; lra.
  - intros (j & _ & H). specialize (H 1%nat ltac:(simpl; lia)). simpl in H. rewrite Rabs_pos_eq in H by lra. lra.
Qed.
Print Assumptions C34_midpoint_rule. Print Assumptions C34_midpoint_sequence_exists. Print Assumptions C34_row_is_trapezoidal. Print Assumptions C34_row_exact_for_linear.
Print Assumptions C36_max_ratio_arrays.
