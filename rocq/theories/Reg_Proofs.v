(** Proofs about the general derivative, the regularised drift and kick, and the two-body LogH step. *)
From Verif Require Import Vec Force_Model Force_Spec Force_Proofs Diag_Spec Diag_Proofs System_Model System_Spec System_Proofs Reg_Spec.
From Coq Require Import List Lia Lra Reals.
Import ListNotations.
Open Scope R_scope.

(** * Entries of the coordinate arrays *)
Definition comp3 (c : nat) (v : vec) : R := match c with 0%nat => vx v | 1%nat => vy v | _ => vz v end.
Lemma coords_nth l : forall i c, (c < 3)%nat -> nth (3 * i + c) (coords l) 0 = comp3 c (nth i l vzero).
Proof.
  induction l as [|v l IH]; intros i c Hc.
  - simpl. destruct (i + (i + (i + 0)) + c)%nat; destruct i; destruct c as [|[|c]]; reflexivity.
  - unfold coords. cbn [flat_map]. fold (coords l). destruct i.
    + destruct c as [|[|[|c]]]; try lia; reflexivity.
    + replace (3 * S i + c)%nat with (S (S (S (3 * i + c)))) by lia. cbn [app nth]. apply IH; auto.
Qed.
Lemma coords_len l : length (coords l) = (3 * length l)%nat.
Proof. induction l as [|a l IH]; [reflexivity|]. unfold coords in *. cbn [flat_map app length]. rewrite IH. lia. Qed.
Lemma vderiv_comp f t d c : vderiv f t d -> derivable_pt_lim (fun x => comp3 c (f x)) t (comp3 c d).
Proof. intros (A & B & C). destruct c as [|[|c]]; simpl; auto. Qed.
Lemma comp_vderiv f t d : (forall c, (c < 3)%nat -> derivable_pt_lim (fun x => comp3 c (f x)) t (comp3 c d)) -> vderiv f t d.
Proof. intros H. split; [apply (H 0%nat); lia|]. split; [apply (H 1%nat); lia|apply (H 2%nat); lia]. Qed.
Lemma coords_deriv (L : R -> list vec) (d : list vec) t n : length d = n ->
  (forall i, (i < n)%nat -> vderiv (fun x => nth i (L x) vzero) t (nth i d vzero)) -> entries_deriv (fun x => coords (L x)) t (coords d).
Proof.
  intros Hd H k Hk. rewrite coords_len, Hd in Hk.
  assert (E : k = (3 * (k / 3) + k mod 3)%nat) by (apply Nat.div_mod; lia).
  assert (M : (k mod 3 < 3)%nat) by (apply Nat.mod_upper_bound; lia).
  assert (Q : (k / 3 < n)%nat) by (apply Nat.div_lt_upper_bound; lia).
  rewrite E. apply (dv_ext (fun x => comp3 (k mod 3) (nth (k / 3) (L x) vzero)) _ t (comp3 (k mod 3) (nth (k / 3) d vzero))).
  - intros x. symmetry. apply coords_nth; auto.
  - symmetry. apply coords_nth; auto.
  - apply vderiv_comp; auto.
Qed.
Lemma app_deriv (f g : R -> list R) t d e : (forall x, length (f x) = length d) -> entries_deriv f t d -> entries_deriv g t e ->
  entries_deriv (fun x => f x ++ g x) t (d ++ e).
Proof.
  intros L F G k Hk. rewrite app_length in Hk. destruct (Nat.lt_ge_cases k (length d)).
  - apply (dv_ext (fun x => nth k (f x) 0) _ t (nth k d 0)); auto.
    + intros x. rewrite app_nth1; auto. rewrite L; auto.
    + rewrite app_nth1; auto.
  - apply (dv_ext (fun x => nth (k - length d) (g x) 0) _ t (nth (k - length d) e 0)).
    + intros x. rewrite app_nth2 by (rewrite L; auto). rewrite L. auto.
    + rewrite app_nth2; auto.
    + apply G. lia.
Qed.
Lemma cons_deriv (a : R -> R) (f : R -> list R) t b d : derivable_pt_lim a t b -> entries_deriv f t d -> entries_deriv (fun x => a x :: f x) t (b :: d).
Proof. intros A F k Hk. destruct k; simpl in *; [exact A|]. apply F. lia. Qed.
Lemma nil_deriv t : entries_deriv (fun _ => []) t [].
Proof. intros k Hk. simpl in Hk. lia. Qed.
(** And back. *)
Lemma deriv_head (a : R -> R) (f : R -> list R) t b d : entries_deriv (fun x => a x :: f x) t (b :: d) -> derivable_pt_lim a t b /\ entries_deriv f t d.
Proof. intros H. split; [apply (H 0%nat); simpl; lia|]. intros k Hk. apply (H (S k)). simpl. lia. Qed.
Lemma deriv_app (f g : R -> list R) t d e : (forall x, length (f x) = length d) -> entries_deriv (fun x => f x ++ g x) t (d ++ e) -> entries_deriv f t d /\ entries_deriv g t e.
Proof.
  intros L H. split; intros k Hk.
  - apply (dv_ext (fun x => nth k (f x ++ g x) 0) _ t (nth k (d ++ e) 0)).
    + intros x. apply app_nth1. rewrite L; auto.
    + apply app_nth1; auto.
    + apply H. rewrite app_length. lia.
  - apply (dv_ext (fun x => nth (length d + k) (f x ++ g x) 0) _ t (nth (length d + k) (d ++ e) 0)).
    + intros x. rewrite app_nth2 by (rewrite L; lia). rewrite L. f_equal. lia.
    + rewrite app_nth2 by lia. f_equal. lia.
    + apply H. rewrite app_length. lia.
Qed.
Lemma deriv_coords (L : R -> list vec) (d : list vec) t n : length d = n -> entries_deriv (fun x => coords (L x)) t (coords d) ->
  forall i, (i < n)%nat -> vderiv (fun x => nth i (L x) vzero) t (nth i d vzero).
Proof.
  intros Hd H i Hi. apply comp_vderiv. intros c Hc.
  apply (dv_ext (fun x => nth (3 * i + c) (coords (L x)) 0) _ t (nth (3 * i + c) (coords d) 0)).
  - intros x. apply coords_nth; auto.
  - apply coords_nth; auto.
  - apply H. rewrite coords_len, Hd. lia.
Qed.

(** * Lists and functions *)
Lemma vladd_len a b n : length a = n -> length b = n -> length (vladd a b) = n.
Proof. intros. unfold vladd. rewrite map_length, combine_length. lia. Qed.
Lemma vladd_nth a : forall b i, length a = length b -> nth i (vladd a b) vzero = vadd (nth i a vzero) (nth i b vzero).
Proof.
  induction a as [|x a IH]; intros [|y b] i E; simpl in E; try discriminate.
  - destruct i; unfold vladd; simpl; vring.
  - destruct i; [reflexivity|]. apply (IH b i). lia.
Qed.
Lemma eval_total_len I m p v : sized I -> length p = length m -> length v = length m -> length (eval_total I m p v) = length m.
Proof.
  intros S Hp Hv. destruct (S m p v Hp Hv) as (A & B & C). unfold eval_total, tot_vi.
  destruct (I_ind I), (I_dep I); auto; repeat apply vladd_len; auto.
Qed.
Lemma newton_nth m p v i : (i < length m)%nat -> nth i (newton_acc m p) vzero = newt (sys_of m p v) i.
Proof.
  intros Hi. unfold newton_acc, tolist. rewrite (nth_indep _ vzero (add_acc (newton_pair (sm (sys_of m p []))) (direct_calls (sys_of m p [])) (fun _ => vzero) 0%nat)).
  - rewrite map_nth, seq_nth by auto. simpl. unfold newt.
    rewrite !add_acc_spec by (apply direct_calls_ne). f_equal. unfold direct_calls. rewrite !lsum_map. apply lsum_ext. intros [a b] _.
    unfold contrib. cbn [true_call c_i c_j c_dr c_dv]. rewrite !newton_pair_eq. cbn [sys_of sm sp sv]. auto.
  - rewrite map_length, seq_length. auto.
Qed.
Lemma newton_len m p : length (newton_acc m p) = length m.
Proof. unfold newton_acc, tolist. rewrite map_length, seq_length. auto. Qed.
Lemma kin_T s : kin s = Tkin s.
Proof. apply kinetic_eq. Qed.
Lemma pot_U s : - pot s = Upot s.
Proof. unfold pot, Upot. rewrite potential_eq. auto. Qed.
Lemma contract_power m p v : contract m v (newton_acc m p) = rsum (fun i => nth i m 0 * dot (nth i v vzero) (newt (sys_of m p v) i)) (length m).
Proof. unfold contract. apply rsum_ext. intros i Hi. rewrite (newton_nth m p v) by auto. ring. Qed.

(** * Two bodies in relative coordinates *)
Lemma bac_cab r v : cross v (cross r v) = vsub (vscal (norm2 v) r) (vscal (dot r v) v).
Proof. destruct r, v. vring. Qed.
Section Core.
Variables (r1 v0 : vec) (w0 w1 mu k : R).
Hypothesis (HR : norm2 r1 <> 0).
Let v1 := vsub v0 (vscal (k / norm2 r1) r1).
Hypothesis (HW : w1 = w0 + mu / 2 * (norm2 v1 - norm2 v0)).
Lemma core_v1 : norm2 v1 = norm2 v0 - 2 * k * dot r1 v0 / norm2 r1 + k * k / norm2 r1.
Proof.
  unfold v1. replace (norm2 (vsub v0 (vscal (k / norm2 r1) r1))) with (norm2 v0 - 2 * (k / norm2 r1) * dot r1 v0 + (k / norm2 r1) * (k / norm2 r1) * norm2 r1).
  - field. auto.
  - generalize (k / norm2 r1). intros q. destruct v0, r1. vunf. ring.
Qed.
Lemma core_dot : dot r1 v1 = dot r1 v0 - k.
Proof.
  unfold v1. replace (dot r1 (vsub v0 (vscal (k / norm2 r1) r1))) with (dot r1 v0 - k / norm2 r1 * norm2 r1).
  - field. auto.
  - generalize (k / norm2 r1). intros q. destruct v0, r1. vunf. ring.
Qed.
Lemma core_w : w1 - w0 = mu * (- k * dot r1 v0 + k * k / 2) / norm2 r1.
Proof. rewrite HW, core_v1. field. auto. Qed.
(** w r is the scaled position: w0 r0 = w0 r1 - (h/2) v0, w1 r2 = w1 r1 + (h/2) v1 with h = mu k. *)
Lemma core_energy : norm2 (vadd (vscal w1 r1) (vscal (mu * k / 2) v1)) = norm2 (vsub (vscal w0 r1) (vscal (mu * k / 2) v0)).
Proof.
  replace (norm2 (vadd (vscal w1 r1) (vscal (mu * k / 2) v1))) with (w1 * w1 * norm2 r1 + w1 * (mu * k) * dot r1 v1 + (mu * k / 2) * (mu * k / 2) * norm2 v1)
    by (generalize v1; intros z; destruct r1, z; vunf; field).
  replace (norm2 (vsub (vscal w0 r1) (vscal (mu * k / 2) v0))) with (w0 * w0 * norm2 r1 - w0 * (mu * k) * dot r1 v0 + (mu * k / 2) * (mu * k / 2) * norm2 v0)
    by (destruct r1, v0; vunf; field).
  rewrite core_dot, core_v1. pose proof core_w as CW. assert (E : w1 = w0 + mu * (- k * dot r1 v0 + k * k / 2) / norm2 r1) by lra.
  rewrite E. field. auto.
Qed.
(** Laplace-Runge-Lenz vector v x L - (w r)/mu with L = r x v. *)
Lemma core_lrl : vsub (cross v1 (cross r1 v1)) (vscal (/ mu) (vadd (vscal w1 r1) (vscal (mu * k / 2) v1))) =
                 vsub (cross v0 (cross r1 v0)) (vscal (/ mu) (vsub (vscal w0 r1) (vscal (mu * k / 2) v0))) \/ mu = 0.
Proof.
  destruct (Req_dec mu 0) as [|NM]; [auto|]. left.
  rewrite !bac_cab, core_dot, core_v1. pose proof core_w as CW. assert (E : w1 = w0 + mu * (- k * dot r1 v0 + k * k / 2) / norm2 r1) by lra.
  rewrite E. unfold v1. clear E CW HW v1. generalize (dot r1 v0) as a, (norm2 v0) as V. revert HR. generalize (norm2 r1) as q. intros q HR a V.
  destruct r1, v0. unfold vsub, vadd, vscal; simpl. f_equal; field; auto.
Qed.
End Core.
