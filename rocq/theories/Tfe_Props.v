(** C103: a parallel loop visits every element of its range exactly once and then returns. *)
From Coq Require Import ZArith List Bool Lia Permutation.
From Verif Require Import Tfe_Model Tfe_Spec Tfe_Proofs Tfe_Proofs2 Tfe_Proofs3.
Import ListNotations.
Open Scope Z_scope.
(** for_each, for_each_guided, for_each_dynamic, for_each_static and their _index versions, for every number of workers, chunk size, range and interleaving:
    when the join returns, the body has been called exactly once for every element and for nothing else. *)
Theorem C103_each_once : forall p it b a n nw h k s, fits n nw h -> named it b a ->
  steps (fst (launch p it b a n nw h)) k (snd (launch p it b a n nw h)) s -> joined s -> Permutation (log s) (elements b a n).
Proof.
  intros p it b a n nw h k s Hf Hn S J. destruct (launch_inv p it b a n nw h Hf Hn) as (EN & _ & EB & EA & kd & K & F & I).
  pose proof (steps_inv kd _ K k _ s F I S) as Q. pose proof (inv_end kd _ K s F Q J) as R. rewrite EN, EB, EA in R. exact R.
Qed.
(** At every moment, also before the join: no element has been visited twice and none outside the range. *)
Theorem C103_never_twice : forall p it b a n nw h k s, fits n nw h -> named it b a ->
  steps (fst (launch p it b a n nw h)) k (snd (launch p it b a n nw h)) s -> exists rest, Permutation (log s ++ rest) (elements b a n).
Proof.
  intros p it b a n nw h k s Hf Hn S. destruct (launch_inv p it b a n nw h Hf Hn) as (EN & _ & EB & EA & kd & K & F & I).
  pose proof (steps_inv kd _ K k _ s F I S) as J. pose proof F as (F1 & _). pose proof (inv_prefix kd _ K s F1 J) as R. rewrite EN, EB, EA in R. exact R.
Qed.
(** No schedule runs for ever, and the only way for a schedule to stop is that the join returns. *)
Theorem C103_returns : forall p it b a n nw h, fits n nw h -> named it b a ->
  exists most, forall k s, steps (fst (launch p it b a n nw h)) k (snd (launch p it b a n nw h)) s ->
    (k <= most)%nat /\ ((forall s', ~ step (fst (launch p it b a n nw h)) s s') -> joined s).
Proof.
  intros p it b a n nw h Hf Hn. destruct (launch_inv p it b a n nw h Hf Hn) as (_ & _ & _ & _ & kd & K & F & I).
  exists (Z.to_nat (mu (fst (launch p it b a n nw h)) (snd (launch p it b a n nw h)))). intros k s S. split.
  - pose proof (steps_less kd _ K k _ s F I S). pose proof (steps_inv kd _ K k _ s F I S) as J. pose proof (mu_nonneg kd _ K s F J). lia.
  - apply stuck_joined.
Qed.
(** The index loops, from the arguments of the user: if the range is accepted and the step is not zero, the body is called exactly once for each value of the sequential loop
    for (i = b; i before e; i += a), upwards or downwards, whether or not the step divides the range, and for no other value. *)
Theorem C103_index : forall p b e a n nw h k s, is_range_invalid b e a = false -> distance b e a = Some n -> fits n nw h ->
  steps (fst (launch p false b a n nw h)) k (snd (launch p false b a n nw h)) s -> joined s -> NoDup (log s) /\ forall v, In v (log s) <-> visits b e a v.
Proof.
  intros p b e a n nw h k s V D Hf S J. assert (P : Permutation (log s) (elements b a n)) by (eapply C103_each_once; eauto; discriminate).
  assert (NZ : a <> 0) by (intros ->; discriminate).
  destruct (distance_elements b e a n V D) as [_ E]. split.
  - eapply Permutation_NoDup; [apply Permutation_sym; exact P|apply elements_nodup; auto].
  - intros v. rewrite <- E. split; apply Permutation_in; auto using Permutation_sym.
Qed.
(** The check of the range accepts exactly the ranges whose sequential loop ends, and an empty range with a step of zero. *)
Theorem C103_range : forall b e a, is_range_invalid b e a = false <-> (a <> 0 /\ ((b <= e /\ 0 < a) \/ (e <= b /\ a < 0))) \/ b = e.
Proof.
  intros. unfold is_range_invalid. destruct (Z.eqb_spec a 0), (Z.eqb_spec b e), (Z.ltb_spec b e), (Z.ltb_spec e b), (Z.leb_spec a 0), (Z.leb_spec 0 a); cbn; split; intros; try discriminate; try lia; auto.
Qed.
(** The code does not live up to this for an empty range with a step of zero: it is accepted, and the number of elements is then computed by a division by zero. *)
Theorem C103_zero_step_refuted : exists b e a, is_range_invalid b e a = false /\ distance b e a = None.
Proof. exists 5, 5, 0. split; reflexivity. Qed.
Print Assumptions C103_each_once.
Print Assumptions C103_never_twice.
Print Assumptions C103_returns.
Print Assumptions C103_index.
Print Assumptions C103_range.
Print Assumptions C103_zero_step_refuted.
