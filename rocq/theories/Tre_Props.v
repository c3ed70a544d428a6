(** C104: a parallel reduction gives the result of the sequential loop and returns. *)
From Coq Require Import ZArith List Bool Lia Permutation.
From Verif Require Import Tre_Model Tre_Spec Tre_Proofs Tre_Proofs2.
Import ListNotations.
Open Scope Z_scope.
(** reduce, reduce_guided, reduce_dynamic, reduce_static without a chunk size and their transform_ versions, for every operation that is associative and commutative, every number of workers,
    chunk size, range, initial value and interleaving: when the join returns, the result is that of the sequential loop. *)
Theorem C104_result : forall A (o : A -> A -> A) v init p n nw h m s, associative o -> commutative o -> fits n nw h ->
  steps A o v (fst (launch A p n nw h init)) m (snd (launch A p n nw h init)) s -> joined A s -> res A s = sequential o v init n.
Proof.
  intros A o v init p n nw h m s HA HC Hf S J. destruct (launch_inv A o v init p n nw h Hf) as (EN & kd & F & I).
  pose proof (steps_inv A o v HA init kd _ m _ s F I S) as Q. pose proof (inv_end A o v HA init kd _ s F HC Q J) as R. rewrite EN in R. exact R.
Qed.
(** If the operation is associative but not commutative, the result is still that of a loop over the same elements, each exactly once, in some order. *)
Theorem C104_some_order : forall A (o : A -> A -> A) v init p n nw h m s, associative o -> fits n nw h ->
  steps A o v (fst (launch A p n nw h init)) m (snd (launch A p n nw h init)) s -> joined A s ->
  exists l, Permutation l (seq 0 (Z.to_nat n)) /\ res A s = fold_left (fun a i => o a (v (Z.of_nat i))) l init.
Proof.
  intros A o v init p n nw h m s HA Hf S J. destruct (launch_inv A o v init p n nw h Hf) as (EN & kd & F & I).
  pose proof (steps_inv A o v HA init kd _ m _ s F I S) as Q. destruct (inv_order A o v init kd _ s F Q J) as (idx & P & R). rewrite EN in P.
  apply Permutation_map_inv in P. destruct P as (l & -> & P). exists l. split; [apply Permutation_sym; auto|].
  rewrite R. unfold red. clear. revert init. induction l as [|x l IH]; intros a; cbn; auto.
Qed.
(** No schedule runs for ever, the tasks do not block each other at the mutex, and the only way for a schedule to stop is that the join returns. *)
Theorem C104_returns : forall A (o : A -> A -> A) v init p n nw h, associative o -> fits n nw h ->
  exists most, forall m s, steps A o v (fst (launch A p n nw h init)) m (snd (launch A p n nw h init)) s ->
    (m <= most)%nat /\ ((forall s', ~ step A o v (fst (launch A p n nw h init)) s s') -> joined A s).
Proof.
  intros A o v init p n nw h HA Hf. destruct (launch_inv A o v init p n nw h Hf) as (EN & kd & F & I).
  exists (Z.to_nat (mu A (fst (launch A p n nw h init)) (snd (launch A p n nw h init)))). intros m s S.
  pose proof (steps_inv A o v HA init kd _ m _ s F I S) as J. split.
  - pose proof (steps_less A o v HA init kd _ m _ s F I S). pose proof (mu_nonneg A o v init kd _ s F J). lia.
  - apply (stuck_joined A o v init kd _ s J).
Qed.
(** The mutex: at no moment are two tasks between the lock and the unlock. *)
Theorem C104_mutex : forall A (o : A -> A -> A) v init p n nw h m s l1 w1 l2 w2 l3, associative o -> fits n nw h ->
  steps A o v (fst (launch A p n nw h init)) m (snd (launch A p n nw h init)) s -> ws A s = l1 ++ w1 :: l2 ++ w2 :: l3 ->
  (at_ A w1 = Got A \/ (exists y, at_ A w1 = Put A y) \/ at_ A w1 = Rel A) -> (at_ A w2 = Got A \/ (exists y, at_ A w2 = Put A y) \/ at_ A w2 = Rel A) -> False.
Proof.
  intros A o v init p n nw h m s l1 w1 l2 w2 l3 HA Hf S E C1 C2. destruct (launch_inv A o v init p n nw h Hf) as (EN & kd & F & I).
  destruct (steps_inv A o v HA init kd _ m _ s F I S) as (_ & _ & HH & _). rewrite E, !zsum_mid in HH.
  assert (K1 : hold A w1 = 1) by (unfold hold; destruct C1 as [->|[[y ->]| ->]]; auto). assert (K2 : hold A w2 = 1) by (unfold hold; destruct C2 as [->|[[y ->]| ->]]; auto).
  pose proof (holds A l1). pose proof (holds A l2). pose proof (holds A l3). pose proof (b2z_01 (locked A s)). lia.
Qed.
Print Assumptions C104_result.
Print Assumptions C104_some_order.
Print Assumptions C104_returns.
Print Assumptions C104_mutex.
