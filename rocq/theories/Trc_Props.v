(** C104, chunks dealt in turn: reduce_static and transform_reduce_static with a chunk size give the result of the sequential loop and return. *)
From Coq Require Import ZArith List Bool Lia Permutation.
From Verif Require Import Trc_Model Trc_Spec Tre_Spec.
From Verif Require Tre_Proofs Tre_Proofs2.
From Verif Require Import Trc_Proofs.
Import ListNotations.
Open Scope Z_scope.
(** If the operation is associative, the result is that of a loop over the elements, each exactly once, in some order. *)
Theorem C104_chunks_some_order : forall A (o : A -> A -> A) v init n nw h m s, associative o -> fits_chunks n nw h ->
  steps A o v (fst (launch A n nw h init)) m (snd (launch A n nw h init)) s -> joined A s ->
  exists l, Permutation l (seq 0 (Z.to_nat n)) /\ res A s = fold_left (fun a i => o a (v (Z.of_nat i))) l init.
Proof.
  intros A o v init n nw h m s HA Hf S J. destruct (launch_inv A o v init n nw h Hf) as (EN & F & kd & K & I).
  destruct (steps_inv A o v HA init kd _ K m _ s F I S) as [Q _]. destruct (inv_order A o v init kd _ K s F Q J) as (idx & P & R). rewrite EN in P.
  apply Permutation_map_inv in P. destruct P as (l & -> & P). exists l. split; [apply Permutation_sym; auto|].
  rewrite R. unfold Tre_Proofs.red. clear. revert init. induction l as [|x l IH]; intros a; cbn; auto.
Qed.
(** For every operation that is associative and commutative, every number of workers, chunk size, range, initial value and interleaving: when the join returns, the result is that of the sequential loop. *)
Theorem C104_chunks_result : forall A (o : A -> A -> A) v init n nw h m s, associative o -> commutative o -> fits_chunks n nw h ->
  steps A o v (fst (launch A n nw h init)) m (snd (launch A n nw h init)) s -> joined A s -> res A s = sequential o v init n.
Proof.
  intros A o v init n nw h m s HA HC Hf S J. destruct (launch_inv A o v init n nw h Hf) as (EN & F & kd & K & I).
  destruct (steps_inv A o v HA init kd _ K m _ s F I S) as [Q _]. destruct (inv_order A o v init kd _ K s F Q J) as (idx & P & R). rewrite EN in P.
  rewrite R. rewrite (Tre_Proofs2.red_perm A o v HA init _ _ HC P). apply Tre_Proofs2.red_sequential.
Qed.
(** No schedule runs for ever, the tasks do not block each other at the mutex, and the only way for a schedule to stop is that the join returns. *)
Theorem C104_chunks_returns : forall A (o : A -> A -> A) v init n nw h, associative o -> fits_chunks n nw h ->
  exists most, forall m s, steps A o v (fst (launch A n nw h init)) m (snd (launch A n nw h init)) s ->
    (m <= most)%nat /\ ((forall s', ~ step A o v (fst (launch A n nw h init)) s s') -> joined A s).
Proof.
  intros A o v init n nw h HA Hf. destruct (launch_inv A o v init n nw h Hf) as (EN & F & kd & K & I).
  exists (Z.to_nat (mu A (fst (launch A n nw h init)) (snd (launch A n nw h init)))). intros m s S.
  destruct (steps_inv A o v HA init kd _ K m _ s F I S) as [J L]. split.
  - pose proof (mu_nonneg A o v init kd _ K s F J). lia.
  - apply (stuck_joined A o v init kd _ K s J).
Qed.
(** The mutex: at no moment are two tasks between the lock and the unlock. *)
Theorem C104_chunks_mutex : forall A (o : A -> A -> A) v init n nw h m s l1 w1 l2 w2 l3, associative o -> fits_chunks n nw h ->
  steps A o v (fst (launch A n nw h init)) m (snd (launch A n nw h init)) s -> ws A s = l1 ++ w1 :: l2 ++ w2 :: l3 ->
  (at_ A w1 = Got A \/ (exists y, at_ A w1 = Put A y) \/ at_ A w1 = Rel A) -> (at_ A w2 = Got A \/ (exists y, at_ A w2 = Put A y) \/ at_ A w2 = Rel A) -> False.
Proof.
  intros A o v init n nw h m s l1 w1 l2 w2 l3 HA Hf S E C1 C2. destruct (launch_inv A o v init n nw h Hf) as (EN & F & kd & K & I).
  destruct (steps_inv A o v HA init kd _ K m _ s F I S) as [(_ & _ & HH & _) _]. rewrite E, !Tre_Proofs2.zsum_mid in HH.
  assert (K1 : hold A w1 = 1) by (unfold hold; destruct C1 as [->|[[y ->]| ->]]; auto). assert (K2 : hold A w2 = 1) by (unfold hold; destruct C2 as [->|[[y ->]| ->]]; auto).
  pose proof (holds A l1). pose proof (holds A l2). pose proof (holds A l3). pose proof (Tre_Proofs.b2z_01 (locked A s)). lia.
Qed.
Print Assumptions C104_chunks_result.
Print Assumptions C104_chunks_some_order.
Print Assumptions C104_chunks_returns.
Print Assumptions C104_chunks_mutex.
