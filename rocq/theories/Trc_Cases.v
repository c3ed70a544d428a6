(** Concrete reductions with chunks dealt in turn: the hypotheses of C104_chunks_... are met by whole executions. *)
From Coq Require Import ZArith List Bool Lia Permutation.
From Verif Require Import Trc_Model Trc_Spec Tre_Spec Trc_Proofs Trc_Props.
Import ListNotations.
Open Scope Z_scope.
Section Play.
Variable A : Type.
Variable o : A -> A -> A.
Variable v : Z -> A.
(** Let task number i make a step (one that cannot does nothing). *)
Definition one (c : cfg) (i : nat) (s : st A) : st A :=
  match nth_error (ws A s) i with
  | Some w => match wstep A o v c w (next A s) (res A s) (locked A s) with
              | Some (w', n', r', k') => mkS A n' r' k' (firstn i (ws A s) ++ w' :: skipn (S i) (ws A s)) | None => s end
  | None => s end.
Fixpoint turns (c : cfg) (l : list nat) (s : st A) : st A := match l with [] => s | i :: l => turns c l (one c i s) end.
Lemma one_step c i s : one c i s = s \/ step A o v c s (one c i s).
Proof.
  unfold one. destruct (nth_error (ws A s) i) as [w|] eqn:E; auto. destruct s as [n r k l]; cbn [ws next res locked] in *.
  assert (SP : l = firstn i l ++ w :: skipn (S i) l).
  { rewrite <- (firstn_skipn i l) at 1. f_equal. clear -E. revert l E; induction i; intros [|x l] E; try discriminate; cbn in *; [congruence|auto]. }
  destruct (wstep A o v c w n r k) as [[[[w' n'] r'] k']|] eqn:R; auto. right.
  apply (go A o v c (firstn i l) w (skipn (S i) l) n r k w' n' r' k'); auto. rewrite <- SP; auto.
Qed.
Lemma turns_steps c l s : forall s0 k0, steps A o v c k0 s0 s -> exists k, steps A o v c k s0 (turns c l s).
Proof.
  revert s. induction l as [|i l IH]; intros s s0 k0 S; [exists k0; auto|]. cbn.
  destruct (one_step c i s) as [E|T]; [rewrite E; eapply IH; eauto|]. eapply IH. eapply s_more; eauto.
Qed.
Definition over (s : st A) : bool := forallb (fun w => match at_ A w with Done _ => true | _ => false end) (ws A s).
Lemma over_joined s : over s = true -> joined A s.
Proof. unfold over, joined. rewrite forallb_forall. intros H w Hw. specialize (H w Hw). destruct (at_ A w); congruence. Qed.
End Play.
Definition robin (k m : nat) : list nat := concat (repeat (seq 0 m) k).
Definition play A o v n nw h init l : st A := turns A o v (fst (launch A n nw h init)) l (snd (launch A n nw h init)).
Lemma add_ac : associative Z.add /\ commutative Z.add.
Proof. split; intros a b; intros; lia. Qed.
Lemma app_assoc_ : associative (@app Z).
Proof. intros a b c. apply app_assoc. Qed.
Ltac case_ l := split; [unfold fits_chunks; lia|];
  match goal with |- exists k s, steps ?A ?o ?v (fst (launch _ ?n ?nw ?h ?i)) k _ s /\ _ =>
    destruct (turns_steps A o v (fst (launch A n nw h i)) l (snd (launch A n nw h i)) _ O (s_zero _ _ _ _ _)) as (k & K);
    exists k, (play A o v n nw h i l); split; [exact K|split; [apply over_joined; reflexivity|reflexivity]] end.
Example C104_chunks_case_two : fits_chunks 11 2 2 /\ exists k s, steps Z Z.add (fun i => i * i) (fst (launch Z 11 2 2 5)) k (snd (launch Z 11 2 2 5)) s /\ joined Z s /\ res Z s = 390.
Proof. case_ (robin 24 2). Qed.
Example C104_chunks_case_ones : fits_chunks 7 2 1 /\ exists k s, steps Z Z.add (fun i => i * i) (fst (launch Z 7 2 1 5)) k (snd (launch Z 7 2 1 5)) s /\ joined Z s /\ res Z s = 96.
Proof. case_ (robin 20 2). Qed.
Example C104_chunks_case_last : fits_chunks 5 3 2 /\ exists k s, steps Z Z.add (fun i => i * i) (fst (launch Z 5 3 2 5)) k (snd (launch Z 5 3 2 5)) s /\ joined Z s /\ res Z s = 35.
Proof. case_ (robin 16 3). Qed.
Example C104_chunks_case_alone : fits_chunks 4 1 2 /\ exists k s, steps Z Z.add (fun i => i * i) (fst (launch Z 4 1 2 5)) k (snd (launch Z 4 1 2 5)) s /\ joined Z s /\ res Z s = 19.
Proof. case_ (robin 8 1). Qed.
(** The order of the elements is that of the chunks of a task, then that of the tasks at the mutex. *)
Example C104_chunks_case_order : fits_chunks 9 2 2 /\ exists k s, steps (list Z) (@app Z) (fun i => [i]) (fst (launch (list Z) 9 2 2 [9])) k (snd (launch (list Z) 9 2 2 [9])) s /\ joined (list Z) s /\ res (list Z) s = [9; 0; 1; 4; 5; 8; 2; 3; 6; 7].
Proof. case_ (0%nat :: robin 1 2 ++ repeat 0%nat 20 ++ robin 20 2). Qed.
