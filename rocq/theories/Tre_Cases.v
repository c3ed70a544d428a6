(** Concrete parallel reductions: the hypotheses of C104 are met by whole executions of each kind. *)
From Coq Require Import ZArith List Bool Lia Permutation.
From Verif Require Import Tre_Model Tre_Spec Tre_Proofs Tre_Proofs2 Tre_Props.
Import ListNotations.
Open Scope Z_scope.
Section Play.
Variable A : Type.
Variable o : A -> A -> A.
Variable v : Z -> A.
(** Let task number i make a step (one that cannot does nothing). *)
Definition one (c : cfg) (q : Z) (i : nat) (s : st A) : st A :=
  match nth_error (ws A s) i with
  | Some w => match wstep A o v c q w (next A s) (res A s) (locked A s) with
              | Some (w', n', r', k') => mkS A n' r' k' (firstn i (ws A s) ++ w' :: skipn (S i) (ws A s)) | None => s end
  | None => s end.
Fixpoint turns (c : cfg) (q : Z) (l : list nat) (s : st A) : st A := match l with [] => s | i :: l => turns c q l (one c q i s) end.
Lemma one_step c q i s : 0 <= q -> one c q i s = s \/ step A o v c s (one c q i s).
Proof.
  intros Q. unfold one. destruct (nth_error (ws A s) i) as [w|] eqn:E; auto. destruct s as [n r k l]; cbn [ws next res locked] in *.
  assert (SP : l = firstn i l ++ w :: skipn (S i) l).
  { rewrite <- (firstn_skipn i l) at 1. f_equal. clear -E. revert l E; induction i; intros [|x l] E; try discriminate; cbn in *; [congruence|auto]. }
  destruct (wstep A o v c q w n r k) as [[[[w' n'] r'] k']|] eqn:R; auto. right.
  apply (go A o v c q (firstn i l) w (skipn (S i) l) n r k w' n' r' k'); auto. rewrite <- SP; auto.
Qed.
Lemma turns_steps c q l s : 0 <= q -> forall s0 k0, steps A o v c k0 s0 s -> exists k, steps A o v c k s0 (turns c q l s).
Proof.
  intros Q. revert s. induction l as [|i l IH]; intros s s0 k0 S; [exists k0; auto|]. cbn.
  destruct (one_step c q i s Q) as [E|T]; [rewrite E; eapply IH; eauto|]. eapply IH. eapply s_more; eauto.
Qed.
Definition over (s : st A) : bool := forallb (fun w => match at_ A w with Done _ => true | _ => false end) (ws A s).
Lemma over_joined s : over s = true -> joined A s.
Proof. unfold over, joined. rewrite forallb_forall. intros H w Hw. specialize (H w Hw). destruct (at_ A w); congruence. Qed.
End Play.
Definition robin (k m : nat) : list nat := concat (repeat (seq 0 m) k).
Definition play A o v p n nw h init q l : st A := turns A o v (fst (launch A p n nw h init)) q l (snd (launch A p n nw h init)).
Lemma add_ac : associative Z.add /\ commutative Z.add.
Proof. split; intros a b; intros; lia. Qed.
Lemma app_assoc_ : associative (@app Z).
Proof. intros a b c. apply app_assoc. Qed.
Ltac case_ q l := split; [unfold fits; lia|];
  match goal with |- exists k s, steps ?A ?o ?v (fst (launch _ ?p ?n ?nw ?h ?i)) k _ s /\ _ =>
    destruct (turns_steps A o v (fst (launch A p n nw h i)) q l (snd (launch A p n nw h i)) ltac:(lia) _ O (s_zero _ _ _ _ _)) as (k & K);
    exists k, (play A o v p n nw h i q l); split; [exact K|split; [apply over_joined; reflexivity|reflexivity]] end.
(** The sum of the squares of 0 .. 12 and 1000 with 2 workers, guided. *)
Example C104_case_guided : fits 13 2 1 /\ exists k s, steps Z Z.add (fun i => i * i) (fst (launch Z Guided 13 2 1 1000)) k (snd (launch Z Guided 13 2 1 1000)) s /\ joined Z s /\ res Z s = 1650.
Proof. case_ 3 (robin 26 2). Qed.
Example C104_case_dynamic : fits 7 3 2 /\ exists k s, steps Z Z.add (fun i => i * i) (fst (launch Z Dynamic 7 3 2 5)) k (snd (launch Z Dynamic 7 3 2 5)) s /\ joined Z s /\ res Z s = 96.
Proof. case_ 0 (robin 22 3). Qed.
Example C104_case_even : fits 4 3 0 /\ exists k s, steps Z Z.add (fun i => i * i) (fst (launch Z Static 4 3 0 5)) k (snd (launch Z Static 4 3 0 5)) s /\ joined Z s /\ res Z s = 19.
Proof. case_ 0 (robin 18 3). Qed.
Example C104_case_alone : fits 4 1 0 /\ exists k s, steps Z Z.add (fun i => i * i) (fst (launch Z Static 4 1 0 5)) k (snd (launch Z Static 4 1 0 5)) s /\ joined Z s /\ res Z s = 19.
Proof. case_ 0 (robin 8 1). Qed.
(** With an operation that is not commutative the order depends on the schedule: the same reduction, two results. *)
Example C104_case_order1 : fits 4 2 1 /\ exists k s, steps (list Z) (@app Z) (fun i => [i]) (fst (launch (list Z) Dynamic 4 2 1 [9])) k (snd (launch (list Z) Dynamic 4 2 1 [9])) s /\ joined (list Z) s /\ res (list Z) s = [9; 0; 1; 2; 3].
Proof. case_ 0 (repeat 0%nat 16 ++ robin 12 2). Qed.
Example C104_case_order2 : fits 4 2 1 /\ exists k s, steps (list Z) (@app Z) (fun i => [i]) (fst (launch (list Z) Dynamic 4 2 1 [9])) k (snd (launch (list Z) Dynamic 4 2 1 [9])) s /\ joined (list Z) s /\ res (list Z) s = [9; 2; 3; 0; 1].
Proof. case_ 0 (0%nat :: repeat 1%nat 16 ++ robin 12 2). Qed.
