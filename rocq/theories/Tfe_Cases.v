(** Concrete parallel loops: the hypotheses of C103 are met by whole executions of each kind. *)
From Coq Require Import ZArith List Bool Lia Permutation.
From Verif Require Import Tfe_Model Tfe_Spec Tfe_Proofs Tfe_Proofs2 Tfe_Proofs3 Tfe_Props.
Import ListNotations.
Open Scope Z_scope.
(** Let task number i make a step (one that is over does nothing). *)
Definition one (c : cfg) (q : Z) (i : nat) (s : st) : st :=
  match nth_error (ws s) i with
  | Some w => match at_ w with Done => s | _ =>
      let r := wstep c q w (next s) in mkS (snd (fst r)) (firstn i (ws s) ++ fst (fst r) :: skipn (S i) (ws s)) (log s ++ snd r) end
  | None => s end.
Fixpoint turns (c : cfg) (q : Z) (l : list nat) (s : st) : st := match l with [] => s | i :: l => turns c q l (one c q i s) end.
Lemma one_step c q i s : 0 <= q -> one c q i s = s \/ step c s (one c q i s).
Proof.
  intros Q. unfold one. destruct (nth_error (ws s) i) as [w|] eqn:E; auto. destruct s as [n l lg]; cbn [ws next log] in *.
  assert (SP : l = firstn i l ++ w :: skipn (S i) l).
  { rewrite <- (firstn_skipn i l) at 1. f_equal. clear -E. revert l E; induction i; intros [|x l] E; try discriminate; cbn in *; [congruence|auto]. }
  destruct (wstep c q w n) as [[w' n'] calls] eqn:R. cbn [fst snd].
  assert (G : at_ w <> Done -> step c (mkS n l lg) (mkS n' (firstn i l ++ w' :: skipn (S i) l) (lg ++ calls))).
  { intros ND. apply (go c q _ (firstn i l) w (skipn (S i) l) n lg w' n' calls); auto. rewrite <- SP; auto. }
  destruct (at_ w); auto; right; apply G; discriminate.
Qed.
Lemma turns_steps c q l s : 0 <= q -> forall s0 k0, steps c k0 s0 s -> exists k, steps c k s0 (turns c q l s).
Proof.
  intros Q. revert s. induction l as [|i l IH]; intros s s0 k0 S; [exists k0; auto|]. cbn.
  destruct (one_step c q i s Q) as [E|T]; [rewrite E; eapply IH; eauto|]. eapply IH. eapply s_more; eauto.
Qed.
(** The rest of an execution: the tasks take turns. *)
Definition robin (k m : nat) : list nat := concat (repeat (seq 0 m) k).
Definition play p it b a n nw h q l : st := turns (fst (launch p it b a n nw h)) q l (snd (launch p it b a n nw h)).
Definition over (s : st) : bool := forallb (fun w => match at_ w with Done => true | _ => false end) (ws s).
Lemma over_joined s : over s = true -> joined s.
Proof. unfold over, joined. rewrite forallb_forall. intros H w Hw. specialize (H w Hw). destruct (at_ w); congruence. Qed.
Ltac case_ q l := split; [unfold fits; lia|split; [intros I; try discriminate; split; reflexivity|]];
  match goal with |- exists k s, steps (fst (launch ?p ?it ?b ?a ?n ?nw ?h)) k _ s /\ _ =>
    destruct (turns_steps (fst (launch p it b a n nw h)) q l (snd (launch p it b a n nw h)) ltac:(lia) _ O (s_zero _ _)) as (k & K);
    exists k, (play p it b a n nw h q l); split; [exact K|split; [apply over_joined; reflexivity|reflexivity]] end.
(** for_each over 12 elements with 2 workers, all chunks of both sizes. *)
Example C103_case_guided : fits 12 2 1 /\ named true 0 1 /\ exists k s, steps (fst (launch Guided true 0 1 12 2 1)) k (snd (launch Guided true 0 1 12 2 1)) s /\ joined s
  /\ log s = [0; 1; 3; 2; 4; 5; 6; 7; 8; 9; 10; 11].
Proof. case_ 3 (robin 22 2). Qed.
(** for_each_index_dynamic downwards from 9, step -2, chunks of 2. *)
Example C103_case_dynamic : fits 5 3 2 /\ named false 9 (-2) /\ exists k s, steps (fst (launch Dynamic false 9 (-2) 5 3 2)) k (snd (launch Dynamic false 9 (-2) 5 3 2)) s /\ joined s
  /\ log s = [9; 5; 1; 7; 3].
Proof. case_ 0 (robin 9 3). Qed.
Example C103_case_range : is_range_invalid 9 0 (-2) = false /\ distance 9 0 (-2) = Some 5.
Proof. split; reflexivity. Qed.
(** for_each_static with even parts: 5 elements, 3 workers, the last task first. *)
Example C103_case_even : fits 5 3 0 /\ named true 0 1 /\ exists k s, steps (fst (launch Static true 0 1 5 3 0)) k (snd (launch Static true 0 1 5 3 0)) s /\ joined s
  /\ log s = [0; 1; 3; 2; 4].
Proof. case_ 0 (2%nat :: 2%nat :: 2%nat :: robin 6 3). Qed.
(** for_each_static chunk by chunk: 7 elements, 2 workers, chunks of 2. *)
Example C103_case_chunks : fits 7 2 2 /\ named true 0 1 /\ exists k s, steps (fst (launch Static true 0 1 7 2 2)) k (snd (launch Static true 0 1 7 2 2)) s /\ joined s
  /\ log s = [0; 2; 1; 3; 4; 6; 5].
Proof. case_ 0 (robin 12 2). Qed.
Example C103_case_index_chunks : fits 7 2 2 /\ named false 10 3 /\ exists k s, steps (fst (launch Static false 10 3 7 2 2)) k (snd (launch Static false 10 3 7 2 2)) s /\ joined s
  /\ log s = [10; 16; 13; 19; 22; 28; 25].
Proof. case_ 0 (robin 12 2). Qed.
