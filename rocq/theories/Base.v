(** Shared vocabulary of the model: outcomes and list helpers.
    No definition in this file models SpaceHub code by itself. *)
From Coq Require Export List Arith Lia Bool.
Export ListNotations.

(** Outcome of a C++ computation.
    [Ok]    normal return;
    [Abort] the program called [spacehub_abort] (dev-tools.hpp), i.e. printed a
            message and called [exit];
    [UB]    undefined behaviour (index out of bounds, integer division by zero, ...). *)
Inductive outcome (A : Type) : Type :=
| Ok (a : A)
| Abort
| UB.
Arguments Ok {A} a.
Arguments Abort {A}.
Arguments UB {A}.

Definition obind {A B} (x : outcome A) (f : A -> outcome B) : outcome B :=
  match x with Ok a => f a | Abort => Abort | UB => UB end.

(** Array read [a[i]]: out of bounds is [UB]. *)
Definition aget {A} (a : list A) (i : nat) : outcome A :=
  match nth_error a i with Some x => Ok x | None => UB end.

(** [list_set l i x]: the list [l] with position [i] replaced (unchanged when out of
    bounds; models that write through it always check the bound first). *)
Fixpoint list_set {A} (l : list A) (i : nat) (x : A) : list A :=
  match l, i with
  | [], _ => []
  | _ :: t, 0 => x :: t
  | h :: t, S i' => h :: list_set t i' x
  end.

Lemma list_set_length {A} (l : list A) i x : length (list_set l i x) = length l.
Proof. revert i; induction l as [|h t IH]; intros [|i]; simpl; auto. Qed.

Lemma nth_error_list_set_eq {A} (l : list A) i x :
  i < length l -> nth_error (list_set l i x) i = Some x.
Proof.
  revert i; induction l as [|h t IH]; intros [|i] H; simpl in *; try lia; auto.
  apply IH; lia.
Qed.

Lemma nth_error_list_set_neq {A} (l : list A) i j x :
  i <> j -> nth_error (list_set l i x) j = nth_error l j.
Proof.
  revert i j; induction l as [|h t IH]; intros [|i] [|j] H; simpl; auto; try congruence.
Qed.

Lemma nth_error_list_set {A} (l : list A) i j x y :
  nth_error l i = Some y ->
  nth_error (list_set l i x) j = if Nat.eqb i j then Some x else nth_error l j.
Proof.
  intros H. destruct (Nat.eqb_spec i j) as [->|Hn].
  - apply nth_error_list_set_eq. apply nth_error_Some. congruence.
  - apply nth_error_list_set_neq; auto.
Qed.

Lemma nth_list_set_eq {A} (l : list A) i x d :
  i < length l -> nth i (list_set l i x) d = x.
Proof.
  revert i; induction l as [|h t IH]; intros [|i] H; simpl in *; try lia; auto.
  apply IH; lia.
Qed.

Lemma nth_list_set_neq {A} (l : list A) i j x d :
  i <> j -> nth j (list_set l i x) d = nth j l d.
Proof.
  revert i j; induction l as [|h t IH]; intros [|i] [|j] H; simpl; auto; try congruence.
Qed.

Lemma in_list_set {A} (l : list A) i x y : In y (list_set l i x) -> y = x \/ In y l.
Proof.
  revert i; induction l as [|h t IH]; intros [|i]; simpl; intros H; auto.
  - destruct H; auto.
  - destruct H as [H|H]; auto. apply IH in H. tauto.
Qed.
