(** Texts as lists of characters, and the C++ library functions on texts that the models below use.
    No definition in this file models SpaceHub code by itself. *)
From Verif Require Export Base.
From Coq Require Export Ascii String.
From Coq Require Export List.
Open Scope list_scope.
Open Scope nat_scope.
Notation text := (list ascii).
Definition txt (s : string) : text := list_ascii_of_string s.
(** ',' ... *)
Definition comma : ascii := ","%char.
Definition newline : ascii := "010"%char.
Definition blank : ascii := " "%char.
(** isspace in the C locale: space, \t \n \v \f \r. *)
Definition isspace (c : ascii) : bool := let n := nat_of_ascii c in (n =? 32) || ((9 <=? n) && (n <=? 13)).
(** The pieces of a text between the occurrences of a character (never an empty list of pieces). *)
Fixpoint split_on (c : ascii) (t : text) : list text :=
  match t with
  | [] => [[]]
  | x :: r => if Ascii.eqb x c then [] :: split_on c r
              else match split_on c r with [] => [[x]] | p :: ps => (x :: p) :: ps end
  end.
(** std::getline until it fails: pieces ended by a newline; a last piece without newline counts unless it is empty. *)
Fixpoint getlines (t : text) : list text :=
  match t with
  | [] => []
  | x :: r => if Ascii.eqb x newline then [] :: getlines r
              else match r with
                   | [] => [[x]]
                   | _ => match getlines r with [] => [[x]] | p :: ps => (x :: p) :: ps end
                   end
  end.
(** First occurrence of a character: the texts before and after it. *)
Fixpoint cut (c : ascii) (t : text) : option (text * text) :=
  match t with
  | [] => None
  | x :: r => if Ascii.eqb x c then Some ([], r) else match cut c r with Some (a, b) => Some (x :: a, b) | None => None end
  end.
Fixpoint skip (f : ascii -> bool) (t : text) : text := match t with [] => [] | x :: r => if f x then skip f r else t end.
(** Longest prefix of characters satisfying f, and the rest. *)
Fixpoint take (f : ascii -> bool) (t : text) : text * text :=
  match t with
  | [] => ([], [])
  | x :: r => if f x then let (a, b) := take f r in (x :: a, b) else ([], t)
  end.

Lemma split_on_app c a b : ~ In c a -> split_on c (a ++ c :: b) = a :: split_on c b.
Proof.
  induction a as [|x a IH]; intros H; simpl.
  - rewrite Ascii.eqb_refl. auto.
  - destruct (Ascii.eqb_spec x c) as [->|N]; [exfalso; apply H; left; auto|]. rewrite IH; auto. intros Q. apply H. right. auto.
Qed.
Lemma split_on_none c a : ~ In c a -> split_on c a = [a].
Proof.
  induction a as [|x a IH]; intros H; simpl; auto.
  destruct (Ascii.eqb_spec x c) as [->|N]; [exfalso; apply H; left; auto|]. rewrite IH; auto. intros Q. apply H. right. auto.
Qed.
Lemma getlines_app a b : ~ In newline a -> getlines (a ++ newline :: b) = a :: getlines b.
Proof.
  induction a as [|x a IH]; intros H.
  - reflexivity.
  - cbn [app getlines]. destruct (Ascii.eqb_spec x newline) as [->|N]; [exfalso; apply H; left; auto|].
    rewrite IH by (intros Q; apply H; right; auto). destruct (a ++ newline :: b) eqn:E; auto. destruct a; discriminate.
Qed.
Lemma getlines_last a : ~ In newline a -> a <> [] -> getlines a = [a].
Proof.
  induction a as [|x a IH]; intros H NE; [congruence|]. cbn [getlines].
  destruct (Ascii.eqb_spec x newline) as [->|N]; [exfalso; apply H; left; auto|]. destruct a as [|y a]; auto.
  rewrite IH; auto; [|discriminate]. intros Q. apply H. right. auto.
Qed.
Lemma cut_app c a b : ~ In c a -> cut c (a ++ c :: b) = Some (a, b).
Proof.
  induction a as [|x a IH]; intros H; simpl; [rewrite Ascii.eqb_refl; auto|].
  destruct (Ascii.eqb_spec x c) as [->|N]; [exfalso; apply H; left; auto|]. rewrite IH; auto. intros Q. apply H. right. auto.
Qed.
Lemma cut_some c t a b : cut c t = Some (a, b) -> t = a ++ c :: b /\ ~ In c a.
Proof.
  revert a b. induction t as [|x t IH]; simpl; intros a b H; [discriminate|].
  destruct (Ascii.eqb_spec x c) as [->|N].
  - injection H as <- <-. split; auto.
  - destruct (cut c t) as [[a' b']|] eqn:E; [|discriminate]. injection H as <- <-. destruct (IH _ _ eq_refl) as (-> & Q).
    split; auto. intros [R|R]; auto.
Qed.
Lemma cut_none c t : cut c t = None <-> ~ In c t.
Proof.
  induction t as [|x t IH]; simpl; [tauto|]. destruct (Ascii.eqb_spec x c) as [->|N].
  - split; [discriminate|]. tauto.
  - destruct (cut c t) as [[a b]|]; split; try discriminate; try tauto. intros H. exfalso. apply H. right.
    destruct (in_dec ascii_dec c t); auto. exfalso. apply IH in n. discriminate.
Qed.
Lemma take_spec f t a b : take f t = (a, b) -> t = a ++ b /\ forallb f a = true /\ match b with [] => True | x :: _ => f x = false end.
Proof.
  revert a b. induction t as [|x t IH]; simpl; intros a b H; [injection H as <- <-; auto|].
  destruct (f x) eqn:E.
  - destruct (take f t) as [a' b'] eqn:T. injection H as <- <-. destruct (IH _ _ eq_refl) as (-> & F & G). simpl. rewrite E, F. auto.
  - injection H as <- <-. auto.
Qed.
Lemma take_app f a x b : forallb f a = true -> f x = false -> take f (a ++ x :: b) = (a, x :: b).
Proof.
  induction a as [|y a IH]; simpl; intros F G; [rewrite G; auto|]. apply andb_prop in F as (F1 & F2). rewrite F1, IH; auto.
Qed.
Lemma take_all f a : forallb f a = true -> take f a = (a, []).
Proof. induction a as [|y a IH]; simpl; intros F; auto. apply andb_prop in F as (F1 & F2). rewrite F1, IH; auto. Qed.
Lemma skip_none f x a : f x = false -> skip f (x :: a) = x :: a.
Proof. simpl. intros ->. auto. Qed.
