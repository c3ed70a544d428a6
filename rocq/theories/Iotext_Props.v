(** C86: numbers written through tuples and containers are read back. *)
From Verif Require Import Iotext_Model Part_Props.
From Coq Require Import Ascii List.
Import ListNotations.
Open Scope list_scope.

Section C86.
Context {T : Type} (zero : T) (fmt : T -> text) (numchar : ascii -> bool) (parse : text -> option T).
Hypothesis fmt_chars : forall x, forallb numchar (fmt x) = true /\ fmt x <> [].
Hypothesis fmt_parse : forall x, parse (fmt x) = Some x.
Hypothesis no_number : parse [] = None.
Hypothesis not_comma : numchar comma = false.
Hypothesis not_space : forall c, isspace c = true -> numchar c = false.

(** The numbers of a value in reading order; a value that holds only numbers. *)
Fixpoint numbers (v : item T) : list T :=
  match v with
  | Num x => [x] | Str _ => []
  | Tup a l => numbers a ++ flat_map numbers l
  | Arr l => flat_map numbers l
  end.
Fixpoint numeric (v : item T) : Prop :=
  match v with
  | Num _ => True | Str _ => False
  | Tup a l => numeric a /\ (fix all l := match l with [] => True | b :: r => numeric b /\ all r end) l
  | Arr l => (fix all l := match l with [] => True | b :: r => numeric b /\ all r end) l
  end.

Notation rd := (input zero numchar parse).
Notation num := (in_num zero numchar parse).

Lemma input_app s o1 o2 : rd s (o1 ++ o2) = let (s1, x1) := rd s o1 in let (s2, x2) := rd s1 o2 in (s2, x1 ++ x2).
Proof.
  revert s. induction o1 as [|o r IH]; intros s; cbn [input app].
  - destruct (rd s o2). reflexivity.
  - destruct (num s o) as [s1 x]. rewrite IH. destruct (rd s1 r) as [s2 xs]. destruct (rd s2 o2). reflexivity.
Qed.
Lemma num_skip r r' o : skip isspace r = skip isspace r' -> num (IS r false) o = num (IS r' false) o.
Proof. intros E. unfold in_num. cbn [i_fail i_rest]. rewrite E. reflexivity. Qed.

(** [r] can follow a number. *)
Definition ends (r : text) : Prop := r = [] \/ exists q, r = blank :: q.
(** Reading [length xs] numbers from [t ++ r] gives [xs] and leaves [r] up to leading blanks. *)
Definition yields (t : text) (xs : list T) : Prop :=
  forall r olds, ends r -> length olds = length xs ->
    exists r', rd (IS (t ++ r) false) olds = (IS r' false, xs) /\ skip isspace r' = skip isspace r /\ (xs = [] -> r' = t ++ r) /\ (xs <> [] -> ends r').

Lemma yields_skip t xs r r0 olds : yields t xs -> ends r -> xs <> [] -> skip isspace r0 = skip isspace (t ++ r) -> length olds = length xs ->
  exists r', rd (IS r0 false) olds = (IS r' false, xs) /\ skip isspace r' = skip isspace r /\ ends r'.
Proof.
  intros Y E N S L. destruct (Y r olds E L) as (r' & R & S' & _ & E'). exists r'. split; [|split; auto].
  destruct olds as [|o os]; [destruct xs; [congruence|discriminate]|].
  rewrite <- R. cbn [input]. rewrite (num_skip r0 (t ++ r) o S). reflexivity.
Qed.

Lemma yields_num x : yields (fmt x) [x].
Proof.
  intros r olds E L. destruct olds as [|o [|? ?]]; try discriminate. cbn [input].
  exists r. split; [|split; [reflexivity|split; [discriminate|auto]]].
  destruct E as [->|(q & ->)].
  - rewrite app_nil_r. rewrite (in_num_last zero fmt numchar parse); auto.
  - rewrite (in_num_fmt zero fmt numchar parse); auto.
Qed.
Lemma blank_space : isspace blank = true. Proof. reflexivity. Qed.
Lemma skip_blank r : skip isspace (blank :: r) = skip isspace r. Proof. reflexivity. Qed.

Lemma yields_seq t1 xs1 t2 xs2 : yields t1 xs1 -> yields t2 xs2 -> (xs1 = [] -> skip isspace (t1 ++ [blank]) = []) -> (forall r, xs2 = [] -> skip isspace (t2 ++ r) = skip isspace r) ->
  (forall r, xs1 = [] -> skip isspace (t1 ++ r) = skip isspace r) ->
  yields (t1 ++ blank :: t2) (xs1 ++ xs2).
Proof.
  intros Y1 Y2 _ Z2 Z1 r olds E L. rewrite app_length in L.
  set (o1 := firstn (length xs1) olds). set (o2 := skipn (length xs1) olds).
  assert (L1 : length o1 = length xs1) by (unfold o1; apply firstn_length_le; lia).
  assert (L2 : length o2 = length xs2) by (unfold o2; rewrite skipn_length; lia).
  assert (EO : olds = o1 ++ o2) by (symmetry; apply firstn_skipn).
  rewrite EO, input_app. rewrite <- app_assoc. cbn [app].
  destruct (Y1 (blank :: t2 ++ r) o1) as (r1 & R1 & S1 & N1 & E1); [right; eauto|exact L1|].
  rewrite R1. rewrite skip_blank in S1.
  destruct xs2 as [|x2 xs2'].
  - destruct o2; [|discriminate]. cbn [input]. exists r1. rewrite !app_nil_r. split; [reflexivity|]. split.
    + rewrite S1. apply Z2; auto.
    + split; [exact N1|exact E1].
  - destruct (yields_skip t2 (x2 :: xs2') r r1 o2 Y2 E ltac:(discriminate) S1 L2) as (r2 & R2 & S2 & E2).
    rewrite R2. exists r2. split; [reflexivity|]. split; [exact S2|]. split; [|auto].
    intros B. destruct xs1; discriminate.
Qed.

Section ItemInd.
  Variable P : item T -> Prop.
  Hypothesis Hn : forall x, P (Num x).
  Hypothesis Hs : forall t, P (Str t).
  Hypothesis Ht : forall a l, P a -> Forall P l -> P (Tup a l).
  Hypothesis Ha : forall l, Forall P l -> P (Arr l).
  Fixpoint item_full (v : item T) : P v :=
    match v with
    | Num x => Hn x | Str t => Hs t
    | Tup a l => Ht a l (item_full a) ((fix go l := match l return Forall P l with [] => Forall_nil _ | b :: r => Forall_cons _ (item_full b) (go r) end) l)
    | Arr l => Ha l ((fix go l := match l return Forall P l with [] => Forall_nil _ | b :: r => Forall_cons _ (item_full b) (go r) end) l)
    end.
End ItemInd.

Definition good (v : item T) : Prop := numeric v -> yields (out fmt v) (numbers v) /\ (forall r, numbers v = [] -> skip isspace (out fmt v ++ r) = skip isspace r).

Definition tail_out (l : list (item T)) : text := concat (map (fun b => blank :: out fmt b) l).
Lemma out_tup a l : out fmt (Tup a l) = out fmt a ++ tail_out l.
Proof. cbn [out]. f_equal. unfold tail_out. induction l as [|b r IH]; cbn [map concat app]; [reflexivity|]. f_equal. f_equal. exact IH. Qed.
Lemma out_arr l : out fmt (Arr l) = display fmt l.
Proof.
  cbn [out]. unfold display. induction l as [|b r IH]; cbn [map concat app]; [reflexivity|].
  rewrite IH, <- app_assoc. reflexivity.
Qed.
Lemma numeric_all (l : list (item T)) : (fix all l := match l with [] => True | b :: r => numeric b /\ all r end) l <-> Forall numeric l.
Proof. induction l as [|b r IH]; split; intros H; auto; [destruct H; constructor; tauto|inversion H; subst; tauto]. Qed.

Lemma yields_nil : yields [] [].
Proof. intros r olds E L. destruct olds; [|discriminate]. exists r. cbn. repeat split; auto. Qed.

(** A value followed by a tail of values each preceded by a blank. *)
Lemma good_tail l : Forall good l -> Forall numeric l -> forall t xs, yields t xs -> (forall r, xs = [] -> skip isspace (t ++ r) = skip isspace r) ->
  yields (t ++ tail_out l) (xs ++ flat_map numbers l) /\
  (forall r, xs ++ flat_map numbers l = [] -> skip isspace ((t ++ tail_out l) ++ r) = skip isspace r).
Proof.
  intros G N. induction l as [|b l IH]; intros t xs Y Z.
  - cbn. rewrite !app_nil_r. auto.
  - inversion G as [|? ? Gb Gl]; subst. inversion N as [|? ? Nb Nl]; subst. destruct (Gb Nb) as [Yb Zb].
    replace (t ++ tail_out (b :: l)) with ((t ++ blank :: out fmt b) ++ tail_out l).
    2:{ unfold tail_out. cbn [map concat]. rewrite <- app_assoc. reflexivity. }
    cbn [flat_map]. rewrite app_assoc. apply IH; auto.
    + apply yields_seq; auto. intros E. rewrite Z by auto. reflexivity.
    + intros r E. apply app_eq_nil in E. destruct E as [E1 E2]. rewrite <- app_assoc. cbn [app]. rewrite Z by auto.
      rewrite skip_blank. apply Zb; auto.
Qed.
Lemma good_display l : Forall good l -> Forall numeric l ->
  yields (display fmt l) (flat_map numbers l) /\ (forall r, flat_map numbers l = [] -> skip isspace (display fmt l ++ r) = skip isspace r).
Proof.
  intros G N. destruct l as [|a l].
  - cbn. split; [apply yields_nil|auto].
  - inversion G as [|? ? Ga Gl]; subst. inversion N as [|? ? Na Nl]; subst. destruct (Ga Na) as [Ya Za].
    assert (E : display fmt (a :: l) = (out fmt a ++ tail_out l) ++ [blank]).
    { unfold display, tail_out. cbn [map concat]. clear. revert a. induction l as [|b l IH]; intros a; cbn [map concat].
      - rewrite !app_nil_r. reflexivity.
      - rewrite IH. rewrite <- !app_assoc. reflexivity. }
    destruct (good_tail l Gl Nl (out fmt a) (numbers a) Ya Za) as [Y Z]. rewrite E. cbn [flat_map]. split.
    + replace (numbers a ++ flat_map numbers l) with ((numbers a ++ flat_map numbers l) ++ []) by apply app_nil_r.
      apply yields_seq; auto using yields_nil. intros E0. rewrite Z by auto. reflexivity.
    + intros r E0. rewrite <- app_assoc. cbn [app]. rewrite Z by auto. reflexivity.
Qed.
Lemma all_good v : good v.
Proof.
  induction v as [x|t|a l Ga Gl|l Gl] using item_full; intros N.
  - split; [apply yields_num|discriminate].
  - destruct N.
  - cbn [numeric] in N. destruct N as [Na Nl]. apply numeric_all in Nl. destruct (Ga Na) as [Ya Za].
    rewrite out_tup. cbn [numbers]. apply good_tail; auto.
  - cbn [numeric] in N. apply numeric_all in N. rewrite out_arr. cbn [numbers]. apply good_display; auto.
Qed.
Lemma all_goods l : Forall good l.
Proof. apply Forall_forall. intros; apply all_good. Qed.

(** A tuple or container of numbers, nested in any way, is read back number by number from its text, by as
    many variables as it has numbers, whatever they held. *)
Theorem C86_round_trip v olds : numeric v -> length olds = length (numbers v) ->
  exists r, rd (IS (out fmt v) false) olds = (IS r false, numbers v) /\ skip isspace r = [].
Proof.
  intros N L. destruct (all_good v N) as [Y _]. destruct (Y [] olds (or_introl eq_refl) L) as (r & R & S & _).
  rewrite app_nil_r in R. exists r. auto.
Qed.
(** The same for several arguments of display. *)
Theorem C86_display_round_trip args olds : Forall numeric args -> length olds = length (flat_map numbers args) ->
  exists r, rd (IS (display fmt args) false) olds = (IS r false, flat_map numbers args) /\ skip isspace r = [].
Proof.
  intros N L. destruct (good_display args (all_goods args) N) as [Y _]. destruct (Y [] olds (or_introl eq_refl) L) as (r & R & S & _).
  rewrite app_nil_r in R. exists r. auto.
Qed.
(** One variable more than there are numbers: the reading fails and that variable keeps its value. *)
Theorem C86_one_too_many v olds o : numeric v -> length olds = length (numbers v) ->
  exists s, rd (IS (out fmt v) false) (olds ++ [o]) = (s, numbers v ++ [o]) /\ i_fail s = true.
Proof.
  intros N L. destruct (C86_round_trip v olds N L) as (r & R & S). rewrite input_app, R. cbn [input].
  unfold in_num. cbn [i_fail i_rest]. rewrite S. eexists. split; reflexivity.
Qed.
(** print_csv of numbers is a row: cutting it at the commas gives back the printed numbers. *)
Theorem C86_csv_columns x xs : split_on comma (print_csv fmt (Num x) (map Num xs)) = fmt x :: map fmt xs.
Proof.
  assert (NC : forall y, ~ In comma (fmt y)).
  { intros y I. destruct (fmt_chars y) as [F _]. rewrite forallb_forall in F. specialize (F _ I). congruence. }
  unfold print_csv. revert x. induction xs as [|y xs IH]; intros x; cbn [map concat out].
  - rewrite app_nil_r. apply split_on_none. apply NC.
  - cbn [app]. rewrite split_on_app by apply NC. f_equal. rewrite <- IH. reflexivity.
Qed.
(** print puts nothing between its arguments: two numbers are read back as one (or not at all). *)
Theorem C86_print_round_trip_refuted x y o1 o2 :
  snd (rd (IS (print fmt [Num x; Num y]) false) [o1; o2]) =
    match parse (fmt x ++ fmt y) with Some v => [v; o2] | None => [zero; o2] end /\
  i_fail (fst (rd (IS (print fmt [Num x; Num y]) false) [o1; o2])) = true.
Proof.
  destruct (fmt_chars x) as [Fx Nx], (fmt_chars y) as [Fy Ny].
  unfold print. cbn [map concat out input]. rewrite app_nil_r. unfold in_num at 1 3. cbn [i_fail i_rest].
  assert (S : skip isspace (fmt x ++ fmt y) = fmt x ++ fmt y) by (apply (skip_fmt fmt numchar fmt_chars not_space)).
  rewrite S. destruct (fmt x ++ fmt y) eqn:E; [apply app_eq_nil in E; tauto|]. rewrite <- E.
  rewrite take_all by (rewrite forallb_app, Fx, Fy; reflexivity).
  destruct (parse (fmt x ++ fmt y)); cbn; auto.
Qed.
End C86.

(** Unary numbers: a tuple holding a vector, an empty vector and a nested tuple. *)
Example C86_case :
  let v := Tup (Arr [Num 1; Num 2]) [Arr []; Tup (Num 0) [Num 3]] in
  numeric v /\ numbers v = [1; 2; 0; 3] /\ out ufmt v = txt "11 111   1 1111"%string /\
  input 0 unumchar uparse (IS (out ufmt v) false) [9; 9; 9; 9] = (IS [] false, [1; 2; 0; 3]).
Proof. cbn. intuition. Qed.
Print Assumptions C86_round_trip.
Print Assumptions C86_print_round_trip_refuted.
