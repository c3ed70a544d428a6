(** C49 (configuration files) and C50 (command line). *)
From Verif Require Import Text Conf_Model.

(** * Specification *)
(** A definition line: its text without white space is not empty and does not begin with the comment character. *)
Definition defines (commenter : ascii) (line : text) : Prop :=
  exists c r, filter (fun x => negb (isspace x)) line = c :: r /\ c <> commenter.
Definition squeezed (line : text) : text := filter (fun x => negb (isspace x)) line.
(** The definition "key divider value". *)
Definition says (divider : ascii) (line k v : text) : Prop :=
  (squeezed line = k ++ divider :: v /\ ~ In divider k) \/ (~ In divider (squeezed line) /\ k = squeezed line /\ v = squeezed line).

Lemma says_keyval d line k v : says d line k v <-> key_val d (squeezed line) = (k, v).
Proof.
  unfold says, key_val. destruct (cut d (squeezed line)) as [[a b]|] eqn:E.
  - apply cut_some in E as (E & N). split.
    + intros [(Q & M)|(M & _)]; [|exfalso; apply M; rewrite E; apply in_app_iff; right; left; auto].
      pose proof (cut_app d k v M) as C1. rewrite <- Q, E, (cut_app d a b N) in C1. congruence.
    + intros [= <- <-]. left. auto.
  - apply cut_none in E. split.
    + intros [(Q & _)|(_ & -> & ->)]; auto. exfalso. apply E. rewrite Q. apply in_app_iff. right. left. auto.
    + intros [= <- <-]. right. auto.
Qed.
Lemma says_unique d line k v k' v' : says d line k v -> says d line k' v' -> k = k' /\ v = v'.
Proof. rewrite !says_keyval. intros H G. rewrite H in G. inversion G. auto. Qed.
Lemma says_exists d line : exists k v, says d line k v.
Proof. destruct (key_val d (squeezed line)) as [k v] eqn:E. exists k, v. apply says_keyval. auto. Qed.

Lemma add_line_spec d c m raw : (defines c raw -> exists k v, says d raw k v /\ add_line d c m raw = (k, v) :: m) /\ (~ defines c raw -> add_line d c m raw = m).
Proof.
  unfold add_line, defines. change (strip raw) with (squeezed raw). fold (squeezed raw). split.
  - intros (x & r & E & N). rewrite E. destruct (Ascii.eqb_spec x c); [congruence|]. rewrite <- E. destruct (key_val d (squeezed raw)) as [k v] eqn:K.
    exists k, v. split; auto. apply says_keyval. auto.
  - intros H. destruct (squeezed raw) as [|x r] eqn:E; auto. destruct (Ascii.eqb_spec x c); auto. exfalso. apply H. exists x, r. auto.
Qed.
Lemma defines_dec c l : defines c l \/ ~ defines c l.
Proof.
  unfold defines. fold (squeezed l). destruct (squeezed l) as [|x r]; [right; intros (? & ? & E & _); discriminate|].
  destruct (ascii_dec x c) as [->|N]; [right; intros (? & ? & E & M); congruence|left; eauto].
Qed.
(** * C49 *)
(** The value found for a key is the one of the last definition line with this key; a key without definition line is
    not found. *)
Theorem C49_last_definition d c f m : config d c f = Ok m -> forall k,
  (exists v pre line post, lookup m k = Some v /\ getlines (f_text f) = pre ++ line :: post /\ defines c line /\ says d line k v /\
     forall l, In l post -> defines c l -> forall k' v', says d l k' v' -> k' <> k) \/
  (lookup m k = None /\ forall l, In l (getlines (f_text f)) -> defines c l -> forall k' v', says d l k' v' -> k' <> k).
Proof.
  unfold config. destruct (f_exists f && f_readable f && f_writable f); [|discriminate]. intros [= <-] k.
  generalize (getlines (f_text f)) as ls. intros ls. induction ls as [|l ls IH] using rev_ind.
  - right. split; [reflexivity|]. intros ? [].
  - rewrite fold_left_app. cbn [fold_left]. set (m := fold_left (add_line d c) ls []) in *.
    destruct (add_line_spec d c m l) as (Y & N). destruct (defines_dec c l) as [D|D].
    + destruct (Y D) as (k0 & v0 & S & ->). cbn [lookup]. destruct (list_eq_dec ascii_dec k0 k) as [->|NE].
      * left. exists v0, ls, l, []. split; [auto|]. split; [auto|]. split; [auto|]. split; [auto|]. intros ? [].
      * destruct IH as [(v & pre & line & post & L & E & A & B & C)|(L & C)].
        { left. exists v, pre, line, (post ++ [l]). split; auto. split; [rewrite E, <- app_assoc; auto|]. split; auto. split; auto.
          intros x Hx Dx k' v' Sx. apply in_app_iff in Hx as [Hx|[<-|[]]]; [eapply C; eauto|]. destruct (says_unique _ _ _ _ _ _ S Sx) as (<- & _). auto. }
        { right. split; auto. intros x Hx Dx k' v' Sx. apply in_app_iff in Hx as [Hx|[<-|[]]]; [eapply C; eauto|]. destruct (says_unique _ _ _ _ _ _ S Sx) as (<- & _). auto. }
    + rewrite (N D). destruct IH as [(v & pre & line & post & L & E & A & B & C)|(L & C)].
      * left. exists v, pre, line, (post ++ [l]). split; auto. split; [rewrite E, <- app_assoc; auto|]. split; auto. split; auto.
        intros x Hx Dx. apply in_app_iff in Hx as [Hx|[<-|[]]]; [eapply C; eauto|]. tauto.
      * right. split; auto. intros x Hx Dx. apply in_app_iff in Hx as [Hx|[<-|[]]]; [eapply C; eauto|]. tauto.
Qed.
(** Looking up an undefined key aborts; a defined key gives exactly its value as a string (no white space in it). *)
Theorem C49_get d c f m k : config d c f = Ok m ->
  get_string m k = match lookup m k with None => Abort | Some v => Ok v end /\
  (forall T (extract : text -> option T), lookup m k = None -> get extract m k = Abort).
Proof.
  intros H. split; [|intros T e E; unfold get; rewrite E; auto]. unfold get_string.
  destruct (C49_last_definition d c f m H k) as [(v & pre & line & post & L & _ & _ & S & _)|(L & _)]; rewrite L; auto. f_equal.
  assert (NS : forall x, In x v -> isspace x = false).
  { assert (NQ : forall x, In x (squeezed line) -> isspace x = false). { intros x Hx. apply filter_In in Hx as (_ & Hx). destruct (isspace x); auto; discriminate. }
    intros x Hx. apply NQ. destruct S as [(E & _)|(_ & _ & ->)]; auto. rewrite E. apply in_app_iff. right. right. auto. }
  unfold word. assert (SK : skip isspace v = v). { destruct v as [|x v']; auto. apply skip_none, NS. left. auto. }
  rewrite SK, take_all; auto. apply forallb_forall. intros x Hx. rewrite NS; auto.
Qed.
(** White space never matters, inside values too: two files whose lines differ only by white space configure the same. *)
Theorem C49_white_space_ignored d c f g : f_exists f = f_exists g -> f_readable f = f_readable g -> f_writable f = f_writable g ->
  map squeezed (getlines (f_text f)) = map squeezed (getlines (f_text g)) -> config d c f = config d c g.
Proof.
  intros E R W H. unfold config. rewrite E, R, W. destruct (f_exists g && f_readable g && f_writable g); auto. f_equal.
  assert (G : forall a b m, map squeezed a = map squeezed b -> fold_left (add_line d c) a m = fold_left (add_line d c) b m).
  { induction a as [|x a IH]; intros [|y b] m Q; simpl in Q; try discriminate; auto. injection Q as Q1 Q2. simpl.
    assert (add_line d c m x = add_line d c m y) as -> by (unfold add_line; change (strip x) with (squeezed x); change (strip y) with (squeezed y); rewrite Q1; auto). auto. }
  apply G. auto.
Qed.
(** Adding a comment line or a line of white space anywhere changes nothing. *)
Theorem C49_comments_ignored d c f g a l b : f_exists f = f_exists g -> f_readable f = f_readable g -> f_writable f = f_writable g ->
  getlines (f_text f) = a ++ b -> getlines (f_text g) = a ++ l :: b -> (squeezed l = [] \/ exists r, squeezed l = c :: r) -> config d c f = config d c g.
Proof.
  intros E R W Hf Hg Hl. unfold config. rewrite E, R, W, Hf, Hg. destruct (f_exists g && f_readable g && f_writable g); auto. f_equal.
  rewrite !fold_left_app. simpl. f_equal. symmetry. apply add_line_spec. intros (x & r & Q & N). fold (squeezed l) in Q.
  destruct Hl as [Hl|(r' & Hl)]; congruence.
Qed.
(** A file that may be read but not written aborts although it holds the key. *)
Theorem C49_read_only_refuted d c : exists f, f_exists f = true /\ f_readable f = true /\ f_text f <> [] /\ config d c f = Abort.
Proof. exists (mkF true true false (txt "a=1")). repeat split; discriminate. Qed.
(** A blank inside a value is lost, and a line without divider defines its own text as value. *)
Theorem C49_blanks_in_values_refuted : exists f m, f_text f = txt "name = two words" /\ config "="%char "#"%char f = Ok m /\ get_string m (txt "name") = Ok (txt "twowords").
Proof. exists (mkF true true true (txt "name = two words")). eexists. repeat split. Qed.
Theorem C49_line_without_divider : exists f m, f_text f = txt "verbose" /\ config "="%char "#"%char f = Ok m /\ get_string m (txt "verbose") = Ok (txt "verbose").
Proof. exists (mkF true true true (txt "verbose")). eexists. repeat split. Qed.
(** A key defined with an empty value and read as a number returns an uninitialised variable, for every number type
    whose extraction needs at least one character. *)
Theorem C49_empty_value_refuted {T} (extract : text -> option T) : extract [] = None ->
  exists f m, f_text f = txt "a=" /\ config "="%char "#"%char f = Ok m /\ get extract m (txt "a") = UB.
Proof. intros H. exists (mkF true true true (txt "a=")). eexists. split; [reflexivity|]. split; [reflexivity|].
  transitivity (match extract [] with Some x => Ok x | None => UB end); [reflexivity|rewrite H; reflexivity]. Qed.
Example C49_case : exists m, config "="%char "#"%char (mkF true true true (txt "# setup" ++ newline :: txt " mass = 1.5" ++ newline :: newline :: txt "n=3" ++ newline :: txt "mass=2 ")) = Ok m /\
  get_string m (txt "mass") = Ok (txt "2") /\ get_string m (txt "n") = Ok (txt "3") /\ get_string m (txt "#setup") = Abort.
Proof. eexists. repeat split. Qed.

(** * C50 *)
Definition wordlike (a : text) : Prop := a <> [] /\ forall c, In c a -> isspace c = false.
Lemma word_app a r : wordlike a -> word (a ++ blank :: r) = (a, blank :: r) /\ skip isspace (a ++ blank :: r) <> [].
Proof.
  intros (N & S). destruct a as [|x a]; [congruence|]. assert (SK : skip isspace ((x :: a) ++ blank :: r) = (x :: a) ++ blank :: r) by (apply (skip_none isspace); apply S; left; auto).
  unfold word. rewrite SK. split; [|discriminate]. apply take_app; auto. apply forallb_forall. intros c Hc. rewrite S; auto.
Qed.
Lemma skip_blank r : skip isspace (blank :: r) = skip isspace r. Proof. reflexivity. Qed.
Lemma read_words_blank r vars : read_words (blank :: r) vars = read_words r vars.
Proof. destruct vars; reflexivity. Qed.
(** Arguments that are words arrive in order, one per variable. *)
Theorem C50_assigns_in_order args vars : (forall a, In a args -> wordlike a) -> length args = length vars -> read_command_line args vars = Ok args.
Proof.
  intros W L. unfold read_command_line. rewrite L, Nat.eqb_refl. f_equal. unfold cmd_text. revert vars L.
  induction args as [|a args IH]; intros [|v vars] L; simpl in L; try discriminate; auto.
  cbn [map concat]. rewrite <- app_assoc. cbn [app]. cbn [read_words]. destruct (word_app a (concat (map (fun a0 => a0 ++ [blank]) args)) (W a ltac:(left; auto))) as (E & N).
  rewrite E. destruct (skip isspace (a ++ blank :: concat (map (fun a0 => a0 ++ [blank]) args))) eqn:Q; [congruence|]. f_equal. rewrite read_words_blank. apply IH; [|lia].
  intros x Hx. apply W. right. auto.
Qed.
Theorem C50_wrong_count_aborts args vars : length args <> length vars -> read_command_line args vars = Abort.
Proof. intros H. unfold read_command_line. destruct (Nat.eqb_spec (length args + 1) (length vars + 1)); [lia|auto]. Qed.
(** An argument containing a blank shifts the later ones, and an empty argument leaves the last variable unset. *)
Theorem C50_blank_shifts_refuted old : read_command_line [txt "run 7"; txt "12"] [old; old] = Ok [txt "run"; txt "7"].
Proof. reflexivity. Qed.
Theorem C50_empty_argument_refuted old : read_command_line [txt ""; txt "12"] [old; old] = Ok [txt "12"; old].
Proof. reflexivity. Qed.
Example C50_case : wordlike (txt "1e-3") /\ wordlike (txt "out.csv").
Proof. split; (split; [discriminate|]); intros c H; simpl in H; repeat destruct H as [<-|H]; try reflexivity; destruct H. Qed.
Print Assumptions C49_last_definition. Print Assumptions C49_get. Print Assumptions C49_white_space_ignored. Print Assumptions C49_comments_ignored.
Print Assumptions C49_read_only_refuted. Print Assumptions C49_empty_value_refuted. Print Assumptions C49_blanks_in_values_refuted.
Print Assumptions C50_assigns_in_order. Print Assumptions C50_wrong_count_aborts. Print Assumptions C50_blank_shifts_refuted.
