(** What "the operations take effect one at a time" means; no interleaving, no lock here. *)
From Verif Require Import Text CLin_Model.

(** The operation executed alone, from start to end: final stream and returned value.
    An operation that uses its own file again never returns. *)
Fixpoint alone {S R} (p : prog S R) (x : S) : option (S * R) :=
  match p with
  | Ret r => Some (x, r)
  | Act f => let (y, q) := f x in alone q y
  | Again => None
  end.

(** A history: which thread, which operation, which returned value. *)
Definition entry (S R : Type) : Type := nat * prog S R * R.

(** The history is a sequential execution from stream [x] to stream [y]: the operations one after the
    other, each alone, each returning the recorded value. *)
Fixpoint sequential {S R} (x : S) (l : list (entry S R)) (y : S) : Prop :=
  match l with
  | [] => y = x
  | (_, p, r) :: l' => exists z, alone p x = Some (z, r) /\ sequential z l' y
  end.

(** The values returned to thread [t] in a history. *)
Definition returned {S R} (t : nat) (l : list (entry S R)) : list R :=
  map snd (filter (fun e => fst (fst e) =? t) l).

(** Thread [t] called in the history the operations its client code asks for, in that order. *)
Definition follows {S R} (t : nat) (c : client S R) (l : list (entry S R)) : Prop :=
  forall a p r b, l = a ++ (t, p, r) :: b -> c (returned t a) = Some p.

(** No thread is inside an operation that has begun to use the stream. *)
Definition quiet {S R} (s : state S R) : Prop :=
  forall t p h, nth_error (threads s) t <> Some (Hold p, h).

(** The history explains the state [s]: it is sequential, every thread follows its client code in it
    and has received exactly the recorded values. *)
Definition explains {S R} (cl : list (client S R)) (x : S) (l : list (entry S R)) (s : state S R) : Prop :=
  (exists y, sequential x l y /\ (quiet s -> stream s = y)) /\
  (forall e, In e l -> fst (fst e) < length cl) /\
  (forall t c, nth_error cl t = Some c ->
     follows t c l /\ exists k, nth_error (threads s) t = Some (k, returned t l)).

(** The program never uses its own file again, whatever the stream. *)
Fixpoint closed {S R} (p : prog S R) : Prop :=
  match p with Ret _ => True | Act f => forall x, closed (snd (f x)) | Again => False end.

(** The words of a text: maximal runs of non-space characters. *)
Fixpoint words_from (w : text) (t : text) : list text :=
  match t with
  | [] => match w with [] => [] | _ => [w] end
  | c :: r => if isspace c then match w with [] => words_from [] r | _ => w :: words_from [] r end
              else words_from (w ++ [c]) r
  end.
Definition words (t : text) : list text := words_from [] t.

(** The first [n] answers that a reader of the words [ws] should get: the words in order, then
    failures for ever. *)
Fixpoint answers (ws : list text) (n : nat) : list res :=
  match n with
  | 0 => []
  | S n' => match ws with [] => RWord None :: answers [] n' | w :: ws' => RWord (Some w) :: answers ws' n' end
  end.

(** All results in the order of the history. *)
Definition results {S R} (l : list (entry S R)) : list R := map snd l.

(** Does a text end with white space? *)
Definition ends_in_space (t : text) : bool := match rev t with c :: _ => isspace c | [] => false end.
(** What eof() should say after [k] calls of [>>] on a file with content [t]: true once a call has failed, and after the
    last word if nothing follows it. *)
Definition at_end (t : text) (k : nat) : bool :=
  (length (words t) <? k) || ((length (words t) =? k) && (0 <? k) && negb (ends_in_space t)).
(** The three operations on a file open for reading, and what the [k]-th answers are when [k] calls of [>>] came before. *)
Inductive rop := Read | Eof | Flush.
Definition expected (t : text) (k : nat) (o : rop) : res :=
  match o with Read => RWord (nth_error (words t) k) | Eof => RBool (at_end t k) | Flush => RUnit end.
Fixpoint expected_all (t : text) (k : nat) (os : list rop) : list res :=
  match os with
  | [] => []
  | o :: r => expected t k o :: expected_all t (match o with Read => S k | _ => k end) r
  end.
Definition run_of (o : rop) : prog istr res := match o with Read => op_read | Eof => op_eof | Flush => op_flush end.
(** A client that calls these three operations, and the answers thread [i] gets in a history of calls. *)
Definition asks (c : list res -> option rop) : client istr res := fun h => option_map run_of (c h).
Definition answers_to (t : text) (i : nat) (order : list (nat * rop)) : list res :=
  map snd (filter (fun e => fst e =? i) (combine (map fst order) (expected_all t 0 (map snd order)))).
