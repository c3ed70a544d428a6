(** Specification vocabulary for C95. *)
From Verif Require Export Ikah_Model Ieee_Spec Kahan_Model.
Section Spec.
Context {prec emax : Z} { prec_gt_0_ : Prec_gt_0 prec } { prec_lt_emax_ : Prec_lt_emax prec emax }.
Notation fl := (binary_float prec emax).
(** The three types and the two assignment operators. *)
Inductive ctype := TKahan | TNeumaier | TKlein.
Inductive csign := Plus | Minus.
(** The statement l += r or l -= r of numbers of one type. *)
Definition assign (c : ctype) (g : csign) : nat -> nat -> heap prec emax -> heap prec emax :=
  match c, g with
  | TKahan, Plus => k_plus | TKahan, Minus => k_minus | TNeumaier, Plus => n_plus | TNeumaier, Minus => n_minus | TKlein, Plus => e_plus | TKlein, Minus => e_minus
  end.
(** A history of such statements. *)
Fixpoint statements (c : ctype) (os : list (csign * nat * nat)) (h : heap prec emax) : heap prec emax :=
  match os with [] => h | (g, l, r) :: os' => statements c os' (assign c g l r h) end.
(** l += r for each r of a list, in order. *)
Definition sum_into (c : ctype) (l : nat) (rs : list nat) (h : heap prec emax) : heap prec emax := statements c (map (fun r => (Plus, l, r)) rs) h.
(** The real numbers of the members, as the numbers of Kahan_Model. *)
Definition pair_of (k : knum prec emax) : kahan := mkKahan (B2R (kr k)) (B2R (ke k)).
Definition triple_of (k : knum prec emax) : klein := mkKlein (B2R (kr k)) (B2R (ke k)) (B2R (ko k)).
(** The sign of the operand. *)
Definition signed (g : csign) (x : R) : R := match g with Plus => x | Minus => - x end.
Definition finite_num (k : knum prec emax) : Prop := is_finite (kr k) = true /\ is_finite (ke k) = true /\ is_finite (ko k) = true.
End Spec.
