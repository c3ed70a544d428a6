(** Text output and input of tuples and containers, IO.hpp:44-163.  Numbers are printed by a parameter
    [fmt] (operator<< of the arithmetic type) and read by [in_num] of Part_Model (operator>>). *)
From Verif Require Export Part_Model.

Section IO.
Context {T : Type} (fmt : T -> text).

(** What can be printed: numbers, characters and strings, non-empty std::tuple (IO.hpp:123-132), std::array,
    std::vector and llvm::SmallVector (IO.hpp:139-161), nested at will. *)
Inductive item := Num (x : T) | Str (t : text) | Tup (first : item) (rest : list item) | Arr (l : list item).
(** operator<<: IO.hpp:123-132 for a tuple ([out << arg; (..., (out << ' ' << args))]), 139-161 for the three
    containers ([os << c << ' ']). *)
Fixpoint out (v : item) : text :=
  match v with
  | Num x => fmt x
  | Str t => t
  | Tup a l => out a ++ (fix go l := match l with [] => [] | b :: r => blank :: out b ++ go r end) l
  | Arr l => (fix go l := match l with [] => [] | b :: r => out b ++ blank :: go r end) l
  end.
(** print / std_print, IO.hpp:44-48, 72-76: a left fold of <<. *)
Definition print (args : list item) : text := concat (map out args).
(** print_csv, IO.hpp:102-107. *)
Definition print_csv (arg : item) (args : list item) : text := out arg ++ concat (map (fun a => comma :: out a) args).
(** display, IO.hpp:117-120. *)
Definition display (args : list item) : text := concat (map (fun a => out a ++ [blank]) args).
(** input / std_input, IO.hpp:59-63, 85-89, and operator>> of a tuple, IO.hpp:134-138: the arguments in order.
    [olds] are the values the variables had. *)
Fixpoint input (zero : T) (numchar : ascii -> bool) (parse : text -> option T) (s : istr) (olds : list T) : istr * list T :=
  match olds with
  | [] => (s, [])
  | o :: r => let (s1, x) := in_num zero numchar parse s o in
              let (s2, xs) := input zero numchar parse s1 r in (s2, x :: xs)
  end.
End IO.
Arguments item T : clear implicits.
