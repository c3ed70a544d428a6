(** Model of /repo/src/kahan-number.hpp: compensated numbers over a binary floating-point type.
    A T value is a real in the format with [prec] digits and least exponent [emin] (binary64:
    53 and -1074, subnormals included); every operation rounds to nearest with an arbitrary
    tie-breaking rule.  Overflow, infinities and NaN are not modelled (the exponent range has no
    upper end), nor are compiler options that allow re-association. *)
From Coq Require Export ZArith Reals List.
From Flocq Require Export Core.
Export ListNotations.
Open Scope R_scope.

Section Kahan.
Variables (emin prec : Z) (choice : Z -> bool).
(** Values of the type T of kahan-number.hpp:38-43. *)
Definition fmt (x : R) : Prop := generic_format radix2 (FLT_exp emin prec) x.
(** Rounding of the operations of T, e.g. kahan-number.hpp:94-97. *)
Definition rnd (x : R) : R := round radix2 (FLT_exp emin prec) (Znearest choice) x.
(** a + b, a - b, a * b of type T, e.g. kahan-number.hpp:94-97, 128. *)
Definition fadd (a b : R) : R := rnd (a + b).
(** T - T, e.g. kahan-number.hpp:94, 97. *)
Definition fsub (a b : R) : R := rnd (a - b).
(** T * T, kahan-number.hpp:128. *)
Definition fmul (a b : R) : R := rnd (a * b).

(** Kahan<T>, 36-147. *)
Record kahan := mkKahan { k_real : R; k_err : R }.
Definition k_of (r : R) : kahan := mkKahan r 0.                      (* constructor from T, kahan-number.hpp:54, 166 *)
Definition k_add (k : kahan) (x : R) : kahan :=                      (* operator+=, 93-101 *)
  let add := fsub x (k_err k) in
  let sum := fadd (k_real k) add in
  mkKahan sum (fsub (fsub sum (k_real k)) add).
Definition k_sub (k : kahan) (x : R) : kahan :=                      (* operator-=, 106-114 *)
  let add := fsub (- x) (k_err k) in
  let sum := fadd (k_real k) add in
  mkKahan sum (fsub (fsub sum (k_real k)) add).
Definition k_mul (k : kahan) (x : R) : kahan :=                      (* operator*=, 127-130 *)
  mkKahan (fmul (k_real k) x) (k_err k).

(** Neumaier<T>, 150-259: operator+=, 205-216. *)
Definition n_add (k : kahan) (x : R) : kahan :=
  let add := fadd x (k_err k) in
  let sum := fadd (k_real k) add in
  let err := if Rlt_dec (Rabs add) (Rabs (k_real k))
             then fadd (fsub (k_real k) sum) add
             else fadd (fsub add sum) (k_real k) in
  mkKahan sum err.
Definition n_sub (k : kahan) (x : R) : kahan :=                      (* operator-=, 221-232 *)
  let add := fadd (- x) (k_err k) in
  let sum := fadd (k_real k) add in
  let err := if Rlt_dec (Rabs add) (Rabs (k_real k))
             then fadd (fsub (k_real k) sum) add
             else fadd (fsub add sum) (k_real k) in
  mkKahan sum err.

(** Klein<T>, 261-403: operator+=, 326-345. *)
Record klein := mkKlein { e_real : R; e_err : R; e_eoe : R }.
(** Klein(T), kahan-number.hpp:284. *)
Definition e_of (r : R) : klein := mkKlein r 0 0.
(** Klein operator+=, kahan-number.hpp:326-345. *)
Definition e_add (k : klein) (x : R) : klein :=
  let add := fadd (e_err k) (e_eoe k) in
  let sum := fadd x add in
  let eoe := if Rlt_dec (Rabs add) (Rabs x) then fadd (fsub x sum) add else fadd (fsub add sum) x in
  let add' := sum in
  let sum' := fadd (e_real k) add' in
  let err := if Rlt_dec (Rabs add') (Rabs (e_real k))
             then fadd (fsub (e_real k) sum') add'
             else fadd (fsub add' sum') (e_real k) in
  mkKlein sum' err eoe.
Definition e_sub (k : klein) (x : R) : klein :=                      (* operator-=, 350-369 *)
  let add := fadd (e_err k) (e_eoe k) in
  let sum := fadd (- x) add in
  let eoe := if Rlt_dec (Rabs add) (Rabs x) then fadd (fsub (- x) sum) add else fsub (fsub add sum) x in
  let add' := sum in
  let sum' := fadd (e_real k) add' in
  let err := if Rlt_dec (Rabs add') (Rabs (e_real k))
             then fadd (fsub (e_real k) sum') add'
             else fadd (fsub add' sum') (e_real k) in
  mkKlein sum' err eoe.
Definition e_read (k : klein) (r : R) : klein :=                     (* operator>>, 397-401 *)
  mkKlein r 0 (e_eoe k).
(** Adding a whole list: repeated Kahan +=, kahan-number.hpp:93-101. *)
Definition k_sum (k : kahan) (l : list R) : kahan := fold_left k_add l k.
(** Repeated Neumaier +=, kahan-number.hpp:205-216. *)
Definition n_sum (k : kahan) (l : list R) : kahan := fold_left n_add l k.
(** Repeated Klein +=, kahan-number.hpp:326-345. *)
Definition e_sum (k : klein) (l : list R) : klein := fold_left e_add l k.
End Kahan.
