(** Specification vocabulary for vectors of IEEE 754 numbers. *)
From Verif Require Export Ieee_Model Kahan_Model Vec.
Open Scope R_scope.

Section Spec.
Context {prec emax : Z} { prec_gt_0_ : Prec_gt_0 prec } { prec_lt_emax_ : Prec_lt_emax prec emax }.
Notation fl := (binary_float prec emax).
(** The component of a vector, by name. *)
Definition at_ (c : icomp) (v : ivec prec emax) : fl := match c with CX => ix v | CY => iy v | CZ => iz v end.
(** Rounding to nearest, ties to even, with the least exponent of the format (gradual underflow) and no largest one: [rnd] of Kahan_Model. *)
Definition least : Z := (3 - emax - prec)%Z.
Definition even_choice : Z -> bool := fun x => negb (Z.even x).
Definition rne (x : R) : R := rnd least prec even_choice x.
(** The result of an operation whose exact result is [x]: the nearest number of the format, and beyond the largest number an infinity of the right sign. *)
Definition correctly_rounded (x : R) (r : fl) : Prop :=
  (Rabs (rne x) < bpow radix2 emax -> is_finite r = true /\ B2R r = rne x) /\
  (bpow radix2 emax <= Rabs (rne x) -> (0 < x -> r = B754_infinity false) /\ (x < 0 -> r = B754_infinity true)).
(** Bit for bit the same, or zeros of either sign. *)
Definition same (a b : fl) : Prop := a = b \/ exists s t, a = B754_zero s /\ b = B754_zero t.
Definition is_inf (a : fl) : bool := match a with B754_infinity _ => true | _ => false end.
(** x == y, what a user of the components writes; NaN differs from itself, the two zeros are equal. *)
Definition ieq (a b : fl) : bool := match Bcompare a b with Some Eq => true | _ => false end.
(** a <= b as C++ has it: false if one of them is NaN. *)
Definition leq (a b : fl) : Prop := ilt a b = true \/ ieq a b = true.
Definition all_finite (v : ivec prec emax) : Prop := forall c, is_finite (at_ c v) = true.
Definition some_nan (v : ivec prec emax) : Prop := exists c, is_nan (at_ c v) = true.
Definition some_inf (v : ivec prec emax) : Prop := exists c, is_inf (at_ c v) = true.
(** The real vector of the three values. *)
Definition real (v : ivec prec emax) : vec := mkV (B2R (ix v)) (B2R (iy v)) (B2R (iz v)).
End Spec.
Arguments rne : clear implicits. Arguments least : clear implicits.
