(** Specification vocabulary for C97. *)
From Verif Require Export Ianom_Model Ibis_Spec.
Open Scope R_scope.
Section Spec.
Context {prec emax : Z} { prec_gt_0_ : Prec_gt_0 prec } { prec_lt_emax_ : Prec_lt_emax prec emax }.
Notation fl := (binary_float prec emax).
(** The library function [s] is within [d] of the real function [g] on the numbers up to 4 in size, and at most twice the argument, in absolute value, on the numbers that are not larger than the least normal one. *)
Definition accurate (s : fl -> fl) (g : R -> R) (d : R) : Prop :=
  (forall x : fl, is_finite x = true -> Rabs (B2R x) <= 4 -> is_finite (s x) = true /\ Rabs (B2R (s x) - g (B2R x)) <= d) /\
  (forall x : fl, is_finite x = true -> near_zero x -> Rabs (B2R (s x)) <= 2 * Rabs (B2R x)).
(** The constant pi. *)
Definition like_pi (pi : fl) : Prop := is_finite pi = true /\ 3 <= B2R pi <= 4.
(** Half a unit in the last place of 1. *)
Definition half_ulp : R := bpow radix2 (- prec).
End Spec.
Arguments half_ulp : clear implicits.
