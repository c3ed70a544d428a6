(** Specification vocabulary for C94. *)
From Verif Require Export Islice_Model Ieee_Spec.
Section Spec.
Context {prec emax : Z} { prec_gt_0_ : Prec_gt_0 prec } { prec_lt_emax_ : Prec_lt_emax prec emax }.
Notation fl := (binary_float prec emax).
(** The k-th slot: the start plus k times the interval, by repeated addition. *)
Fixpoint slot (st int : fl) (k : nat) : fl := match k with O => st | S j => iadd (slot st int j) int end.
(** One rounding error relative to 1: half a unit in the last place. *)
Definition unit_roundoff : R := bpow radix2 (- prec).
End Spec.
Arguments unit_roundoff : clear implicits.
