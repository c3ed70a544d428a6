(** Specification vocabulary for C96. *)
From Verif Require Export Ibis_Model Ieee_Spec Kahan_Model.
Open Scope R_scope.
Section Spec.
Context {prec emax : Z} { prec_gt_0_ : Prec_gt_0 prec } { prec_lt_emax_ : Prec_lt_emax prec emax }.
Notation fl := (binary_float prec emax).
(** Strictly positive and strictly negative values, infinities included; NaN is neither. *)
Definition positive (a : fl) : Prop := igt a izero = true.
Definition negative (a : fl) : Prop := ilt a izero = true.
Definition same_sign (a b : fl) : Prop := (positive a /\ positive b) \/ (negative a /\ negative b).
(** Products of two such values do not underflow: a value that is not zero is at least 2^k in size, with 2^(2k) in the format. *)
Definition sizeable (k : Z) (a : fl) : Prop := is_finite a = true -> B2R a <> 0 -> bpow radix2 k <= Rabs (B2R a).
(** Between the two ends, in either order. *)
Definition within_ends (low high x : fl) : Prop := is_finite x = true /\ Rmin (B2R low) (B2R high) <= B2R x <= Rmax (B2R low) (B2R high).
(** The least positive normal number. *)
Definition least_normal : R := bpow radix2 (least prec emax + prec - 1).
(** Below the least normal number in absolute value, or equal to it. *)
Definition near_zero (a : fl) : Prop := Rabs (B2R a) <= least_normal.
(** Ends that a call may start with: finite and at most a quarter of the range. *)
Definition good_end (a : fl) : Prop := is_finite a = true /\ Rabs (B2R a) <= bpow radix2 (emax - 2).
(** The call returns. *)
Definition ends (f : fl -> fl) (low high : fl) : Prop := exists n r, b_returns f low high n r.
(** A callable with a sign change at zero: 1 on positive numbers, -1 elsewhere. *)
Definition sign_at_zero (x : fl) : fl := if igt x izero then ione else ineg ione.
(** The iteration x -> x - f(x) from 0, and a step of it that moves by at most epsilon. *)
Fixpoint iterate (f : fl -> fl) (n : nat) : fl := match n with O => izero | S k => isub (iterate f k) (f (iterate f k)) end.
Definition settled (f : fl -> fl) (n : nat) : Prop := leq (iabs (isub (iterate f (S n)) (iterate f n))) ieps.
End Spec.
Arguments least_normal : clear implicits.
