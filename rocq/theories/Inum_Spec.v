(** Specification for C99. *)
From Verif Require Export Inum_Model Ieee_Spec.
Open Scope R_scope.
Section Spec.
Context {prec emax : Z} { prec_gt_0_ : Prec_gt_0 prec } { prec_lt_emax_ : Prec_lt_emax prec emax }.
Notation fl := (binary_float prec emax).
(** What is asked of pow, for exponents that are zero or positive numbers: NaN goes through unless the exponent is zero, pow(x, 0) = 1, pow(0, y) = 0,
    and bases in [0, 1] give results in [0, 1], bases above 1 give results above 1. *)
Definition proper (y : fl) : Prop := is_finite y = true /\ 0 <= B2R y.
Record tame (pw : fl -> fl -> fl) : Prop := {
  pw_nan : forall y, proper y -> 0 < B2R y -> pw B754_nan y = B754_nan;
  pw_one : forall x y, proper y -> B2R y = 0 -> pw x y = ione;
  pw_zero : forall s y, proper y -> 0 < B2R y -> is_finite (pw (B754_zero s) y) = true /\ B2R (pw (B754_zero s) y) = 0;
  pw_low : forall x y, leq izero x -> leq x ione -> proper y -> leq izero (pw x y) /\ leq (pw x y) ione;
  pw_high : forall x y, leq ione x -> proper y -> leq ione (pw x y) }.
Definition grows (pw : fl -> fl -> fl) : Prop := forall x x' y, leq izero x -> leq x x' -> proper y -> leq (pw x y) (pw x' y).
(** Safe guards like the defaults 0.65, 0.95, 0.02, 4. *)
Definition guards (s1 s2 s3 s4 : fl) : Prop := is_finite s1 = true /\ is_finite s2 = true /\ is_finite s3 = true /\ is_finite s4 = true /\ 0 < B2R s1 <= 1 /\ 0 < B2R s2 <= 1 /\ 0 < B2R s3 <= 1 /\ 1 <= B2R s4.
End Spec.
