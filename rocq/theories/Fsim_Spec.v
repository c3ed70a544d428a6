(** Specification vocabulary for the floating-point main loop. *)
From Verif Require Export Fsim_Model.
Open Scope R_scope.

(** Sum, and sum of magnitudes, of the drift coefficients of an integrator; their number. *)
Definition total (l : list R) : R := fold_right Rplus 0 l.
Definition weight (l : list R) : R := fold_right (fun a s => Rabs a + s) 0 l.
(** Half the distance between 1 and the next number: 2^-prec. *)
Definition unit_roundoff (prec : Z) : R := bpow radix2 (- prec).
(** The step constants can be used without underflow: [h] is the shortest step. *)
Definition no_underflow (emin prec : Z) (l : list R) (h : R) : Prop :=
  forall a, In a l -> bpow radix2 (emin + prec - 1) <= Rabs a /\ bpow radix2 (emin + prec) <= Rabs a * h.
(** Bounds for the error of one step of the clock: [u] unit round-off, [k] drifts of total magnitude [s] whose sum differs from 1 by at most [kap],
    end time [e], step [h].  First the plain clock: its error is a few roundings of numbers of size [e]. *)
Definition plain_error (u : R) (k : nat) (s kap e h : R) : R := ((1 + u) ^ (k + 2) - 1) * ((1 + 2 * s) * e) + kap * h.
(** The compensated clock: its compensation stays within [comp_gap], and one step loses a few roundings of the step and of the compensation. *)
Definition comp_gap (u s e h : R) : R := 54 * u * (e + 3 * s * h).
Definition comp_error (u : R) (k : nat) (s kap e h : R) : R := 7 * u * (3 * s * h + INR k * comp_gap u s e h) + (3 * u * s + kap) * h.
(** The run has ended: the loop condition is false at the last clock reading and the clock is within the tolerance of the end time, as far as rounding allows. *)
Definition ended (emin prec : Z) (choice : Z -> bool) (e tol t : R) : Prop :=
  ffar emin prec choice t e tol = false /\ (1 - unit_roundoff prec) * (1 - unit_roundoff prec) * Rabs (t - e) <= tol * e.
