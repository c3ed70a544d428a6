(** The main loop of a fixed-step simulation in floating-point arithmetic.
    Scalars are numbers of a binary format (Kahan_Model: [prec] digits, least exponent [emin], round to nearest with any tie rule, no overflow);
    every operation of the loop and of the clock rounds.  Callbacks and further stop conditions are left out (Sim_Model has them, on exact numbers). *)
From Verif Require Export Kahan_Model System_Model.
Open Scope R_scope.

Section Fsim.
Variables (emin prec : Z) (choice : Z -> bool).
Notation rnd := (rnd emin prec choice).
Notation fadd := (fadd emin prec choice).
Notation fsub := (fsub emin prec choice).
Notation fmul := (fmul emin prec choice).
(** T / T, simulator.hpp:411. *)
Definition fdiv (a b : R) : R := rnd (a / b).

(** The clock: time_ of point-particles.hpp:171 has type StateScalar (type-class.hpp:62), a double or a compensated number;
    [now] is its conversion to Scalar (kahan-number.hpp:73-78), [add] is += (base-system.hpp:279). *)
Record clock (C : Type) := mkClock { now : C -> R; add : C -> R -> C }.
Arguments now {C}. Arguments add {C}.
(** StateScalar = double, type-class.hpp:62. *)
Definition plain : clock R := mkClock R (fun t => t) fadd.
(** StateScalar = Kahan<double>, kahan-number.hpp:93-101. *)
Definition compensated : clock kahan := mkClock kahan k_real (k_add emin prec choice).
(** The drifts of one step, symplectic-integrator.hpp:200-363: the coefficient literals. *)
Definition drifts (ops : list op) : list R := flat_map (fun o => match o with D c => [c] | K _ => [] end) ops.
(** What one step of length h does to the clock: drift(c * h) for every literal c (base-system.hpp:278-279); the literal is rounded when it is read. *)
Definition tick {C} (k : clock C) (ops : list op) (c : C) (h : R) : C := fold_left (fun c a => add k c (fmul (rnd a) h)) (drifts ops) c.

(** The condition of the loop, simulator.hpp:411, for a non-zero end time. *)
Definition ffar (t e tol : R) : bool := if Rlt_dec tol (Rabs (fdiv (fsub t e) e)) then true else false.
(** The step that is tried, simulator.hpp:413-420, for systems with step_scale() = 1 (base-system.hpp:62). *)
Definition fchosen (h t e : R) : R := let rest := fmul (fsub e t) 1 in if Rle_dec (Rabs h) (Rabs rest) then h else rest.
(** The loop simulator.hpp:411-424 with ConstOdeIterator (const-iterator.hpp:54-59: the step tried is the next step);
    the clock at every evaluation of the loop condition, the last one first; [None]: not finished within [fuel] rounds. *)
Fixpoint floop {C} (k : clock C) (ops : list op) (e tol : R) (fuel : nat) (h : R) (c : C) (seen : list C) : option (list C) :=
  match fuel with
  | O => None
  | S n => if ffar (now k c) e tol then let h1 := fchosen h (now k c) e in floop k ops e tol n h1 (tick k ops c h1) (c :: seen)
           else Some (c :: seen)
  end.
End Fsim.
Arguments now {C}. Arguments add {C}.
