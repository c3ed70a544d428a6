(** Specification vocabulary for the step controller, the error checkers and the sequent iterator. *)
From Verif Require Export Ctrl_Model.
Open Scope R_scope.

(** The factors by which the controller may shrink and stretch a step, for the default safe guards
    0.02 and 4: 4 and 1/4 at order 0, else 50^(1/order) and 0.02^(1/order) / 4. *)
Definition low_factor (n : nat) : R := match n with O => 1 / 4 | _ => Rpower 0.02 (1 / INR n) / 4 end.
Definition high_factor (n : nat) : R := match n with O => 4 | _ => Rpower 50 (1 / INR n) end.
Definition clamp (lo hi x : R) : R := Rmax lo (Rmin x hi).
(** The setter calls without those of set_limiter. *)
Definition without_limiter (l : list setter) : list setter :=
  filter (fun s => match s with SetLimiter _ _ => false | _ => true end) l.
(** Safe guards of a configured controller: the last set_safe_guards, or the defaults. *)
Definition guards (l : list setter) : R * R :=
  fold_left (fun g s => match s with SetGuards a b => (a, b) | _ => g end) l (0.65, 0.95).
Definition coefs (l : list setter) : R * R :=
  fold_left (fun g s => match s with SetPID a b _ => (a, b) | _ => g end) l (0.7, 0.4).

(** Tolerance of component i, and the number of components. *)
Definition tol (atol rtol a b : R) : R := atol + rtol * Rmax (Rabs a) (Rabs b).

(** Behaviour of a particle system during one call: [sol n] is the state array after n equal sub-steps
    over the macro step, started from [input], whatever was integrated before. *)
Record restarts {P : Type} (wr : P -> list R) (rd : P -> list R -> outcome P) (integ : P -> R -> outcome P)
                (Inv : P -> Prop) (input : list R) (macro : R) (sol : nat -> list R) : Prop := {
  rs_run : forall p n, (0 < n)%nat -> Inv p -> exists q p', rd p input = Ok q /\ steps integ n q (macro / INR n) = Ok p' /\ wr p' = sol n /\ Inv p';
  rs_read : forall p n, (0 < n)%nat -> Inv p -> exists q, rd p (sol n) = Ok q /\ wr q = sol n }.
