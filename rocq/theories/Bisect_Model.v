(** Model of math::root_bisection (/repo/src/math.hpp:235-254) over exact real arithmetic.
    Simplification: Scalar is R, so rounding of the midpoint and of the function is not modelled; the
    machine epsilon (math::epsilon<Scalar>::value, math.hpp:147-151) is a parameter [eps]. *)
From Coq Require Export Reals Lra.
Open Scope R_scope.

(** The loop condition, math.hpp:246. *)
Definition bis_continue (eps low high : R) : Prop := Rabs (high - low) > Rabs high * eps.

(** One execution of the loop body, math.hpp:247-251. *)
Definition bis_step (f : R -> R) (low high : R) : R * R :=
  let mid := 0.5 * (high + low) in
  if Rlt_dec 0 (f mid * f high) then (low, mid) else (mid, high).

(** [bisection eps f low high r]: the call root_bisection(f, low, high) ends and returns r
    (math.hpp:246-253). A call for which there is no such r loops for ever. *)
Inductive bisection (eps : R) (f : R -> R) : R -> R -> R -> Prop :=
| bis_return low high :
    ~ bis_continue eps low high -> bisection eps f low high (0.5 * (high + low))
| bis_loop low high low' high' r :
    bis_continue eps low high ->
    bis_step f low high = (low', high') ->
    bisection eps f low' high' r ->
    bisection eps f low high r.

(** The interval after n executions of the loop body. *)
(** math.hpp:246-252, the loop without its exit test. *)
Fixpoint bis_iter (f : R -> R) (n : nat) (low high : R) : R * R :=
  match n with
  | O => (low, high)
  | S k => let '(l, h) := bis_step f low high in bis_iter f k l h
  end.
