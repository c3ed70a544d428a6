(** math::root_bisection and math::root_newton (/repo/src/math.hpp:233-278) on IEEE 754 numbers.  The callable is any function of the type: it may return
    NaN, infinities, subnormal numbers.  Operators of Scalar as in Ieee_Model.v. *)
From Verif Require Export Ieee_Model.

Section Ibis.
Variables (prec emax : Z).
Context { prec_gt_0_ : Prec_gt_0 prec } { prec_lt_emax_ : Prec_lt_emax prec emax }.
Notation fl := (binary_float prec emax).
(** std::numeric_limits<Scalar>::epsilon(), math.hpp:147-151. *)
Definition ieps : fl := binary_normalize prec emax prec_gt_0_ prec_lt_emax_ mode_NE 1 (1 - prec) false.
(** The literal 0.5, math.hpp:247. *)
Definition ihalf : fl := binary_normalize prec emax prec_gt_0_ prec_lt_emax_ mode_NE 1 (-1) false.
(** The loop condition, math.hpp:246. *)
Definition b_continue (low high : fl) : bool := igt (iabs (isub high low)) (imul (iabs high) ieps).
(** 0.5 * (high + low), math.hpp:247, 253. *)
Definition b_mid (low high : fl) : fl := imul ihalf (iadd high low).
(** The loop body, math.hpp:247-251. *)
Definition b_step (f : fl -> fl) (s : fl * fl) : fl * fl :=
  let mid := b_mid (fst s) (snd s) in if igt (imul (f mid) (f (snd s))) izero then (fst s, mid) else (mid, snd s).
(** The ends after n executions of the loop body, math.hpp:246-252. *)
Fixpoint b_iter (f : fl -> fl) (n : nat) (s : fl * fl) : fl * fl := match n with O => s | S k => b_iter f k (b_step f s) end.
(** The call returns r after n executions of the body, math.hpp:243-254: the condition held before each of them and not after the last. *)
Definition b_returns (f : fl -> fl) (low high : fl) (n : nat) (r : fl) : Prop :=
  (forall k, (k < n)%nat -> b_continue (fst (b_iter f k (low, high))) (snd (b_iter f k (low, high))) = true) /\
  b_continue (fst (b_iter f n (low, high))) (snd (b_iter f n (low, high))) = false /\
  r = b_mid (fst (b_iter f n (low, high))) (snd (b_iter f n (low, high))).

(** root_newton, math.hpp:264-278: the for loop with [k] rounds left and the current x0; the value of x when it ends.  The break test is fabs(x - x0) <= epsilon. *)
Fixpoint n_loop (f : fl -> fl) (k : nat) (x0 x : fl) : fl :=
  match k with
  | O => x
  | S k' => let x1 := isub x0 (f x0) in
            match Bcompare (iabs (isub x1 x0)) ieps with Some Lt | Some Eq => x1 | _ => n_loop f k' x1 x1 end
  end.
(** The whole call, math.hpp:264-278. *)
Definition newton (f : fl -> fl) : fl := n_loop f 1000 izero ione.
(** The function whose root is sought for a parabolic orbit, orbits.hpp:332: x + x * x * x / 3 - M_anomaly. *)
Definition parabolic (M x : fl) : fl := isub (iadd x (idiv (imul (imul x x) x) (binary_normalize prec emax prec_gt_0_ prec_lt_emax_ mode_NE 3 0 false))) M.
End Ibis.
Arguments ieps {prec emax _ _}. Arguments ihalf {prec emax _ _}. Arguments b_continue {prec emax _ _}. Arguments b_mid {prec emax _ _}. Arguments b_step {prec emax _ _}.
Arguments b_iter {prec emax _ _}. Arguments b_returns {prec emax _ _}. Arguments n_loop {prec emax _ _}. Arguments newton {prec emax _ _}. Arguments parabolic {prec emax _ _}.
