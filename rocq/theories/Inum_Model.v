(** The scalar helpers of /repo/src/math.hpp:99-173 and the step controller /repo/src/ode-iterator/step-controller/PID-controller.hpp on IEEE 754 numbers, infinities and NaN included.
    pow of the C library is an arbitrary function of the format (parameter [pw]). *)
From Verif Require Export Ieee_Model Ikah_Model Ibis_Model Islice_Model.
Section Inum.
Variables (prec emax : Z).
Context { prec_gt_0_ : Prec_gt_0 prec } { prec_lt_emax_ : Prec_lt_emax prec emax }.
Notation fl := (binary_float prec emax).
(** math::in_range, math.hpp:113-117. *)
Definition in_range (low x high : fl) : fl := let tmp := if igt low x then low else x in if igt tmp high then high else tmp.
(** static_cast<T>(x > 0), math.hpp:129: the conversion of a bool. *)
Definition of_bool (b : bool) : fl := if b then ione else izero.
(** math::step, math.hpp:128-131. *)
Definition step (x : fl) : fl := of_bool (igt x izero).
(** math::sign, math.hpp:142-145: -1 + 2 * static_cast<T>(x > 0). *)
Definition sign (x : fl) : fl := iadd (ineg ione) (imul (of_nat 2) (of_bool (igt x izero))).
(** math::iseq, math.hpp:170-173. *)
Definition iseq (x y : fl) : bool := ilt (iabs (isub x y)) ieps.
(** x != y, PID-controller.hpp:137: true when an operand is NaN. *)
Definition ine (a b : fl) : bool := match Bcompare a b with Some Eq => false | _ => true end.
(** The members, PID-controller.hpp:77-91. *)
Record pid := mkP { g1 : fl; g2 : fl; expon : nat -> fl; lim_max : nat -> fl; lim_min : nat -> fl }.
(** The constructor, PID-controller.hpp:166-176, with the safe guards of lines 83-89. *)
Definition make (pw : fl -> fl -> fl) (s1 s2 s3 s4 : fl) : pid :=
  let ex i := match i with O => izero | S _ => idiv ione (of_nat i) end in
  mkP s1 s2 ex (fun i => match i with O => s4 | S _ => pw (idiv ione s3) (ex i) end) (fun i => match i with O => idiv ione s4 | S _ => idiv (pw s3 (ex i)) s4 end).
(** next with one error, PID-controller.hpp:157-163 and 136-141. *)
Definition next (pw : fl -> fl -> fl) (p : pid) (order : nat) (error : fl) : fl := if ine error izero then imul (g1 p) (pw (idiv (g2 p) error) (expon p order)) else lim_max p order.
(** limiter, PID-controller.hpp:101-103. *)
Definition limiter (p : pid) (order : nat) (ratio : fl) : fl := in_range (lim_min p order) ratio (lim_max p order).
(** next_with_limiter, PID-controller.hpp:128-131. *)
Definition next_with_limiter (pw : fl -> fl -> fl) (p : pid) (order : nat) (error : fl) : fl := limiter p order (next pw p order error).
End Inum.
Arguments in_range {prec emax}. Arguments of_bool {prec emax _ _}. Arguments step {prec emax _ _}. Arguments sign {prec emax _ _}. Arguments iseq {prec emax _ _}. Arguments ine {prec emax}.
Arguments mkP {prec emax}. Arguments g1 {prec emax}. Arguments g2 {prec emax}. Arguments expon {prec emax}. Arguments lim_max {prec emax}. Arguments lim_min {prec emax}.
Arguments make {prec emax _ _}. Arguments next {prec emax _ _}. Arguments limiter {prec emax}. Arguments next_with_limiter {prec emax _ _}.
