(** orbit::M_anomaly_to_E_anomaly (/repo/src/orbits/orbits.hpp:319-337) on IEEE 754 numbers.  sin and sinh of the C library are arbitrary functions of the format
    (parameters [sn] and [sh]); hub::consts::pi is the parameter [pi]. *)
From Verif Require Export Ibis_Model.
Section Ianom.
Variables (prec emax : Z).
Context { prec_gt_0_ : Prec_gt_0 prec } { prec_lt_emax_ : Prec_lt_emax prec emax }.
Notation fl := (binary_float prec emax).
(** <= on doubles, orbits.hpp:321, 325: false when an operand is NaN. *)
Definition ile_ (a b : fl) : bool := match Bcompare a b with Some Lt | Some Eq => true | _ => false end.
(** e * sin and the lambda of the elliptic branch without M, orbits.hpp:326: x - e * sin(x). *)
Definition ell (sn : fl -> fl) (e x : fl) : fl := isub x (imul e (sn x)).
(** The lambda of the hyperbolic branch without M, orbits.hpp:329: e * sinh(x) - x. *)
Definition hyp (sh : fl -> fl) (e x : fl) : fl := isub (imul e (sh x)) x.
(** What the function does: returns a number at once, calls root_bisection on [-pi, pi], or aborts, orbits.hpp:321-336. *)
Inductive deed := Return (r : fl) | Bisect (f : fl -> fl) | Stop.
(** The tests in their order, orbits.hpp:321-336. *)
Definition to_E (sn sh : fl -> fl) (M e : fl) : deed :=
  if ile_ (iabs M) ieps then Return izero
  else if ile_ izero e && ilt e ione then Bisect (fun x => isub (ell sn e x) M)
  else if igt e ione then Bisect (fun x => isub (hyp sh e x) M)
  else if ilt (iabs (isub e ione)) ieps then Bisect (parabolic M)
  else Stop.
(** The call returns r, orbits.hpp:319-337. *)
Definition gives (sn sh : fl -> fl) (pi M e r : fl) : Prop :=
  match to_E sn sh M e with Return r' => r = r' | Bisect f => exists n, b_returns f (ineg pi) pi n r | Stop => False end.
End Ianom.
Arguments ile_ {prec emax}. Arguments ell {prec emax _ _}. Arguments hyp {prec emax _ _}. Arguments Return {prec emax}. Arguments Bisect {prec emax}. Arguments Stop {prec emax}.
Arguments to_E {prec emax _ _}. Arguments gives {prec emax _ _}.
