(** The orbit constructors of /repo/src/orbits/orbits.hpp with the random placeholder (isotherm) for angles. *)
From Verif Require Export Orbit_Model.
Open Scope R_scope.
(** An angle argument: a number or the RandomIndicator, orbits.hpp:54-55.  A random angle carries the number drawn by
    random::Uniform for it (in [-1,1) for the inclination, in [-pi,pi) for the others). *)
Inductive angle := Given (x : R) | Random (draw : R).
(** shuffle_i, shuffle_Omega, shuffle_omega, orbits.hpp:477-490. *)
Definition pick_i (a : angle) : R := match a with Given x => x | Random w => acos w end.
(** shuffle_Omega, shuffle_omega, orbits.hpp:482-490. *)
Definition pick (a : angle) : R := match a with Given x => x | Random w => w end.
(** KeplerOrbit::KeplerOrbit, orbits.hpp:430-475; a relation because shuffle_nu is. *)
Definition kepler_make (eps m1 m2 p e : R) (i Om om nu : angle) (res : outcome orbit) : Prop :=
  if Rle_dec p 0 then res = Abort
  else match classify_orbit eps e with
       | NoOrbit => res = Abort
       | t => let o := mkO m1 m2 p e (pick_i i) (pick Om) (pick om) 0 t in
              match nu with
              | Given x => res = Ok (mkO m1 m2 p e (pick_i i) (pick Om) (pick om) x t)
              | Random M => shuffle_nu eps M o res
              end
       end.
(** Elliptic::Elliptic, orbits.hpp:536-545: the result carries the member a. *)
Definition elliptic_make (eps m1 m2 a e : R) (i Om om nu : angle) (res : outcome (orbit * R)) : Prop :=
  exists r, kepler_make eps m1 m2 (a * (1 - e * e)) e i Om om nu r /\
    res = obind r (fun o => match o_type o with Ellipse => Ok (o, a) | _ => Abort end).
(** Hyperbolic::Hyperbolic, orbits.hpp:506-531, with random orientation: the base constructor is called with p = 1, e = 0. *)
Definition hyperbolic_make (eps m1 m2 v_inf b : R) (i Om om : angle) (r : R) (inw : bool) (res : outcome orbit) : Prop :=
  exists o0, kepler_make eps m1 m2 1 0 i Om om (Given 0) o0 /\
    res = obind o0 (fun o0 => hyperbolic_new (o_m1 o0) (o_m2 o0) v_inf b (o_i o0) (o_Om o0) (o_om o0) r inw).
