(** Specification vocabulary for the orbit properties: elementary rotations and textbook formulas.
    Nothing here refers to the model. *)
From Verif Require Import Vec.
Open Scope R_scope.

(** Active rotation by an angle about the z and the x axis. *)
Definition Rz (t : R) (v : vec) : vec := mkV (cos t * vx v - sin t * vy v) (sin t * vx v + cos t * vy v) (vz v).
Definition Rx (t : R) (v : vec) : vec := mkV (vx v) (cos t * vy v - sin t * vz v) (sin t * vy v + cos t * vz v).

(** Textbook direction of a body with longitude of ascending node Om, inclination i and argument of
    latitude w (= argument of periapsis + true anomaly). *)
Definition elements_dir (Om i w : R) : vec :=
  mkV (cos Om * cos w - sin Om * sin w * cos i) (sin Om * cos w + cos Om * sin w * cos i) (sin w * sin i).
(** Textbook unit normal of the orbital plane. *)
Definition elements_normal (Om i : R) : vec := mkV (sin Om * sin i) (- (cos Om * sin i)) (cos i).

(** Specific energy of a relative orbit with gravitational parameter u. *)
Definition specific_energy (u : R) (dr dv : vec) : R := norm2 dv / 2 - u / norm dr.

(** Two angles with the same direction. *)
Definition same_angle (a b : R) : Prop := cos a = cos b /\ sin a = sin b.
