(** Model of /repo/src/orbits/orbits.hpp (and of the scalar helpers of /repo/src/math.hpp it uses), of
    /repo/src/scattering/cross-section.hpp and of /repo/src/secular.hpp, over exact real arithmetic.
    Simplifications: Scalar is R, consts::pi is PI, consts::G is [Gc] = 1 (macros.hpp:101); the machine
    epsilon is a parameter [eps] where it is used.  Division by zero and acos outside [-1,1] have no NaN/inf
    here: theorems exclude them by hypothesis, except for the parabolic branch of coord_to_orbit, which is
    also modelled with extended reals ([c2o_ref_p]). *)
From Verif Require Export Base Vec Force_Model Bisect_Model.
From Verif Require Import Ctrl_Model.
Open Scope R_scope.

(** math::sign, math.hpp:143-145 (sign(0) = -1). *)
Definition sgn (x : R) : R := -1 + 2 * (if Rlt_dec 0 x then 1 else 0).
(** math::in_range, math.hpp:113-117. *)
Definition clamp (low x high : R) : R :=
  let tmp := if Rlt_dec x low then low else x in if Rlt_dec high tmp then high else tmp.
(** math::iseq, math.hpp:170-173. *)
Definition iseq (eps x y : R) : bool := if Rlt_dec (Rabs (x - y)) eps then true else false.

(** myacos, orbits.hpp:260-263. *)
Definition myacos (x : R) : R := acos (clamp (-1) x 1).

(** std::atan2 (finite arguments; atan2(0,0) = 0). *)
Definition atan2 (y x : R) : R :=
  if Rlt_dec 0 x then atan (y / x)
  else if Rlt_dec x 0 then (if Rle_dec 0 y then atan (y / x) + PI else atan (y / x) - PI)
  else if Rlt_dec 0 y then PI / 2 else if Rlt_dec y 0 then - PI / 2 else 0.
(** std::atanh for |x| < 1. *)
Definition atanh (x : R) : R := / 2 * ln ((1 + x) / (1 - x)).

(** semi_latus_rectum, orbits.hpp:265-268. *)
Definition semi_latus_rectum (a e : R) : R := a * (1 - e * e).

(** euler_rotate, orbits.hpp:270-288. *)
Definition euler_rotate (v : vec) (phi theta psi : R) : vec :=
  let sin_phi := sin phi in let cos_phi := cos phi in
  let sin_psi := sin psi in let cos_psi := cos psi in
  let sin_theta := sin theta in let cos_theta := cos theta in
  let x := vx v * (cos_phi * cos_psi - sin_phi * cos_theta * sin_psi) -
           vy v * (cos_phi * sin_psi + sin_phi * cos_theta * cos_psi) + vz v * (sin_phi * sin_theta) in
  let y := vx v * (sin_phi * cos_psi + cos_phi * cos_theta * sin_psi) -
           vy v * (sin_phi * sin_psi - cos_phi * cos_theta * cos_psi) - vz v * (cos_phi * sin_theta) in
  let z := vx v * sin_theta * sin_psi + vy v * sin_theta * cos_psi + vz v * cos_theta in
  mkV x y z.

(** * Anomalies *)
(** The branch tests shared by the anomaly conversions: [0 <= e && e < 1], [e > 1], [iseq(e, 1)]. *)
Definition by_ecc {A} (eps e : R) (ell hyp par bad : A) : A :=
  if Rle_dec 0 e then (if Rlt_dec e 1 then ell else if Rlt_dec 1 e then hyp else if iseq eps e 1 then par else bad)
  else if Rlt_dec 1 e then hyp else if iseq eps e 1 then par else bad.

(** E_anomaly_to_T_anomaly, orbits.hpp:297-309. *)
Definition E_to_T (eps E e : R) : outcome R :=
  by_ecc eps e
    (Ok (2 * atan2 (sqrt (1 + e) * sin (E * 0.5)) (sqrt (1 - e) * cos (0.5 * E))))
    (Ok (2 * atan2 (sqrt (1 + e) * sinh (E * 0.5)) (sqrt (e - 1) * cosh (0.5 * E))))
    (Ok (2 * atan E))
    Abort.
(** M_anomaly_to_E_anomaly, orbits.hpp:318-337, as a relation (the bisection may loop). *)
Definition M_to_E (eps M e : R) (res : outcome R) : Prop :=
  if Rle_dec (Rabs M) eps then res = Ok 0
  else by_ecc eps e
    (exists r, bisection eps (fun x => x - e * sin x - M) (- PI) PI r /\ res = Ok r)
    (exists r, bisection eps (fun x => e * sinh x - x - M) (- PI) PI r /\ res = Ok r)
    (exists r, bisection eps (fun x => x + x * x * x / 3 - M) (- PI) PI r /\ res = Ok r)
    (res = Abort).
(** M_anomaly_to_T_anomaly, orbits.hpp:345-348. *)
Definition M_to_T (eps M e : R) (res : outcome R) : Prop :=
  exists r, M_to_E eps M e r /\ res = obind r (fun E => E_to_T eps E e).
(** T_anomaly_to_E_anomaly, orbits.hpp:363-383. *)
Definition T_to_E (eps T e : R) : outcome R :=
  by_ecc eps e
    (Ok (2 * atan2 (sqrt (1 - e) * sin (0.5 * T)) (sqrt (1 + e) * cos (0.5 * T))))
    (let x := sqrt ((e - 1) / (e + 1)) * tan (0.5 * T) in
     if Rle_dec x 1 then (if Rle_dec (-1) x then Ok (2 * atanh x) else Abort) else Abort)
    (Ok (tan (0.5 * T)))
    Abort.
(** E_anomaly_to_M_anomaly, orbits.hpp:392-403. *)
Definition E_to_M (eps E e : R) : outcome R :=
  by_ecc eps e (Ok (E - e * sin E)) (Ok (e * sinh E - E)) (Ok (E + E * E * E / 3)) Abort.
(** T_anomaly_to_M_anomaly, orbits.hpp:408-411. *)
Definition T_to_M (eps T e : R) : outcome R := obind (T_to_E eps T e) (fun E => E_to_M eps E e).

(** OrbitType, orbits.hpp:40; classify_orbit, orbits.hpp:413-424. *)
Inductive orbit_type := Ellipse | Parabola | Hyperbola | NoOrbit.
(** classify_orbit, orbits.hpp:413-424. *)
Definition classify_orbit (eps e : R) : orbit_type := by_ecc eps e Ellipse Hyperbola Parabola NoOrbit.

(** * Orbits *)
(** KeplerOrbit, orbits.hpp:54-88. *)
Record orbit := mkO { o_m1 : R; o_m2 : R; o_p : R; o_e : R; o_i : R; o_Om : R; o_om : R; o_nu : R; o_type : orbit_type }.

(** shuffle_nu for a drawn mean anomaly M, orbits.hpp:492-501, as a relation. *)
Definition shuffle_nu (eps M : R) (o : orbit) (res : outcome orbit) : Prop :=
  match o_type o with
  | Ellipse => exists E, M_to_E eps M (o_e o) E /\
      res = obind (obind E (fun E => E_to_T eps E (o_e o)))
             (fun nu => Ok (mkO (o_m1 o) (o_m2 o) (o_p o) (o_e o) (o_i o) (o_Om o) (o_om o) nu (o_type o)))
  | _ => res = Abort
  end.
(** Hyperbolic, orbits.hpp:506-531; [inw]: in_out == Hyper::in.  The isinf/isnan test (524) cannot fire on reals. *)
Definition hyperbolic_new (m1 m2 v_inf b i Om om r : R) (inw : bool) : outcome orbit :=
  let u := Gc * (m1 + m2) in
  let a := - u / (v_inf * v_inf) in
  let e := sqrt (1 + b * b / (a * a)) in
  let p := (b * v_inf) * (b * v_inf) / u in
  if Rle_dec p 0 then Abort
  else if Rlt_dec r (a * (1 - e)) then Abort
  else let nu := - acos ((p - r) / (e * r)) in
       Ok (mkO m1 m2 p e i Om om (if inw then nu else nu * -1) Hyperbola).

(** orbit_to_coord, orbits.hpp:550-565 and 684-703 (the two overloads compute the same). *)
Definition orbit_to_coord (o : orbit) : vec * vec :=
  let u := (o_m1 o + o_m2 o) * Gc in
  let sin_nu := sin (o_nu o) in let cos_nu := cos (o_nu o) in
  let r := o_p o / (1 + o_e o * cos_nu) in
  let v := sqrt (u / o_p o) in
  let pos := vscal r (mkV cos_nu sin_nu 0) in
  let vel := vscal v (mkV (- sin_nu) (o_e o + cos_nu) 0) in
  (euler_rotate pos (o_Om o) (o_i o) (o_om o + PI), euler_rotate vel (o_Om o) (o_i o) (o_om o + PI)).

(** calc_runge_lenz_vector, orbits.hpp:705-708 (re_norm(dr) is 1/norm(dr), vector3.hpp). *)
Definition calc_runge_lenz_vector (u : R) (dr dv : vec) : vec :=
  vscal (/ u) (vsub (vscal (norm2 dv - u * / norm dr) dr) (vscal (dot dr dv) dv)).
(** calc_eccentricity, orbits.hpp:716-719. *)
Definition calc_eccentricity (u : R) (dr dv : vec) : R :=
  norm (vsub (vscal (norm2 dv - u * / norm dr) dr) (vscal (dot dr dv) dv)) / u.
(** calc_angular_momentum, orbits.hpp:721-726. *)
Definition calc_angular_momentum (m1 m2 : R) (dr dv : vec) : vec := vscal (m1 * m2 / (m1 + m2)) (cross dr dv).
(** calc_semi_major_axis, orbits.hpp:734-738. *)
Definition calc_semi_major_axis (u : R) (dr dv : vec) : R :=
  let r := norm dr in - u * r / (r * norm2 dv - 2 * u).
(** calc_a_e, orbits.hpp:745-755. *)
Definition calc_a_e (u : R) (dr dv : vec) : R * R :=
  let r := norm dr in let v := norm dv in let v2 := v * v in let vr := dot dr dv in
  let vdfs := v2 - u / r in
  (- u / (v2 - 2 * u / r), norm (vscal (/ u) (vsub (vscal vdfs dr) (vscal vr dv)))).
(** calc_a_RL_vector, orbits.hpp:763-773. *)
Definition calc_a_RL_vector (u : R) (dr dv : vec) : R * vec :=
  let r := norm dr in let v := norm dv in let v2 := v * v in let vr := dot dr dv in
  let vdfs := v2 - u / r in
  (- u / (v2 - 2 * u / r), vscal (/ u) (vsub (vscal vdfs dr) (vscal vr dv))).
(** calc_a_e_L, orbits.hpp:775-787. *)
Definition calc_a_e_L (m1 m2 : R) (dr dv : vec) : R * vec * vec :=
  let '(a, e) := calc_a_RL_vector ((m1 + m2) * Gc) dr dv in
  (a, e, vscal (m1 * m2 / (m1 + m2)) (cross dr dv)).

(** The angles (i, Omega, omega, nu), orbits.hpp:590-612 and 651-673 (identical in both overloads). *)
Definition c2o_angles (dr dv L N E : vec) (e : R) : R * R * R * R :=
  let r := norm dr in let n := norm N in let l := norm L in let rv := dot dr dv in
  let i := acos (vz L / l) in
  if Req_EM_T e 0 then
    if Req_EM_T n 0 then (i, 0, 0, sgn (vy dr) * acos (dot (mkV 1 0 0) (vscal (/ r) dr)))
    else
      let peri := cross L N in
      (i, sgn (vy N) * myacos (vx N / n), 0,
       - sgn (dot N dr) * myacos (dot (vscal (/ norm peri) peri) (vscal (/ r) dr)))
  else
    let nu := sgn rv * myacos (dot (vscal (/ e) E) (vscal (/ r) dr)) in
    if Req_EM_T n 0 then
      let om := - sgn (vy E) * myacos (- vx E / e) in (i, om, om, nu)
    else (i, sgn (vy N) * myacos (vx N / n), sgn (vz E) * myacos (dot (vscal (/ e) E) (vscal (/ n) N)), nu).

(** coord_to_orbit returning the orbit, orbits.hpp:626-675. *)
Definition coord_to_orbit (eps m1 m2 : R) (dr dv : vec) : orbit :=
  let L := cross dr dv in let N := cross (mkV 0 0 1) L in
  let r := norm dr in let l := norm L in
  let u := (m1 + m2) * Gc in
  let E := calc_runge_lenz_vector u dr dv in
  let e := norm E in
  let t := classify_orbit eps e in
  let p := match t with
           | Parabola => l * l / u
           | _ => semi_latus_rectum (- u * r / (r * norm2 dv - 2 * u)) e
           end in
  let '(i, Om, om, nu) := c2o_angles dr dv L N E e in
  mkO m1 m2 p e i Om om nu t.
(** coord_to_orbit filling an existing orbit, orbits.hpp:567-613: its semi-latus rectum, in extended reals. *)
Definition c2o_ref_p (eps m1 m2 : R) (dr dv : vec) : ext :=
  let L := cross dr dv in let r := norm dr in let l := norm L in
  let u := (m1 + m2) * Gc in
  let e := norm (calc_runge_lenz_vector u dr dv) in
  match classify_orbit eps e with
  | Parabola => emul (ediv (Fin (- u * r)) (Fin (r * norm2 dv - 2 * u))) (Fin (1 - e * e))
  | _ => ediv (Fin (l * l)) (Fin u)
  end.

(** period, orbits.hpp:795-802 and 804-807. *)
Definition period (m1 m2 a : R) : outcome R :=
  if Rlt_dec 0 a then Ok (2 * PI * sqrt (a * a * a / ((m1 + m2) * Gc))) else Abort.
(** period of an orbit, orbits.hpp:804-807. *)
Definition period_orbit (o : orbit) : outcome R := period (o_m1 o) (o_m2 o) (o_p o / (1 - o_e o * o_e o)).

(** time_to_periapsis with explicit type, orbits.hpp:809-820. *)
Definition time_to_periapsis (t : orbit_type) (u a M : R) : R :=
  match t with
  | Ellipse => sqrt (a * a * a / u) * M
  | Parabola => 0.5 * sqrt (a * a * a / u) * M
  | Hyperbola => sqrt (- a * a * a / u) * M
  | NoOrbit => 0
  end.
(** time_to_periapsis of an orbit, orbits.hpp:822-837 (no return statement for other types: UB). *)
Definition time_to_periapsis_orbit (eps : R) (o : orbit) : outcome R :=
  obind (obind (T_to_E eps (o_nu o) (o_e o)) (fun E => E_to_M eps E (o_e o))) (fun M =>
    let u := Gc * (o_m1 o + o_m2 o) in
    match o_type o with
    | Ellipse => let a := o_p o / (1 - o_e o * o_e o) in Ok (sqrt (a * a * a / u) * M)
    | Parabola => Ok (- 0.5 * sqrt (o_p o * o_p o * o_p o / u) * M)
    | Hyperbola => let a := o_p o / (1 - o_e o * o_e o) in Ok (- sqrt (- a * a * a / u) * M)
    | NoOrbit => UB
    end).

(** tidal_factor, orbits.hpp:839-845. *)
Definition tidal_factor (r m1 m2 R1 R2 : R) : R * R :=
  let ratio1 := R1 / r in let ratio2 := R2 / r in
  (m2 / m1 * ratio1 * ratio1 * ratio1, m1 / m2 * ratio2 * ratio2 * ratio2).
(** std::pow with exponent 1/3 (pow(0, 1/3) = 0). *)
Definition pow13 (x : R) : R := if Rlt_dec 0 x then Rpower x (1 / 3) else 0.
(** tidal_radius, orbits.hpp:847-850 and 852-857. *)
Definition tidal_radius1 (f m1 m2 R2 : R) : R := pow13 (m1 / (f * m2)) * R2.
(** orbits.hpp:852-857. *)
Definition tidal_radius (f m1 m2 R1 R2 : R) : R := Rmax (tidal_radius1 f m1 m2 R2) (tidal_radius1 f m2 m1 R1).

(** * cross-section.hpp *)
(** critical_vel, cross-section.hpp:50-54 (scalar overload). *)
Definition critical_vel (m1 m2 E1 E2 : R) : R := let m_rdc := m1 * m2 / (m1 + m2) in sqrt (-2 * (E1 + E2) / m_rdc).
(** b_max, cross-section.hpp:80-83 and 98-103. *)
Definition b_max (m_tot v_inf rp_max : R) : R := sqrt (rp_max * rp_max + 2 * m_tot * Gc * rp_max / (v_inf * v_inf)).
(** cross-section.hpp:98-103. *)
Definition b_max_tidal (M1 M2 R1 R2 v_inf f : R) : R := b_max (M1 + M2) v_inf (tidal_radius f M1 M2 R1 R2).
(** incident_orbit for drawn b^2 = [b2] in [0, b_max^2) and inclination w, cross-section.hpp:118-123. *)
Definition incident_orbit (m1 m2 v_inf b2 w r : R) : outcome orbit := hyperbolic_new m1 m2 v_inf (sqrt b2) w 0 0 r true.
(** incident_orbit of two clusters of masses M1, M2 and sizes R1, R2, cross-section.hpp:143-159: the upper limit of b^2 and the orbit. *)
Definition incident_b2_max (M1 M2 R1 R2 v_inf : R) : R :=
  let b := b_max (M1 + M2) v_inf (tidal_radius 0.02 M1 M2 R1 R2) in b * b.
(** cross-section.hpp:143-159 with 118-123. *)
Definition incident_orbit_clusters (M1 M2 R1 R2 v_inf f b2 w : R) : outcome orbit :=
  incident_orbit M1 M2 v_inf b2 w (tidal_radius f M1 M2 R1 R2).
(** hard_radius, cross-section.hpp:161-164. *)
Definition hard_radius (m1 m2 m_env sigma : R) : R := Gc * m1 * m2 / (m_env * sigma * sigma).

(** * secular.hpp *)
(** ELK_quad_timescale, secular.hpp:36-42. *)
Definition ELK_quad_timescale (m1 m2 m3 a1 a2 e2 : R) : R :=
  let m_in := m1 + m2 in
  let P := 2 * PI * sqrt (a1 * a1 * a1 / Gc * m_in) in
  let a_ratio_eff := a2 * sqrt (1 - e2 * e2) / a1 in
  P * m_in / m3 * a_ratio_eff * a_ratio_eff * a_ratio_eff.
