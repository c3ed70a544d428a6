(** Model of /repo/src/orbits/particle-manip.hpp over exact real arithmetic.
    A cluster is one particle or a range of particles; the variadic overloads (ptc1, ptc2, ptcs...) are modelled
    separately ([..._var]).  [pt_R] is the radius: [None] for particle types without a member `radius`.
    Not modelled: E_tid(cluster1, cluster2) without sizes (its std::forward<Cluster1>(const &) does not compile). *)
From Verif Require Export Orbit_Model.
From Verif Require Import Ctrl_Model.
From Coq Require Import List.
Import ListNotations.
Open Scope R_scope.

(** Members mass, pos, vel and (some types) radius, particle-manip.hpp:33-36. *)
Record particle := mkP { pt_m : R; pt_p : vec; pt_v : vec; pt_R : option R }.
(** The two kinds of arguments, is_ranges_v or not, particle-manip.hpp:106, 120. *)
Inductive cluster := One (p : particle) | Many (l : list particle).
(** The particles of an argument: itself, or the range of particle-manip.hpp:113. *)
Definition members (c : cluster) : list particle := match c with One p => [p] | Many l => l end.

(** M_tot, particle-manip.hpp:63-76 and 88-93 (binary right fold over the pack). *)
Definition M_tot (c : cluster) : R :=
  match c with Many l => fold_left (fun t p => t + pt_m p) l 0 | One p => pt_m p end.
(** M_tot of several particles, particle-manip.hpp:87-93. *)
Definition M_tot_var (p1 p2 : particle) (ps : list particle) : R :=
  fold_right (fun p acc => pt_m p + acc) (pt_m p2 + pt_m p1) ps.
(** COM_p, particle-manip.hpp:102-123; the variadic overload is [COM_p_var]. *)
Definition COM_p (c : cluster) : vec :=
  match c with
  | Many l => let '(m, s) := fold_left (fun '(m, s) p => (m + pt_m p, vadd s (vscal (pt_m p) (pt_p p)))) l (0, vzero) in vscal (/ m) s
  | One p => pt_p p
  end.
(** COM_p of several particles, particle-manip.hpp:135-143. *)
Definition COM_p_var (p1 p2 : particle) (ps : list particle) : vec :=
  let m := fold_right (fun p acc => pt_m p + acc) (pt_m p1 + pt_m p2) ps in
  vscal (/ m) (fold_right (fun p acc => vadd (vscal (pt_m p) (pt_p p)) acc)
                          (vadd (vscal (pt_m p1) (pt_p p1)) (vscal (pt_m p2) (pt_p p2))) ps).
(** COM_v, particle-manip.hpp:153-176; the variadic overload is [COM_v_var]. *)
Definition COM_v (c : cluster) : vec :=
  match c with
  | Many l => let '(m, s) := fold_left (fun '(m, s) p => (m + pt_m p, vadd s (vscal (pt_m p) (pt_v p)))) l (0, vzero) in vscal (/ m) s
  | One p => pt_v p
  end.
(** COM_v of several particles, particle-manip.hpp:188-197. *)
Definition COM_v_var (p1 p2 : particle) (ps : list particle) : vec :=
  let m := fold_right (fun p acc => pt_m p + acc) (pt_m p1 + pt_m p2) ps in
  vscal (/ m) (fold_right (fun p acc => vadd (vscal (pt_m p) (pt_v p)) acc)
                          (vadd (vscal (pt_m p1) (pt_v p1)) (vscal (pt_m p2) (pt_v p2))) ps).
(** M_rdc, particle-manip.hpp:210-215. *)
Definition M_rdc (c1 c2 : cluster) : R := M_tot c1 * M_tot c2 / (M_tot c1 + M_tot c2).

(** p.pos += dp; p.vel += dv, particle-manip.hpp:231, 272, 316-317. *)
Definition add_p (dp : vec) (p : particle) := mkP (pt_m p) (vadd (pt_p p) dp) (pt_v p) (pt_R p).
(** p.vel += dv, particle-manip.hpp:272. *)
Definition add_v (dv : vec) (p : particle) := mkP (pt_m p) (pt_p p) (vadd (pt_v p) dv) (pt_R p).
(** The branch on is_ranges_v of particle-manip.hpp:229-235, 270-276, 314-322. *)
Definition on_members (f : particle -> particle) (c : cluster) : cluster :=
  match c with One p => One (f p) | Many l => Many (map f l) end.
(** move_particles_pos, particle-manip.hpp:226-236. *)
Definition move_particles_pos (pos : vec) (c : cluster) : cluster :=
  let dp := vsub pos (COM_p c) in on_members (add_p dp) c.
(** particle-manip.hpp:249-256. *)
Definition move_particles_pos_var (pos : vec) (p1 p2 : particle) (ps : list particle) : particle * particle * list particle :=
  let dp := vsub pos (COM_p_var p1 p2 ps) in (add_p dp p1, add_p dp p2, map (add_p dp) ps).
(** move_particles_vel, particle-manip.hpp:267-277. *)
Definition move_particles_vel (vel : vec) (c : cluster) : cluster :=
  let dv := vsub vel (COM_v c) in on_members (add_v dv) c.
(** particle-manip.hpp:290-297. *)
Definition move_particles_vel_var (vel : vec) (p1 p2 : particle) (ps : list particle) : particle * particle * list particle :=
  let dv := vsub vel (COM_v_var p1 p2 ps) in (add_v dv p1, add_v dv p2, map (add_v dv) ps).
(** move_particles, particle-manip.hpp:310-323. *)
Definition move_particles (pos vel : vec) (c : cluster) : cluster :=
  let dp := vsub pos (COM_p c) in let dv := vsub vel (COM_v c) in
  on_members (fun p => add_v dv (add_p dp p)) c.
(** particle-manip.hpp:337-347. *)
Definition move_particles_var (pos vel : vec) (p1 p2 : particle) (ps : list particle) : particle * particle * list particle :=
  let dp := vsub pos (COM_p_var p1 p2 ps) in let dv := vsub vel (COM_v_var p1 p2 ps) in
  (add_v dv (add_p dp p1), add_v dv (add_p dp p2), map (fun p => add_v dv (add_p dp p)) ps).
(** move_particles(orbit, ...), particle-manip.hpp:360-366. *)
Definition move_particles_orbit (o : orbit) (c : cluster) : cluster :=
  let '(cm_pos, cm_vel) := orbit_to_coord o in move_particles cm_pos cm_vel c.
(** particle-manip.hpp:360-366 with several particles. *)
Definition move_particles_orbit_var (o : orbit) (p1 p2 : particle) (ps : list particle) : particle * particle * list particle :=
  let '(cm_pos, cm_vel) := orbit_to_coord o in move_particles_var cm_pos cm_vel p1 p2 ps.
(** move_to_COM_frame, particle-manip.hpp:376-380. *)
Definition move_to_COM_frame (c : cluster) : cluster := move_particles vzero vzero c.
(** particle-manip.hpp:376-380 with several particles. *)
Definition move_to_COM_frame_var (p1 p2 : particle) (ps : list particle) := move_particles_var vzero vzero p1 p2 ps.

(** Relative coordinates of two clusters and the helpers built on them, particle-manip.hpp:398-399, 419-420, 440-441, 481-482. *)
Definition rel_p (c1 c2 : cluster) : vec := vsub (COM_p c1) (COM_p c2).
(** particle-manip.hpp:399, 420, 441, 482. *)
Definition rel_v (c1 c2 : cluster) : vec := vsub (COM_v c1) (COM_v c2).
(** particle-manip.hpp:394-401. *)
Definition calc_eccentricity_clusters (c1 c2 : cluster) : R := calc_eccentricity (Gc * (M_tot c1 + M_tot c2)) (rel_p c1 c2) (rel_v c1 c2).
(** particle-manip.hpp:415-422. *)
Definition calc_semi_major_axis_clusters (c1 c2 : cluster) : R := calc_semi_major_axis (Gc * (M_tot c1 + M_tot c2)) (rel_p c1 c2) (rel_v c1 c2).
(** particle-manip.hpp:436-443. *)
Definition calc_a_e_clusters (c1 c2 : cluster) : R * R := calc_a_e (Gc * (M_tot c1 + M_tot c2)) (rel_p c1 c2) (rel_v c1 c2).
(** particle-manip.hpp:457-462. *)
Definition period_clusters (c1 c2 : cluster) : outcome R := period (M_tot c1) (M_tot c2) (calc_semi_major_axis_clusters c1 c2).
(** time_to_periapsis(cluster1, cluster2), particle-manip.hpp:476-517 (e >= 0 always holds here; e = 0 divides 0 by 0: excluded by hypothesis). *)
Definition ttp_state (eps m1 m2 : R) (dr dv : vec) : outcome R :=
  let u := Gc * (m1 + m2) in
  let r := norm dr in
  let '(a, e) := calc_a_e u dr dv in
  let t := classify_orbit eps e in
  let h := cross dr dv in
  let p := dot h h / u in
  let T := acos ((p / r - 1) / e) in
  obind (obind (T_to_E eps T e) (fun E => E_to_M eps E e)) (fun M =>
    match t with Parabola => Ok (time_to_periapsis t u p M) | _ => Ok (time_to_periapsis t u a M) end).
(** particle-manip.hpp:476-484. *)
Definition time_to_periapsis_clusters (eps : R) (c1 c2 : cluster) : outcome R :=
  ttp_state eps (M_tot c1) (M_tot c2) (rel_p c1 c2) (rel_v c1 c2).

(** E_k, particle-manip.hpp:527-540. *)
Definition E_k (c : cluster) : R :=
  match c with
  | Many l => 0.5 * fold_left (fun t p => t + pt_m p * dot (pt_v p) (pt_v p)) l 0
  | One p => 0.5 * pt_m p * dot (pt_v p) (pt_v p)
  end.
(** E_p, particle-manip.hpp:574-578: the two nested iterator loops. *)
Fixpoint E_p_loop (acc : R) (l : list particle) : R :=
  match l with
  | [] => acc
  | i :: tl => E_p_loop (fold_left (fun t j => t - Gc * pt_m i * pt_m j / norm (vsub (pt_p i) (pt_p j))) tl acc) tl
  end.
(** E_p, particle-manip.hpp:569-583. *)
Definition E_p (c : cluster) : R := match c with Many l => E_p_loop 0 l | One _ => 0 end.
(** E_k_COM, particle-manip.hpp:610-615. *)
Definition E_k_COM (c : cluster) : R := 0.5 * M_tot c * dot (COM_v c) (COM_v c).
(** E_tot, particle-manip.hpp:644-647. *)
Definition E_tot (c : cluster) : R := E_k c + E_p c.
(** E_inner, particle-manip.hpp:657-660. *)
Definition E_inner (c : cluster) : R := E_tot c - E_k_COM c.
(** cluster_size of one particle, particle-manip.hpp:690-696. *)
Definition size1 (p : particle) : R := match pt_R p with Some r => r | None => 0 end.
(** particle-manip.hpp:681-688. *)
Fixpoint size_loop (acc : R) (l : list particle) : R :=
  match l with
  | [] => acc
  | i :: tl => size_loop (fold_left (fun t j => let r := norm (vsub (pt_p i) (pt_p j)) in if Rlt_dec t r then r else t) tl acc) tl
  end.
(** cluster_size, particle-manip.hpp:672-697. *)
Definition cluster_size (c : cluster) : R :=
  match c with
  | Many l => size_loop (match l with [p] => size1 p | _ => 0 end) l
  | One p => size1 p
  end.
(** tidal_factor(r, m1, m2, R1, R2), orbits.hpp:839-845, in extended reals. *)
Definition tidal_factor_ext (r m1 m2 R1 R2 : R) : ext * ext :=
  let ratio1 := ediv (Fin R1) (Fin r) in let ratio2 := ediv (Fin R2) (Fin r) in
  (emul (emul (emul (Fin (m2 / m1)) ratio1) ratio1) ratio1, emul (emul (emul (Fin (m1 / m2)) ratio2) ratio2) ratio2).
(** tidal_factor of two clusters with given sizes, particle-manip.hpp:776-783. *)
Definition tidal_factor_sizes (c1 c2 : cluster) (R1 R2 : R) : ext * ext :=
  tidal_factor_ext (norm (vsub (COM_p c1) (COM_p c2))) (M_tot c1) (M_tot c2) R1 R2.
(** tidal_factor(cluster1, cluster2), particle-manip.hpp:799-804 (which passes cluster1 twice). *)
Definition tidal_factor_clusters (c1 c2 : cluster) : ext * ext :=
  tidal_factor_sizes c1 c1 (cluster_size c1) (cluster_size c2).
(** tidal_radius of two clusters, particle-manip.hpp:820-847. *)
Definition tidal_radius_clusters (f : R) (c1 c2 : cluster) : R := tidal_radius1 f (M_tot c1) (M_tot c2) (cluster_size c2).
