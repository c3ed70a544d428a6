(** Rest of /repo/src/orbits/particle-manip.hpp (several single particles as arguments; explicit sizes) and the cluster overloads of
    /repo/src/scattering/cross-section.hpp, over exact real arithmetic. *)
From Verif Require Export Manip_Model.
From Coq Require Import List.
Import ListNotations.
Open Scope R_scope.

(** group, particle-manip.hpp:48-52. *)
Definition group (p1 p2 : particle) (ps : list particle) : list particle := p1 :: p2 :: ps.
(** E_k of several particles, particle-manip.hpp:552-559 (binary right fold over the pack). *)
Definition E_k_var (p1 p2 : particle) (ps : list particle) : R :=
  0.5 * fold_right (fun p acc => pt_m p * dot (pt_v p) (pt_v p) + acc)
                   (pt_m p1 * dot (pt_v p1) (pt_v p1) + pt_m p2 * dot (pt_v p2) (pt_v p2)) ps.
(** E_p of several particles, particle-manip.hpp:595-600. *)
Definition E_p_var (p1 p2 : particle) (ps : list particle) : R := E_p (Many (group p1 p2 ps)).
(** E_k_COM of several particles, particle-manip.hpp:627-634. *)
Definition E_k_COM_var (p1 p2 : particle) (ps : list particle) : R :=
  let v_com := COM_v_var p1 p2 ps in 0.5 * M_tot_var p1 p2 ps * dot v_com v_com.
(** E_tot of several particles, particle-manip.hpp:644-647. *)
Definition E_tot_var (p1 p2 : particle) (ps : list particle) : R := E_k_var p1 p2 ps + E_p_var p1 p2 ps.
(** E_inner of several particles, particle-manip.hpp:657-660. *)
Definition E_inner_var (p1 p2 : particle) (ps : list particle) : R := E_tot_var p1 p2 ps - E_k_COM_var p1 p2 ps.
(** cluster_size of several particles, particle-manip.hpp:711-716. *)
Definition cluster_size_var (p1 p2 : particle) (ps : list particle) : R := cluster_size (Many (group p1 p2 ps)).
(** E_tid with given sizes, particle-manip.hpp:732-739 (real division; equal centres excluded by hypothesis). *)
Definition E_tid_sizes (c1 c2 : cluster) (R1 R2 : R) : R :=
  let r := norm (vsub (COM_p c1) (COM_p c2)) in - Gc * M_tot c1 * M_tot c2 * (R1 + R2) / (r * r).
(** tidal_radius of two clusters with a given size, particle-manip.hpp:820-828. *)
Definition tidal_radius_size (f : R) (c1 c2 : cluster) (R2 : R) : R := tidal_radius1 f (M_tot c1) (M_tot c2) R2.
(** critical_vel of two clusters, cross-section.hpp:66-73. *)
Definition critical_vel_clusters (c1 c2 : cluster) : R := critical_vel (M_tot c1) (M_tot c2) (E_inner c1) (E_inner c2).
(** b_max of two clusters, cross-section.hpp:85-96. *)
Definition b_max_clusters (c1 c2 : cluster) (v_inf f : R) : R :=
  b_max (M_tot c1 + M_tot c2) v_inf (tidal_radius f (M_tot c1) (M_tot c2) (cluster_size c1) (cluster_size c2)).
