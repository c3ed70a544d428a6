(** Model of the force terms: /repo/src/interaction/{newtonian,tidal,post-newtonian,
    static-gas-drag,disk-capture-star,alpha-disk,interaction}.hpp and of the energy and angular
    momentum functions of /repo/src/core-computation.hpp.
    Scalars are reals.  An array of length n is a function of the index, used below n only. *)
From Verif Require Export Base Vec.
Open Scope R_scope.

(** A particle system: number, masses, positions, velocities (accessors number, mass, pos, vel of point-particles.hpp:131-145, read at newtonian.hpp:74-76). *)
Record sys := mkS { sn : nat; sm : nat -> R; sp : nat -> vec; sv : nat -> vec }.
Definition Gc : R := 1.                                   (* consts::G, macros.hpp:101 *)
Definition upd {A} (a : nat -> A) (i : nat) (x : A) : nat -> A := fun k => if (k =? i)%nat then x else a k.

(** * Pair loops
    A call of the lambda [force(dr, dv, i, j)] (newtonian.hpp:78, without dv; tidal.hpp:56). *)
Record call := mkC { c_dr : vec; c_dv : vec; c_i : nat; c_j : nat }.
(** The pairs of the direct double loop, newtonian.hpp:112-116 (and the same in the other terms). *)
Definition all_pairs (n : nat) : list (nat * nat) :=
  flat_map (fun i => map (fun j => (i, j)) (seq (i + 1) (n - (i + 1)))) (seq 0 n).
(** The arguments of the direct calls, newtonian.hpp:114, tidal.hpp:105. *)
Definition true_call (s : sys) (ij : nat * nat) : call :=
  let (i, j) := ij in mkC (vsub (sp s j) (sp s i)) (vsub (sv s j) (sv s i)) i j.
(** newtonian.hpp:112-116, tidal.hpp:103-107. *)
Definition direct_calls (s : sys) : list call := map (true_call s) (all_pairs (sn s)).

(** Chain data: index array and chain coordinates (newtonian.hpp:93-94, tidal.hpp:83-85). *)
Record chn := mkCh { ch_idx : nat -> nat; ch_p : nat -> vec; ch_v : nat -> vec }.
(** The bounds size - 1, size - 2 of newtonian.hpp:104, 108 in size_t; [None]: wrapped around to a huge value. *)
Definition size_minus (n k : nat) : option nat := if (n <? k)%nat then None else Some (n - k)%nat.
(** A loop [for (i = 0; i < bound; ++i)] whose body reads arrays of length n at i (+1, +2): with a
    wrapped bound it leaves the arrays, which is UB. *)
Definition bounded_loop (bound : option nat) (f : nat -> call) : outcome (list call) :=
  match bound with Some b => Ok (map f (seq 0 b)) | None => UB end.
(** newtonian.hpp:98-102, tidal.hpp:89-93: members at least three links apart. *)
Definition chain_far (s : sys) (c : chn) : list call :=
  flat_map (fun i => map (fun j =>
     mkC (vsub (sp s (ch_idx c j)) (sp s (ch_idx c i))) (vsub (sv s (ch_idx c j)) (sv s (ch_idx c i)))
         (ch_idx c i) (ch_idx c j)) (seq (i + 3) (sn s - (i + 3)))) (seq 0 (sn s)).
(** newtonian.hpp:104-106, tidal.hpp:95-97: next-to-nearest members. *)
Definition chain_second (s : sys) (c : chn) : outcome (list call) :=
  bounded_loop (size_minus (sn s) 2) (fun i =>
    mkC (vadd (ch_p c i) (ch_p c (i + 1))) (vadd (ch_v c i) (ch_v c (i + 1))) (ch_idx c i) (ch_idx c (i + 2))).
(** newtonian.hpp:108-110, tidal.hpp:99-101: neighbours. *)
Definition chain_near (s : sys) (c : chn) : outcome (list call) :=
  bounded_loop (size_minus (sn s) 1) (fun i => mkC (ch_p c i) (ch_v c i) (ch_idx c i) (ch_idx c (i + 1))).
(** Order of newtonian.hpp:98-110 and tidal.hpp:89-101. *)
Definition chain_calls (s : sys) (c : chn) : outcome (list call) :=
  obind (chain_second s c) (fun b => obind (chain_near s c) (fun a => Ok (chain_far s c ++ b ++ a))).
(** Order of post-newtonian.hpp:171-186 (and the others) and of core-computation.hpp:506-520. *)
Definition chain_calls' (s : sys) (c : chn) : outcome (list call) :=
  obind (chain_near s c) (fun a => obind (chain_second s c) (fun b => Ok (a ++ b ++ chain_far s c))).

(** A pair term gives what is added to acceleration[i] and to acceleration[j] (newtonian.hpp:84-89, tidal.hpp:67-76). *)
Definition pair_force := vec -> vec -> nat -> nat -> vec * vec.
(** One execution of the lambda, newtonian.hpp:84-89, tidal.hpp:67-76. *)
Definition apply_pair (F : pair_force) (acc : nat -> vec) (c : call) : nat -> vec :=
  let (fi, fj) := F (c_dr c) (c_dv c) (c_i c) (c_j c) in
  let acc1 := upd acc (c_i c) (vadd (acc (c_i c)) fi) in
  upd acc1 (c_j c) (vadd (acc1 (c_j c)) fj).
(** All executions of the lambda in order, newtonian.hpp:92-117, tidal.hpp:81-108. *)
Definition add_acc (F : pair_force) (calls : list call) (acc : nat -> vec) : nat -> vec :=
  fold_left (apply_pair F) calls acc.

(** * The pair terms *)
(** NewtonianGrav, newtonian.hpp:78-90 (no factor G; consts::G is 1). *)
Definition newton_pair (m : nat -> R) : pair_force := fun dr _ i j =>
  let r := norm dr in
  let rr3 := 1 / (r * r * r) in
  (mkV (vx dr * rr3 * m j) (vy dr * rr3 * m j) (vz dr * rr3 * m j),
   vneg (mkV (vx dr * rr3 * m i) (vy dr * rr3 * m i) (vz dr * rr3 * m i))).

(** Tidal, tidal.hpp:56-79; [k], [tau], [rad] are apsidal constant, lag time and radius.  The two
    successive updates of each accumulator are merged into one sum. *)
Definition tidal_coef (G k rad m tau rv r2 r8 : R) : R :=
  3 * G * k * (rad * rad * (rad * rad) * rad) * m * m * (1 + 3 * tau * rv / r2) / r8.
(** tidal.hpp:56-79. *)
Definition tidal_pair (m k tau rad : nat -> R) : pair_force := fun dr dv i j =>
  let r := norm dr in
  let r2 := r * r in let r4 := r2 * r2 in let r8 := r4 * r4 in
  let ci := if Req_EM_T (k i) 0 then 0 else tidal_coef Gc (k i) (rad i) (m j) (tau i) (dot dv dr) r2 r8 in
  let cj := if Req_EM_T (k j) 0 then 0 else tidal_coef Gc (k j) (rad j) (m i) (tau j) (dot dv dr) r2 r8 in
  (vadd (vscal (ci / m i) dr) (vscal (cj / m i) dr),
   vneg (vadd (vscal (ci / m j) dr) (vscal (cj / m j) dr))).

(** PN1, post-newtonian.hpp:141-166; [ic] is 1/c. *)
Definition pn1_pair (ic : R) (m : nat -> R) (v : nat -> vec) : pair_force := fun dr dv i j =>
  let r2 := norm2 dr in let r := sqrt r2 in
  let n := vscal (/ r) (vneg dr) in
  let v1s := norm2 (v i) in let v2s := norm2 (v j) in let v12 := dot (v i) (v j) in
  let nv1 := dot n (v i) in let nv2 := dot n (v j) in
  let gmr1 := Gc * m i / r in let gmr2 := Gc * m j / r in
  let Ai := - v1s - 2 * v2s + 4 * v12 + 1.5 * nv2 * nv2 + 5 * gmr1 + 4 * gmr2 in
  let Aj := - v2s - 2 * v1s + 4 * v12 + 1.5 * nv1 * nv1 + 5 * gmr2 + 4 * gmr1 in
  let Bi := 4 * nv1 - 3 * nv2 in
  let Bj := - 4 * nv2 + 3 * nv1 in
  let coef := Gc / r2 * (ic * ic) in
  (vscal (coef * m j) (vsub (vscal Ai n) (vscal Bi dv)),
   vneg (vscal (coef * m i) (vsub (vscal Aj n) (vscal Bj dv)))).

(** PN2, post-newtonian.hpp:209-260. *)
Definition pn2_pair (ic : R) (m : nat -> R) (v : nat -> vec) : pair_force := fun dr dv i j =>
  let r2 := norm2 dr in let r := sqrt r2 in
  let n := vscal (/ r) (vneg dr) in
  let v1s := norm2 (v i) in let v1q := v1s * v1s in
  let v2s := norm2 (v j) in let v2q := v2s * v2s in
  let v12 := dot (v i) (v j) in
  let nv1 := dot n (v i) in let nv1s := nv1 * nv1 in
  let nv2 := dot n (v j) in let nv2s := nv2 * nv2 in
  let gmr1 := Gc * m i / r in let gmr2 := Gc * m j / r in
  let m1s := m i * m i in let m2s := m j * m j in let m12 := m i * m j in
  let Ai := - 2 * v2q + 4 * v2s * v12 - 2 * v12 * v12 +
            nv2s * (1.5 * v1s + 4.5 * v2s - 6 * v12 - 1.875 * nv2s) +
            gmr1 * (- 3.75 * v1s + 1.25 * v2s - 2.5 * v12 + 19.5 * nv1s - 39 * nv1 * nv2 + 8.5 * nv2s) +
            gmr2 * (4 * v2s - 8 * v12 + 2 * nv1s - 4 * nv1 * nv2 - 6 * nv2s) +
            Gc * Gc / r2 * (- 14.25 * m1s - 9 * m2s - 34.5 * m12) in
  let Aj := - 2 * v1q + 4 * v1s * v12 - 2 * v12 * v12 +
            nv1s * (1.5 * v2s + 4.5 * v1s - 6 * v12 - 1.875 * nv1s) +
            gmr2 * (- 3.75 * v2s + 1.25 * v1s - 2.5 * v12 + 19.5 * nv2s - 39 * nv1 * nv2 + 8.5 * nv1s) +
            gmr1 * (4 * v1s - 8 * v12 + 2 * nv2s - 4 * nv1 * nv2 - 6 * nv1s) +
            Gc * Gc / r2 * (- 14.25 * m2s - 9 * m1s - 34.5 * m12) in
  let Bi := v1s * nv2 + 4 * v2s * nv1 - 5 * v2s * nv2 - 4 * v12 * nv1 + 4 * v12 * nv2 - 6 * nv1 * nv2s +
            4.5 * nv2 * nv2s + gmr1 * (- 15.75 * nv1 + 13.75 * nv2) + gmr2 * (- 2 * nv1 - 2 * nv2) in
  let Bj := - v2s * nv1 - 4 * v1s * nv2 + 5 * v1s * nv2 + 4 * v12 * nv2 - 4 * v12 * nv1 + 6 * nv2 * nv1s -
            4.5 * nv1 * nv1s + gmr2 * (15.75 * nv2 - 13.75 * nv1) + gmr1 * (2 * nv2 + 2 * nv1) in
  let coef := Gc / r2 * (ic * ic * (ic * ic)) in
  (vscal (coef * m j) (vsub (vscal Ai n) (vscal Bi dv)),
   vneg (vscal (coef * m i) (vsub (vscal Aj n) (vscal Bj dv)))).

(** PN2p5, post-newtonian.hpp:302-326. *)
Definition pn25_pair (ic : R) (m : nat -> R) : pair_force := fun dr dv i j =>
  let r2 := norm2 dr in let r := sqrt r2 in
  let n := vscal (/ r) (vneg dr) in
  let dv2 := norm2 dv in
  let nv := - dot n dv in
  let gmr1 := Gc * m i / r in let gmr2 := Gc * m j / r in
  let Ai := nv * (3 * dv2 - 6 * gmr1 + 52 / 3 * gmr2) in
  let Aj := nv * (3 * dv2 - 6 * gmr2 + 52 / 3 * gmr1) in
  let Bi := - dv2 + 2 * gmr1 - 8 * gmr2 in
  let Bj := - dv2 + 2 * gmr2 - 8 * gmr1 in
  let coef := 0.8 * Gc * Gc * m i * m j / (r2 * r) * (ic * ic * (ic * (ic * ic))) in
  (vscal coef (vsub (vscal Ai n) (vscal Bi dv)),
   vneg (vscal coef (vsub (vscal Aj n) (vscal Bj dv)))).

(** * One-body terms *)
(** StaticGasDrag, static-gas-drag.hpp:47-55; [c], [cs]: sub-sonic coefficient, sound speed. *)
Definition gas_drag_acc (m c cs : nat -> R) (v : nat -> vec) (i : nat) : vec :=
  let u := norm (v i) in
  if Rlt_dec u (cs i) then vneg (vscal (c i * m i) (v i))
  else let supersonic_coef := 3 * sqrt (PI / 2) * c i * cs i * cs i * cs i in
       vneg (vscal (supersonic_coef * m i / (u * u * u)) (v i)).
(** The loop of static-gas-drag.hpp:47-55. *)
Definition add_gas_drag (s : sys) (c cs : nat -> R) (acc : nat -> vec) : nat -> vec :=
  fold_left (fun a i => upd a i (vadd (a i) (gas_drag_acc (sm s) c cs (sv s) i))) (seq 0 (sn s)) acc.

(** Disk forces, disk-capture-star.hpp:68-84, alpha-disk.hpp:103-143: for every star i >= 1 a force
    of magnitude [f i] against [v_rel i] (the velocity relative to the disk gas), with the reaction
    on particle 0.  How [f] and [v_rel] are obtained is a parameter. *)
Definition disk_term (f : R) (v_rel : vec) (m : R) : vec :=
  vscal (/ m) (vscal (/ sqrt (dot v_rel v_rel)) (vscal f v_rel)).
(** The loops of disk-capture-star.hpp:68-84 and alpha-disk.hpp:103-143. *)
Definition add_disk (s : sys) (f : nat -> R) (v_rel : nat -> vec) (acc : nat -> vec) : nat -> vec :=
  fold_left (fun a i =>
      let a1 := upd a i (vsub (a i) (disk_term (f i) (v_rel i) (sm s i))) in
      upd a1 0 (vadd (a1 0%nat) (disk_term (f i) (v_rel i) (sm s 0%nat))))
    (seq 1 (sn s - 1)) acc.
(** disk-capture-star.hpp:39-57 and 69-81: gas velocity, density and force of the capture disk
    (Q = alpha = lambda = 1). *)
Definition disk_v (r : vec) (M : R) : vec :=
  let rr := sqrt (vx r * vx r + vy r * vy r) in
  let v := sqrt (M / rr) in mkV (- v * vy r / rr) (v * vx r / rr) 0.
(** disk_rho, disk-capture-star.hpp:39-50. *)
Definition disk_rho (r : vec) (M : R) : R :=
  let M_dot := 1 * 0.22 * (M / 10000000) / (2 * PI) in
  let RR := sqrt (vx r * vx r + vy r * vy r) in
  let Omega := sqrt (M / (RR * RR * RR)) in
  let H := Rpower (1 / 2 / 1 * M_dot / M / Omega) (1 / 3) * RR in
  let rho0 := M / (2 * 1 * PI * RR * RR * RR) in
  rho0 * exp (- (vz r * vz r) / (2 * H * H)).
(** disk-capture-star.hpp:69-72. *)
Definition capture_v_rel (s : sys) (i : nat) : vec :=
  vsub (vsub (sv s i) (sv s 0)) (disk_v (vsub (sp s i) (sp s 0)) (sm s 0)).
(** disk-capture-star.hpp:73-81. *)
Definition capture_f (s : sys) (rad : nat -> R) (i : nat) : R :=
  PI * rad i * rad i * disk_rho (vsub (sp s i) (sp s 0)) (sm s 0) *
  dot (capture_v_rel s i) (capture_v_rel s i).
(** DiskCaptureStar::add_acc_to, disk-capture-star.hpp:60-85. *)
Definition add_disk_capture (s : sys) (rad : nat -> R) : (nat -> vec) -> nat -> vec :=
  add_disk s (capture_f s rad) (capture_v_rel s).

(** * Interaction list, interaction.hpp:175-254 *)
(** A force term: its vel_dependent flag and its add_acc_to (e.g. newtonian.hpp:47, 60). *)
Record force := mkF { f_veldep : bool; f_add : sys -> (nat -> vec) -> nat -> vec }.
(** The fold expression of interaction.hpp:210. *)
Definition add_all (fs : list force) (s : sys) (acc : nat -> vec) : nat -> vec :=
  fold_left (fun a f => f_add f s a) fs acc.
Definition set_zero (acc : nat -> vec) : nat -> vec := fun _ => vzero.      (* calc::array_set_zero, core-computation.hpp:103-109 *)
(** InvokeVelDepForce / InvokeVelIndepForce, interaction.hpp:175-199. *)
Fixpoint invoke_vel_dep (fs : list force) (s : sys) (acc : nat -> vec) : nat -> vec :=
  match fs with
  | [] => acc
  | f :: fs' => invoke_vel_dep fs' s (if f_veldep f then f_add f s acc else acc)
  end.
(** InvokeVelIndepForce, interaction.hpp:188-199. *)
Fixpoint invoke_vel_indep (fs : list force) (s : sys) (acc : nat -> vec) : nat -> vec :=
  match fs with
  | [] => acc
  | f :: fs' => invoke_vel_indep fs' s (if negb (f_veldep f) then f_add f s acc else acc)
  end.
(** The constexpr members ext_vel_dep, ext_vel_indep, interaction.hpp:47-53. *)
Definition ext_vel_dep (fs : list force) : bool := existsb f_veldep fs.
(** interaction.hpp:53. *)
Definition ext_vel_indep (fs : list force) : bool := existsb (fun f => negb (f_veldep f)) fs.
Definition eval_acc (internal : force) (fs : list force) (s : sys) (acc : nat -> vec) : nat -> vec := (* 206-211 *)
  add_all fs s (f_add internal s (set_zero acc)).
Definition eval_extra_acc (fs : list force) (s : sys) (acc : nat -> vec) : nat -> vec :=             (* 215-226 *)
  let a0 := if ext_vel_dep fs || ext_vel_indep fs then set_zero acc else acc in
  let a1 := if ext_vel_dep fs then invoke_vel_dep fs s a0 else a0 in
  if ext_vel_indep fs then invoke_vel_indep fs s a1 else a1.
Definition eval_extra_vel_dep_acc (fs : list force) (s : sys) (acc : nat -> vec) : nat -> vec :=     (* 230-236 *)
  if ext_vel_dep fs then invoke_vel_dep fs s (set_zero acc) else acc.
Definition eval_extra_vel_indep_acc (fs : list force) (s : sys) (acc : nat -> vec) : nat -> vec :=   (* 240-246 *)
  if ext_vel_indep fs then invoke_vel_indep fs s (set_zero acc) else acc.
Definition eval_newtonian_acc (internal : force) (s : sys) (acc : nat -> vec) : nat -> vec :=        (* 250-254 *)
  f_add internal s (set_zero acc).

(** * Energies and angular momentum, core-computation.hpp *)
(** calc_kinetic_energy, core-computation.hpp:468-471 with 421-430 (contraction with masses). *)
Definition kinetic_energy (s : sys) : R := 0.5 * rsum (fun i => sm s i * dot (sv s i) (sv s i)) (sn s).
(** 495-529: the sum over the calls; direct order uses p[i] - p[j], i.e. the opposite vector. *)
Definition pe_calls (m : nat -> R) (calls : list call) : R :=
  fold_left (fun e c => e - m (c_i c) * m (c_j c) / norm (c_dr c)) calls 0 * Gc.
(** calc_potential_energy without chain data, core-computation.hpp:521-528. *)
Definition potential_energy (s : sys) : R :=
  fold_left (fun e ij => e - sm s (fst ij) * sm s (snd ij) / norm (vsub (sp s (fst ij)) (sp s (snd ij))))
            (all_pairs (sn s)) 0 * Gc.
(** calc_potential_energy with chain data, core-computation.hpp:502-520, 528. *)
Definition chain_potential_energy (s : sys) (c : chn) : outcome R :=
  obind (chain_calls' s c) (fun l => Ok (pe_calls (sm s) l)).
Definition total_energy (s : sys) : R := potential_energy s + kinetic_energy s.          (* 531-534 *)
(** 536-546. *)
Definition total_angular_momentum (s : sys) : vec :=
  vsum (fun i => vscal (sm s i) (cross (sp s i) (sv s i))) (sn s).
(** 559-580: angular momentum of the listed particles about their own centre of mass. *)
Definition lvsum {A} (f : A -> vec) (l : list A) : vec := fold_left (fun a x => vadd a (f x)) l vzero.
(** The accumulation M_tot += ..., core-computation.hpp:565-568. *)
Definition lrsum {A} (f : A -> R) (l : list A) : R := fold_left (fun a x => a + f x) l 0.
(** calc_isolated_angular_momentum, core-computation.hpp:559-580. *)
Definition isolated_angular_momentum (s : sys) (ids : list nat) : vec :=
  let M := lrsum (sm s) ids in
  let cp := vscal (/ M) (lvsum (fun i => vscal (sm s i) (sp s i)) ids) in
  let cv := vscal (/ M) (lvsum (fun i => vscal (sm s i) (sv s i)) ids) in
  lvsum (fun i => vscal (sm s i) (cross (vsub (sp s i) cp) (vsub (sv s i) cv))) ids.
