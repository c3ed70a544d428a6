(** Models of /repo/src/interaction/magneto-disk.hpp and /repo/src/interaction/alpha-disk.hpp over exact real
    arithmetic (the tables are the decimal literals of the source).  disk.hpp is not modelled: it does not compile
    (t_e and t_i of DiskDamp::calc_t_damp are never declared). *)
From Coq Require Export Reals Lra Lia.
From Verif Require Export Base Vec Force_Model Disk_Tables.
Open Scope R_scope.

(** * MagnetoDisk *)
(** A table of magneto-disk.hpp:31-493 as reals (decimal literals scaled to integers in Disk_Tables.v). *)
Definition table (digits : nat) (l : list Z) : list R := map (fun z => IZR z / 10 ^ digits) l.
Definition t_lgr := table mag_lgr_digits mag_lgr.   (* _mag_disk_lgr_cgs, magneto-disk.hpp:283-334 *)
Definition t_lgrho := table mag_lgrho_digits mag_lgrho.   (* _mag_disk_lgrho_cgs, magneto-disk.hpp:336-387 *)
Definition t_lgH := table mag_lgH_digits mag_lgH.   (* _mag_disk_lgH_cgs, magneto-disk.hpp:389-440 *)
Definition t_v := table mag_v_digits mag_v.   (* _mag_disk_v_cgs, magneto-disk.hpp:442-493 *)
Definition t_lgM := table gdf_lgM_digits gdf_lgM.   (* _GDF_lgM, magneto-disk.hpp:82-281 *)
Definition t_I := table gdf_I_digits gdf_I.   (* _GDF_I, magneto-disk.hpp:31-81 *)
(** int(x): truncation towards zero, magneto-disk.hpp:573. *)
Definition trunc (x : R) : Z := if Rle_dec 0 x then Int_part x else (- Int_part (- x))%Z.
(** MagnetoDisk::interpolate, 571-579; reading outside of a std::vector is undefined (a negative int becomes a huge
    size_t). *)
Definition interpolate (x : R) (xs ys : list R) : outcome R :=
  obind (aget xs 0) (fun a0 => obind (aget xs 1) (fun a1 =>
  let z := trunc ((x - a0) / (a1 - a0)) in
  if (z <? 0)%Z then UB else
  let idx := Z.to_nat z in
  obind (aget xs idx) (fun x0 => obind (aget xs (idx + 1)) (fun x1 =>
  obind (aget ys idx) (fun y0 => obind (aget ys (idx + 1)) (fun y1 =>
  Ok (y0 + (x - x0) * (y1 - y0) / (x1 - x0)))))))).
(** The three-way branch shared by disk_rho, disk_H and disk_v, 511-518, 530-537, 550-557. *)
Definition disk_value (lgR : R) (xs ys : list R) : outcome R :=
  obind (aget xs 0) (fun lo => obind (aget xs (length xs - 1)) (fun hi =>
  if Rlt_dec lgR lo then aget ys 0 else if Rle_dec hi lgR then aget ys (length ys - 1) else interpolate lgR xs ys)).
Definition lg (x : R) : R := ln x / ln 10.                                       (* log10 *)
Definition ten_to (x : R) : R := Rpower 10 x.                                    (* pow(10, x) *)
Definition unit_cm : R := 1 / 149597870.7 / 1000 / 100.                          (* macros.hpp 64-66 *)
Definition polar_radius (r : vec) : R := sqrt (vx r * vx r + vy r * vy r).
Definition lgR_cgs (r : vec) : R := lg (polar_radius r / unit_cm).               (* 503-504 *)
Definition mag_rho (r : vec) : outcome R :=                                      (* disk_rho, 502-519 *)
  obind (disk_value (lgR_cgs r) t_lgr t_lgrho) (fun y => Ok (ten_to y / 5.893333333333333e-07)).
Definition mag_H (r : vec) : outcome R :=                                        (* disk_H, 521-538 *)
  obind (disk_value (lgR_cgs r) t_lgr t_lgH) (fun y => Ok (ten_to y / 1.5e13)).
Definition mag_vel (r : vec) : outcome vec :=                                    (* disk_v, 540-558 *)
  let rr := polar_radius r in
  obind (disk_value (lgR_cgs r) t_lgr t_v) (fun y => let v := y * 3.357318203286629e-07 in
  Ok (mkV (- v * vy r / rr) (v * vx r / rr) 0)).
(** GDF_I, 560-570. log10(0) is minus infinity. *)
Definition gdf (M : R) : outcome R :=
  obind (aget t_lgM 0) (fun lo => obind (aget t_lgM (length t_lgM - 1)) (fun hi =>
  if Rle_dec M 0 then Ok (M / 3) else if Rlt_dec (lg M) lo then Ok (M / 3) else if Rle_dec hi (lg M) then Ok 0 else interpolate (lg M) t_lgM t_I)).
(** add_acc_to, 582-617: force magnitude and relative velocity of star i. *)
Definition mag_v_rel (s : sys) (i : nat) : outcome vec :=
  obind (mag_vel (vsub (sp s i) (sp s 0%nat))) (fun u => Ok (vsub (vsub (sv s i) (sv s 0%nat)) u)).
(** magneto-disk.hpp:590-612. *)
Definition mag_f (s : sys) (rad : nat -> R) (i : nat) : outcome R :=
  let dr := vsub (sp s i) (sp s 0%nat) in
  obind (mag_rho dr) (fun rho => obind (mag_v_rel s i) (fun v_rel => obind (mag_H dr) (fun H =>
  let r := norm dr in
  let Omega := sqrt (Gc * sm s 0%nat / (r * r * r)) in
  let cs := Omega * H in
  let v2 := dot v_rel v_rel in
  let Mach := sqrt v2 / cs in
  obind (gdf Mach) (fun I =>
  let df := I * 4 * PI * Gc * Gc * sm s i * sm s i / (cs * cs) * rho in
  let aeo := 4 * PI * rad i * rad i * rho * v2 in
  Ok (df + aeo))))).
(** The loop of add_acc_to, 590-617. *)
Definition add_mag (s : sys) (rad : nat -> R) (acc : nat -> vec) : outcome (nat -> vec) :=
  fold_left (fun oa i => obind oa (fun a => obind (mag_f s rad i) (fun f => obind (mag_v_rel s i) (fun w =>
      let a1 := upd a i (vsub (a i) (disk_term f w (sm s i))) in
      Ok (upd a1 0 (vadd (a1 0%nat) (disk_term f w (sm s 0%nat))))))))
    (seq 1 (sn s - 1)) (Ok acc).

(** * AlphaDisk *)
(** The lambdas and constants of add_acc_to, alpha-disk.hpp 75-101. *)
Definition I_sup (M logR : R) : R := (0.5 * ln (1 - 1 / M / M) + logR) / M / M.
(** alpha-disk.hpp:77. *)
Definition I_sub (M : R) : R := (0.5 * ln ((1 + M) / (1 - M)) - M) / M / M.
(** alpha-disk.hpp:78-80. *)
Definition dIdM_sup (M logR : R) : R := (- 2 * logR + 1 / (M * M - 1) - ln (1 - 1 / M / M)) / M / M / M.
(** alpha-disk.hpp:81-83. *)
Definition dIdM_sub (M : R) : R := (M * M * M + (1 - M * M) * ln ((1 + M) / (1 - M)) - 2 * M) / (M * M * M * (M * M - 1)).
(** alpha-disk.hpp:85. *)
Definition logR : R := 3.
(** alpha-disk.hpp:86. *)
Definition eps_a : R := 1 / exp (2 * logR / 3).
(** alpha-disk.hpp:87. *)
Definition x1a : R := 1 - eps_a.
(** alpha-disk.hpp:88. *)
Definition x2a : R := 1 + eps_a.
(** alpha-disk.hpp:89. *)
Definition y1a : R := I_sub x1a.
(** alpha-disk.hpp:90. *)
Definition y2a : R := I_sup x2a logR.
(** alpha-disk.hpp:91. *)
Definition k1a : R := dIdM_sub x1a.
(** alpha-disk.hpp:92. *)
Definition k2a : R := dIdM_sup x2a logR.
(** alpha-disk.hpp:93. *)
Definition aa : R := k1a * (x2a - x1a) - (y2a - y1a).
(** alpha-disk.hpp:94. *)
Definition ba : R := - k2a * (x2a - x1a) + (y2a - y1a).
(** alpha-disk.hpp:96-101. *)
Definition connect (M : R) : R :=
  let t := (M - x1a) / (x2a - x1a) in (1 - t) * y1a + y2a * t + (1 - t) * t * (t * ba + (1 - t) * aa).
(** The branch on the Mach number, 120-130. *)
Definition alpha_I (M : R) : R :=
  if Rlt_dec (1 + eps_a) M then (0.5 * ln (1 - 1 / (M * M)) + logR) / (M * M)
  else if Rlt_dec 0.1 M then
    if Rlt_dec M (1 - eps_a) then (0.5 * ln ((1 + M) / (1 - M)) - M) / (M * M)
    else if Rlt_dec M 0.1 then M / 3 else connect M
  else if Rlt_dec M 0.1 then M / 3 else connect M.
(** The static members Q, alpha, lambda and force, alpha-disk.hpp:39-42. *)
Record alpha_cfg := mkA { a_Q : R; a_alpha : R; a_lambda : R; a_force : Z }.
(** pow(x, 1.0/3); pow(0, 1/3) = 0, a negative base is not modelled. *)
Definition cbrt (x : R) : R := if Rlt_dec 0 x then Rpower x (1 / 3) else 0.
Definition alpha_Omega (r : vec) (M : R) : R :=                                  (* local_Omega_H, 45-52 *)
  let RR := polar_radius r in sqrt (M / (RR * RR * RR)).
(** local_Omega_H, alpha-disk.hpp:44-51 (the second component). *)
Definition alpha_H (c : alpha_cfg) (r : vec) (M : R) : R :=
  let M_dot := a_lambda c * 0.22 * (M / 1e7) / (2 * PI) in
  cbrt (a_Q c / 2 / a_alpha c * M_dot / M / alpha_Omega r M) * polar_radius r.
Definition alpha_rho (c : alpha_cfg) (r : vec) (M H : R) : R :=                  (* disk_rho, 54-59 *)
  let RR := polar_radius r in
  let rho0 := M / (2 * a_Q c * PI * RR * RR * RR) in
  rho0 * exp (- (vz r * vz r) / (2 * H * H)) * 1000.
(** disk_v, 61-66, is the one of the capture disk ([disk_v] in Force_Model.v). *)
Definition alpha_v_rel (s : sys) (i : nat) : vec :=
  vsub (vsub (sv s i) (sv s 0%nat)) (disk_v (vsub (sp s i) (sp s 0%nat)) (sm s 0%nat)).
(** add_acc_to, 103-146: the force magnitude of star i. *)
Definition alpha_f (c : alpha_cfg) (s : sys) (rad : nat -> R) (i : nat) : R :=
  let dr := vsub (sp s i) (sp s 0%nat) in
  let Omega := alpha_Omega dr (sm s 0%nat) in
  let H := alpha_H c dr (sm s 0%nat) in
  let v_rel := alpha_v_rel s i in
  let rho := alpha_rho c dr (sm s 0%nat) H in
  let v2 := dot v_rel v_rel in
  let cs := Omega * H in
  let Mach := sqrt v2 / cs in
  let I := if (0 <=? a_force c)%Z then alpha_I Mach else 0 in
  let df := I * 4 * PI * Gc * Gc * sm s i * sm s i / (cs * cs) * rho in
  let aeo := 4 * PI * rad i * rad i * rho * v2 in
  if (a_force c =? 1)%Z then df else if (a_force c =? -1)%Z then aeo else df + aeo.
(** The loop of add_acc_to, alpha-disk.hpp:103-143, with the updates 141-142 ([add_disk] in Force_Model.v). *)
Definition add_alpha (c : alpha_cfg) (s : sys) (rad : nat -> R) : (nat -> vec) -> nat -> vec :=
  add_disk s (alpha_f c s rad) (alpha_v_rel s).
