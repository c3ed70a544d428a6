(** Gaseous dynamical friction (Ostriker 1999) with Coulomb logarithm 3, for the alpha disk. *)
From Coq Require Import Reals.
From Verif Require Import Vec Force_Model Disk_Model.
Open Scope R_scope.
Definition ostriker_subsonic (M : R) : R := (1 / 2 * ln ((1 + M) / (1 - M)) - M) / (M * M).
Definition ostriker_supersonic (M : R) : R := (1 / 2 * ln (1 - 1 / (M * M)) + 3) / (M * M).
(** The transition is centred on Mach one and has half width e^-2. *)
Definition width : R := exp (-2).
(** f has a continuous derivative on (a, infinity). *)
Definition C1_above (f : R -> R) (a : R) : Prop :=
  exists d, forall x, a < x -> derivable_pt_lim f x (d x) /\ continuity_pt d x.
(** Friction (4 pi G^2 m^2 rho I / cs^2) and ram pressure (4 pi r^2 rho v^2) on star i. *)
Definition friction (c : alpha_cfg) (s : sys) (i : nat) (coef : R -> R) : R :=
  let dr := vsub (sp s i) (sp s 0%nat) in
  let H := alpha_H c dr (sm s 0%nat) in let cs := alpha_Omega dr (sm s 0%nat) * H in
  4 * PI * Gc * Gc * (sm s i * sm s i) * alpha_rho c dr (sm s 0%nat) H * coef (norm (alpha_v_rel s i) / cs) / (cs * cs).
Definition ram (c : alpha_cfg) (s : sys) (rad : nat -> R) (i : nat) : R :=
  let dr := vsub (sp s i) (sp s 0%nat) in
  4 * PI * (rad i * rad i) * alpha_rho c dr (sm s 0%nat) (alpha_H c dr (sm s 0%nat)) * norm2 (alpha_v_rel s i).
