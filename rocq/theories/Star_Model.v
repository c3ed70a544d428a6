(** Models of /repo/src/stellar/stellar.hpp, of the units it uses (/repo/src/macros.hpp) and of root_newton
    (/repo/src/math.hpp) over the reals. *)
From Coq Require Export Reals.
From Verif Require Export Base Force_Model.
From Coq Require Import Lra.
Open Scope R_scope.

(** consts::pi, macros.hpp:32. *)
Definition u_pi : R := 3.14159265358979323846.
(** unit::year, macros.hpp:48. *)
Definition u_year : R := 2 * u_pi.
(** unit::sec, macros.hpp:55-58. *)
Definition u_sec : R := u_year / 365.25636042 / 24 / 60 / 60.
(** unit::km with AU = 1, macros.hpp:46, 64. *)
Definition u_km : R := 1 / 149597870.7.
(** unit::Rs, macros.hpp:68. *)
Definition u_Rs : R := 695700 * u_km.
(** unit::Ms, macros.hpp:47. *)
Definition u_Ms : R := 1.
(** consts::C, macros.hpp:102 with unit::kms, macros.hpp:72. *)
Definition u_C : R := 299792.458 * (u_km / u_sec).
(** StarType, stellar.hpp:11. *)
Inductive star_type := BH | NS | STAR | WD.
(** pow(x, y), stellar.hpp:20, 22: only used on positive x here; pow of zero and of negative bases is simplified to 0. *)
Definition s_pow (x y : R) : R := if Rlt_dec 0 x then Rpower x y else 0.
(** stellar_radius, stellar.hpp:13-24. *)
Definition stellar_radius (t : star_type) (mass : R) : R :=
  match t with
  | BH => 2 * Gc * mass / u_C / u_C
  | NS => 10 * u_km
  | STAR => u_Rs * s_pow (mass / u_Ms) 0.75
  | WD => 0.01 * u_Rs * s_pow (u_Ms / mass) (1.0 / 3)
  end.

(** numeric_limits<double>::epsilon(), math.hpp:160-163, used at math.hpp:271. *)
Definition newton_eps : R := / 2 ^ 52.
(** The loop of root_newton, math.hpp:269-276; [left] iterations remain. *)
Fixpoint newton_loop (f : R -> R) (left : nat) (x0 x : R) : R :=
  match left with
  | O => x
  | S k => let x' := x0 - f x0 in if Rle_dec (Rabs (x' - x0)) newton_eps then x' else newton_loop f k x' x'
  end.
(** root_newton, math.hpp:263-278. *)
Definition root_newton (f : R -> R) : R := newton_loop f 1000 0 1.
