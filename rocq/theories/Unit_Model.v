(** Model of the units and constants of /repo/src/macros.hpp (exact decimals; the constants themselves are binary64 in the program). *)
From Coq Require Export Reals.
From Verif Require Export Force_Model Star_Model.
Open Scope R_scope.

(** MAKE_UNIT, macros.hpp:41-44: the literal x_NAME is x * UNIT. *)
Definition literal (x unit : R) : R := x * unit.
(** macros.hpp:46-49 ([u_year] and [u_Ms] are in Star_Model.v). *)
Definition u_AU : R := 1.
(** unit::deg, macros.hpp:49. *)
Definition u_deg : R := u_pi / 180.
(** unit::kyr, macros.hpp:51. *)
Definition u_kyr : R := literal 1e3 u_year.
(** unit::Myr, macros.hpp:52. *)
Definition u_Myr : R := literal 1e6 u_year.
(** unit::Gyr, macros.hpp:53. *)
Definition u_Gyr : R := literal 1e9 u_year.
(** unit::month, macros.hpp:54. *)
Definition u_month : R := literal 1 u_year / 12.
(** unit::day, macros.hpp:55. *)
Definition u_day : R := literal 1 u_year / 365.25636042.
(** unit::hr, macros.hpp:56. *)
Definition u_hr : R := literal 1 u_day / 24.
(** unit::min, macros.hpp:57. *)
Definition u_min : R := literal 1 u_hr / 60.
(** unit::sec, macros.hpp:58. *)
Definition u_second : R := literal 1 u_min / 60.
(** unit::T_hubble, macros.hpp:59. *)
Definition u_hubble : R := literal 13.7 u_Gyr.
(** unit::kg, macros.hpp:61. *)
Definition u_kg : R := literal 1 u_Ms / 1.98847e30.
(** unit::mp, macros.hpp:62. *)
Definition u_mp : R := literal 1.67262192e-27 u_kg.
(** unit::m, macros.hpp:65 ([u_km], 64, is in Star_Model.v). *)
Definition u_m : R := literal 1 u_km / 1000.
(** unit::cm, macros.hpp:66. *)
Definition u_cm : R := u_m / 100.
(** unit::PC, macros.hpp:67. *)
Definition u_PC : R := literal 1 u_AU * 648000 / u_pi.
(** unit::Re, macros.hpp:69 ([u_Rs], 68, is in Star_Model.v). *)
Definition u_Re : R := literal 6378 u_km.
(** unit::Rj, macros.hpp:70. *)
Definition u_Rj : R := literal 69911 u_km.
(** unit::kms, macros.hpp:72. *)
Definition u_kms : R := u_km / u_second.
(** unit::cms, macros.hpp:73. *)
Definition u_cms : R := u_cm / u_second.
(** unit::Me, macros.hpp:74. *)
Definition u_Me : R := literal 3.003e-6 u_Ms.
(** unit::Mj, macros.hpp:75. *)
Definition u_Mj : R := literal 317.8 u_Me.
(** unit::Mmoon, macros.hpp:76. *)
Definition u_Mmoon : R := literal 0.0123 u_Me.
(** consts::C, macros.hpp:102. *)
Definition c_light : R := 299792.458 * u_kms.
(** consts::kB, macros.hpp:103. *)
Definition c_kB : R := 1.38064852e-23 * u_m * u_m * u_kg / u_second / u_second.
(** consts::kB_on_mp, macros.hpp:104. *)
Definition c_kB_on_mp : R := 9.294676266398779e-06.
