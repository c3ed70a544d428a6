(** The index computation of MagnetoDisk::interpolate (magneto-disk.hpp:571-573) for the table lgM in binary64
    (round to nearest even, no extended precision). *)
From Coq Require Import Reals ZArith List.
From Flocq Require Import Core.
From Verif Require Import Disk_Tables Disk_Model.
Open Scope R_scope.
(** The rounding of each double operation of magneto-disk.hpp:573. *)
Definition r64 (x : R) : R := round radix2 (FLT_exp (-1074) 53) ZnearestE x.
(** The values a double argument of magneto-disk.hpp:572 can take (finite ones). *)
Definition is64 (x : R) : Prop := generic_format radix2 (FLT_exp (-1074) 53) x.
(** A literal of the table _GDF_lgM of magneto-disk.hpp as the compiler reads it (used at 573). *)
Definition lit64 (i : nat) : R := r64 (nth i t_lgM 0).
(** int((x - x0) / (x1 - x0)). *)
Definition index64 (x : R) : Z := trunc (r64 (r64 (x - lit64 0) / r64 (lit64 1 - lit64 0))).
