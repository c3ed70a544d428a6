(** Model of /repo/src/tools/auto-name.hpp: automatic file names.  Sequential calls; the clock is an argument of each call. *)
From Coq Require Export String Ascii ZArith List Lia.
From Coq Require Import DecimalString.
From Verif Require Export Base.
Export ListNotations.
Open Scope Z_scope.

(** The broken-down local time of the call, auto-name.hpp:18-19. *)
Record tm := mkTm { t_day : nat; t_mon : nat; t_year : nat; t_hour : nat; t_min : nat; t_sec : nat }.
(** One decimal digit as put_time prints it, auto-name.hpp:21. *)
Definition digit (n : nat) : ascii := ascii_of_nat (48 + Nat.modulo n 10).
(** Two digits with a leading zero (%d, %m, %H, %M, %S), auto-name.hpp:21. *)
Definition pad2 (n : nat) : string := String (digit (n / 10)) (String (digit n) EmptyString).
(** The year (%Y), auto-name.hpp:21; simplified to the years 1000 to 9999, which have four digits. *)
Definition pad4 (n : nat) : string := (pad2 (n / 100) ++ pad2 (n - 100 * (n / 100)))%string.
(** std::put_time(&tm, "%d-%m-%Y_%H:%M:%S"), auto-name.hpp:20-21. *)
Definition stamp (t : tm) : string :=
  (pad2 (t_day t) ++ "-" ++ pad2 (t_mon t) ++ "-" ++ pad4 (t_year t) ++ "_" ++ pad2 (t_hour t) ++ ":" ++ pad2 (t_min t) ++ ":" ++ pad2 (t_sec t))%string.
(** std::to_string(int), auto-name.hpp:26, 35. *)
Definition int_string (z : Z) : string := NilEmpty.string_of_int (Z.to_int z).
(** Largest int (32 bits), for the increment of auto-name.hpp:26. *)
Definition int_max : Z := 2147483647.
(** The two static variables, auto-name.hpp:15-16. *)
Record nstate := mkNs { ns_dup : Z; ns_last : string }.
(** Their initial values, auto-name.hpp:15-16. *)
Definition ns_init : nstate := mkNs 1 EmptyString.
(** auto_name, auto-name.hpp:14-32; the increment of a maximal int (26) is undefined behaviour. *)
Definition auto_name (s : nstate) (prefix : string) (t : tm) : outcome (string * nstate) :=
  let name := (prefix ++ stamp t)%string in
  if String.eqb name (ns_last s) then
    if ns_dup s =? int_max then UB
    else Ok ((name ++ "(" ++ int_string (ns_dup s) ++ ").dat")%string, mkNs (ns_dup s + 1) (ns_last s))
  else Ok ((name ++ ".dat")%string, mkNs 1 name).
(** A history of calls of auto_name in one process, auto-name.hpp:14-32: the names returned, in order. *)
Definition auto_names (h : list (string * tm)) : outcome (list string * nstate) :=
  fold_left (fun o c => obind o (fun r => obind (auto_name (snd r) (fst c) (snd c)) (fun q => Ok (fst r ++ [fst q], snd q)))) h (Ok ([], ns_init)).
(** make_name, auto-name.hpp:34-36. *)
Definition make_name (prefix : string) (suffix : Z) (extension : string) : string := (prefix ++ int_string suffix ++ extension)%string.
