(** Specification vocabulary for the particle containers: a container is a sequence of particles with ids. *)
From Verif Require Import Text Part_Model.

(** What a history does to the sequence of particles ... *)
Definition seq_op {P} (dflt : P) (l : list P) (o : cop P) : list P :=
  match o with
  | Emplace p => l ++ [p]
  | Resize n => if n <=? length l then firstn n l else l ++ repeat dflt (n - length l)
  | Reserve _ => l
  | Clear => []
  end.
(** ... and to the ids: a new particle gets the current number as its id; resize adds ids 0. *)
Definition id_op {P} (l : list nat) (o : cop P) : list nat :=
  match o with
  | Emplace _ => l ++ [length l]
  | Resize n => if n <=? length l then firstn n l else l ++ repeat 0 (n - length l)
  | Reserve _ => l
  | Clear => []
  end.
(** Histories in which resize never enlarges the container ([k] is the current number). *)
Fixpoint never_grows {P} (k : nat) (ops : list (cop P)) : Prop :=
  match ops with
  | [] => True
  | Emplace _ :: t => never_grows (S k) t
  | Resize n :: t => n <= k /\ never_grows n t
  | Reserve _ :: t => never_grows k t
  | Clear :: t => never_grows 0 t
  end.
(** A printed value: no separator inside. *)
Definition plain (t : text) : Prop := ~ In comma t /\ ~ In newline t.
(** The cell belonging to a column name, from a list of named values. *)
Fixpoint cell (vals : list (string * text)) (name : text) : option text :=
  match vals with
  | [] => None
  | (n, v) :: r => if list_eq_dec ascii_dec (txt n) name then Some v else cell r name
  end.
Section Named.
Context {T : Type} (fmt : T -> text) (fmtn : nat -> text).
Local Open Scope string_scope.
Definition xyz (a b c : string) (v : v3 T) : list (string * text) := [(a, fmt (x3 v)); (b, fmt (y3 v)); (c, fmt (z3 v))]%list.
Definition named_pp (t : T) (id : nat) (p : pp T) : list (string * text) :=
  ([("id", fmtn id); ("mass", fmt (pp_mass p)); ("time", fmt t)] ++ xyz "px" "py" "pz" (pp_pos p) ++ xyz "vx" "vy" "vz" (pp_vel p))%list.
Definition named_sp (t : T) (id : nat) (p : sp T) : list (string * text) :=
  ([("id", fmtn id); ("mass", fmt (sp_mass p)); ("radius", fmt (sp_rad p)); ("time", fmt t)] ++ xyz "px" "py" "pz" (sp_pos p) ++ xyz "vx" "vy" "vz" (sp_vel p))%list.
Definition named_dp (t : T) (id : nat) (p : dp T) : list (string * text) :=
  ([("id", fmtn id); ("mass", fmt (dp_mass p)); ("sub_sonic_c", fmt (dp_sub p)); ("local_cs", fmt (dp_cs p)); ("time", fmt t)] ++ xyz "px" "py" "pz" (dp_pos p) ++ xyz "vx" "vy" "vz" (dp_vel p))%list.
Definition named_tp (t : T) (id : nat) (p : tp T) : list (string * text) :=
  ([("id", fmtn id); ("mass", fmt (tp_mass p)); ("radius", fmt (tp_rad p)); ("k_AM", fmt (tp_k p)); ("tau_lag", fmt (tp_tau p)); ("time", fmt t)] ++ xyz "px" "py" "pz" (tp_pos p) ++ xyz "vx" "vy" "vz" (tp_vel p))%list.
End Named.
