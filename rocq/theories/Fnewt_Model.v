(** NewtonianGrav (/repo/src/interaction/newtonian.hpp) in floating-point arithmetic.
    Coordinates, masses and accelerations are numbers of a binary format (Kahan_Model: [prec] digits, least exponent [emin], round to nearest
    with any tie rule, no overflow); every operation of the lambda rounds, the square root included.
    Arrays are functions of the index as in Force_Model. *)
From Verif Require Export Kahan_Model Force_Model Fchain_Model.
Open Scope R_scope.

Section Fnewt.
Variables (emin prec : Z) (choice : Z -> bool).
Notation rnd := (rnd emin prec choice).
Notation fadd := (fadd emin prec choice).
Notation fsub := (fsub emin prec choice).
Notation fmul := (fmul emin prec choice).
(** norm, vector3.hpp:240-243: sqrt(v.x * v.x + v.y * v.y + v.z * v.z); the sums are evaluated from the left. *)
Definition fnorm (v : vec) : R := rnd (sqrt (fadd (fadd (fmul (vx v) (vx v)) (fmul (vy v) (vy v))) (fmul (vz v) (vz v)))).
(** r * r * r, newtonian.hpp:80. *)
Definition fcube (r : R) : R := fmul (fmul r r) r.
(** 1.0 / (r * r * r), newtonian.hpp:80. *)
Definition frr3 (r : R) : R := rnd (1 / fcube r).
(** dr.x * rr3 * m[j], newtonian.hpp:84-89. *)
Definition fterm (d rr3 m : R) : R := fmul (fmul d rr3) m.
(** One call force(dr, i, j): the displacement and the two particles (newtonian.hpp:78). *)
Definition fcall : Type := vec * nat * nat.
(** The lambda, newtonian.hpp:78-90. *)
Definition fforce (m : nat -> R) (acc : nat -> vec) (c : fcall) : nat -> vec :=
  let '(dr, i, j) := c in
  let rr3 := frr3 (fnorm dr) in
  let a := acc i in
  let acc1 := upd acc i (mkV (fadd (vx a) (fterm (vx dr) rr3 (m j))) (fadd (vy a) (fterm (vy dr) rr3 (m j))) (fadd (vz a) (fterm (vz dr) rr3 (m j)))) in
  let b := acc1 j in
  upd acc1 j (mkV (fsub (vx b) (fterm (vx dr) rr3 (m i))) (fsub (vy b) (fterm (vy dr) rr3 (m i))) (fsub (vz b) (fterm (vz dr) rr3 (m i)))).
(** add_acc_to, newtonian.hpp:92-117: all executions of the lambda in order. *)
Definition fadd_acc (m : nat -> R) (calls : list fcall) (acc : nat -> vec) : nat -> vec := fold_left (fforce m) calls acc.
(** The direct double loop, newtonian.hpp:112-116. *)
Definition fdirect (s : sys) : list fcall := map (fun ij => (fvsub emin prec choice (sp s (snd ij)) (sp s (fst ij)), fst ij, snd ij)) (all_pairs (sn s)).
(** The chain loops, newtonian.hpp:98-110, for at least two particles (Force_Model has the case of fewer). *)
Definition fchained (s : sys) (c : chn) : list fcall :=
  flat_map (fun i => map (fun j => (fvsub emin prec choice (sp s (ch_idx c j)) (sp s (ch_idx c i)), ch_idx c i, ch_idx c j)) (seq (i + 3) (sn s - (i + 3)))) (seq 0 (sn s))
  ++ map (fun i => (fvadd emin prec choice (ch_p c i) (ch_p c (i + 1)), ch_idx c i, ch_idx c (i + 2))) (seq 0 (sn s - 2))
  ++ map (fun i => (ch_p c i, ch_idx c i, ch_idx c (i + 1))) (seq 0 (sn s - 1)).
End Fnewt.
