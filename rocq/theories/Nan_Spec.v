(** Specification vocabulary for special values. *)
From Verif Require Export Nan_Model.
Open Scope R_scope.

(** An ordinary number. *)
Definition finite (e : ext) : Prop := exists r, e = Fin r.
(** An array of ordinary numbers, and a table of such arrays. *)
Definition fin (l : list R) : list ext := map Fin l.
(** A vector none of whose components is a number. *)
Definition nanv : evec := mkE NaN NaN NaN.
(** A vector of ordinary numbers. *)
Definition efin (v : vec) : evec := mkE (Fin (vx v)) (Fin (vy v)) (Fin (vz v)).
(** The special-value state that holds the ordinary numbers of a real-number state. *)
Definition emb_st (s : st) : xst := mkXs (fin (s_m s)) (Fin (s_t s)) (map efin (s_p s)) (map efin (s_v s)) (fin (s_inc s)) (s_sync s).
Definition emb_bs (b : bs) : xbs :=
  mkX (map fin (b_ext b)) (fin (b_ideal b)) (fin (b_cpl b)) (Fin (b_last b)) (b_rank b) (b_rej b) (b_iter b) (b_reject b) (b_first b).
Definition emb_out (o : outcome (bs * st * R)) : outcome (xbs * xst * ext) :=
  match o with Ok (b, s, h) => Ok (emb_bs b, emb_st s, Fin h) | Abort => Abort | UB => UB end.
(** No two particles at the same place. *)
Definition apart (p : list vec) : Prop := forall i j, (i < j < length p)%nat -> nth i p vzero <> nth j p vzero.
(** Two entries of the particle list with the same position and velocity (the same particle added twice), all numbers ordinary. *)
Definition duplicated (m : list R) (p v : list vec) : Prop :=
  length p = length m /\ length v = length m /\
  exists i j, (i < j < length m)%nat /\ nth i p vzero = nth j p vzero /\ nth i v vzero = nth j v vzero.
(** Nothing is left of the state but the time and the masses. *)
Definition lost (s : xst) : Prop := Forall (eq nanv) (xs_p s) /\ Forall (eq nanv) (xs_v s).
(** Consecutive calls with requested steps [hs]. *)
Fixpoint calls {B S : Type} (call : B -> S -> ext -> outcome (B * S * ext)) (hs : list R) (b : B) (s : S) : outcome (B * S) :=
  match hs with
  | [] => Ok (b, s)
  | h :: r => obind (call b s (Fin h)) (fun '(b', s', _) => calls call r b' s')
  end.
(** * The real-number reading of the same computation *)
From Verif Require Export Ctrl_Spec.
(** Two entries at the same place, among the [n] particles. *)
Definition collides (n : nat) (p : list vec) : bool :=
  existsb (fun ij => let a := nth (fst ij) p vzero in let b := nth (snd ij) p vzero in
                     if Req_EM_T (vx a) (vx b) then if Req_EM_T (vy a) (vy b) then if Req_EM_T (vz a) (vz b) then true else false else false else false) (all_pairs n).
(** Sub-steps on the real numbers, undefined if a force is evaluated with two particles at one place. *)
Fixpoint safe_ops (h : R) (l : list op) (s : st) : outcome st :=
  match l with
  | [] => Ok s
  | D c :: l' => safe_ops h l' (drift s (c * h))
  | K c :: l' => if collides (length (s_m s)) (s_p s) then UB else safe_ops h l' (kick newton_only s (c * h))
  end.
Definition safe_run (kdk : bool) (s : st) (h : R) (n : nat) : outcome (st * list R) :=
  match n with O => UB | _ => obind (safe_ops (h / INR n) (nsteps_ops kdk n) (clear_increment s)) (fun s' => Ok (s', s_inc s')) end.
(** The worst offender, the step factor and the limits on the real numbers. *)
Definition worst (atol rtol : R) (y0 y1 y1' : list R) : R :=
  fold_left (fun m '(a, b, b') => Rmax m (Rabs (b' - b) / (atol + Rmax (Rabs b) (Rabs a) * rtol))) (zip3 y0 y1 y1') 0.
Definition real_next (s1 s2 : R) (o : nat) (e : R) : R := if Req_EM_T e 0 then high_factor o else s1 * Rpower (s2 / e) (1 / INR o).
Definition real_limit (o : nat) (r : R) : R := clamp (low_factor o) (high_factor o) r.
Definition real_call (tries M : nat) (kdk : bool) (atol rtol s1 s2 : R) (b : bs) (s : st) (h : R) : outcome (bs * st * R) :=
  iterate tries M kdk st (write newton_only) (read newton_only) set_sync (safe_run kdk) (worst atol rtol) (real_next s1 s2) real_limit b s h.
