(** Model of Bulirsch-Stoer.hpp built with BS_SUBSTEP_PARALLEL: the rows of the extrapolation table are integrated by two threads. *)
From Coq Require Import ZArith.
From Verif Require Export BS_Model.
Open Scope R_scope.

(** Shared objects of Bulirsch-Stoer.hpp:295-313 that two threads may touch: input_, the captured iter_h, extrap_list_[p]. *)
Inductive loc := LInput | LStep | LRow (p : nat).
(** One access of Bulirsch-Stoer.hpp:295-313: a write if the flag is set. *)
Definition access : Type := bool * loc.

Section Par.
  Variable max_try_num : nat.
  Variable M : nat.
  Variable kdk : bool.
  Notation N := (M + 1)%nat.
  Variable P : Type.
  Variable wr : P -> list R.
  Variable rd : P -> list R -> outcome P.
  Variable collect : P -> bool -> P.
  Variable run : P -> R -> nat -> outcome (P * list R).
  Variable err : list R -> list R -> list R -> R.
  Variable next : nat -> R -> R.
  Variable lim : nat -> R -> R.

  (** Where a thread is in integrate_with_stride, Bulirsch-Stoer.hpp:298-303: at the loop test and read_from_scalar_array, at clear_increment and
      integrate_by_n_steps, at the copy into the table, finished. *)
  Inductive phase := Test | Integrate | Copy (dy : list R) | Done.
  (** A thread: its own particle system ([executor.silent_async] copies it, executor.hpp:353-362; the caller passes a reference), the int p. *)
  Record thr := mkThr { t_sys : P; t_p : Z; t_ph : phase }.
  (** One step of integrate_with_stride(ptc, start, stride = 2), Bulirsch-Stoer.hpp:295-304: new table, new thread, accesses to shared objects. *)
  Definition tstep (input : list R) (h : R) (ext : list (list R)) (t : thr) : outcome (list (list R) * thr * list access) :=
    match t_ph t with
    | Test => if (t_p t <? 0)%Z then Ok (ext, mkThr (t_sys t) (t_p t) Done, [])
              else obind (rd (t_sys t) input) (fun s => Ok (ext, mkThr s (t_p t) Integrate, [(false, LInput)]))
    | Integrate => obind (bs_h N (Z.to_nat (t_p t))) (fun n => obind (run (t_sys t) h n) (fun '(s, dy) =>
              Ok (ext, mkThr s (t_p t) (Copy dy), [(false, LStep)])))
    | Copy dy => obind (aset ext (Z.to_nat (t_p t)) dy) (fun ext' =>
              Ok (ext', mkThr (t_sys t) (t_p t - 2)%Z Test, [(true, LRow (Z.to_nat (t_p t)))]))
    | Done => Ok (ext, t, [])
    end.
  (** The two threads of Bulirsch-Stoer.hpp:311-312: [k_async] (flag true) starts at ideal_rank_, the caller at ideal_rank_ + 1. *)
  Record conf := mkConf { k_ext : list (list R); k_async : thr; k_main : thr; k_log : list (bool * access) }.
  (** Bulirsch-Stoer.hpp:311-312. *)
  Definition pstart (ext : list (list R)) (p : P) (rank : nat) : conf :=
    mkConf ext (mkThr p (Z.of_nat rank) Test) (mkThr p (Z.of_nat (rank + 1)) Test) [].
  (** wait_for_all, Bulirsch-Stoer.hpp:313: both have returned. *)
  Definition finished (c : conf) : Prop := t_ph (k_async c) = Done /\ t_ph (k_main c) = Done.
  (** One step of the chosen thread (Bulirsch-Stoer.hpp:298-303), if it has not returned. *)
  Definition pstep (input : list R) (h : R) (c : conf) (who : bool) : option (outcome conf) :=
    let t := if who then k_async c else k_main c in
    match t_ph t with
    | Done => None
    | _ => Some (obind (tstep input h (k_ext c) t) (fun '(ext, t', acc) =>
             let l := k_log c ++ map (fun a => (who, a)) acc in
             Ok (if who then mkConf ext t' (k_main c) l else mkConf ext (k_async c) t' l)))
    end.
  (** An interleaving of the two threads of Bulirsch-Stoer.hpp:311-312. *)
  Fixpoint psched (input : list R) (h : R) (c : conf) (sched : list bool) : option (outcome conf) :=
    match sched with
    | [] => Some (Ok c)
    | w :: t => match pstep input h c w with
                | Some (Ok c') => psched input h c' t
                | r => r
                end
    end.
  (** Bulirsch-Stoer.hpp:330-333 (as [row_table], without the integration). *)
  Definition prow_table (b : bs) (input : list R) (h : R) (k : nat) : outcome (bs * R) :=
    obind (extrapolate N k (b_ext b)) (fun ext =>
    obind (aget ext 1) (fun e1 => obind (aget ext 0) (fun e0 =>
    let e := err input e1 e0 in
    obind (aset (b_ideal b) k (h * next (2 * k + 1) e)) (fun ideal =>
    obind (bs_cost N kdk k) (fun c =>
    obind (aset (b_cpl b) k (c / (h * next (2 * k + 1) e))) (fun cpl =>
    Ok (set_row b ext ideal cpl, e))))))).
  (** The loop over k, Bulirsch-Stoer.hpp:320-354, with lines 322-329 skipped. *)
  Fixpoint prows (fuel k : nat) (b : bs) (p : P) (input : list R) (h : R) : outcome (bs * P * rowres) :=
    match fuel with
    | O => Ok (b, p, Continue)
    | S f =>
      obind (prow_table b input h k) (fun '(b1, e) =>
      if in_converged_window b1 k then
        if Rle_dec e 1 then
          obind (aget (b_ext b1) 0) (fun e0 =>
          obind (rd p (zipw Rplus input e0)) (fun p3 =>
          let p4 := collect p3 false in
          obind (set_next_iteration M kdk (accept1 b1 e) k) (fun '(b2, new_h) =>
          Ok (not_first b2, p4, Accepted (h * lim (2 * k + 1) (new_h / h))))))
        else obind (is_diverged_anyhow M b1 e k) (fun d =>
          if d then obind (set_next_iteration M kdk (reject1 b1) k) (fun '(b2, new_h) =>
                    Ok (b2, p, Rejected (h * lim (2 * k + 1) (new_h / h))))
          else prows f (S k) b1 p input h)
      else prows f (S k) b1 p input h)
    end.
  (** The loop over i, Bulirsch-Stoer.hpp:307-356, with the interleaving [sch t] in the attempt that leaves t attempts; None: [sch t] is not a
      complete interleaving. *)
  Fixpoint pattempts (tries : nat) (sch : nat -> list bool) (b : bs) (p : P) (input : list R) (h : R) : option (outcome (bs * P * R)) :=
    match tries with
    | O => Some Abort
    | S t =>
      let b0 := count_try b in
      match psched input h (pstart (b_ext b0) p (b_rank b0)) (sch t) with
      | None => None
      | Some UB => Some UB
      | Some Abort => Some Abort
      | Some (Ok c) =>
        match t_ph (k_async c), t_ph (k_main c) with
        | Done, Done =>
          match prows (b_rank b0 + 1) 1 (set_row b0 (k_ext c) (b_ideal b0) (b_cpl b0)) (t_sys (k_main c)) input h with
          | UB => Some UB
          | Abort => Some Abort
          | Ok (b1, p2, Accepted h') => Some (Ok (b1, p2, h'))
          | Ok (b1, p2, Rejected h') => match rd p2 input with Ok p3 => pattempts t sch b1 p3 input h' | Abort => Some Abort | UB => Some UB end
          | Ok (b1, p2, Continue) => match rd p2 input with Ok p3 => pattempts t sch b1 p3 input h | Abort => Some Abort | UB => Some UB end
          end
        | _, _ => None
        end
      end
    end.
  (** iterate(particles, macro_step_size), Bulirsch-Stoer.hpp:286-358, provided the references held by integrate_with_stride are those of this call. *)
  Definition piterate (sch : nat -> list bool) (b : bs) (p : P) (h : R) : option (outcome (bs * P * R)) :=
    let input := wr p in pattempts max_try_num sch b (collect p true) input h.
End Par.

(** ** The lifetime of what integrate_with_stride refers to *)
(** integrate_with_stride is a static local (Bulirsch-Stoer.hpp:295): initialised by the first call of iterate on any iterator object of the same
    type, it keeps [&]-references to that call's iter_h and to that call's *this for the rest of the program.  [fr_iter_h] gives the storage that is
    alive: the iter_h of each call in progress. *)
Record prog := mkProg { g_lambda : option (nat * nat); g_alive : list nat; g_calls : nat }.
(** Before the first call (Bulirsch-Stoer.hpp:295).  *)
Definition prog0 : prog := mkProg None [] 0.
(** Entering iterate on object [o]: a new iter_h (288), and the initialisation of the static lambda (295) if this is the first time. *)
Definition enter (g : prog) (o : nat) : prog :=
  mkProg (match g_lambda g with None => Some (g_calls g, o) | l => l end) (g_calls g :: g_alive g) (S (g_calls g)).
(** Leaving the innermost call (345): its iter_h is gone. *)
Definition leave (g : prog) : prog := mkProg (g_lambda g) (tl (g_alive g)) (g_calls g).
(** The call of the lambda (311-312) in a call on object [o]: undefined if the iter_h it refers to is gone; otherwise the object whose extrap_list_
    and input_ it uses. *)
Definition use_lambda (g : prog) : outcome nat :=
  match g_lambda g with
  | Some (fr, o) => if existsb (Nat.eqb fr) (g_alive g) then Ok o else UB
  | None => UB
  end.
(** A whole program calling iterate (Bulirsch-Stoer.hpp:286) on the objects [os] one after the other: the outcome of the lambda's use in each call. *)
Fixpoint calls (g : prog) (os : list nat) : list (outcome nat) :=
  match os with
  | [] => []
  | o :: t => let g1 := enter g o in use_lambda g1 :: calls (leave g1) t
  end.
