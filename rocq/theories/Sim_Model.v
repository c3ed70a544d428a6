(** Model of [hub::Simulator::run] and [hub::RunArgs] (/repo/src/simulator.hpp:57-213, 297-434).

    [W] is the whole mutable world: particle system, ODE iterator and everything captured by
    callbacks.  Callbacks, stop conditions and the ODE iterator are arbitrary functions on [W],
    so the theorems quantify over every integrator, particle system and callback.  (Data private to a
    stop condition object is not in [W]: line 320 copies the object for every check; see Own_Model, C70.)  Scalars are
    real numbers (no rounding).  Every interaction is recorded as an event in a trace; the
    trace is an observation, the code does not store it. *)
From Coq Require Export Reals.
From Verif Require Export Base.
Open Scope R_scope.

Record system (W : Type) := mkSystem {
  time : W -> R;                        (* particles_.time() *)
  step_scale : W -> R;                  (* particles_.step_scale() *)
  default_step : W -> R;                (* 379-382: 0.1 * calc_step_scale * calc_fall_free_time *)
  set_tols : R -> R -> W -> W;          (* 399-405: iterator_.set_atol / set_rtol *)
  pre_iter : W -> W;                    (* 431 *)
  iterate : R -> W -> R * W;            (* 432: new step size and new state *)
  post_iter : W -> W                    (* 433 *)
}.
Arguments time {W}. Arguments step_scale {W}. Arguments default_step {W}.
Arguments set_tols {W}. Arguments pre_iter {W}. Arguments iterate {W}. Arguments post_iter {W}.

Record run_args (W : Type) := mkArgs {
  step_size : R;                        (* 77 *)
  end_time : R;                         (* 82, set by 351-354 *)
  end_set : bool;                       (* 210 *)
  atol : R; rtol : R;                   (* 87, 92 *)
  time_rtol : R;                        (* 99 *)
  opts : list (R -> W -> W);            (* 202 *)
  stop_opts : list (R -> W -> W);       (* 204 *)
  start_opts : list (R -> W -> W);      (* 206 *)
  stop_cond : list (R -> W -> bool * W) (* 208; a condition gets a mutable reference too *)
}.
Arguments step_size {W}. Arguments end_time {W}. Arguments end_set {W}. Arguments atol {W}.
Arguments rtol {W}. Arguments time_rtol {W}. Arguments opts {W}. Arguments stop_opts {W}.
Arguments start_opts {W}. Arguments stop_cond {W}.

(** What simulator.hpp:297-321 and 430-434 call. *)
Inductive kind :=
| KStart (i : nat) | KOp (i : nat) | KStopOp (i : nat)   (* i-th registered callback *)
| KCond (i : nat) (b : bool)                             (* i-th condition returned b *)
| KStep.                                                 (* one integration step *)

(** One call of simulator.hpp:297-321 or 430-434 with the step size passed and the world before and after. *)
Record event (W : Type) := Ev { ek : kind; eh : R; before : W; after : W }.
Arguments Ev {W}. Arguments ek {W}. Arguments eh {W}. Arguments before {W}. Arguments after {W}.

Section Run.
Context {W : Type}.
Variable sys : system W.
Variable args : run_args W.
Variable hubble : R.    (* hub::unit::T_hubble, 384 *)

(** Callback loops 297-315; [i] numbers the callbacks. *)
Fixpoint call_all (mk : nat -> kind) (i : nat) (l : list (R -> W -> W)) (h : R) (w : W)
  : list (event W) * W :=
  match l with
  | [] => ([], w)
  | f :: l' => let w1 := f h w in
               let (tr, w2) := call_all mk (S i) l' h w1 in (Ev (mk i) h w w1 :: tr, w2)
  end.

(** [check_stops], 318-321: [std::any_of] stops at the first [true]. *)
Fixpoint check_stops (i : nat) (l : list (R -> W -> bool * W)) (h : R) (w : W)
  : bool * list (event W) * W :=
  match l with
  | [] => (false, [], w)
  | c :: l' => let (b, w1) := c h w in
               if b then (true, [Ev (KCond i true) h w w1], w1)
               else let '(r, tr, w2) := check_stops (S i) l' h w1 in
                    (r, Ev (KCond i false) h w w1 :: tr, w2)
  end.

(** [std::abs((time - end) / end) > tol], 411.  For [end = 0] the C++ quotient is infinite
    (greater than any tolerance) or, at [time = 0], NaN (comparison false). *)
Definition far (t e tol : R) : bool :=
  if Req_EM_T e 0 then (if Req_EM_T t 0 then false else true)
  else if Rlt_dec tol (Rabs ((t - e) / e)) then true else false.

(** [advance_one_step], 430-434. *)
Definition advance (h : R) (w : W) : R * W :=
  let (h', w1) := iterate sys h (pre_iter sys w) in (h', post_iter sys w1).

Definition the_end : R := if end_set args then end_time args else hubble.   (* 384-388 *)

(** 413-423: the step actually tried. *)
Definition chosen (h : R) (w : W) : R :=
  let rest := (the_end - time sys w) * step_scale sys w in
  if Rle_dec (Rabs h) (Rabs rest) then h else rest.

(** The loop 411-424 and the final calls 425-426; [None]: not finished within [fuel] rounds. *)
Fixpoint loop (fuel : nat) (h : R) (w : W) : option (list (event W) * W) :=
  match fuel with
  | O => None
  | S n =>
      let finish h w := let (t1, w1) := call_all KOp 0 (opts args) h w in
                        let (t2, w2) := call_all KStopOp 0 (stop_opts args) h w1 in
                        (t1 ++ t2, w2) in
      if far (time sys w) the_end (time_rtol args) then
        let '(stopped, tc, w1) := check_stops 0 (stop_cond args) h w in
        if stopped then let (t, w') := finish h w1 in Some (tc ++ t, w')
        else
          let h1 := chosen h w1 in
          let (tops, w2) := call_all KOp 0 (opts args) h1 w1 in
          let (h2, w3) := advance h1 w2 in
          match loop n h2 w3 with
          | Some (t, w') => Some (tc ++ tops ++ Ev KStep h1 w2 w3 :: t, w')
          | None => None
          end
      else Some (finish h w)
  end.

(** How simulator.hpp:372-427 ends: spacehub_abort (374), a return, or still in the loop 411. *)
Inductive result := Aborted | Returned (tr : list (event W)) (w : W) | Running.

Definition first_step (w : W) : R :=                                     (* 377-382 *)
  if Req_EM_T (step_size args) 0 then default_step sys w else step_size args.

Definition run (fuel : nat) (w : W) : result :=
  match stop_cond args, end_set args with
  | [], false => Aborted                                                 (* 373-375 *)
  | _, _ =>
      if Req_EM_T (step_scale sys w) 0 then Returned [] w                (* 394-397 *)
      else
        let h := first_step w in
        let w1 := set_tols sys (atol args) (rtol args) w in              (* 399-405 *)
        let (ts, w2) := call_all KStart 0 (start_opts args) h w1 in      (* 407 *)
        match loop fuel h w2 with
        | Some (t, w') => Returned (ts ++ t) w'
        | None => Running
        end
  end.
End Run.
Arguments Aborted {W}. Arguments Returned {W}. Arguments Running {W}.

(** * Specification vocabulary *)
(** Consecutive events fit together. *)
(** Specification vocabulary only; no counterpart in the code (trace of simulator.hpp:372-427). *)
Fixpoint linked {W} (w : W) (tr : list (event W)) (w' : W) : Prop :=
  match tr with
  | [] => w = w'
  | e :: tr' => before e = w /\ linked (after e) tr' w'
  end.

(** Every event did what it claims: the i-th callback/condition/step was really executed. *)
(** Specification vocabulary only (what simulator.hpp:297-321, 430-434 do at one event). *)
Definition faithful {W} (sys : system W) (args : run_args W) (e : event W) : Prop :=
  match ek e with
  | KStart i => exists f, nth_error (start_opts args) i = Some f /\ after e = f (eh e) (before e)
  | KOp i => exists f, nth_error (opts args) i = Some f /\ after e = f (eh e) (before e)
  | KStopOp i => exists f, nth_error (stop_opts args) i = Some f /\ after e = f (eh e) (before e)
  | KCond i b => exists c, nth_error (stop_cond args) i = Some c /\ c (eh e) (before e) = (b, after e)
  | KStep => after e = post_iter sys (snd (iterate sys (eh e) (pre_iter sys (before e))))
  end.

(** Specification vocabulary only (calls made by simulator.hpp:318-321). *)
Definition is_cond (k : kind) : bool := match k with KCond _ _ => true | _ => false end.
(** Specification vocabulary only (a call of simulator.hpp:297-321 without its states). *)
Definition kh {W} (e : event W) : kind * R := (ek e, eh e).
(** Specification vocabulary only (the loops simulator.hpp:297-315). *)
Definition calls (mk : nat -> kind) (n : nat) (h : R) : list (kind * R) :=
  map (fun i => (mk i, h)) (seq 0 n).
