(** Model of the callable objects kept by [hub::RunArgs] (/repo/src/simulator.hpp:65-70, 202-208, 297-348) and
    of the slices used as such objects (/repo/src/args-callback/callbacks.hpp:304-371).
    A callable object is private data plus a body that may change it; everything it reaches by reference or
    pointer belongs to the world [W].  C++ objects are values here: passing one by value is a copy. *)
From Verif Require Export Sim_Model Slice_Model.
Open Scope R_scope.

(** simulator.hpp:65, 70: std::function<A(ParticleSys &, Scalar)> holding an object of some type [data]. *)
Record callable (W A : Type) := Callable { data : Type; value : data; body : data -> R -> W -> A * W * data }.
Arguments Callable {W A}. Arguments data {W A}. Arguments value {W A}. Arguments body {W A}.
(** std::function::operator() const as called at simulator.hpp:298-320: the target is called in place, its data may change. *)
Definition invoke {W A} (c : callable W A) (h : R) (w : W) : A * W * callable W A :=
  let '(a, w', d) := body c (value c) h w in (a, w', Callable (data c) d (body c)).

(** simulator.hpp:202-208 *)
Record stored (W : Type) := Stored { k_opts : list (callable W unit); k_stop : list (callable W unit);
                                     k_start : list (callable W unit); k_cond : list (callable W bool) }.
Arguments Stored {W}. Arguments k_opts {W}. Arguments k_stop {W}. Arguments k_start {W}. Arguments k_cond {W}.
(** The other members, simulator.hpp:77-99, 210. *)
Record config := Config { f_step : R; f_end : R; f_set : bool; f_atol : R; f_rtol : R; f_ttol : R }.

Section Own.
Context {W : Type}.
(** add_operation, add_stop_point_operation, add_start_point_operation, add_stop_condition, 323-348: the object is
    copied (Func func, std::bind) and appended; no extra arguments are bound. *)
Definition add_operation (a : stored W) f := Stored (k_opts a ++ [f]) (k_stop a) (k_start a) (k_cond a).      (* 325-327 *)
Definition add_stop_point (a : stored W) f := Stored (k_opts a) (k_stop a ++ [f]) (k_start a) (k_cond a).     (* 331-334 *)
Definition add_start_point (a : stored W) f := Stored (k_opts a) (k_stop a) (k_start a ++ [f]) (k_cond a).    (* 338-341 *)
Definition add_condition (a : stored W) f := Stored (k_opts a) (k_stop a) (k_start a) (k_cond a ++ [f]).      (* 345-348 *)
Definition no_callbacks : stored W := Stored [] [] [] [].                                                     (* 202-208 *)

(** The call opt(particle_system, step_size) of 298-300, 304-306, 311-313: [opt] is a reference into the vector. *)
Definition call_stored (l : list (callable W unit)) (i : nat) (h : R) (w : W) : list (callable W unit) * W :=
  match nth_error l i with
  | Some c => let '(_, w', c') := invoke c h w in (list_set l i c', w')
  | None => (l, w)
  end.
Definition opt_at (i : nat) (h : R) (e : W * stored W) : W * stored W :=                (* 297-301 *)
  let (l, w) := call_stored (k_opts (snd e)) i h (fst e) in (w, Stored l (k_stop (snd e)) (k_start (snd e)) (k_cond (snd e))).
Definition stop_at (i : nat) (h : R) (e : W * stored W) : W * stored W :=               (* 303-308 *)
  let (l, w) := call_stored (k_stop (snd e)) i h (fst e) in (w, Stored (k_opts (snd e)) l (k_start (snd e)) (k_cond (snd e))).
Definition start_at (i : nat) (h : R) (e : W * stored W) : W * stored W :=              (* 310-315 *)
  let (l, w) := call_stored (k_start (snd e)) i h (fst e) in (w, Stored (k_opts (snd e)) (k_stop (snd e)) l (k_cond (snd e))).
(** 319-320: the lambda takes [auto cond], i.e. calls a copy and throws the copy away. *)
Definition cond_at (i : nat) (h : R) (e : W * stored W) : bool * (W * stored W) :=
  match nth_error (k_cond (snd e)) i with
  | Some c => let '(b, w', _) := invoke c h (fst e) in (b, (w', snd e))
  | None => (false, e)
  end.

(** The run of Sim_Model (simulator.hpp:372-427) in the world extended by the RunArgs object. *)
Definition widen (sys : system W) : system (W * stored W) :=
  mkSystem (W * stored W) (fun e => time sys (fst e)) (fun e => step_scale sys (fst e)) (fun e => default_step sys (fst e))
    (fun a r e => (set_tols sys a r (fst e), snd e)) (fun e => (pre_iter sys (fst e), snd e))
    (fun h e => let (h', w) := iterate sys h (fst e) in (h', (w, snd e))) (fun e => (post_iter sys (fst e), snd e)).
Definition args_of (f : config) (a : stored W) : run_args (W * stored W) :=             (* 77-99, 202-210 *)
  mkArgs (W * stored W) (f_step f) (f_end f) (f_set f) (f_atol f) (f_rtol f) (f_ttol f)
    (map opt_at (seq 0 (length (k_opts a)))) (map stop_at (seq 0 (length (k_stop a))))
    (map start_at (seq 0 (length (k_start a)))) (map cond_at (seq 0 (length (k_cond a)))).
Definition own_run (sys : system W) (f : config) (hubble : R) (fuel : nat) (w : W) (a : stored W) : result :=  (* 372-427 *)
  run (widen sys) (args_of f a) hubble fuel (w, a).

(** A function without data. *)
Definition plain {A} (g : R -> W -> A * W) : callable W A :=
  Callable unit tt (fun d h w => let (a, w') := g h w in (a, w', d)).                   (* simulator.hpp:65 from a plain function *)
(** StepSlice over a plain operation, callbacks.hpp:352-358, 362-371 (interval at least 1). *)
Definition step_sliced {A} (none : A) (n : nat) (g : R -> W -> A * W) : callable W A :=
  Callable nat 0%nat (fun k h w => if (k mod n =? 0)%nat then let (a, w') := g h w in (a, w', S k) else (none, w, S k)).
(** TimeSlice over a plain operation, callbacks.hpp:312-334; [clock] is ptc.time(). *)
Definition time_sliced {A} (clock : W -> R) (none : A) (s : time_slice) (g : R -> W -> A * W) : callable W A :=
  Callable time_slice s (fun d h w => let (b, d') := ts_call d (clock w) in
    if b then let (a, w') := g h w in (a, w', d') else (none, w, d')).
End Own.
