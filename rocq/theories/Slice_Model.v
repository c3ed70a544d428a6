(** Model of the output callbacks (/repo/src/args-callback/callbacks.hpp:301-483):
    StepSlice, TimeSlice, LogTimeSlice, DefaultWriter, EnergyErrWriter.
    Scalars are real numbers.  A call is described by whether the wrapped operation is run. *)
From Coq Require Export Reals.
From Verif Require Export Base.
Open Scope R_scope.

(** * StepSlice, callbacks.hpp:346-377 ([step_] starts at 0, line 170 ff.). *)
Record step_slice := mkSS { ss_step : nat; ss_interval : nat }.
Definition ss_make (n : nat) : step_slice := mkSS 0 n.                      (* 347-348 *)
(** 352-358 (and the bool variant 362-371): [step_ % step_interval_] with interval 0 is UB. *)
Definition ss_call (s : step_slice) : outcome (bool * step_slice) :=
  match ss_interval s with
  | O => UB
  | S _ => Ok ((Nat.modulo (ss_step s) (ss_interval s) =? 0)%nat, mkSS (S (ss_step s)) (ss_interval s))
  end.
(** Which of [m] consecutive calls ran the operation. *)
(** callbacks.hpp:352-358 called m times. *)
Fixpoint ss_calls (m : nat) (s : step_slice) : outcome (list bool) :=
  match m with
  | O => Ok []
  | S m' => obind (ss_call s) (fun r => obind (ss_calls m' (snd r)) (fun l => Ok (fst r :: l)))
  end.

(** reset_slice_params, 374-377: the counter restarts too. *)
Definition ss_reset (s : step_slice) (n : nat) : step_slice := mkSS 0 n.
(** A history of calls with parameter changes in between: [None] is a call, [Some n] a reset to the interval n; the answers of the calls.
    callbacks.hpp:352-377. *)
Fixpoint ss_hist (os : list (option nat)) (s : step_slice) : outcome (list bool) :=
  match os with
  | [] => Ok []
  | None :: r => obind (ss_call s) (fun q => obind (ss_hist r (snd q)) (fun l => Ok (fst q :: l)))
  | Some n :: r => ss_hist r (ss_reset s n)
  end.

(** * TimeSlice, callbacks.hpp:304-341. *)
Record time_slice := mkTS { ts_next : R; ts_end : R; ts_int : R }.
Definition ts_make (st en : R) (n : nat) : time_slice := mkTS st en ((en - st) / INR n).  (* 305-308 *)
(** 312-320, 324-334. *)
Definition ts_call (s : time_slice) (t : R) : bool * time_slice :=
  if Rle_dec (ts_next s) t then
    if Rle_dec t (ts_end s) then (true, mkTS (ts_next s + ts_int s) (ts_end s) (ts_int s))
    else (false, s)
  else (false, s).
(** reset_slice_params, 336-341. *)
Definition ts_reset (s : time_slice) (st en : R) (n : nat) : time_slice := mkTS st en ((en - st) / INR n).
(** The times at which the operation ran, for a list of call times. *)
(** callbacks.hpp:312-320 called once per element. *)
Fixpoint ts_calls (s : time_slice) (ts : list R) : list R * time_slice :=
  match ts with
  | [] => ([], s)
  | t :: ts' => let (b, s1) := ts_call s t in
                let (l, s2) := ts_calls s1 ts' in (if b then t :: l else l, s2)
  end.

(** * LogTimeSlice, callbacks.hpp:382-428. *)
Record log_slice := mkLS { ls_next : R; ls_start : R; ls_end : R; ls_q : R }.
(** 383-391; POW is std::pow, on a positive base [Rpower]. *)
Definition ls_make (st en : R) (n : nat) : log_slice :=
  let q := Rpower (en - st) (1 / INR n) in mkLS (st + q) st en q.
(** 424-428: does not update [start_time_]. *)
Definition ls_reset (s : log_slice) (st en : R) (n : nat) : log_slice :=
  let q := Rpower (en - st) (1 / INR n) in mkLS (st + q) (ls_start s) en q.
(** The do-while loop 400-402; [None]: not left within [fuel] iterations. *)
Fixpoint ls_advance (fuel : nat) (s : log_slice) (t : R) : option log_slice :=
  match fuel with
  | O => None
  | S k => let s1 := mkLS ((ls_next s - ls_start s) * ls_q s + ls_start s) (ls_start s) (ls_end s) (ls_q s) in
           if Rle_dec (ls_next s1) t then ls_advance k s1 t else Some s1
  end.
(** 395-405, 409-421. *)
Definition ls_call (fuel : nat) (s : log_slice) (t : R) : option (bool * log_slice) :=
  if Rle_dec (ls_next s) t then
    if Rle_dec t (ls_end s) then
      match ls_advance fuel s t with Some s1 => Some (true, s1) | None => None end
    else Some (false, s)
  else Some (false, s).
(** Histories of returning calls: [ls_runs s ts fired s']. *)
(** callbacks.hpp:395-405 called once per element. *)
Inductive ls_runs : log_slice -> list R -> list R -> log_slice -> Prop :=
| lsr_nil s : ls_runs s [] [] s
| lsr_cons s t fuel b s1 ts l s2 : ls_call fuel s t = Some (b, s1) -> ls_runs s1 ts l s2 ->
    ls_runs s (t :: ts) (if b then t :: l else l) s2.

(** * DefaultWriter, callbacks.hpp:433-458.
    The file is a list of blocks.  Copies of a writer (std::bind copies callbacks) share the
    stream (shared_ptr) but have their own [header] flag; [tellp() == 0] holds iff nothing has
    been written.  Assumption: column names are not an empty string. *)
Inductive block := Header | Row (r : nat) | Raw (r : nat).
(** callbacks.hpp:433-458: the shared stream and the header flag of each copy. *)
Record dw := mkDW { dw_file : list block; dw_header : list bool (* one flag per copy *) }.
Inductive dw_op := DwCall (copy : nat) (row : nat)   (* writer(ptc, h) *)
                 | DwCopy (copy : nat)               (* copy construct a new writer *)
                 | DwRaw (row : nat).                (* writer << d, 454-458 (non-empty text) *)
Definition is_empty {A} (l : list A) : bool := match l with [] => true | _ => false end.
Definition dw_step (s : dw) (o : dw_op) : option dw :=
  match o with
  | DwCall c r =>                                                           (* 441-452 *)
      match nth_error (dw_header s) c with
      | None => None
      | Some true => Some (mkDW (dw_file s ++ [Row r]) (dw_header s))
      | Some false =>
          Some (mkDW ((if is_empty (dw_file s) then dw_file s ++ [Header] else dw_file s) ++ [Row r])
                     (list_set (dw_header s) c true))
      end
  | DwCopy c => match nth_error (dw_header s) c with
                | Some b => Some (mkDW (dw_file s) (dw_header s ++ [b]))
                | None => None
                end
  | DwRaw r => Some (mkDW (dw_file s ++ [Raw r]) (dw_header s))
  end.
(** callbacks.hpp:441-458, a history of calls. *)
Fixpoint dw_run (s : dw) (os : list dw_op) : option dw :=
  match os with
  | [] => Some s
  | o :: os' => match dw_step s o with Some s' => dw_run s' os' | None => None end
  end.
(** callbacks.hpp:433-439, just constructed. *)
Definition dw_new : dw := mkDW [] [false].

(** * EnergyErrWriter, callbacks.hpp:472-476, with calc_energy_error (core-computation.hpp:627,
    systems without regularisation).  The reference [E0] is a function-local static of the
    member template, i.e. one variable for all writers used with the same particle system
    type.  A call is (writer id, time, total energy); the output is (writer, time, error). *)
Definition energy_error (E E0 : R) : R := Rabs ((E - E0) / E0).
(** callbacks.hpp:472-476, a history of calls. *)
Fixpoint ew_run (E0 : option R) (calls : list (nat * R * R)) : list (nat * R * R) :=
  match calls with
  | [] => []
  | (w, t, E) :: cs =>
      let e0 := match E0 with Some e => e | None => E end in
      (w, t, energy_error E e0) :: ew_run (Some e0) cs
  end.
