(** Model of the step controller and of the error checkers:
    /repo/src/ode-iterator/step-controller/PID-controller.hpp,
    /repo/src/ode-iterator/error-checker/{worst-offender,RMS,max-ratio-error}.hpp, and of the iterators
    /repo/src/ode-iterator/{const-iterator,sequent-iterator}.hpp.
    Scalars are reals extended with the IEEE special values (no rounding, no overflow, no signed zero:
    a zero divisor counts as +0).  [UB] is an index past the end of a table. *)
From Verif Require Export Vec.
From Coq Require Export Rpower.
Open Scope R_scope.

(** * Scalars with infinities and NaN: the double of PID-controller.hpp:41 (Scalar) *)
Inductive ext := Fin (r : R) | PInf | MInf | NaN.
(** The comparison > of doubles, used by math.hpp:87-90, 113-117. *)
Definition rgtb (a b : R) : bool := if Rlt_dec b a then true else false.
(** a > b (math.hpp:87-90, 113-117); false when an operand is NaN. *)
Definition egt (a b : ext) : bool :=
  match a, b with
  | NaN, _ | _, NaN => false
  | Fin x, Fin y => rgtb x y
  | PInf, PInf => false | PInf, _ => true
  | MInf, _ => false
  | Fin _, PInf => false | Fin _, MInf => true
  end.
(** a <= b (sequent-iterator.hpp:153); false when an operand is NaN. *)
Definition ele (a b : ext) : bool :=
  match a, b with
  | NaN, _ | _, NaN => false
  | _, _ => negb (egt a b)
  end.
(** Sign cases of IEEE multiplication and division (no line of its own; PID-controller.hpp:138-145 multiply and divide). *)
Definition esgn (r : R) (pos neg zero : ext) : ext :=
  if Rlt_dec 0 r then pos else if Rlt_dec r 0 then neg else zero.
(** The operator * of doubles, as used in PID-controller.hpp:138, 144-145, 157. *)
Definition emul (a b : ext) : ext :=
  match a, b with
  | NaN, _ | _, NaN => NaN
  | Fin x, Fin y => Fin (x * y)
  | Fin x, PInf | PInf, Fin x => esgn x PInf MInf NaN
  | Fin x, MInf | MInf, Fin x => esgn x MInf PInf NaN
  | PInf, PInf | MInf, MInf => PInf
  | PInf, MInf | MInf, PInf => MInf
  end.
(** The operator / of doubles, as used in PID-controller.hpp:138, 144-145, 157 and in the error checkers. *)
Definition ediv (a b : ext) : ext :=
  match a, b with
  | NaN, _ | _, NaN => NaN
  | Fin x, Fin y => if Req_EM_T y 0 then esgn x PInf MInf NaN else Fin (x / y)
  | Fin _, _ => Fin 0
  | PInf, Fin y => if Rlt_dec y 0 then MInf else PInf
  | MInf, Fin y => if Rlt_dec y 0 then PInf else MInf
  | _, _ => NaN
  end.
(** POW: std::pow.  A negative base with an exponent other than 0 and 1 is NaN here (std::pow is finite
    for further integral exponents; errors are never negative). *)
Definition epow (a : ext) (y : R) : ext :=
  if Req_EM_T y 0 then Fin 1 else
  match a with
  | NaN => NaN
  | Fin x => if Rlt_dec 0 x then Fin (Rpower x y)
             else if Req_EM_T x 0 then (if Rlt_dec 0 y then Fin 0 else PInf)
             else if Req_EM_T y 1 then Fin x else NaN
  | PInf => if Rlt_dec 0 y then PInf else Fin 0
  | MInf => NaN
  end.
(** math::in_range, math.hpp:113-117. *)
Definition in_range (low x high : ext) : ext :=
  let tmp := if egt low x then low else x in if egt tmp high then high else tmp.

(** * PIDController *)
Definition max_order : nat := 50.                                     (* PID-controller.hpp:43 *)
(** Members of PIDController, PID-controller.hpp:77-95. *)
Record pid := mkPid { c_max : list R; c_min : list R; c_exp : list R;
                      c_s1 : R; c_s2 : R; c_s3 : R; c_s4 : R; c_kp : R; c_ki : R; c_kd : R }.
(** Constructor, 163-173, with the default member initialisers 84-96. *)
Definition pid_new : pid :=
  let s3 := 0.02 in let s4 := 4 in
  mkPid (s4 :: map (fun i => Rpower (1 / s3) (1 / INR i)) (seq 1 (max_order - 1)))
        (1 / s4 :: map (fun i => Rpower s3 (1 / INR i) / s4) (seq 1 (max_order - 1)))
        (0 :: map (fun i => 1 / INR i) (seq 1 (max_order - 1)))
        0.65 0.95 s3 s4 0.7 0.4 0.
Definition set_PID_coefficients (c : pid) (kp ki kd : R) : pid :=     (* 110-113 *)
  mkPid (c_max c) (c_min c) (c_exp c) (c_s1 c) (c_s2 c) (c_s3 c) (c_s4 c) kp ki kd.
Definition set_safe_guards (c : pid) (s1 s2 : R) : pid :=             (* 115-119 *)
  mkPid (c_max c) (c_min c) (c_exp c) s1 s2 (c_s3 c) (c_s4 c) (c_kp c) (c_ki c) (c_kd c).
Definition set_limiter (c : pid) (s3 s4 : R) : pid :=                 (* 121-125: the tables stay as they are *)
  mkPid (c_max c) (c_min c) (c_exp c) (c_s1 c) (c_s2 c) s3 s4 (c_kp c) (c_ki c) (c_kd c).
(** limiter(order, ratio), 100-103; limiter(ratio), 105-108, is the case order = 0. *)
Definition limiter (c : pid) (order : nat) (ratio : ext) : outcome ext :=
  obind (aget (c_min c) order) (fun lo => obind (aget (c_max c) order) (fun hi => Ok (in_range (Fin lo) ratio (Fin hi)))).
Definition nonzero (e : ext) : bool :=                                (* e != 0.0; NaN != 0 holds *)
  match e with Fin r => if Req_EM_T r 0 then false else true | _ => true end.
(** next(order, errors), 134-152: arrays of one and of two errors; next(order, error), 154-161, is the
    first. *)
Inductive errors := Err1 (e : ext) | Err2 (e0 e1 : ext).
(** PID-controller.hpp:134-161. *)
Definition next (c : pid) (order : nat) (es : errors) : outcome ext :=
  match es with
  | Err1 e =>
    if nonzero e then obind (aget (c_exp c) order) (fun x => Ok (emul (Fin (c_s1 c)) (epow (ediv (Fin (c_s2 c)) e) x)))
    else obind (aget (c_max c) order) (fun m => Ok (Fin m))
  | Err2 e0 e1 =>
    if nonzero e0 then
      obind (aget (c_exp c) order) (fun x =>
      Ok (emul (emul (Fin (c_s1 c)) (epow (ediv (Fin (c_s2 c)) e0) (c_kp c * x))) (epow (ediv e1 (Fin (c_s2 c))) (c_ki c * x))))
    else obind (aget (c_max c) order) (fun m => Ok (Fin m))
  end.
Definition next_with_limiter (c : pid) (order : nat) (es : errors) : outcome ext :=   (* 127-131 *)
  obind (next c order es) (limiter c order).
(** Calls of the setters (PID-controller.hpp:110-125) between construction and use. *)
Inductive setter := SetPID (kp ki kd : R) | SetGuards (s1 s2 : R) | SetLimiter (s3 s4 : R).
(** One call of a setter, PID-controller.hpp:110-125. *)
Definition apply_setter (c : pid) (s : setter) : pid :=
  match s with SetPID a b d => set_PID_coefficients c a b d | SetGuards a b => set_safe_guards c a b | SetLimiter a b => set_limiter c a b end.
(** The constructor (PID-controller.hpp:163-173) followed by calls of setters (110-125). *)
Definition configured (l : list setter) : pid := fold_left apply_setter l pid_new.

(** * Error checkers.  [T] is Scalar ([mag] = fabs) or Vec3 ([mag] = max_abs). *)
(** math::max(x, y), math.hpp:87-90, and std::max(x, y): y > x ? y : x. *)
Definition emax (x y : ext) : ext := if egt y x then y else x.
Definition max_abs (v : vec) : R := Rmax (Rmax (Rabs (vx v)) (Rabs (vy v))) (Rabs (vz v)).   (* vector3.hpp:278-282 *)
Definition zip3 {T} (a b c : list T) : list (T * T * T) := combine (combine a b) c.
(** WorstOffender::error(y0, y1, y1_prime), worst-offender.hpp:80-101; arrays of equal length. *)
Definition wo_error {T} (mag : T -> R) (sub : T -> T -> T) (atol rtol : R) (y0 y1 y1' : list T) : ext :=
  fold_left (fun m '(a, b, b') => emax m (ediv (Fin (mag (sub b' b))) (Fin (atol + Rmax (mag b) (mag a) * rtol))))
            (zip3 y0 y1 y1') (Fin 0).
(** WorstOffender::error(y0, diff), 103-124. *)
Definition wo_error2 {T} (mag : T -> R) (atol rtol : R) (y0 diff : list T) : ext :=
  fold_left (fun m '(a, d) => emax m (ediv (Fin (mag d)) (Fin (atol + mag a * rtol)))) (combine y0 diff) (Fin 0).
(** RMS::error for arrays of Scalar, RMS.hpp:77-109 (the Vec3 branch compares a Vec3 with 0, for which
    there is no operator). *)
Definition rms_error (atol rtol : R) (y0 y1 y1' : list R) : ext :=
  let sum := fold_left (fun acc '(a, b, b') =>
               let scale := Rmax (Rabs a) (Rabs b) * rtol + atol in
               if Req_EM_T scale 0 then acc else acc + (Rabs (b - b') / scale) * (Rabs (b - b') / scale)) (zip3 y0 y1 y1') 0 in
  match ediv (Fin sum) (Fin (INR (length y0))) with Fin r => Fin (sqrt r) | other => other end.
(** MaxRatioError::error(scale, diff), max-ratio-error.hpp:121-141. *)
Definition mr_error2 {T} (mag : T -> R) (atol rtol : R) (scale diff : list T) : ext :=
  let '(md, ms) := fold_left (fun '(md, ms) '(s, d) => (Rmax md (mag d), Rmax ms (atol + mag s * rtol))) (combine scale diff) (0, 0) in
  ediv (Fin md) (Fin ms).
(** MaxRatioError::error(scale, y1, y1_prime), 143-163. *)
Definition mr_error {T} (mag : T -> R) (sub : T -> T -> T) (atol rtol : R) (scale y1 y1' : list T) : ext :=
  let '(md, ms) := fold_left (fun '(md, ms) '(s, b, b') => (Rmax md (mag (sub b' b)), Rmax ms (atol + mag s * rtol))) (zip3 scale y1 y1') (0, 0) in
  ediv (Fin md) (Fin ms).

(** * ConstOdeIterator::iterate, const-iterator.hpp:52-59 *)
Definition const_iterate {P} (integ : P -> R -> outcome P) (p : P) (h : R) : outcome (P * R) :=
  obind (integ p h) (fun p' => Ok (p', h)).

(** * SequentOdeIterator::iterate, sequent-iterator.hpp:105-160 *)
Section Sequent.
  Context {P : Type}.
  Variable wr : P -> list R.
  Variable rd : P -> list R -> outcome P.
  Variable integ : P -> R -> outcome P.
  Variable err : list R -> list R -> list R -> ext.        (* err_checker_.error *)
  Variable nxt : nat -> ext -> outcome ext.                (* step_ctrl_.next_with_limiter *)
  Variable order : nat.                                    (* Integrator::order *)
  Variable max_iter : nat.                                 (* max_iter_, 10 in the source *)
  Definition ns : list nat := [1; 2; 4; 6; 8; 10; 12; 14; 16; 18; 20; 22; 24]%nat.     (* 54 *)
  Fixpoint steps (n : nat) (p : P) (h : R) : outcome P :=  (* 146-148 *)
    match n with O => Ok p | S n' => obind (integ p h) (fun p' => steps n' p' h) end.
  (** bisec_error_scale * error, 150-151 (the scale is never infinite: ns increases and order > 0). *)
  Definition scaled_error (i i' : nat) (e : ext) : ext :=
    emul (Fin (1 / ((INR i / INR i') ^ order - 1))) e.
  (** The loop 143-157 from index [i]; [fuel] counts the iterations left.  Returns the particles, the
      last error and dual_steps_output_. *)
  Fixpoint seq_loop (fuel i : nat) (p : P) (input output dual : list R) (error : ext) (macro : R) : outcome (P * ext * list R) :=
    match fuel with
    | O => Ok (p, error, dual)
    | S f =>
      obind (aget ns i) (fun n =>
      obind (aget ns (i - 1)) (fun n' =>
      obind (rd p input) (fun q =>
      obind (steps n q (macro / INR n)) (fun p1 =>
      let dual1 := wr p1 in
      let e := scaled_error n n' (err input output dual1) in
      if ele e (Fin 1) then Ok (p1, e, dual1)
      else seq_loop f (i + 1) p1 input dual1 output e macro))))          (* std::swap(output_, dual_steps_output_) *)
    end.
  (** [dual0] is what dual_steps_output_ holds from an earlier call. *)
  Definition seq_iterate (dual0 : list R) (p : P) (macro : R) : outcome (P * ext) :=
    let input := wr p in
    obind (integ p macro) (fun p1 =>
    obind (seq_loop max_iter 1 p1 input (wr p1) dual0 (Fin 0) macro) (fun '(p2, e, dual) =>
    obind (rd p2 dual) (fun p3 =>
    obind (nxt order e) (fun r => Ok (p3, emul (Fin macro) r))))).
End Sequent.
