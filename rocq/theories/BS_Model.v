(** Model of /repo/src/ode-iterator/Bulirsch-Stoer.hpp.
    Scalars are reals.  The particle system, error estimator and step controller are parameters:
    every theorem ranges over all of them.  All arrays of one call have the length of the state array
    (the case of re-using one iterator for a smaller system, which leaves longer arrays, is not
    modelled).  [UB] is an index past the end of one of the iterator's tables. *)
From Verif Require Export System_Model.
Open Scope R_scope.

(** * BulirschStoerConsts, 189-220; [N] is its MaxIter, i.e. max_depth + 1 *)
Definition bs_seq : list nat := [1; 2; 3; 5; 8; 12; 17; 25; 36; 51; 73]%nat.
(** h_[i], Bulirsch-Stoer.hpp:194-201. *)
Definition h_at (N i : nat) : nat := if (N <=? 11)%nat then nth i bs_seq 0%nat else (i + 1)%nat.
(** h(i), Bulirsch-Stoer.hpp:64, with the bound of the array (80). *)
Definition bs_h (N i : nat) : outcome nat := if (i <? N)%nat then Ok (h_at N i) else UB.
(** cost_[i], Bulirsch-Stoer.hpp:202-206. *)
Fixpoint cost_at (N : nat) (kdk : bool) (i : nat) : nat :=
  match i with
  | O => (h_at N 0 + Nat.b2n kdk * 2)%nat
  | S i' => (cost_at N kdk i' + h_at N i + Nat.b2n kdk * 2)%nat
  end.
(** cost(i), Bulirsch-Stoer.hpp:62, with the bound of the array (77). *)
Definition bs_cost (N : nat) (kdk : bool) (i : nat) : outcome R := if (i <? N)%nat then Ok (INR (cost_at N kdk i)) else UB.
(** extrap_coef_[at(i, j)], Bulirsch-Stoer.hpp:208-218. *)
Definition coef_at (N i j : nat) : R :=
  if (j <? i)%nat then
    let nj2 := INR (h_at N (i - j - 1) * h_at N (i - j - 1)) in
    let ni2 := INR (h_at N i * h_at N i) in nj2 / (ni2 - nj2)
  else 0.
(** table_coef: flat index i * MaxIter + j into MaxIter^2 entries. *)
Definition bs_coef (N i j : nat) : outcome R := if (i * N + j <? N * N)%nat then Ok (coef_at N i j) else UB.
Definition dec_factor : R := 0.8.                                    (* 58-60 *)
Definition inc_factor : R := 0.9.

(** Element-wise combination of two arrays of one length: the inner loop of 436-439 and calc::array_advance(dst, inc) of 339 (core-computation.hpp:355-361). *)
Definition zipw (f : R -> R -> R) (a b : list R) : list R := map (fun xy => f (fst xy) (snd xy)) (combine a b).
(** extrapolate, 433-441: [for (j = k; j > 0; --j) list[j-1] = list[j] + (list[j] - list[j-1]) * coef(k, k-j)]. *)
Fixpoint extrap_loop (N k j : nat) (ext : list (list R)) : outcome (list (list R)) :=
  match j with
  | O => Ok ext
  | S j' =>
    obind (bs_coef N k (k - j)) (fun c =>
    obind (aget ext j) (fun a =>
    obind (aget ext j') (fun b =>
    obind (aset ext j' (zipw (fun x y => x + (x - y) * c) a b)) (extrap_loop N k j'))))
  end.
(** extrapolate(k), Bulirsch-Stoer.hpp:433-441 (entry of the loop, j = k). *)
Definition extrapolate (N k : nat) (ext : list (list R)) : outcome (list (list R)) := extrap_loop N k k ext.

(** * Iterator state *)
(** Members of BulirschStoer, Bulirsch-Stoer.hpp:148-178 (extrap_list_, ideal_step_size_, cost_per_len_, last_error_, ideal_rank_, rej_num_, iter_num_, step_reject_, first_step_). *)
Record bs := mkB { b_ext : list (list R); b_ideal : list R; b_cpl : list R; b_last : R; b_rank : nat;
                   b_rej : nat; b_iter : nat; b_reject : bool; b_first : bool }.
(** Default member initialisers, 160-185; [M] is max_depth. *)
Definition bs_init (M : nat) : bs :=
  mkB (repeat [] (M + 1)) (repeat 0 (M + 1)) (repeat 0 (M + 1)) 1 (M - 1) 0 0 false true.

Section BS.
  Variable max_try_num : nat.               (* 100 in the source (line 103); the theorems hold for every value *)
  Variable M : nat.                         (* max_depth *)
  Variable kdk : bool.                      (* Integrator is LeapFrogKDK *)
  Notation N := (M + 1)%nat.
  (** math::in_range(2, i, max_depth - 1), 449. *)
  Definition allowed (i : nat) : nat :=
    let tmp := if (i <? 2)%nat then 2%nat else i in if (M - 1 <? tmp)%nat then (M - 1)%nat else tmp.
  Definition in_converged_window (b : bs) (k : nat) : bool :=          (* 444 *)
    (k =? b_rank b - 1)%nat || (k =? b_rank b)%nat || (k =? b_rank b + 1)%nat || b_first b.
  (** 454-464. *)
  Definition get_next_step_len (b : bs) (k_new k : nat) : outcome R :=
    if (k_new <=? k)%nat then aget (b_ideal b) k_new
    else if (k_new =? k + 1)%nat then
      obind (aget (b_ideal b) k) (fun s => obind (bs_cost N kdk (k + 1)) (fun c1 => obind (bs_cost N kdk k) (fun c => Ok (s * c1 / c))))
    else Abort.
  (** Assignment to ideal_rank_, Bulirsch-Stoer.hpp:471, 475, 478, 483, 486, 494. *)
  Definition set_rank (b : bs) (r : nat) : bs :=
    mkB (b_ext b) (b_ideal b) (b_cpl b) (b_last b) r (b_rej b) (b_iter b) (b_reject b) (b_first b).
  (** return get_next_step_len(ideal_rank_, k), Bulirsch-Stoer.hpp:472, 476, 479, 488. *)
  Definition with_step (b : bs) (k : nat) : outcome (bs * R) := obind (get_next_step_len b (b_rank b) k) (fun s => Ok (b, s)).
  (** cost_per_len_[k - d] with size_t arithmetic, Bulirsch-Stoer.hpp:470, 482: a negative index is out of bounds. *)
  Definition aget_sub (a : list R) (k d : nat) : outcome R := if (k <? d)%nat then UB else aget a (k - d).
  (** set_next_iteration, 467-498. *)
  Definition set_next_iteration (b : bs) (k : nat) : outcome (bs * R) :=
    if negb (b_first b) then
      if (k =? b_rank b - 1)%nat || (k =? b_rank b)%nat then
        obind (aget_sub (b_cpl b) k 1) (fun cm => obind (aget (b_cpl b) k) (fun c =>
        if Rlt_dec cm (dec_factor * c) then with_step (set_rank b (allowed (k - 1))) k
        else if Rlt_dec c (inc_factor * cm) then
          if negb (b_reject b) then with_step (set_rank b (allowed (k + 1))) k else with_step (set_rank b (allowed k)) k
        else with_step (set_rank b (allowed k)) k))
      else if (k =? b_rank b + 1)%nat then
        obind (aget_sub (b_cpl b) k 2) (fun cmm => obind (aget_sub (b_cpl b) k 1) (fun cm =>
        let b1 := if Rlt_dec cmm (dec_factor * cm) then set_rank b (allowed (k - 2)) else b in
        obind (aget (b_cpl b1) k) (fun c => obind (aget (b_cpl b1) (b_rank b1)) (fun cr =>
        let b2 := if Rlt_dec c (inc_factor * cr) then (if negb (b_reject b1) then set_rank b1 (allowed k) else b1) else b1 in
        with_step b2 k))))
      else Abort
    else
      let b1 := if negb (b_reject b) then set_rank b k else b in
      obind (aget (b_ideal b1) k) (fun s => Ok (b1, s)).
  (** is_diverged_anyhow, 501-515. *)
  Definition is_diverged_anyhow (b : bs) (e : R) (k : nat) : outcome bool :=
    if negb (b_first b) then
      obind (if (k =? b_rank b - 1)%nat then
               obind (bs_h N (k + 1)) (fun h1 => obind (bs_h N (k + 2)) (fun h2 => obind (bs_h N 0) (fun h0 =>
               Ok (INR (h1 * h2) / INR (h0 * h0)))))
             else if (k =? b_rank b)%nat then
               obind (bs_h N (k + 1)) (fun h1 => obind (bs_h N 0) (fun h0 => Ok (INR h1 / INR h0)))
             else Ok 1) (fun r => Ok (if Rgt_dec e (r * r) then true else false))
    else Ok false.

  (** ** iterate(particles, step), 286-358 (without BS_SUBSTEP_PARALLEL) *)
  Variable P : Type.
  Variable wr : P -> list R.                            (* write_to_scalar_array *)
  Variable rd : P -> list R -> outcome P.               (* read_from_scalar_array *)
  Variable collect : P -> bool -> P.                    (* collect_increment *)
  Variable run : P -> R -> nat -> outcome (P * list R). (* clear_increment; integrate_by_n_steps; increment() *)
  Variable err : list R -> list R -> list R -> R.       (* err_checker_.error *)
  Variable next : nat -> R -> R.                        (* step_ctrl_.next(order, error) *)
  Variable lim : nat -> R -> R.                         (* step_ctrl_.limiter(order, ratio) *)

  (** How the body of the loop over k ends: falls through, returns (345) or breaks (351). *)
  Inductive rowres := Continue | Accepted (h : R) | Rejected (h : R).
  (** Assignments to extrap_list_, ideal_step_size_, cost_per_len_, Bulirsch-Stoer.hpp:328-333. *)
  Definition set_row (b : bs) (ext : list (list R)) (ideal cpl : list R) : bs :=
    mkB ext ideal cpl (b_last b) (b_rank b) (b_rej b) (b_iter b) (b_reject b) (b_first b).
  (** Bulirsch-Stoer.hpp:337-338. *)
  Definition accept1 (b : bs) (e : R) : bs :=
    mkB (b_ext b) (b_ideal b) (b_cpl b) e (b_rank b) (b_rej b) (b_iter b) false (b_first b).
  (** Bulirsch-Stoer.hpp:347-348 (and 272-273). *)
  Definition reject1 (b : bs) : bs :=
    mkB (b_ext b) (b_ideal b) (b_cpl b) (b_last b) (b_rank b) (S (b_rej b)) (b_iter b) true (b_first b).
  (** Bulirsch-Stoer.hpp:344. *)
  Definition not_first (b : bs) : bs :=
    mkB (b_ext b) (b_ideal b) (b_cpl b) (b_last b) (b_rank b) (b_rej b) (b_iter b) (b_reject b) false.
  (** Bulirsch-Stoer.hpp:308 (and 246). *)
  Definition count_try (b : bs) : bs :=
    mkB (b_ext b) (b_ideal b) (b_cpl b) (b_last b) (b_rank b) (b_rej b) (S (b_iter b)) (b_reject b) (b_first b).
  (** Extrapolation, error, ideal step and cost of row k (shared by both iterate functions). *)
  (** Bulirsch-Stoer.hpp:328-333 and 252-260. *)
  Definition row_table (b : bs) (input dy : list R) (h : R) (k : nat) : outcome (bs * R) :=
    obind (aset (b_ext b) k dy) (fun ext0 =>
    obind (extrapolate N k ext0) (fun ext =>
    obind (aget ext 1) (fun e1 => obind (aget ext 0) (fun e0 =>
    let e := err input e1 e0 in
    obind (aset (b_ideal b) k (h * next (2 * k + 1) e)) (fun ideal =>
    obind (bs_cost N kdk k) (fun c =>
    obind (aset (b_cpl b) k (c / (h * next (2 * k + 1) e))) (fun cpl =>
    Ok (set_row b ext ideal cpl, e)))))))).
  (** The loop over k; [fuel] is ideal_rank_ + 2 - k (the rank does not change before the loop ends). *)
  Fixpoint rows (fuel k : nat) (b : bs) (p : P) (input : list R) (h : R) : outcome (bs * P * rowres) :=
    match fuel with
    | O => Ok (b, p, Continue)
    | S f =>
      obind (rd p input) (fun p1 =>
      obind (bs_h N k) (fun n =>
      obind (run p1 h n) (fun '(p2, dy) =>
      obind (row_table b input dy h k) (fun '(b1, e) =>
      if in_converged_window b1 k then
        if Rle_dec e 1 then
          obind (aget (b_ext b1) 0) (fun e0 =>
          obind (rd p2 (zipw Rplus input e0)) (fun p3 =>
          let p4 := collect p3 false in
          obind (set_next_iteration (accept1 b1 e) k) (fun '(b2, new_h) =>
          Ok (not_first b2, p4, Accepted (h * lim (2 * k + 1) (new_h / h))))))
        else obind (is_diverged_anyhow b1 e k) (fun d =>
          if d then obind (set_next_iteration (reject1 b1) k) (fun '(b2, new_h) =>
                    Ok (b2, p2, Rejected (h * lim (2 * k + 1) (new_h / h))))
          else rows f (S k) b1 p2 input h)
      else rows f (S k) b1 p2 input h))))
    end.
  (** The loop over i, Bulirsch-Stoer.hpp:307-357: [tries] attempts are left. *)
  Fixpoint attempts (tries : nat) (b : bs) (p : P) (input : list R) (h : R) : outcome (bs * P * R) :=
    match tries with
    | O => Abort
    | S t =>
      let b0 := count_try b in
      obind (bs_h N 0) (fun n0 =>
      obind (run p h n0) (fun '(p1, dy) =>
      obind (aset (b_ext b0) 0 dy) (fun ext =>
      obind (rows (b_rank b0 + 1) 1 (set_row b0 ext (b_ideal b0) (b_cpl b0)) p1 input h) (fun '(b1, p2, res) =>
      match res with
      | Accepted h' => Ok (b1, p2, h')
      | Rejected h' => obind (rd p2 input) (fun p3 => attempts t b1 p3 input h')
      | Continue => obind (rd p2 input) (fun p3 => attempts t b1 p3 input h)
      end))))
    end.
  (** iterate(particles, macro_step_size), Bulirsch-Stoer.hpp:286-292 and the loop 307-357. *)
  Definition iterate (b : bs) (p : P) (h : R) : outcome (bs * P * R) :=
    let input := wr p in attempts max_try_num b (collect p true) input h.

  (** ** iterate(func, data, time, step), 237-282, and its integrate_by_n_steps, 406-430 *)
  Variable func : list R -> R -> list R.                (* dxdt = func(x, t) *)
  (** calc::array_advance(dst, inc, h), core-computation.hpp:363-371, as called in Bulirsch-Stoer.hpp:418, 422, 427. *)
  Definition adv (x dx : list R) (h : R) : list R := zipw (fun a d => a + d * h) x dx.
  (** The loop: (data_mid, data_out, time) after i more sub-steps. *)
  (** Bulirsch-Stoer.hpp:420-425. *)
  Fixpoint mid_loop (i : nat) (h : R) (mid out : list R) (time : R) : list R * list R * R :=
    match i with
    | O => (mid, out, time)
    | S i' => mid_loop i' h out (adv mid (func out time) (2 * h)) (time + h)
    end.
  (** Bulirsch-Stoer.hpp:409-430; the time reference parameter is returned. *)
  Definition midpoint (input : list R) (time step : R) (steps : nat) : list R * R :=
    let h := step / INR steps in
    let out := adv input (func input time) h in
    let '(mid, out, time) := mid_loop (steps - 1) h input out (time + h) in
    let mid := adv mid (func out time) h in
    (map (fun x => x * 0.5) (zipw Rplus mid out), time).
  (** The loop over k of Bulirsch-Stoer.hpp:250-279; the time reference parameter is threaded. *)
  Fixpoint frows (fuel k : nat) (b : bs) (input : list R) (time h : R) : outcome (bs * R * rowres) :=
    match fuel with
    | O => Ok (b, time, Continue)
    | S f =>
      obind (bs_h N k) (fun n =>
      let '(y, time1) := midpoint input time h n in
      obind (row_table b input y h k) (fun '(b1, e) =>
      if in_converged_window b1 k then
        if Rle_dec e 1 then
          obind (set_next_iteration (accept1 b1 (b_last b1)) k) (fun '(b2, new_h) =>
          Ok (mkB (b_ext b2) (b_ideal b2) (b_cpl b2) e (b_rank b2) (b_rej b2) (b_iter b2) (b_reject b2) (b_first b2),
              time1 + h, Accepted (h * lim (2 * k + 1) (new_h / h))))
        else obind (is_diverged_anyhow b1 e k) (fun d =>
          if d then obind (set_next_iteration (reject1 b1) k) (fun '(b2, new_h) =>
                    Ok (b2, time1, Rejected (h * lim (2 * k + 1) (new_h / h))))
          else frows f (S k) b1 input time1 h)
      else frows f (S k) b1 input time1 h))
    end.
  (** Returns the iterator, the new data (extrap_list_[0]), the new time and the next step. *)
  Fixpoint fattempts (tries : nat) (b : bs) (input : list R) (time h : R) : outcome (bs * list R * R * R) :=
    match tries with
    | O => Abort
    | S t =>
      let b0 := count_try b in
      obind (bs_h N 0) (fun n0 =>
      let '(y, time1) := midpoint input time h n0 in
      obind (aset (b_ext b0) 0 y) (fun ext =>
      obind (frows (b_rank b0 + 1) 1 (set_row b0 ext (b_ideal b0) (b_cpl b0)) input time1 h) (fun '(b1, time2, res) =>
      match res with
      | Accepted h' => obind (aget (b_ext b1) 0) (fun data => Ok (b1, data, time2, h'))
      | Rejected h' => fattempts t b1 input time2 h'
      | Continue => fattempts t b1 input time2 h
      end)))
    end.
  (** iterate(func, data, time, step_size), Bulirsch-Stoer.hpp:237-282. *)
  Definition fiterate (b : bs) (data : list R) (time h : R) : outcome (bs * list R * R * R) :=
    fattempts max_try_num b data time h.
End BS.

(** ** integrate_by_n_steps on a particle system, 382-404: sub-steps of macro_step_size / steps. *)
Fixpoint alternate (a b : op) (k : nat) : list op := match k with O => [] | S k' => a :: b :: alternate a b k' end.
(** Bulirsch-Stoer.hpp:388-395. *)
Definition dkd_ops (steps : nat) : list op := D 0.5 :: alternate (K 1) (D 1) (steps - 1) ++ [K 1; D 0.5].
(** Bulirsch-Stoer.hpp:396-403. *)
Definition kdk_ops (steps : nat) : list op := K 0.5 :: alternate (D 1) (K 1) (steps - 1) ++ [D 1; K 0.5].
(** The if constexpr of Bulirsch-Stoer.hpp:388-406. *)
Definition nsteps_ops (kdk : bool) := if kdk then kdk_ops else dkd_ops.
(** The run of the simple system: clear_increment, integrate, increment(). *)
(** collect_increment, base-system.hpp:121, regu-system.hpp:150, chain-system.hpp:94, archain.hpp:103. *)
Definition set_sync (s : st) (f : bool) : st :=
  mkSt (s_m s) (s_t s) (s_p s) (s_v s) (s_w s) (s_om s) (s_be s) (s_sc s) (s_inc s) f.
(** Bulirsch-Stoer.hpp:326-328 on a SimpleSystem (base-system.hpp). *)
Definition simple_run (I : inter) (kdk : bool) (s : st) (h : R) (n : nat) : outcome (st * list R) :=
  let s' := integrate drift (kick I) (nsteps_ops kdk n) (clear_increment s) (h / INR n) in Ok (s', s_inc s').
(** Bulirsch-Stoer.hpp:326-328 on a RegularizedSystem (regu-system.hpp). *)
Definition regu_run (I : inter) (r : regu) (kdk : bool) (s : st) (h : R) (n : nat) : outcome (st * list R) :=
  let s' := integrate (rdrift r) (rkick I r) (nsteps_ops kdk n) (clear_increment s) (h / INR n) in Ok (s', s_inc s').
