(** Special values (infinities and NaN) in adaptive runs: the error checkers, the Bulirsch-Stoer iterator and a SimpleSystem with
    Newtonian gravity, on scalars that may be infinite or NaN.
    The scalar type is [ext] of Ctrl_Model: exact finite arithmetic (no rounding, no overflow, one zero) plus the IEEE special values. *)
From Verif Require Export BS_Model Ctrl_Model.
Open Scope R_scope.

(** * Operators of double on special values *)
(** The operator + of doubles, e.g. core-computation.hpp:360. *)
Definition eadd (a b : ext) : ext :=
  match a, b with
  | NaN, _ | _, NaN => NaN
  | Fin x, Fin y => Fin (x + y)
  | PInf, MInf | MInf, PInf => NaN
  | PInf, _ | _, PInf => PInf
  | MInf, _ | _, MInf => MInf
  end.
(** The unary and binary operator - of doubles, e.g. newtonian.hpp:87-89 and worst-offender.hpp:90. *)
Definition eneg (a : ext) : ext := match a with Fin x => Fin (- x) | PInf => MInf | MInf => PInf | NaN => NaN end.
(** As used in worst-offender.hpp:90. *)
Definition esub (a b : ext) : ext := eadd a (eneg b).
(** fabs, worst-offender.hpp:88-90. *)
Definition eabs (a : ext) : ext := match a with Fin x => Fin (Rabs x) | PInf | MInf => PInf | NaN => NaN end.
(** sqrt, RMS.hpp:109 and norm (vector3.hpp). *)
Definition esqrt (a : ext) : ext :=
  match a with Fin x => if Rlt_dec x 0 then NaN else Fin (sqrt x) | PInf => PInf | _ => NaN end.
(** The comparison == 0 of RMS.hpp:87. *)
Definition ezero (a : ext) : bool := negb (nonzero a).

(** * Error checkers on arrays of Scalar *)
(** WorstOffender::error(y0, y1, y1_prime), worst-offender.hpp:80-101; the entry of one component. *)
Definition wo_ratio (atol rtol : R) (abb : ext * ext * ext) : ext :=
  let '(a, b, b') := abb in ediv (eabs (esub b' b)) (eadd (Fin atol) (emul (emax (eabs b) (eabs a)) (Fin rtol))).
(** worst-offender.hpp:80-101. *)
Definition xwo_error (atol rtol : R) (y0 y1 y1' : list ext) : ext :=
  fold_left (fun m abb => emax m (wo_ratio atol rtol abb)) (zip3 y0 y1 y1') (Fin 0).
(** MaxRatioError::error(scale, y1, y1_prime), max-ratio-error.hpp:143-163. *)
Definition xmr_error (atol rtol : R) (scale y1 y1' : list ext) : ext :=
  let '(md, ms) := fold_left (fun '(md, ms) '(s, b, b') => (emax md (eabs (esub b' b)), emax ms (eadd (Fin atol) (emul (eabs s) (Fin rtol)))))
                             (zip3 scale y1 y1') (Fin 0, Fin 0) in
  ediv md ms.
(** RMS::error for arrays of Scalar, RMS.hpp:77-93, 109. *)
Definition xrms_error (atol rtol : R) (y0 y1 y1' : list ext) : ext :=
  let sum := fold_left (fun acc '(a, b, b') =>
               let scale := eadd (emul (emax (eabs a) (eabs b)) (Fin rtol)) (Fin atol) in
               if ezero scale then acc else let r := ediv (eabs (esub b b')) scale in eadd acc (emul r r)) (zip3 y0 y1 y1') (Fin 0) in
  esqrt (ediv sum (Fin (INR (length y0)))).

(** * BulirschStoer::iterate(particles, step) on special values, Bulirsch-Stoer.hpp:286-358.
    The same statements as in BS_Model with the operators above. *)
(** Inner loop of Bulirsch-Stoer.hpp:436-439. *)
Definition xzipw (f : ext -> ext -> ext) (a b : list ext) : list ext := map (fun xy => f (fst xy) (snd xy)) (combine a b).
(** Bulirsch-Stoer.hpp:433-441. *)
Fixpoint xextrap_loop (N k j : nat) (tab : list (list ext)) : outcome (list (list ext)) :=
  match j with
  | O => Ok tab
  | S j' =>
    obind (bs_coef N k (k - j)) (fun c =>
    obind (aget tab j) (fun a =>
    obind (aget tab j') (fun b =>
    obind (aset tab j' (xzipw (fun x y => eadd x (emul (esub x y) (Fin c))) a b)) (xextrap_loop N k j'))))
  end.
(** extrapolate(k), Bulirsch-Stoer.hpp:433-441. *)
Definition xextrapolate (N k : nat) (tab : list (list ext)) : outcome (list (list ext)) := xextrap_loop N k k tab.
(** Members of BulirschStoer, Bulirsch-Stoer.hpp:148-178. *)
Record xbs := mkX { x_ext : list (list ext); x_ideal : list ext; x_cpl : list ext; x_last : ext; x_rank : nat;
                    x_rej : nat; x_iter : nat; x_reject : bool; x_first : bool }.
(** Default member initialisers, Bulirsch-Stoer.hpp:160-185. *)
Definition xbs_init (M : nat) : xbs :=
  mkX (repeat [] (M + 1)) (repeat (Fin 0) (M + 1)) (repeat (Fin 0) (M + 1)) (Fin 1) (M - 1) 0 0 false true.

Section XBS.
  Variable max_try_num M : nat.
  Variable kdk : bool.
  Notation N := (M + 1)%nat.
  (** Bulirsch-Stoer.hpp:444-447. *)
  Definition xin_converged_window (b : xbs) (k : nat) : bool :=
    (k =? x_rank b - 1)%nat || (k =? x_rank b)%nat || (k =? x_rank b + 1)%nat || x_first b.
  (** Bulirsch-Stoer.hpp:454-464. *)
  Definition xget_next_step_len (b : xbs) (k_new k : nat) : outcome ext :=
    if (k_new <=? k)%nat then aget (x_ideal b) k_new
    else if (k_new =? k + 1)%nat then
      obind (aget (x_ideal b) k) (fun s => obind (bs_cost N kdk (k + 1)) (fun c1 => obind (bs_cost N kdk k) (fun c => Ok (ediv (emul s (Fin c1)) (Fin c)))))
    else Abort.
  (** Bulirsch-Stoer.hpp:471, 475, 478, 483, 486, 494. *)
  Definition xset_rank (b : xbs) (r : nat) : xbs :=
    mkX (x_ext b) (x_ideal b) (x_cpl b) (x_last b) r (x_rej b) (x_iter b) (x_reject b) (x_first b).
  (** Bulirsch-Stoer.hpp:472, 476, 479, 488. *)
  Definition xwith_step (b : xbs) (k : nat) : outcome (xbs * ext) := obind (xget_next_step_len b (x_rank b) k) (fun s => Ok (b, s)).
  (** Bulirsch-Stoer.hpp:470, 482: a negative index is out of bounds. *)
  Definition xget_sub (a : list ext) (k d : nat) : outcome ext := if (k <? d)%nat then UB else aget a (k - d).
  (** set_next_iteration, Bulirsch-Stoer.hpp:467-498. *)
  Definition xset_next_iteration (b : xbs) (k : nat) : outcome (xbs * ext) :=
    if negb (x_first b) then
      if (k =? x_rank b - 1)%nat || (k =? x_rank b)%nat then
        obind (xget_sub (x_cpl b) k 1) (fun cm => obind (aget (x_cpl b) k) (fun c =>
        if egt (emul (Fin dec_factor) c) cm then xwith_step (xset_rank b (allowed M (k - 1))) k
        else if egt (emul (Fin inc_factor) cm) c then
          if negb (x_reject b) then xwith_step (xset_rank b (allowed M (k + 1))) k else xwith_step (xset_rank b (allowed M k)) k
        else xwith_step (xset_rank b (allowed M k)) k))
      else if (k =? x_rank b + 1)%nat then
        obind (xget_sub (x_cpl b) k 2) (fun cmm => obind (xget_sub (x_cpl b) k 1) (fun cm =>
        let b1 := if egt (emul (Fin dec_factor) cm) cmm then xset_rank b (allowed M (k - 2)) else b in
        obind (aget (x_cpl b1) k) (fun c => obind (aget (x_cpl b1) (x_rank b1)) (fun cr =>
        let b2 := if egt (emul (Fin inc_factor) cr) c then (if negb (x_reject b1) then xset_rank b1 (allowed M k) else b1) else b1 in
        xwith_step b2 k))))
      else Abort
    else
      let b1 := if negb (x_reject b) then xset_rank b k else b in
      obind (aget (x_ideal b1) k) (fun s => Ok (b1, s)).
  (** is_diverged_anyhow, Bulirsch-Stoer.hpp:501-515. *)
  Definition xis_diverged (b : xbs) (e : ext) (k : nat) : outcome bool :=
    if negb (x_first b) then
      obind (if (k =? x_rank b - 1)%nat then
               obind (bs_h N (k + 1)) (fun h1 => obind (bs_h N (k + 2)) (fun h2 => obind (bs_h N 0) (fun h0 =>
               Ok (INR (h1 * h2) / INR (h0 * h0)))))
             else if (k =? x_rank b)%nat then
               obind (bs_h N (k + 1)) (fun h1 => obind (bs_h N 0) (fun h0 => Ok (INR h1 / INR h0)))
             else Ok 1) (fun r => Ok (egt e (Fin (r * r))))
    else Ok false.

  Variable P : Type.
  Variable wr : P -> list ext.
  Variable rd : P -> list ext -> outcome P.
  Variable collect : P -> bool -> P.
  Variable run : P -> ext -> nat -> outcome (P * list ext).
  Variable err : list ext -> list ext -> list ext -> ext.
  Variable nxt : nat -> ext -> outcome ext.             (* step_ctrl_.next(order, error) *)
  Variable lim : nat -> ext -> outcome ext.             (* step_ctrl_.limiter(order, ratio) *)

  (** How the loop body ends: falls through, returns (345) or breaks (351). *)
  Inductive xrowres := XContinue | XAccepted (h : ext) | XRejected (h : ext).
  (** Bulirsch-Stoer.hpp:328-333. *)
  Definition xset_row (b : xbs) (e : list (list ext)) (ideal cpl : list ext) : xbs :=
    mkX e ideal cpl (x_last b) (x_rank b) (x_rej b) (x_iter b) (x_reject b) (x_first b).
  (** Bulirsch-Stoer.hpp:337-338. *)
  Definition xaccept1 (b : xbs) (e : ext) : xbs :=
    mkX (x_ext b) (x_ideal b) (x_cpl b) e (x_rank b) (x_rej b) (x_iter b) false (x_first b).
  (** Bulirsch-Stoer.hpp:347-348. *)
  Definition xreject1 (b : xbs) : xbs :=
    mkX (x_ext b) (x_ideal b) (x_cpl b) (x_last b) (x_rank b) (S (x_rej b)) (x_iter b) true (x_first b).
  (** Bulirsch-Stoer.hpp:344. *)
  Definition xnot_first (b : xbs) : xbs :=
    mkX (x_ext b) (x_ideal b) (x_cpl b) (x_last b) (x_rank b) (x_rej b) (x_iter b) (x_reject b) false.
  (** Bulirsch-Stoer.hpp:308. *)
  Definition xcount_try (b : xbs) : xbs :=
    mkX (x_ext b) (x_ideal b) (x_cpl b) (x_last b) (x_rank b) (x_rej b) (S (x_iter b)) (x_reject b) (x_first b).
  (** Bulirsch-Stoer.hpp:328-333. *)
  Definition xrow_table (b : xbs) (input dy : list ext) (h : ext) (k : nat) : outcome (xbs * ext) :=
    obind (aset (x_ext b) k dy) (fun ext0 =>
    obind (xextrapolate N k ext0) (fun ext =>
    obind (aget ext 1) (fun e1 => obind (aget ext 0) (fun e0 =>
    let e := err input e1 e0 in
    obind (nxt (2 * k + 1) e) (fun f =>
    obind (aset (x_ideal b) k (emul h f)) (fun ideal =>
    obind (bs_cost N kdk k) (fun c =>
    obind (aset (x_cpl b) k (ediv (Fin c) (emul h f))) (fun cpl =>
    Ok (xset_row b ext ideal cpl, e))))))))).
  (** The loop over k, Bulirsch-Stoer.hpp:317-354; [fuel] is ideal_rank_ + 2 - k. *)
  Fixpoint xrows (fuel k : nat) (b : xbs) (p : P) (input : list ext) (h : ext) : outcome (xbs * P * xrowres) :=
    match fuel with
    | O => Ok (b, p, XContinue)
    | S f =>
      obind (rd p input) (fun p1 =>
      obind (bs_h N k) (fun n =>
      obind (run p1 h n) (fun '(p2, dy) =>
      obind (xrow_table b input dy h k) (fun '(b1, e) =>
      if xin_converged_window b1 k then
        if ele e (Fin 1) then
          obind (aget (x_ext b1) 0) (fun e0 =>
          obind (rd p2 (xzipw eadd input e0)) (fun p3 =>
          let p4 := collect p3 false in
          obind (xset_next_iteration (xaccept1 b1 e) k) (fun '(b2, new_h) =>
          obind (lim (2 * k + 1) (ediv new_h h)) (fun f =>
          Ok (xnot_first b2, p4, XAccepted (emul h f))))))
        else obind (xis_diverged b1 e k) (fun d =>
          if d then obind (xset_next_iteration (xreject1 b1) k) (fun '(b2, new_h) =>
                    obind (lim (2 * k + 1) (ediv new_h h)) (fun f =>
                    Ok (b2, p2, XRejected (emul h f))))
          else xrows f (S k) b1 p2 input h)
      else xrows f (S k) b1 p2 input h))))
    end.
  (** The loop over i, Bulirsch-Stoer.hpp:307-357. *)
  Fixpoint xattempts (tries : nat) (b : xbs) (p : P) (input : list ext) (h : ext) : outcome (xbs * P * ext) :=
    match tries with
    | O => Abort
    | S t =>
      let b0 := xcount_try b in
      obind (bs_h N 0) (fun n0 =>
      obind (run p h n0) (fun '(p1, dy) =>
      obind (aset (x_ext b0) 0 dy) (fun ext =>
      obind (xrows (x_rank b0 + 1) 1 (xset_row b0 ext (x_ideal b0) (x_cpl b0)) p1 input h) (fun '(b1, p2, res) =>
      match res with
      | XAccepted h' => Ok (b1, p2, h')
      | XRejected h' => obind (rd p2 input) (fun p3 => xattempts t b1 p3 input h')
      | XContinue => obind (rd p2 input) (fun p3 => xattempts t b1 p3 input h)
      end))))
    end.
  (** Bulirsch-Stoer.hpp:286-358. *)
  Definition xiterate (b : xbs) (p : P) (h : ext) : outcome (xbs * P * ext) :=
    let input := wr p in xattempts max_try_num b (collect p true) input h.
End XBS.

(** * SimpleSystem with Newtonian gravity on special values *)
(** Vec3<double>, vector3.hpp. *)
Record evec := mkE { ex : ext; ey : ext; ez : ext }.
(** Vec3 operators, vector3.hpp, as used in base-system.hpp and newtonian.hpp. *)
Definition evadd (a b : evec) : evec := mkE (eadd (ex a) (ex b)) (eadd (ey a) (ey b)) (eadd (ez a) (ez b)).
(** p[j] - p[i], newtonian.hpp:115. *)
Definition evsub (a b : evec) : evec := mkE (esub (ex a) (ex b)) (esub (ey a) (ey b)) (esub (ez a) (ez b)).
(** increment[i] * step, core-computation.hpp:369. *)
Definition evscal (k : ext) (a : evec) : evec := mkE (emul (ex a) k) (emul (ey a) k) (emul (ez a) k).
(** norm, vector3.hpp: sqrt(x * x + y * y + z * z). *)
Definition enorm (a : evec) : ext := esqrt (eadd (eadd (emul (ex a) (ex a)) (emul (ey a) (ey a))) (emul (ez a) (ez a))).
(** The cleared entry of the acceleration array, interaction.hpp eval_newtonian_acc (calc::array_set_zero) before newtonian.hpp:71. *)
Definition ezerov : evec := mkE (Fin 0) (Fin 0) (Fin 0).
(** The lambda force, newtonian.hpp:78-90, for the pair (i, j) of a SimpleSystem (112-118). *)
Definition xforce (m : list ext) (p : list evec) (acc : nat -> evec) (ij : nat * nat) : nat -> evec :=
  let '(i, j) := ij in
  let dr := evsub (nth j p ezerov) (nth i p ezerov) in
  let r := enorm dr in
  let rr3 := ediv (Fin 1) (emul (emul r r) r) in
  let mi := nth i m (Fin 0) in let mj := nth j m (Fin 0) in
  fun k => if (k =? i)%nat then mkE (eadd (ex (acc i)) (emul (emul (ex dr) rr3) mj)) (eadd (ey (acc i)) (emul (emul (ey dr) rr3) mj)) (eadd (ez (acc i)) (emul (emul (ez dr) rr3) mj))
           else if (k =? j)%nat then mkE (esub (ex (acc j)) (emul (emul (ex dr) rr3) mi)) (esub (ey (acc j)) (emul (emul (ey dr) rr3) mi)) (esub (ez (acc j)) (emul (emul (ez dr) rr3) mi))
           else acc k.
(** NewtonianGrav::add_acc_to, newtonian.hpp:71-118 (not a chain), on the cleared array of interaction.hpp eval_newtonian_acc. *)
Definition xnewton (m : list ext) (p : list evec) : list evec :=
  tolist (length m) (fold_left (xforce m p) (all_pairs (length m)) (fun _ => ezerov)).
(** Data members, base-system.hpp:174-180. *)
Record xst := mkXs { xs_m : list ext; xs_t : ext; xs_p : list evec; xs_v : list evec; xs_inc : list ext; xs_sync : bool }.
(** core-computation.hpp:364-371. *)
Definition xadvance (a b : list evec) (h : ext) : list evec := map (fun xy => evadd (fst xy) (evscal h (snd xy))) (combine a b).
(** type-class.hpp:129-148. *)
Definition xcoords (l : list evec) : list ext := flat_map (fun v => [ex v; ey v; ez v]) l.
(** type-class.hpp:119-127 and increment[off] += d. *)
Fixpoint xadd_at (off : nat) (ds inc : list ext) : list ext :=
  match inc with
  | [] => []
  | x :: t => match off with
              | S o => x :: xadd_at o ds t
              | O => match ds with [] => x :: t | d :: ds' => eadd x d :: xadd_at 0 ds' t end
              end
  end.
(** base-system.hpp:319-347. *)
Definition xsync (s : xst) (off : nat) (ds inc : list ext) : list ext := if xs_sync s then xadd_at off ds inc else inc.
(** drift, base-system.hpp:278-283. *)
Definition xdrift (s : xst) (h : ext) : xst :=
  mkXs (xs_m s) (eadd (xs_t s) h) (xadvance (xs_p s) (xs_v s) h) (xs_v s)
       (xsync s pos_offset (xcoords (map (evscal h) (xs_v s))) (xsync s time_offset [h] (xs_inc s))) (xs_sync s).
(** kick, base-system.hpp:261-275, for Interactions<NewtonianGrav>. *)
Definition xkick (s : xst) (h : ext) : xst :=
  let a := xnewton (xs_m s) (xs_p s) in
  mkXs (xs_m s) (xs_t s) (xs_p s) (xadvance (xs_v s) a h)
       (xsync s (vel_offset (length (xs_m s))) (xcoords (map (evscal h) a)) (xs_inc s)) (xs_sync s).
(** clear_increment, base-system.hpp:123. *)
Definition xclear (s : xst) : xst := mkXs (xs_m s) (xs_t s) (xs_p s) (xs_v s) (map (fun _ => Fin 0) (xs_inc s)) (xs_sync s).
(** collect_increment, base-system.hpp:121. *)
Definition xcollect (s : xst) (f : bool) : xst := mkXs (xs_m s) (xs_t s) (xs_p s) (xs_v s) (xs_inc s) f.
(** write_to_scalar_array, base-system.hpp:223-232. *)
Definition xwrite (s : xst) : list ext := xs_t s :: xcoords (xs_p s) ++ xcoords (xs_v s).
(** load_to_coords, type-class.hpp:97-107. *)
Fixpoint xto_vecs (k : nat) (l : list ext) : list evec :=
  match k with
  | O => []
  | S k' => match l with x :: y :: z :: t => mkE x y z :: xto_vecs k' t | _ => [] end
  end.
(** read_from_scalar_array, base-system.hpp:199-219. *)
Definition xread (s : xst) (y : list ext) : outcome xst :=
  let n := length (xs_m s) in
  if (length y =? n * 3 * 2 + 1)%nat then
    obind (aget y time_offset) (fun t =>
    Ok (mkXs (xs_m s) t (xto_vecs n (skipn pos_offset y)) (xto_vecs n (skipn (vel_offset n) y)) (xs_inc s) (xs_sync s)))
  else Abort.
(** One operation of integrate_by_n_steps, Bulirsch-Stoer.hpp:382-404. *)
Definition xop (s : xst) (h : ext) (o : op) : xst :=
  match o with D c => xdrift s (emul (Fin c) h) | K c => xkick s (emul (Fin c) h) end.
(** Bulirsch-Stoer.hpp:382-404 with 326-328. *)
Definition xrun (kdk : bool) (s : xst) (h : ext) (n : nat) : outcome (xst * list ext) :=
  let hs := ediv h (Fin (INR n)) in
  let s' := fold_left (fun s o => xop s hs o) (nsteps_ops kdk n) (xclear s) in Ok (s', xs_inc s').
(** The iterator with WorstOffender or RMS and the PID controller as the shipped methods instantiate it (spaceHub.hpp:165 with LeapFrogDKD and WorstOffender). *)
Definition xbs_call (tries M : nat) (kdk : bool) (err : list ext -> list ext -> list ext -> ext) (c : pid) (b : xbs) (s : xst) (h : ext) : outcome (xbs * xst * ext) :=
  xiterate tries M kdk xst xwrite xread xcollect (xrun kdk) err (fun o e => next c o (Err1 e)) (limiter c) b s h.
