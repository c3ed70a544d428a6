(** Models of /repo/src/args-callback/collision.hpp, tools/timer.hpp and rand-generator.hpp. *)
From Coq Require Export Reals List ZArith Lia Lra Bool.
From Verif Require Export Vec.
Export ListNotations.
#[global] Open Scope R_scope.

(** * collision.hpp 48-70: StickyCollision::operator().
    [p]: positions, [r]: radii, number() = length p. The step size argument is unused. Real arithmetic. *)
Definition touching (p : list vec) (r : list R) (i j : nat) : bool :=            (* 60-64 *)
  let d := vsub (nth i p vzero) (nth j p vzero) in
  if Rle_dec (sqrt (vx d * vx d + vy d * vy d + vz d * vz d)) (nth i r 0 + nth j r 0) then true else false.
Fixpoint inner (p : list vec) (r : list R) (i j : nat) (left : nat) : bool :=    (* loop over j, 59-67; [left] = num - j *)
  match left with O => false | S l => if touching p r i j then true else inner p r i (S j) l end.
Fixpoint outer (p : list vec) (r : list R) (i : nat) (left : nat) : bool :=      (* loop over i, 58-68; [left] = num - i *)
  match left with O => false | S l => if inner p r i (S i) l then true else outer p r (S i) l end.
(** collision.hpp:48-70. *)
Definition sticky_collision (p : list vec) (r : list R) : bool := outer p r 0 (length p).

(** * timer.hpp. Clock readings are integer nanoseconds (steady_clock of libstdc++); durations are reals. *)
(** timer.hpp:62-64, the data members. *)
Record timer := mkT { t_start : Z; t_dur : R; t_active : bool }.
Definition timer_new : timer := mkT 0 0 false.                                   (* 62-64; start_ has the epoch as default *)
Definition timer_get (s : timer) (now : Z) : R :=                                (* get_time, 74-82 *)
  if t_active s then t_dur s + IZR (now - t_start s) * 1 / 1000000000 else t_dur s.
(** The calls timer.hpp:69-92. *)
Inductive event := Start (now : Z) | Pause (now : Z) | Get (now : Z) | Reset.    (* the calls with the clock reading they take *)
Definition timer_step (s : timer) (e : event) : timer :=
  match e with
  | Start n => mkT n (t_dur s) true                                              (* start, 69-72 *)
  | Pause n => mkT (t_start s) (timer_get s n) false                             (* pause, 84-87 *)
  | Get _ => s
  | Reset => mkT (t_start s) 0 false                                             (* reset, 89-92 *)
  end.
(** timer.hpp:62-92, a history of calls on a new timer. *)
Definition timer_run (h : list event) : timer := fold_left timer_step h timer_new.

(** * rand-generator.hpp. A double is a real number or NaN (infinities and rounding are not modelled). *)
(** Values of type double in rand-generator.hpp:183-200. *)
Inductive dbl := Num (x : R) | NaN.
(** operator< of rand-generator.hpp:185. *)
Definition dlt (a b : dbl) : bool := match a, b with Num x, Num y => if Rlt_dec x y then true else false | _, _ => false end.  (* operator< *)
(** operator<= of rand-generator.hpp:111-121. *)
Definition dle (a b : dbl) : bool := match a, b with Num x, Num y => if Rle_dec x y then true else false | _, _ => false end.  (* operator<= *)
(** The random source: the values successive calls of the distribution return. *)
(** The calls of the standard distributions at rand-generator.hpp:116, 132-134, 184. *)
Definition stream (A : Type) := nat -> A.
(** A rejection loop: position after it and the value returned. No result is derivable when it runs for ever. *)
(** The do-while loops of rand-generator.hpp:111-121, 138-151, 161-174, 183-189. *)
Inductive rejection {A B} (accept : A -> option B) (s : stream A) : nat -> B -> nat -> Prop :=
| rej_stop k b : accept (s k) = Some b -> rejection accept s k b (S k)
| rej_next k b k' : accept (s k) = None -> rejection accept s (S k) b k' -> rejection accept s k b k'.

(** numeric_limits<double>::min() and max(). *)
(** Default member initialiser, rand-generator.hpp:198. *)
Definition dbl_min : R := / 2 ^ 1022.
(** Default member initialiser, rand-generator.hpp:199. *)
Definition dbl_max : R := (2 - / 2 ^ 52) * 2 ^ 1023.
Record parameter := mkP { p_min : dbl; p_max : dbl }.                            (* 198-200; the source is the stream argument of draw *)
Definition parameter_new : parameter := mkP (Num dbl_min) (Num dbl_max).
Definition set_max (p : parameter) m := mkP (p_min p) m.                         (* 191 *)
Definition set_min (p : parameter) m := mkP m (p_max p).                         (* 193 *)
Definition set_boundary (p : parameter) (a b : dbl) := mkP a b.                  (* 195 *)
Definition p_accept (p : parameter) (r : dbl) : option dbl :=                    (* loop condition, 185: r < min_ || r > max_ repeats *)
  if dlt r (p_min p) || dlt (p_max p) r then None else Some r.
Definition draw (p : parameter) (s : stream dbl) k v k' : Prop := rejection (p_accept p) s k v k'.      (* 183-189 *)

Definition t_accept (low high : dbl) (r : dbl) : option dbl := if dle low r && dle r high then Some r else None.
(** TruncatedNormal, 111-121; the stream gives the values of std::normal_distribution. *)
Definition truncated_normal low high (s : stream dbl) k v k' : Prop := rejection (t_accept low high) s k v k'.
(** Maxwellian, 129-136, of three normal values. *)
Definition maxwellian (x y z : dbl) : dbl :=
  match x, y, z with Num a, Num b, Num c => Num (sqrt (a * a + b * b + c * c)) | _, _, _ => NaN end.
(** TruncatedMaxwellian, 161-174; each turn takes three values. *)
Definition truncated_maxwellian low high (s : stream (dbl * dbl * dbl)) k v k' : Prop :=
  rejection (fun '(x, y, z) => t_accept low high (maxwellian x y z)) s k v k'.
(** Normal2, 138-151; each turn takes two values. *)
Definition normal2_accept (min_r : R) (xy : R * R) : option (R * R) :=
  let (x, y) := xy in let r2 := x * x + y * y in
  if Rlt_dec r2 1 then if Rlt_dec (min_r * min_r) r2 then let f := sqrt (- 2 * ln r2 / r2) in Some (x * f, y * f) else None else None.
(** rand-generator.hpp:138-151. *)
Definition normal2 min_r (s : stream (R * R)) k v k' : Prop := rejection (normal2_accept min_r) s k v k'.

(** std::uniform_real_distribution(a, b) given u in [0, 1): libstdc++ computes u * (b - a) + a; a <= b is required. *)
Definition uniform_ok (a b : R) : Prop := a <= b.
Definition uniform (a b u : R) : R := u * (b - a) + a.                           (* Uniform, 47-51 *)
Definition log10 (x : R) : R := ln x / ln 10.
(** std::pow for a non-negative base and, for base 0, positive exponent. *)
Definition cpow (x y : R) : R := if Rlt_dec 0 x then Rpower x y else 0.
Definition logarithm (low high u : R) : R := cpow 10 (uniform (log10 low) (log10 high) u).    (* Logarithm, 60-66 *)
Definition epsilon : R := / 2 ^ 52.                                             (* numeric_limits<double>::epsilon() *)
Definition power_law (power low high u : R) : R :=                               (* PowerLaw, 76-87 *)
  if Rlt_dec (Rabs (power - -1)) epsilon then logarithm low high u else
  let beta := power + 1 in cpow (uniform (cpow low beta) (cpow high beta) u) (1 / beta).
(** rand-generator.hpp:76-87. *)
Definition power_law_ok (power low high : R) : Prop :=                           (* precondition of the distribution object built *)
  if Rlt_dec (Rabs (power - -1)) epsilon then uniform_ok (log10 low) (log10 high) else uniform_ok (cpow low (power + 1)) (cpow high (power + 1)).
