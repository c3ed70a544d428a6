(** Specification vocabulary for the Bulirsch-Stoer iterator. *)
From Verif Require Export BS_Model System_Spec.
Open Scope R_scope.

(** Value at [x] of the polynomial with coefficients [p] (constant term first): degree < length p. *)
Definition peval (p : list R) (x : R) : R := fold_right (fun a acc => a + x * acc) 0 p.
(** Squared relative sub-step of row i. *)
Definition node (N i : nat) : R := / (INR (h_at N i) * INR (h_at N i)).
(** [p] is a polynomial of degree <= k - j through the data of rows j..k. *)
Definition interpolates (N : nat) (T : nat -> R) (j k : nat) (p : list R) : Prop :=
  (length p <= k - j + 1)%nat /\ forall i, (j <= i <= k)%nat -> peval p (node N i) = T i.
(** [v] is the value at step zero of the polynomials of degree <= k - j through rows j..k. *)
Definition extrapolates_to (N : nat) (T : nat -> R) (j k : nat) (v : R) : Prop :=
  (exists p, interpolates N T j k p) /\ forall p, interpolates N T j k p -> v = peval p 0.
(** The same for arrays, componentwise. *)
Definition extrapolant (N n : nat) (T : nat -> list R) (j k : nat) (y : list R) : Prop :=
  length y = n /\ forall x, (x < n)%nat -> extrapolates_to N (fun i => nth x (T i) 0) j k (nth x y 0).

(** The way both iterate functions fill the table: row 0, then for each k = 1..K store row k and
    extrapolate. *)
Fixpoint fill_table (N K : nat) (T : nat -> list R) (ext : list (list R)) : outcome (list (list R)) :=
  match K with
  | O => aset ext 0 (T 0%nat)
  | S K' => obind (fill_table N K' T ext) (fun e => obind (aset e K (T K)) (extrapolate N K))
  end.

(** Behaviour expected of a particle system during one call with initial array [input]: after reading
    [input] into any system state met, a run over step [h] with [n] sub-steps yields the increments
    [row h n], and nothing but [input], [h] and [n] matters.  [C28]/[C29] establish it. *)
Record replays {P : Type} (rd : P -> list R -> outcome P) (run : P -> R -> nat -> outcome (P * list R))
               (Inv : P -> Prop) (input : list R) (row : R -> nat -> list R) : Prop := {
  rp_read : forall p y, Inv p -> length y = length input -> exists q, rd p y = Ok q /\ Inv q;
  rp_run : forall p q h n, (0 < n)%nat -> Inv p -> rd p input = Ok q -> exists p', run q h n = Ok (p', row h n) /\ Inv p';
  rp_len : forall h n, (0 < n)%nat -> length (row h n) = length input }.

(** Steps tried within one call that starts with step [h]. *)
Inductive tried (lim : nat -> R -> R) : R -> R -> Prop :=
| tr_first h : tried lim h h
| tr_next h h1 order ratio : tried lim h h1 -> tried lim h (h1 * lim order ratio).

(** Closed under the combinations x + (x - y) c the table forms. *)
Definition affine (Q : list R -> Prop) : Prop :=
  forall x y c, length x = length y -> Q x -> Q y -> Q (zipw (fun a b => a + (a - b) * c) x y).

(** Table sizes and rank range in which no access is out of bounds. *)
Definition sizes (M : nat) (b : bs) : Prop :=
  length (b_ext b) = (M + 1)%nat /\ length (b_ideal b) = (M + 1)%nat /\ length (b_cpl b) = (M + 1)%nat.
Definition safe (M : nat) (b : bs) : Prop := sizes M b /\ (1 <= b_rank b <= M - 1)%nat.

(** One accepted call on the system [s0] with tried step [hk] and row [k]: [row j] are the increments
    collected over [hk] with h_at j sub-steps, always started from [s0]; [y] extrapolates rows 0..k,
    the error of [y] against the extrapolation of rows 1..k is at most 1, the new state array is the old
    one plus [y], and increment collection is off again. *)
Definition accepted_step (M : nat) (kdk : bool) (wr : st -> list R) (dr ki : st -> R -> st) (err : list R -> list R -> list R -> R) (lim : nat -> R -> R)
  (s0 : st) (h : R) (s' : st) (h1 : R) (y : list R) (hk : R) (k : nat) : Prop :=
  let n := length (wr s0) in
  let row := fun j => s_inc (integrate dr ki (nsteps_ops kdk (h_at (M + 1) j)) (clear_increment (set_sync s0 true)) (hk / INR (h_at (M + 1) j))) in
  tried lim h hk /\ (1 <= k <= M)%nat /\ extrapolant (M + 1) n row 0 k y /\
  (exists e1, extrapolant (M + 1) n row 1 k e1 /\ err (wr s0) e1 y <= 1) /\ (exists ratio, h1 = hk * lim (2 * k + 1)%nat ratio) /\
  wr s' = zip_add (wr s0) y /\ s_m s' = s_m s0 /\ s_sync s' = false.
