(** What the two-thread build of the Bulirsch-Stoer iterator must compute. *)
From Verif Require Export Par_Model.
From Verif Require Import System_Spec BS_Spec.
Open Scope R_scope.

(** No data race: two accesses of different threads to the same object are both reads. *)
Definition race_free (log : list (bool * access)) : Prop :=
  forall w1 f1 w2 f2 l, In (w1, (f1, l)) log -> In (w2, (f2, l)) log -> w1 <> w2 -> f1 = false /\ f2 = false.
(** The increments that one thread alone collects from the state [s] over the step [h] in [k] sub-steps. *)
Definition serial_row (dr ki : st -> R -> st) (kdk : bool) (s : st) (h : R) (k : nat) : list R :=
  s_inc (integrate dr ki (nsteps_ops kdk k) (clear_increment (set_sync s true)) (h / INR k)).
(** Everything a schedule of the two threads may produce, from the table [ext] and the rank [rank]. *)
Definition good_schedule (M rank : nat) (row : nat -> list R) (ext : list (list R)) (sched : list bool) (r : outcome (conf st)) : Prop :=
  exists c, r = Ok c /\ (length sched <= 6 * (rank + 4))%nat /\ race_free (k_log st c) /\
    (finished st c -> length (k_ext st c) = length ext /\
      forall j, nth j (k_ext st c) [] = if (j <=? rank + 1)%nat then row (h_at (M + 1) j) else nth j ext []).
(** Two calls end alike: same outcome; if they return, the same next step length, the same state and the same iterator up to the scratch table. *)
Definition same_call (wr : st -> list R) (x y : outcome (bs * st * R)) : Prop :=
  match x, y with
  | Ok (b1, s1, h1), Ok (b2, s2, h2) => h1 = h2 /\ wr s1 = wr s2 /\ s_m s1 = s_m s2 /\ s_sync s1 = s_sync s2 /\ b1 = set_row b2 (b_ext b1) (b_ideal b2) (b_cpl b2)
  | Abort, Abort => True
  | UB, UB => True
  | _, _ => False
  end.
