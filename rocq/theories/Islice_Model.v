(** TimeSlice (/repo/src/args-callback/callbacks.hpp:304-341) on IEEE 754 numbers: infinities, NaN and rounding included.
    The assert of line 307 (end >= start) is not modelled (it is compiled out with NDEBUG).  Both operator() (void and bool operations) test the same
    condition and advance the slot in the same way, 312-334. *)
From Verif Require Export Ieee_Model.

Section Islice.
Variables (prec emax : Z).
Context { prec_gt_0_ : Prec_gt_0 prec } { prec_lt_emax_ : Prec_lt_emax prec emax }.
Notation fl := (binary_float prec emax).
(** The conversion of the size_t opt_num to Scalar in (end - start) / opt_num, callbacks.hpp:306: correctly rounded. *)
Definition of_nat (n : nat) : fl := binary_normalize prec emax prec_gt_0_ prec_lt_emax_ mode_NE (Z.of_nat n) 0 false.
(** x >= y, false when one of them is NaN; callbacks.hpp:316. *)
Definition ige (a b : fl) : bool := match Bcompare a b with Some Gt => true | Some Eq => true | _ => false end.
(** x <= y, callbacks.hpp:316. *)
Definition ile (a b : fl) : bool := match Bcompare a b with Some Lt => true | Some Eq => true | _ => false end.
(** The members opt_time_, end_time_, opt_interval_; callbacks.hpp:108-112. *)
Record islice := mkIT { it_next : fl; it_end : fl; it_int : fl }.
(** The constructor, callbacks.hpp:304-308. *)
Definition it_make (st en : fl) (n : nat) : islice := mkIT st en (idiv (isub en st) (of_nat n)).
(** operator(), callbacks.hpp:310-334: whether the operation is run, and the slice afterwards. *)
Definition it_call (s : islice) (t : fl) : bool * islice :=
  if ige t (it_next s) && ile t (it_end s) then (true, mkIT (iadd (it_next s) (it_int s)) (it_end s) (it_int s)) else (false, s).
(** callbacks.hpp:310-334 called once per element: the times at which the operation ran. *)
Fixpoint it_calls (s : islice) (ts : list fl) : list fl * islice :=
  match ts with
  | [] => ([], s)
  | t :: ts' => let (b, s1) := it_call s t in let (l, s2) := it_calls s1 ts' in (if b then t :: l else l, s2)
  end.
(** reset_slice_params, callbacks.hpp:336-341. *)
Definition it_reset (s : islice) (st en : fl) (n : nat) : islice := mkIT st en (idiv (isub en st) (of_nat n)).
End Islice.
Arguments of_nat {prec emax _ _}. Arguments ige {prec emax}. Arguments ile {prec emax}. Arguments mkIT {prec emax}. Arguments it_next {prec emax}.
Arguments it_end {prec emax}. Arguments it_int {prec emax}. Arguments it_make {prec emax _ _}. Arguments it_call {prec emax _ _}. Arguments it_calls {prec emax _ _}. Arguments it_reset {prec emax _ _}.
