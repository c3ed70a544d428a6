(** Specification of the calls of the Bulirsch-Stoer iterator on a function dxdt = func(x, t): the rule of Bsel_Spec with the
    caller's time made explicit, because every row moves it. *)
From Verif Require Export Bsel_Spec.
Open Scope R_scope.

Section FSel.
  Context (M : nat) (kdk : bool) (next lim : nat -> R -> R) (E : R -> R -> nat -> R).
  (** [E ts h k]: the error estimate of row [k] of an attempt with step [h] whose row 0 starts at time [ts].  A call with [t]
      attempts left; the result is the new rank, the accepted row and step, the next step, and the time at which the accepted
      attempt began. *)
  Inductive fselects : nat -> nat -> bool -> R -> R -> option (nat * nat * R * R * R) -> Prop :=
  | fsel_exhausted rank first h ts : fselects 0 rank first h ts None
  | fsel_accept t rank first h ts k : ends_at M (E ts) first rank h k -> E ts h k <= 1 ->
      let r := if first then k else new_rank M (unit_work M kdk next (E ts) h) rank k false in
      fselects (S t) rank first h ts (Some (r, k, h, limited M kdk next lim (E ts) h r k, ts))
  | fsel_reject t rank first h ts k res : ends_at M (E ts) first rank h k -> 1 < E ts h k -> hopeless M (E ts) first rank h k ->
      let r := new_rank M (unit_work M kdk next (E ts) h) rank k true in
      fselects t r false (limited M kdk next lim (E ts) h r k) (ts + (INR k + 1) * h) res -> fselects (S t) rank first h ts res
  | fsel_again t rank first h ts res : (forall j, (1 <= j <= rank + 1)%nat -> undecided M (E ts) first rank h j) ->
      fselects t rank first h (ts + (INR rank + 2) * h) res -> fselects (S t) rank first h ts res.
End FSel.
