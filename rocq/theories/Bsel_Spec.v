(** Specification of the order and step selection of the Bulirsch-Stoer iterator (after Hairer, Norsett and Wanner, II.9). *)
From Verif Require Export BS_Spec.
Open Scope R_scope.

(** Sub-steps of row [i] (tables of at most 11 rows use the published sequence) and the work of rows 0..k. *)
Definition substeps (N i : nat) : nat := if (N <=? 11)%nat then nth i [1; 2; 3; 5; 8; 12; 17; 25; 36; 51; 73]%nat 0%nat else (i + 1)%nat.
Definition work (N : nat) (kdk : bool) (k : nat) : R := rsum (fun i => INR (substeps N i) + (if kdk then 2 else 0)) (k + 1).
Section Sel.
  Context (M : nat) (kdk : bool) (next lim : nat -> R -> R) (E : R -> nat -> R).
  Notation N := (M + 1)%nat.
  (** Ideal step of row [k] of an attempt with step [h] whose error is [E h k], and the work per unit length it promises; row 0
      has no error estimate and counts as free. *)
  Definition ideal_len (h : R) (k : nat) : R := h * next (2 * k + 1)%nat (E h k).
  Definition unit_work (h : R) (k : nat) : R := if (k =? 0)%nat then 0 else work N kdk k / ideal_len h k.
  (** Rows at which convergence is tested: the target rank and its neighbours, or all of them in the first call. *)
  Definition tested (first : bool) (rank k : nat) : Prop := first = true \/ (k + 1 = rank)%nat \/ k = rank \/ (k = rank + 1)%nat.
  (** An error too large for the remaining rows. *)
  Definition reach (rank k : nat) : R :=
    if (k + 1 =? rank)%nat then INR (substeps N (k + 1)) * INR (substeps N (k + 2)) else if (k =? rank)%nat then INR (substeps N (k + 1)) else 1.
  Definition hopeless (first : bool) (rank : nat) (h : R) (k : nat) : Prop := first = false /\ reach rank k * reach rank k < E h k.
  Definition undecided (first : bool) (rank : nat) (h : R) (j : nat) : Prop := tested first rank j -> 1 < E h j /\ ~ hopeless first rank h j.
  (** The attempt ends at row [k]. *)
  Definition ends_at (first : bool) (rank : nat) (h : R) (k : nat) : Prop :=
    (1 <= k <= rank + 1)%nat /\ tested first rank k /\ forall j, (1 <= j < k)%nat -> undecided first rank h j.
  Definition clip (i : nat) : nat := Nat.max 2 (Nat.min i (M - 1)).
  (** The next target rank: lower if the previous row was cheaper by a factor 0.8, higher if the last row was cheaper by 0.9
      (not after a rejection). *)
  Definition new_rank (W : nat -> R) (rank k : nat) (rejected : bool) : nat :=
    if (k <=? rank)%nat then
      if Rlt_dec (W (k - 1)%nat) (0.8 * W k) then clip (k - 1)
      else if Rlt_dec (W k) (0.9 * W (k - 1)%nat) then (if rejected then clip k else clip (k + 1)) else clip k
    else
      let r := if Rlt_dec (W (k - 2)%nat) (0.8 * W (k - 1)%nat) then clip (k - 2) else rank in
      if Rlt_dec (W k) (0.9 * W r) then (if rejected then r else clip k) else r.
  (** The step for rank [r]: the ideal one of that row, scaled with the work if the row was not computed. *)
  Definition step_for (h : R) (r k : nat) : R := if (r <=? k)%nat then ideal_len h r else ideal_len h k * work N kdk (k + 1) / work N kdk k.
  Definition limited (h : R) (r k : nat) : R := h * lim (2 * k + 1)%nat (step_for h r k / h).

  (** A call with [t] attempts left, target rank, first-call flag and step: the result is the new rank, the row and step
      accepted and the next step, or none. *)
  Inductive selects : nat -> nat -> bool -> R -> option (nat * nat * R * R) -> Prop :=
  | sel_exhausted rank first h : selects 0 rank first h None
  | sel_accept t rank first h k : ends_at first rank h k -> E h k <= 1 ->
      let r := if first then k else new_rank (unit_work h) rank k false in selects (S t) rank first h (Some (r, k, h, limited h r k))
  | sel_reject t rank first h k res : ends_at first rank h k -> 1 < E h k -> hopeless first rank h k ->
      let r := new_rank (unit_work h) rank k true in selects t r false (limited h r k) res -> selects (S t) rank first h res
  | sel_again t rank first h res : (forall j, (1 <= j <= rank + 1)%nat -> undecided first rank h j) -> selects t rank first h res -> selects (S t) rank first h res.
End Sel.
