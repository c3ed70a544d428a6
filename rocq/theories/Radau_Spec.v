(** Specification vocabulary for the Gauss-Radau integrator: polynomials on the relative step s in [0, 1],
    per component of the state array. *)
From Verif Require Export Radau_Model.
Open Scope R_scope.

(** The force polynomial F(s) = dy0 + sum_i b_i s^(i+1). *)
Definition force_poly (dy0 : R) (b : nat -> R) (s : R) : R := dy0 + rsum (fun i => b i * s ^ (i + 1)) 7.
(** The path y + step (dy0 s + sum_i b_i s^(i+2) / (i+2)). *)
Definition path (y dy0 : R) (b : nat -> R) (step s : R) : R := y + step * (dy0 * s + rsum (fun i => b i * s ^ (i + 2) / INR (i + 2)) 7).
(** Newton basis on the nodes 0, h_0, h_1, ...: w_j(s) = s (s - h_0) ... (s - h_(j-1)). *)
Fixpoint newton_basis (j : nat) (s : R) : R := match j with O => s | S k => newton_basis k s * (s - hs k) end.
Definition newton_poly (dy0 : R) (g : nat -> R) (s : R) : R := dy0 + rsum (fun j => g j * newton_basis j s) 7.
(** Component x of a table. *)
Definition comp (T : nat -> list R) (x : nat) : nat -> R := fun i => nth x (T i) 0.
(** Sizes of the arrays of an integrator used for arrays of n entries. *)
Definition gr_sized (n : nat) (G : gr) : Prop :=
  g_n G = n /\ forall i, (i < 7)%nat -> length (g_b G i) = n /\ length (g_g G i) = n /\ length (g_old G i) = n.
(** Size of a coefficient vector. *)
Definition size7 (c : nat -> R) : R := rsum (fun i => Rabs (c i)) 7.
(** [v] is the integral of f over [0, 1]. *)
Definition integral01 (f : R -> R) (v : R) : Prop := exists A, (forall x, derivable_pt_lim A x (f x)) /\ v = A 1 - A 0.
(** Value of the polynomial with coefficient list [p], constant term first, and the sum of its absolute
    coefficients. *)
Definition pvalue (p : list R) (x : R) : R := fold_right (fun a acc => a + x * acc) 0 p.
Definition psize (p : list R) : R := fold_right (fun a acc => Rabs a + acc) 0 p.
(** The eight Gauss-Radau nodes of a step. *)
Definition radau_node (i : nat) : R := match i with O => 0 | S k => hs k end.

(** A linear functional on state arrays of length n. *)
Definition lin (n : nat) (c : nat -> R) (y : list R) : R := rsum (fun x => c x * nth x y 0) n.

(** Steps an IAS15 call may end up with: every rejection multiplies by a ratio of at most [lmin]. *)
Inductive shrunk (ratio_of : R -> R) (lmin : R) : R -> R -> Prop :=
| shr_none h : shrunk ratio_of lmin h h
| shr_first h h1 r : r <= lmin -> (exists e, r = ratio_of e) -> shrunk ratio_of lmin (h * r) h1 -> shrunk ratio_of lmin h h1.
