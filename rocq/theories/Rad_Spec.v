(** Specification vocabulary for the Gauss-Radau methods on the particle systems. *)
From Verif Require Export Ias_Model System_Spec.
Open Scope R_scope.

(** Histories of returning calls of a method on a chain system; [Q] holds between the systems before and after each call. *)
Inductive chist (step : ias -> cst -> R -> option (outcome (ias * cst * R)) -> Prop) (Q : cst -> cst -> Prop) : ias -> cst -> ias -> cst -> Prop :=
| chist_none A c : chist step Q A c A c
| chist_more A c h A1 c1 h1 A' c' : step A c h (Some (Ok (A1, c1, h1))) -> Q c c1 -> chist step Q A1 c1 A' c' -> chist step Q A c A' c'.
Definition any_order (c c' : cst) : Prop := True.
Definition same_order (c c' : cst) : Prop := c_idx c' = c_idx c.
(** Masses behind each link of the chain: what its velocity moves (for the last entry, the first particle: all of them). *)
Definition behind (idx : list nat) (m : list R) (l : nat) : R :=
  let n := length m in let w := fun j => nth (nth j idx 0%nat) m 0 in
  if (l =? n - 1)%nat then rsum w n else rsum w n - rsum w (l + 1).
