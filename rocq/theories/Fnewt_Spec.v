(** Specification vocabulary for Newtonian accelerations in floating-point arithmetic. *)
From Coq Require Import Permutation.
From Verif Require Export Fnewt_Model Fchain_Spec Force_Spec.
Open Scope R_scope.

(** Zero, or of magnitude between 2^-E and 2^E. *)
Definition tame (E : Z) (x : R) : Prop := x = 0 \/ bpow radix2 (- E) <= Rabs x <= bpow radix2 E.
(** One rounding multiplies by a factor between 1 - 2^-prec and 1 + 2^-prec, hence between 1/[w] and [w]. *)
Definition w (prec : Z) : R := / (1 - uro prec).
(** Component [a] of the acceleration particle [k] gets from particle [j]: m_j (x_j - x_k) / |x_j - x_k|^3. *)
Definition gpull (s : sys) (a : axis) (k j : nat) : R :=
  let d := vsub (sp s j) (sp s k) in sm s j * co a d / (norm d * norm d * norm d).
(** The acceleration of particle [k], and the sum of the magnitudes of its parts. *)
Definition true_acc (s : sys) (a : axis) (k : nat) : R := rsum (fun j => if (j =? k)%nat then 0 else gpull s a k j) (sn s).
Definition abs_acc (s : sys) (a : axis) (k : nat) : R := rsum (fun j => if (j =? k)%nat then 0 else Rabs (gpull s a k j)) (sn s).
(** Magnitudes of masses and separations are far from the ends of the exponent range. *)
Definition tame_system (E : Z) (s : sys) : Prop :=
  (forall k, (k < sn s)%nat -> tame E (sm s k)) /\
  (forall i j a, (i < sn s)%nat -> (j < sn s)%nat -> i <> j -> tame E (co a (vsub (sp s j) (sp s i)))).
(** What the calls of a list give to particle [k] in exact arithmetic, and the number of calls that concern it. *)
Definition one_part (m : nat -> R) (a : axis) (k : nat) (c : fcall) : R :=
  let '(dr, i, j) := c in let r3 := norm dr * norm dr * norm dr in
  (if (k =? i)%nat then co a dr * m j / r3 else 0) - (if (k =? j)%nat then co a dr * m i / r3 else 0).
Fixpoint parts (m : nat -> R) (a : axis) (k : nat) (calls : list fcall) : R :=
  match calls with [] => 0 | c :: t => one_part m a k c + parts m a k t end.
Fixpoint abs_parts (m : nat -> R) (a : axis) (k : nat) (calls : list fcall) : R :=
  match calls with [] => 0 | c :: t => Rabs (one_part m a k c) + abs_parts m a k t end.
Fixpoint concerns (k : nat) (calls : list fcall) : nat :=
  match calls with [] => 0%nat | (_, i, j) :: t => ((if orb (k =? i)%nat (k =? j)%nat then 1 else 0) + concerns k t)%nat end.
(** Calls a run can make: two different particles, a displacement that is not zero, magnitudes as above. *)
Definition tame_call (E : Z) (m : nat -> R) (c : fcall) : Prop :=
  let '(dr, i, j) := c in i <> j /\ dr <> vzero /\ (forall a, tame E (co a dr)) /\ tame E (m i) /\ tame E (m j).

(** The displacement between the members at places a < b of the chain: a link of the chain, the sum of two links, or (three or more apart) the difference of
    the Cartesian coordinates; the last two are rounded. *)
Definition chain_disp (emin prec : Z) (choice : Z -> bool) (s : sys) (c : chn) (a b : nat) : vec :=
  if (b =? a + 1)%nat then ch_p c a
  else if (b =? a + 2)%nat then fvadd emin prec choice (ch_p c a) (ch_p c (a + 1))
  else fvsub emin prec choice (sp s (ch_idx c b)) (sp s (ch_idx c a)).
(** From place p to place q, either way round. *)
Definition oriented (D : nat -> nat -> vec) (p q : nat) : vec := if (p <? q)%nat then D p q else vneg (D q p).
(** The attraction on the member at place p by the one at place q if the displacements are [D], the sum over all q and the sum of magnitudes. *)
Definition dpull (m : nat -> R) (idx : nat -> nat) (D : nat -> nat -> vec) (x : axis) (p q : nat) : R :=
  let d := oriented D p q in m (idx q) * co x d / (norm d * norm d * norm d).
Definition disp_acc (n : nat) m idx D x (p : nat) : R := rsum (fun q => if (q =? p)%nat then 0 else dpull m idx D x p q) n.
Definition abs_disp_acc (n : nat) m idx D x (p : nat) : R := rsum (fun q => if (q =? p)%nat then 0 else Rabs (dpull m idx D x p q)) n.
(** At most [e] roundings away from [y]. *)
Definition within (prec : Z) (e : nat) (x y : R) : Prop := exists q, x = y * q /\ / w prec ^ e <= q <= w prec ^ e.
(** The index array lists every particle once. *)
Definition index_ok (n : nat) (idx : nat -> nat) : Prop := Permutation (map idx (seq 0 n)) (seq 0 n).
