(** Specification vocabulary for chain coordinates in floating-point arithmetic. *)
From Verif Require Export Fchain_Model Chain_Spec.
Open Scope R_scope.

(** The three components of a vector. *)
Inductive axis := X | Y | Z3.
Definition co (a : axis) (v : vec) : R := match a with X => vx v | Y => vy v | Z3 => vz v end.
(** 2^-prec: half the distance between 1 and the next number. *)
Definition uro (prec : Z) : R := bpow radix2 (- prec).
(** Every component of every position is a number of the format. *)
Definition stored (emin prec : Z) (l : list vec) : Prop := forall v a, In v l -> fmt emin prec (co a v).
(** Particle number at place [i] of the chain, and the true separation from it to the next one, and from place [i] to place [j]. *)
Definition at_place (cart : list vec) (idx : list nat) (i : nat) : vec := nth (nth i idx 0%nat) cart vzero.
Definition gap (cart : list vec) (idx : list nat) (a : axis) (i j : nat) : R := co a (at_place cart idx j) - co a (at_place cart idx i).
(** Path length from place [i] along [k] links, component [a]: the sum of the magnitudes of the true separations. *)
Fixpoint path (cart : list vec) (idx : list nat) (a : axis) (i k : nat) : R :=
  match k with O => 0 | S k' => path cart idx a i k' + Rabs (gap cart idx a (i + k') (i + k' + 1)) end.
(** All coordinates lie on a common grid of spacing 2^[e] and within 2^(prec-1) cells of the origin. *)
Definition on_grid (prec e : Z) (l : list vec) : Prop :=
  forall v a, In v l -> exists m : Z, co a v = IZR m * bpow radix2 e /\ (Z.abs m <= 2 ^ (prec - 1))%Z.
(** Every separation of two particles is a number of the format. *)
Definition gaps_stored (emin prec : Z) (l : list vec) : Prop := forall v w a, In v l -> In w l -> fmt emin prec (co a v - co a w).
