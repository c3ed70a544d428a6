(** What an assignment of a vector expression means: compute all components from the old values, then store them. *)
From Verif Require Import Lazy_Model.
Open Scope R_scope.
(** The value of component i of the expression, mathematically. *)
Fixpoint value (m : store) (e : lexpr) (i : nat) : R :=
  match e with
  | Arr v => nth i (m v) 0
  | Val x => x
  | Comp v j => nth j (m v) 0
  | Slice v b s => nth (Z.to_nat ((b + Z.of_nat i * s) mod Z.of_nat (length (m v)))) (m v) 0
  | Un f a => f (value m a i)
  | Bin f a b => f (value m a i) (value m b i)
  end.
(** The arrays are long enough for len components (and slices are of non-empty arrays, with a start the compiler accepts
    and no wrap-around below zero). *)
Fixpoint fits (m : store) (len : nat) (e : lexpr) : Prop :=
  match e with
  | Arr v => (len <= length (m v))%nat
  | Val _ => True
  | Comp v j => (j < length (m v))%nat
  | Slice v b s => (0 < length (m v))%nat /\ forall i, (i < len)%nat -> (0 <= b + Z.of_nat (length (m v)) + Z.of_nat i * s < 2 ^ 64)%Z
  | Un _ a => fits m len a
  | Bin _ a b => fits m len a /\ fits m len b
  end.
(** No operand is a single component of the array v, and slices of v do not look back. *)
Fixpoint no_component_of (v : nat) (m : store) (len : nat) (e : lexpr) : Prop :=
  match e with
  | Arr _ | Val _ => True
  | Comp w _ => w <> v
  | Slice w b s => w = v -> forall i, (i < len)%nat -> (i <= Z.to_nat ((b + Z.of_nat i * s) mod Z.of_nat (length (m w))))%nat
  | Un _ a => no_component_of v m len a
  | Bin _ a b => no_component_of v m len a /\ no_component_of v m len b
  end.
(** All components at once; other arrays and further components unchanged. *)
Definition simultaneous (op : R -> R -> R) (len v : nat) (e : lexpr) (m m' : store) : Prop :=
  (forall w, w <> v -> m' w = m w) /\ length (m' v) = length (m v) /\
  forall i, nth i (m' v) 0 = if (i <? len)%nat then op (nth i (m v) 0) (value m e i) else nth i (m v) 0.
(** Python-like slice positions: a negative position counts from the end. *)
Definition pos_of (n : nat) (p : Z) : Z := if (p <? 0)%Z then (p + Z.of_nat n)%Z else p.
