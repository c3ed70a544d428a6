(** Models of /repo/src/lazy-evaluation/lazy_expr.h, of LazyVec3 (/repo/src/vector/lazy-vec3.h), of the small Larray
    (/repo/src/lazy-evaluation/lazy_array.h:106-180) and of reading through slices (/repo/src/lazy-evaluation/slice.h).
    Scalars are real numbers; the operators of lazy_expr.h:92-126 are arbitrary functions.  The large Larray and the
    assignment of an expression to a slice are not modelled: multi_threads_loop is not visible in hub::lazy, so they do
    not compile when used. *)
From Coq Require Export Reals Lra Lia ZArith.
From Verif Require Export Base.
Open Scope R_scope.

(** The named arrays of the caller (a LazyVec3 is one of length 3, lazy-vec3.h:12-23; Larray, lazy_array.h:178). *)
Definition store := nat -> list R.
(** A lazy expression as it stands in one full expression of the caller.  Unary_Expr and Binary_Expr (lazy_expr.h:24-56)
    hold references to their operands: an array, another expression object, or a scalar.  A scalar operand is either a
    value no assignment of the expression can change ([Val]) or a component of an array of the caller ([Comp v j], like
    v.x or a[2]).  [Slice v b s] is a[slice(b, e, s)], slice.h:46-70 (the end does not matter for reading). *)
Inductive lexpr :=
| Arr (v : nat)
| Val (x : R)
| Comp (v j : nat)
| Slice (v : nat) (b s : Z)
| Un (f : R -> R) (a : lexpr)
| Bin (f : R -> R -> R) (a b : lexpr).
(** Slice_Expr::eval, slice.h:64: (Begin + SrcSize + i * Stride) % SrcSize in size_t (64 bits). *)
Definition slice_at (b s : Z) (n i : nat) : nat :=
  Z.to_nat (((b + Z.of_nat n + Z.of_nat i * s) mod 2 ^ 64) mod Z.of_nat n).
(** constexpr_slice_len, slice.h:20-35. *)
Definition slice_len (begin end_ stride : Z) (n : nat) : Z :=
  let size := Z.of_nat n in
  let b := if (0 <? begin)%Z then begin else (size + begin)%Z in
  let e := if (0 <? end_)%Z then end_ else (size + end_)%Z in
  if (0 <? stride)%Z && (b <? e)%Z then (1 + (e - b))%Z
  else if (0 <? stride)%Z && (e <? b)%Z then (1 + (e - b + size))%Z
  else if (stride <? 0)%Z && (b <? e)%Z then (1 + (size + b - e))%Z
  else if (stride <? 0)%Z && (e <? b)%Z then (1 + (b - e))%Z
  else 1%Z.
(** eval and eval_at, lazy_expr.h:14-22, 34-37, 50-54: scalars ignore the index; the arrays do not check it
    (lazy-vec3.h:46, lazy_array.h:123). *)
Fixpoint eval (m : store) (e : lexpr) (i : nat) : outcome R :=
  match e with
  | Arr v => aget (m v) i
  | Val x => Ok x
  | Comp v j => aget (m v) j
  | Slice v b s => aget (m v) (slice_at b s (length (m v)) i)
  | Un f a => obind (eval m a i) (fun x => Ok (f x))
  | Bin f a b => obind (eval m a i) (fun x => obind (eval m b i) (fun y => Ok (f x y)))
  end.
(** data_[i] = x: writing past the end is undefined, lazy_array.h:147, lazy-vec3.h:58-60. *)
Definition put (m : store) (v i : nat) (x : R) : outcome store :=
  if (i <? length (m v))%nat then Ok (fun w => if (w =? v)%nat then list_set (m v) i x else m w) else UB.
(** The loop of operator= and of the compound assignments, component after component: lazy-vec3.h:55-62 (set), 65-71 (add),
    74-80 (subtract), 83-89 (multiply), 92-98 (divide); lazy_array.h:143-150 (set).  [op] is the compound operator; plain assignment ignores
    the old value.  For LazyVec3 len is 3. *)
Definition assign (op : R -> R -> R) (len v : nat) (e : lexpr) (m : store) : outcome store :=
  fold_left (fun om i => obind om (fun m => obind (eval m e i) (fun x => obind (aget (m v) i) (fun old => put m v i (op old x)))))
    (seq 0 len) (Ok m).
(** operator=: lazy-vec3.h:55-62, lazy_array.h:143-150. *)
Definition set_op (old x : R) : R := x.
(** The constructors from an expression: a new array v of len components, lazy-vec3.h:33-39, lazy_array.h:134-140 (the
    components are filled one after the other; the expression cannot mention the array under construction). *)
Definition construct (len v : nat) (e : lexpr) (m : store) : outcome store :=
  fold_left (fun om i => obind om (fun m => obind (eval m e i) (fun x => Ok (fun w => if (w =? v)%nat then m v ++ [x] else m w))))
    (seq 0 len) (Ok (fun w => if (w =? v)%nat then [] else m w)).
(** max and min of the small Larray, lazy_array.h:152-166. *)
Definition larray_max (l : list R) : outcome R :=
  obind (aget l 0) (fun x => Ok (fold_left (fun mx y => if Rlt_dec mx y then y else mx) (tl l) x)).
(** lazy_array.h:160-166. *)
Definition larray_min (l : list R) : outcome R :=
  obind (aget l 0) (fun x => Ok (fold_left (fun mn y => if Rlt_dec y mn then y else mn) (tl l) x)).
(** Scalar assignment to a slice, slice.h:57-62 ([len] is size()). *)
Definition slice_fill (b e s : Z) (v : nat) (x : R) (m : store) : outcome store :=
  fold_left (fun om i => obind om (fun m => put m v (slice_at b s (length (m v)) i) x)) (seq 0 (Z.to_nat (slice_len b e s (length (m v))))) (Ok m).
