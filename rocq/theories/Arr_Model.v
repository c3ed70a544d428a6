(** The element-wise array helpers of namespace hub::calc, core-computation.hpp:84-442.

    The arrays of a program are named by numbers; [heap] gives the contents of each, so the same
    array may be passed twice, as the callers do (array_add(acc, acc, newtonian), array_scale(x, x, k),
    array_add(data_out, data_mid, data_out)).  The element type and every operator on it are
    parameters: nothing below uses a law of arithmetic, so it holds for double, for the compensated
    numbers and for vectors alike. *)
From Verif Require Export Vec Chain_Model.
Open Scope nat_scope.

(** The array arguments of the helpers, core-computation.hpp:104-452. *)
Definition heap (A : Type) := nat -> list A.
(** The assignment to an element of the array named [d], e.g. core-computation.hpp:169. *)
Definition hput {A} (h : heap A) (d : nat) (l : list A) : heap A := fun x => if x =? d then l else h x.
(** [dst[i] = rhs] where the right-hand side [rd] is evaluated in the current heap (every loop body of
    core-computation.hpp:162-419). *)
Definition assign {A} (d : nat) (rd : nat -> heap A -> outcome A) (i : nat) (h : heap A) : outcome (heap A) :=
  obind (rd i h) (fun v => obind (aset (h d) i v) (fun l => Ok (hput h d l))).
(** [for (i = 0; i < n; i++) dst[i] = rhs]. *)
Definition each {A} (d : nat) (rd : nat -> heap A -> outcome A) (n : nat) (h : heap A) : outcome (heap A) :=
  for_up 0 n (assign d rd) h.

(** ** Right-hand sides *)
(** One operand, core-computation.hpp:268, 290. *)
Definition rd1 {A} (f : A -> A) (a : nat) (i : nat) (h : heap A) : outcome A :=
  obind (aget (h a) i) (fun x => Ok (f x)).
(** Two operands, core-computation.hpp:274, 279, 324, 330, 340, 360, 369, 379, 388, 397, 407, 417. *)
Definition rd2 {A} (f : A -> A -> A) (a b : nat) (i : nat) (h : heap A) : outcome A :=
  obind (aget (h a) i) (fun x => obind (aget (h b) i) (fun y => Ok (f x y))).
(** The unary right fold [(args[i] op ...)], 169, 302: a0 op (a1 op (... op ak)). *)
Fixpoint rdfold {A} (op : A -> A -> A) (a : nat) (args : list nat) (i : nat) (h : heap A) : outcome A :=
  match args with
  | [] => aget (h a) i
  | b :: rest => obind (aget (h a) i) (fun x => obind (rdfold op b rest i h) (fun y => Ok (op x y)))
  end.

(** Operators of the element type [A] and the scalar type [T] the helpers are instantiated with
    (core-computation.hpp:104-452): + - * /, += and -= (for the compensated numbers they differ from + and -),
    the vector product dot(), multiplication and division by a scalar, and the zero of array_set_zero. *)
Record elem (A T : Type) := mkElem {
  e_add : A -> A -> A; e_sub : A -> A -> A; e_mul : A -> A -> A; e_div : A -> A -> A;
  e_addto : A -> A -> A; e_subto : A -> A -> A; e_dotp : A -> A -> A;
  e_scale : A -> T -> A; e_divs : A -> T -> A; e_zero : A }.
Arguments e_add {A T}.
Arguments e_sub {A T}.
Arguments e_mul {A T}.
Arguments e_div {A T}.
Arguments e_addto {A T}.
Arguments e_subto {A T}.
Arguments e_dotp {A T}.
Arguments e_scale {A T}.
Arguments e_divs {A T}.
Arguments e_zero {A T}.

Section Helpers.
  Context {A T : Type}.
  Variable O : elem A T.
  Local Notation add := (e_add O).
  Local Notation sub := (e_sub O).
  Local Notation mul := (e_mul O).
  Local Notation div := (e_div O).
  Local Notation addto := (e_addto O).
  Local Notation subto := (e_subto O).
  Local Notation dotp := (e_dotp O).
  Local Notation scale := (e_scale O).
  Local Notation divs := (e_divs O).
  Local Notation zero := (e_zero O).

  (** core-computation.hpp array_set_zero, 104-109 (std::fill over the whole range). *)
  Definition array_set_zero (d : nat) (h : heap A) : outcome (heap A) :=
    Ok (hput h d (repeat zero (length (h d)))).
  (** set_arrays_zero, 117-120: comma fold, left to right. *)
  Fixpoint set_arrays_zero (ds : list nat) (h : heap A) : outcome (heap A) :=
    match ds with [] => Ok h | d :: r => obind (array_set_zero d h) (set_arrays_zero r) end.
  (** array_add, 160-171. *)
  Definition array_add (d a : nat) (args : list nat) (h : heap A) := each d (rdfold add a args) (length (h d)) h.
  (** array_scale, 258-270. *)
  Definition array_scale (d a : nat) (k : T) (h : heap A) := each d (rd1 (fun x => scale x k) a) (length (h d)) h.
  (** array_scale_add, 272-275: std::transform runs over the range of [a]. *)
  Definition array_scale_add (d a b : nat) (c : T) (h : heap A) :=
    each d (rd2 (fun x y => scale (add x y) c) a b) (length (h a)) h.
  (** array_scale_add with two factors, 277-280. *)
  Definition array_scale_add2 (d a : nat) (b : T) (c : nat) (e : T) (h : heap A) :=
    each d (rd2 (fun x y => add (scale x b) (scale y e)) a c) (length (h a)) h.
  (** array_div_scale, 282-292. *)
  Definition array_div_scale (d a : nat) (k : T) (h : heap A) := each d (rd1 (fun x => divs x k) a) (length (h d)) h.
  (** array_mul, 306-314. *)
  Definition array_mul (d a : nat) (args : list nat) (h : heap A) := each d (rdfold mul a args) (length (h d)) h.
  (** array_sub, 316-326. *)
  Definition array_sub (d a b : nat) (h : heap A) := each d (rd2 sub a b) (length (h d)) h.
  (** array_scale_sub, 328-331 (std::transform over [a]). *)
  Definition array_scale_sub (d a b : nat) (c : T) (h : heap A) :=
    each d (rd2 (fun x y => scale (sub x y) c) a b) (length (h a)) h.
  (** array_div, 333-342. *)
  Definition array_div (d a b : nat) (h : heap A) := each d (rd2 div a b) (length (h d)) h.
  (** array_advance(var, increment), 355-362. *)
  Definition array_advance (v a : nat) (h : heap A) := each v (rd2 addto v a) (length (h v)) h.
  (** array_advance(var, increment, step), 364-371. *)
  Definition array_advance_by (v a : nat) (k : T) (h : heap A) :=
    each v (rd2 (fun x y => addto x (scale y k)) v a) (length (h v)) h.
  (** array_advance(dst, var, increment, step), 373-381: the bound is var.size(). *)
  Definition array_advance_to (d v a : nat) (k : T) (h : heap A) :=
    each d (rd2 (fun x y => add x (scale y k)) v a) (length (h v)) h.
  (** array_retreat, 383-409, in the same three forms. *)
  Definition array_retreat (v a : nat) (h : heap A) := each v (rd2 subto v a) (length (h v)) h.
  (** core-computation.hpp:392-399. *)
  Definition array_retreat_by (v a : nat) (k : T) (h : heap A) :=
    each v (rd2 (fun x y => subto x (scale y k)) v a) (length (h v)) h.
  (** core-computation.hpp:401-409. *)
  Definition array_retreat_to (d v a : nat) (k : T) (h : heap A) :=
    each d (rd2 (fun x y => sub x (scale y k)) v a) (length (h v)) h.
  (** coord_dot, 411-419. *)
  Definition coord_dot (d a b : nat) (h : heap A) := each d (rd2 dotp a b) (length (h d)) h.
  (** array_dot, 135-145: [args * ... * (a * b)] is a binary right fold, and the products are summed in
      index order with operator+=. *)
  Fixpoint prodfold (args : list nat) (ab : A) (i : nat) (h : heap A) : outcome A :=
    match args with
    | [] => Ok ab
    | c :: r => obind (aget (h c) i) (fun x => obind (prodfold r ab i h) (fun y => Ok (mul x y)))
    end.
  (** core-computation.hpp:136-145. *)
  Definition array_dot (a b : nat) (args : list nat) (h : heap A) : outcome A :=
    for_up 0 (length (h a)) (fun i s =>
      obind (aget (h a) i) (fun x => obind (aget (h b) i) (fun y =>
      obind (prodfold args (mul x y) i h) (fun p => Ok (addto s p))))) zero.
  (** array_sum, 344-353. *)
  Definition array_sum (a : nat) (h : heap A) : A := fold_left addto (h a) zero.
  (** coord_contract_to_scalar with coefficients, 421-430: the bound is coef.size(). *)
  Definition coord_contract (coef a b : nat) (h : heap A) : outcome A :=
    for_up 0 (length (h coef)) (fun i s =>
      obind (aget (h a) i) (fun x => obind (aget (h b) i) (fun y =>
      obind (aget (h coef) i) (fun c => Ok (addto s (mul (dotp x y) c)))))) zero.
  (** coord_contract_to_scalar, 443-452: the bound is a.size(). *)
  Definition coord_contract2 (a b : nat) (h : heap A) : outcome A :=
    for_up 0 (length (h a)) (fun i s =>
      obind (aget (h a) i) (fun x => obind (aget (h b) i) (fun y => Ok (addto s (dotp x y))))) zero.
End Helpers.

(** ** Reordered execution
    The loops carry "#pragma GCC ivdep" (and a commented "omp parallel for"): the compiler may assume that
    no iteration depends on another.  An execution is then any interleaving in which each iteration
    loads its operands before it stores its result. *)
(** Loads and stores of the loops marked ivdep, core-computation.hpp:165, 266, 288, 312, 322, 338, 358, 367, 377, 386, 395, 405, 415. *)
Inductive event := Load (i : nat) | Store (i : nat).
(** Memory and registers of such an execution (core-computation.hpp:165). *)
Definition mstate (A : Type) := (heap A * (nat -> option A))%type.
(** One event of the loop body, core-computation.hpp:165-170. *)
Definition perform {A} (d : nat) (rd : nat -> heap A -> outcome A) (e : event) (s : mstate A) : outcome (mstate A) :=
  match e with
  | Load i => obind (rd i (fst s)) (fun v => Ok (fst s, fun j => if j =? i then Some v else snd s j))
  | Store i => match snd s i with
               | Some v => obind (aset (fst s d) i v) (fun l => Ok (hput (fst s) d l, snd s))
               | None => UB                         (* stores an undefined register *)
               end
  end.
(** The whole loop, core-computation.hpp:165-170. *)
Fixpoint perform_all {A} (d : nat) (rd : nat -> heap A -> outcome A) (es : list event) (s : mstate A) : outcome (mstate A) :=
  match es with [] => Ok s | e :: r => obind (perform d rd e s) (perform_all d rd r) end.

(** ** Error terms of compensated numbers
    [K] is the compensated number with its value and its error term (kahan-number.hpp: real, err).
    For element types without a member err the four helpers do nothing (if constexpr). *)
(** kahan-number.hpp:43: value and error term. *)
Record cnum (T : Type) := mkC { c_val : T; c_err : T }.
Arguments mkC {T}. Arguments c_val {T}. Arguments c_err {T}.
(** Vec3 of any type. *)
Record v3 (T : Type) := mkV3 { v_x : T; v_y : T; v_z : T }.
Arguments mkV3 {T}. Arguments v_x {T}. Arguments v_y {T}. Arguments v_z {T}.
(** [x.err = e], core-computation.hpp:181. *)
Definition with_err {T} (k : cnum T) (e : T) : cnum T := mkC (c_val k) e.

(** [for i < dst.size(): dst[i] = f dst[i] src[i]], core-computation.hpp:179-182. *)
Definition zip_into {D S} (f : D -> S -> D) (dst : list D) (src : list S) : outcome (list D) :=
  for_up 0 (length dst) (fun i dst =>
    obind (aget dst i) (fun x => obind (aget src i) (fun y => aset dst i (f x y)))) dst.

(** array_load_err, 176-192: scalars and vectors. *)
Definition array_load_err {T} : list (cnum T) -> list T -> outcome (list (cnum T)) := zip_into with_err.
(** core-computation.hpp:183-191. *)
Definition array_load_err3 {T} : list (v3 (cnum T)) -> list (v3 T) -> outcome (list (v3 (cnum T))) :=
  zip_into (fun d s => mkV3 (with_err (v_x d) (v_x s)) (with_err (v_y d) (v_y s)) (with_err (v_z d) (v_z s))).
(** array_save_err, 194-210. *)
Definition array_save_err {T} : list T -> list (cnum T) -> outcome (list T) := zip_into (fun _ s => c_err s).
(** core-computation.hpp:201-209. *)
Definition array_save_err3 {T} : list (v3 T) -> list (v3 (cnum T)) -> outcome (list (v3 T)) :=
  zip_into (fun _ s => mkV3 (c_err (v_x s)) (c_err (v_y s)) (c_err (v_z s))).
(** array_copy_err, 212-228. *)
Definition array_copy_err {T} : list (cnum T) -> list (cnum T) -> outcome (list (cnum T)) :=
  zip_into (fun d s => with_err d (c_err s)).
(** core-computation.hpp:219-227. *)
Definition array_copy_err3 {T} : list (v3 (cnum T)) -> list (v3 (cnum T)) -> outcome (list (v3 (cnum T))) :=
  zip_into (fun d s => mkV3 (with_err (v_x d) (c_err (v_x s))) (with_err (v_y d) (c_err (v_y s)))
                            (with_err (v_z d) (c_err (v_z s)))).
(** array_set_err_zero, 230-247. *)
Definition array_set_err_zero {T} (zero : T) (dst : list (cnum T)) : list (cnum T) := map (fun d => with_err d zero) dst.
(** core-computation.hpp:237-246. *)
Definition array_set_err_zero3 {T} (zero : T) (dst : list (v3 (cnum T))) : list (v3 (cnum T)) :=
  map (fun d => mkV3 (with_err (v_x d) zero) (with_err (v_y d) zero) (with_err (v_z d) zero)) dst.
