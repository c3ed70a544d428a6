(** The compensated numbers of /repo/src/kahan-number.hpp on IEEE 754 numbers, infinities and NaN included, as operations on objects: the two operands
    may be the same object (x += x).  Operators of T as in Ieee_Model.v. *)
From Verif Require Export Ieee_Model.

Section Ikah.
Variables (prec emax : Z).
Context { prec_gt_0_ : Prec_gt_0 prec } { prec_lt_emax_ : Prec_lt_emax prec emax }.
Notation fl := (binary_float prec emax).
(** The members real, err (kahan-number.hpp:43, 155) and err_of_err (268, Klein only). *)
Record knum := mkN { kr : fl; ke : fl; ko : fl }.
(** The objects of the program, kahan-number.hpp:43, 155, 268. *)
Definition heap := nat -> knum.
(** Assignment to an object, e.g. kahan-number.hpp:97-99. *)
Definition put (h : heap) (l : nat) (k : knum) : heap := fun o => if Nat.eqb o l then k else h o.
(** lhs.real = x, e.g. kahan-number.hpp:99. *)
Definition put_r (h : heap) (l : nat) (x : fl) : heap := put h l (mkN x (ke (h l)) (ko (h l))).
(** lhs.err = x, e.g. kahan-number.hpp:97. *)
Definition put_e (h : heap) (l : nat) (x : fl) : heap := put h l (mkN (kr (h l)) x (ko (h l))).
(** lhs.err_of_err = x, e.g. kahan-number.hpp:331. *)
Definition put_o (h : heap) (l : nat) (x : fl) : heap := put h l (mkN (kr (h l)) (ke (h l)) x).
(** The constructors from T, kahan-number.hpp:54, 166, 284. *)
Definition of_scalar (x : fl) : knum := mkN x izero izero.
(** math::abs, math.hpp:99-102: x >= 0 ? x : -x. *)
Definition mabs (x : fl) : fl := match Bcompare x izero with Some Gt | Some Eq => x | _ => ineg x end.

(** Kahan +=, kahan-number.hpp:93-101. *)
Definition k_plus (l r : nat) (h : heap) : heap :=
  let add := isub (kr (h r)) (ke (h l)) in
  let sum := iadd (kr (h l)) add in
  let h1 := put_e h l (isub (isub sum (kr (h l))) add) in
  put_r h1 l sum.
(** Kahan -=, kahan-number.hpp:106-114. *)
Definition k_minus (l r : nat) (h : heap) : heap :=
  let add := isub (ineg (kr (h r))) (ke (h l)) in
  let sum := iadd (kr (h l)) add in
  let h1 := put_e h l (isub (isub sum (kr (h l))) add) in
  put_r h1 l sum.
(** Neumaier +=, kahan-number.hpp:205-216. *)
Definition n_plus (l r : nat) (h : heap) : heap :=
  let add := iadd (kr (h r)) (ke (h l)) in
  let sum := iadd (kr (h l)) add in
  let h1 := put_e h l (if ilt (mabs add) (mabs (kr (h l))) then iadd (isub (kr (h l)) sum) add else iadd (isub add sum) (kr (h l))) in
  put_r h1 l sum.
(** Neumaier -=, kahan-number.hpp:221-232. *)
Definition n_minus (l r : nat) (h : heap) : heap :=
  let add := iadd (ineg (kr (h r))) (ke (h l)) in
  let sum := iadd (kr (h l)) add in
  let h1 := put_e h l (if ilt (mabs add) (mabs (kr (h l))) then iadd (isub (kr (h l)) sum) add else iadd (isub add sum) (kr (h l))) in
  put_r h1 l sum.
(** Klein +=, kahan-number.hpp:326-345. *)
Definition e_plus (l r : nat) (h : heap) : heap :=
  let add := iadd (ke (h l)) (ko (h l)) in
  let sum := iadd (kr (h r)) add in
  let h1 := put_o h l (if ilt (mabs add) (mabs (kr (h r))) then iadd (isub (kr (h r)) sum) add else iadd (isub add sum) (kr (h r))) in
  let sum2 := iadd (kr (h1 l)) sum in
  let h2 := put_e h1 l (if ilt (mabs sum) (mabs (kr (h1 l))) then iadd (isub (kr (h1 l)) sum2) sum else iadd (isub sum sum2) (kr (h1 l))) in
  put_r h2 l sum2.
(** Klein -=, kahan-number.hpp:350-369. *)
Definition e_minus (l r : nat) (h : heap) : heap :=
  let add := iadd (ke (h l)) (ko (h l)) in
  let sum := iadd (ineg (kr (h r))) add in
  let h1 := put_o h l (if ilt (mabs add) (mabs (kr (h r))) then iadd (isub (ineg (kr (h r))) sum) add else isub (isub add sum) (kr (h r))) in
  let sum2 := iadd (kr (h1 l)) sum in
  let h2 := put_e h1 l (if ilt (mabs sum) (mabs (kr (h1 l))) then iadd (isub (kr (h1 l)) sum2) sum else iadd (isub sum sum2) (kr (h1 l))) in
  put_r h2 l sum2.
(** *= of the three types, kahan-number.hpp:127-130, 245-248, 382-385. *)
Definition times (l r : nat) (h : heap) : heap := put_r h l (imul (kr (h l)) (kr (h r))).
(** /= of the three types, kahan-number.hpp:119-122, 237-240, 374-377. *)
Definition over (l r : nat) (h : heap) : heap := put_r h l (idiv (kr (h l)) (kr (h r))).
(** Unary minus, kahan-number.hpp:88, 200, 321: a new number. *)
Definition opposite (k : knum) : knum := of_scalar (ineg (kr k)).
(** zero_err, kahan-number.hpp:83, 195, 313-316 (Klein also clears err_of_err, which the other two do not have). *)
Definition zero_err (l : nat) (h : heap) : heap := put_o (put_e h l izero) l izero.
End Ikah.
Arguments mkN {prec emax}. Arguments kr {prec emax}. Arguments ke {prec emax}. Arguments ko {prec emax}. Arguments put {prec emax}. Arguments put_r {prec emax}. Arguments put_e {prec emax}.
Arguments put_o {prec emax}. Arguments of_scalar {prec emax}. Arguments mabs {prec emax}. Arguments k_plus {prec emax _ _}. Arguments k_minus {prec emax _ _}. Arguments n_plus {prec emax _ _}.
Arguments n_minus {prec emax _ _}. Arguments e_plus {prec emax _ _}. Arguments e_minus {prec emax _ _}. Arguments times {prec emax _ _}. Arguments over {prec emax _ _}.
Arguments opposite {prec emax}. Arguments zero_err {prec emax}.
