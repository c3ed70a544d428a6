(** Vec3<T> (/repo/src/vector/vector3.hpp) on the binary interchange formats of IEEE 754, all values included: two zeros, infinities and NaN
    (one NaN: payloads and the sign of a NaN are not modelled), overflow and underflow.
    [binary_float prec emax] of Flocq; double is [prec] = 53, [emax] = 1024, float is 24, 128.  Rounding to nearest, ties to even (the mode a program
    starts in); one rounding per operator, i.e. no contraction into fused multiply-add and no wider intermediate format
    (CMakeLists.txt:5 sets neither -march nor -ffast-math). *)
From Flocq Require Export Core IEEE754.BinarySingleNaN.
From Coq Require Export Bool ZArith List.
Export ListNotations.

Section Ieee.
Variables (prec emax : Z).
Context { prec_gt_0_ : Prec_gt_0 prec } { prec_lt_emax_ : Prec_lt_emax prec emax }.
Notation fl := (binary_float prec emax).

(** * Operators of T used in vector3.hpp *)
(** x + y, e.g. vector3.hpp:84. *)
Definition iadd (a b : fl) : fl := Bplus mode_NE a b.
(** x - y, e.g. vector3.hpp:90. *)
Definition isub (a b : fl) : fl := Bminus mode_NE a b.
(** x * y, e.g. vector3.hpp:96. *)
Definition imul (a b : fl) : fl := Bmult mode_NE a b.
(** x / y, e.g. vector3.hpp:102. *)
Definition idiv (a b : fl) : fl := Bdiv mode_NE a b.
(** - x, vector3.hpp:118. *)
Definition ineg (a : fl) : fl := Bopp a.
(** sqrt, vector3.hpp:185. *)
Definition isqrt (a : fl) : fl := Bsqrt mode_NE a.
(** fabs, vector3.hpp:265. *)
Definition iabs (a : fl) : fl := Babs a.
(** The literal 1.0, vector3.hpp:197. *)
Definition ione : fl := Bone.
(** The literal 0, vector3.hpp:121; value_type{0}, vector3.hpp:47. *)
Definition izero : fl := B754_zero false.
(** x < y, false when one of them is NaN; in std::max, vector3.hpp:270. *)
Definition ilt (a b : fl) : bool := match Bcompare a b with Some Lt => true | _ => false end.
(** x > y, vector3.hpp:121. *)
Definition igt (a b : fl) : bool := match Bcompare a b with Some Gt => true | _ => false end.
(** std::max(a, b) returns b if a < b and a otherwise; vector3.hpp:270. *)
Definition smax (a b : fl) : fl := if ilt a b then b else a.
(** std::min(a, b) returns b if b < a and a otherwise; vector3.hpp:275. *)
Definition smin (a b : fl) : fl := if ilt b a then b else a.

(** * Vec3<T>, vector3.hpp:40-222 *)
(** Members x, y, z, vector3.hpp:47-56. *)
Record ivec := mkI { ix : fl; iy : fl; iz : fl }.
(** Vec3(), vector3.hpp:47-58. *)
Definition iv_default : ivec := mkI izero izero izero.
(** Vec3(s), vector3.hpp:64, and operator=(s), vector3.hpp:179-182. *)
Definition iv_fill (s : fl) : ivec := mkI s s s.
(** One operator applied to the three components of two vectors: the form of vector3.hpp:83-103. *)
Definition iv2 (op : fl -> fl -> fl) (u v : ivec) : ivec := mkI (op (ix u) (ix v)) (op (iy u) (iy v)) (op (iz u) (iz v)).
(** The components against one scalar: the form of vector3.hpp:106-115. *)
Definition ivs (op : fl -> fl -> fl) (v : ivec) (c : fl) : ivec := mkI (op (ix v) c) (op (iy v) c) (op (iz v) c).
(** operator+, vector3.hpp:82-85. *)
Definition iv_add := iv2 iadd.
(** operator-, vector3.hpp:88-91. *)
Definition iv_sub := iv2 isub.
(** operator*, vector3.hpp:94-97. *)
Definition iv_mul := iv2 imul.
(** operator/, vector3.hpp:100-103. *)
Definition iv_div := iv2 idiv.
(** operator+(scalar), vector3.hpp:106. *)
Definition iv_adds := ivs iadd.
(** operator-(scalar), vector3.hpp:109. *)
Definition iv_subs := ivs isub.
(** operator*(scalar), vector3.hpp:112. *)
Definition iv_muls := ivs imul.
(** operator/(scalar), vector3.hpp:115. *)
Definition iv_divs := ivs idiv.
(** Unary minus, vector3.hpp:118. *)
Definition iv_neg (v : ivec) : ivec := mkI (ineg (ix v)) (ineg (iy v)) (ineg (iz v)).
(** One component of abs(), vector3.hpp:121: x > 0 ? x : -x. *)
Definition abs_comp (x : fl) : fl := if igt x izero then x else ineg x.
(** Member abs(), vector3.hpp:121. *)
Definition iv_abs_member (v : ivec) : ivec := mkI (abs_comp (ix v)) (abs_comp (iy v)) (abs_comp (iz v)).
(** scalar + vector, vector3.hpp:200: Vec3(v.x + c, v.y + c, v.z + c). *)
Definition s_add (c : fl) (v : ivec) : ivec := mkI (iadd (ix v) c) (iadd (iy v) c) (iadd (iz v) c).
(** scalar - vector, vector3.hpp:203. *)
Definition s_sub (c : fl) (v : ivec) : ivec := mkI (isub c (ix v)) (isub c (iy v)) (isub c (iz v)).
(** scalar * vector, vector3.hpp:206. *)
Definition s_mul (c : fl) (v : ivec) : ivec := mkI (imul (ix v) c) (imul (iy v) c) (imul (iz v) c).
(** scalar / vector, vector3.hpp:209. *)
Definition s_div (c : fl) (v : ivec) : ivec := mkI (idiv c (ix v)) (idiv c (iy v)) (idiv c (iz v)).

(** * Free functions, vector3.hpp:224-282 *)
(** dot, vector3.hpp:234-237; the sums are evaluated from the left. *)
Definition idot (u v : ivec) : fl := iadd (iadd (imul (ix u) (ix v)) (imul (iy u) (iy v))) (imul (iz u) (iz v)).
(** norm2, vector3.hpp:252-255 and the member 188. *)
Definition inorm2 (v : ivec) : fl := iadd (iadd (imul (ix v) (ix v)) (imul (iy v) (iy v))) (imul (iz v) (iz v)).
(** norm, vector3.hpp:240-243 and the member 185. *)
Definition inorm (v : ivec) : fl := isqrt (iadd (iadd (imul (ix v) (ix v)) (imul (iy v) (iy v))) (imul (iz v) (iz v))).
(** re_norm, vector3.hpp:246-249 and the member 197. *)
Definition ire_norm (v : ivec) : fl := idiv ione (isqrt (iadd (iadd (imul (ix v) (ix v)) (imul (iy v) (iy v))) (imul (iz v) (iz v)))).
(** distance, vector3.hpp:225-231. *)
Definition idistance (u v : ivec) : fl :=
  let dx := isub (ix u) (ix v) in
  let dy := isub (iy u) (iy v) in
  let dz := isub (iz u) (iz v) in
  isqrt (iadd (iadd (imul dx dx) (imul dy dy)) (imul dz dz)).
(** cross, vector3.hpp:258-261. *)
Definition icross (u v : ivec) : ivec :=
  mkI (isub (imul (iy u) (iz v)) (imul (iz u) (iy v))) (isub (imul (iz u) (ix v)) (imul (ix u) (iz v))) (isub (imul (ix u) (iy v)) (imul (iy u) (ix v))).
(** vec_abs, vector3.hpp:263-266. *)
Definition iv_abs (v : ivec) : ivec := mkI (iabs (ix v)) (iabs (iy v)) (iabs (iz v)).
(** vec_max, vector3.hpp:268-271. *)
Definition iv_max (u v : ivec) : ivec := mkI (smax (ix u) (ix v)) (smax (iy u) (iy v)) (smax (iz u) (iz v)).
(** vec_min, vector3.hpp:273-276. *)
Definition iv_min (u v : ivec) : ivec := mkI (smin (ix u) (ix v)) (smin (iy u) (iy v)) (smin (iz u) (iz v)).
(** max_abs, vector3.hpp:278-282. *)
Definition imax_abs (v : ivec) : fl := let m := smax (iabs (ix v)) (iabs (iy v)) in smax m (iabs (iz v)).
(** Member max_component(), vector3.hpp:191-194. *)
Definition imax_component (v : ivec) : fl := let m := if igt (ix v) (iy v) then ix v else iy v in if igt m (iz v) then m else iz v.

(** * Compound assignment, vector3.hpp:124-176: the three components are assigned one after the other, on objects that may be the same. *)
(** The vector objects of the program; the three members of one object are three cells (vector3.hpp:47-56). *)
Inductive icomp := CX | CY | CZ.
(** Cells of objects numbered by [nat] (vector3.hpp:47-56). *)
Definition mem := nat -> icomp -> fl.
(** Assignment to one member, e.g. x += v.x in vector3.hpp:126. *)
Definition comp_eqb (a b : icomp) : bool := match a, b with CX, CX | CY, CY | CZ, CZ => true | _, _ => false end.
(** As above, vector3.hpp:126. *)
Definition mset (m : mem) (o : nat) (c : icomp) (x : fl) : mem := fun o' c' => if (Nat.eqb o' o && comp_eqb c' c)%bool then x else m o' c'.
(** this->x op= v.x, this->y op= v.y, this->z op= v.z, vector3.hpp:126, 133, 140, 147; [t] is *this, [s] is v, possibly the same object. *)
Definition assign_vec (op : fl -> fl -> fl) (t s : nat) (m : mem) : mem :=
  let m1 := mset m t CX (op (m t CX) (m s CX)) in
  let m2 := mset m1 t CY (op (m1 t CY) (m1 s CY)) in
  mset m2 t CZ (op (m2 t CZ) (m2 s CZ)).
(** The scalar is passed by value: it is read before the call, also when it is a member of *this (vector3.hpp:153-176). *)
Definition assign_scalar (op : fl -> fl -> fl) (t s : nat) (sc : icomp) (m : mem) : mem :=
  let c := m s sc in
  let m1 := mset m t CX (op (m t CX) c) in
  let m2 := mset m1 t CY (op (m1 t CY) c) in
  mset m2 t CZ (op (m2 t CZ) c).
(** The value of an object, vector3.hpp:47-56. *)
Definition obj (m : mem) (o : nat) : ivec := mkI (m o CX) (m o CY) (m o CZ).

(** * NewtonianGrav::add_acc_to, newtonian.hpp:71-118, on the same scalars *)
(** One call force(dr, i, j), newtonian.hpp:78-90; rr3 = 1.0 / (r * r * r). *)
Definition irr3 (dr : ivec) : fl := let r := inorm dr in idiv ione (imul (imul r r) r).
(** dr.x * rr3 * m, newtonian.hpp:84-89. *)
Definition iterm (d rr3 m : fl) : fl := imul (imul d rr3) m.
(** Arrays are functions of the index; assignment to one element, newtonian.hpp:84. *)
Definition iupd {A : Type} (f : nat -> A) (i : nat) (x : A) : nat -> A := fun k => if Nat.eqb k i then x else f k.
(** The lambda, newtonian.hpp:78-90. *)
Definition iforce (m : nat -> fl) (acc : nat -> ivec) (c : ivec * nat * nat) : nat -> ivec :=
  let '(dr, i, j) := c in
  let rr3 := irr3 dr in
  let a := acc i in
  let acc1 := iupd acc i (mkI (iadd (ix a) (iterm (ix dr) rr3 (m j))) (iadd (iy a) (iterm (iy dr) rr3 (m j))) (iadd (iz a) (iterm (iz dr) rr3 (m j)))) in
  let b := acc1 j in
  iupd acc1 j (mkI (isub (ix b) (iterm (ix dr) rr3 (m i))) (isub (iy b) (iterm (iy dr) rr3 (m i))) (isub (iz b) (iterm (iz dr) rr3 (m i)))).
(** The pairs of the double loop, newtonian.hpp:112-116. *)
Definition ipairs (n : nat) : list (nat * nat) := flat_map (fun i => map (fun j => (i, j)) (seq (i + 1) (n - (i + 1)))) (seq 0 n).
(** Calls of the double loop: force(p[j] - p[i], i, j), newtonian.hpp:112-116. *)
Definition icalls (n : nat) (p : nat -> ivec) : list (ivec * nat * nat) := map (fun ij => (iv_sub (p (snd ij)) (p (fst ij)), fst ij, snd ij)) (ipairs n).
(** add_acc_to for particles without a chain, newtonian.hpp:71-118. *)
Definition iadd_acc (n : nat) (m : nat -> fl) (p acc : nat -> ivec) : nat -> ivec := fold_left (iforce m) (icalls n p) acc.
(** The Interactions class zeroes the array before the forces add to it, interaction.hpp:208, 218, 233, 243, 252. *)
Definition izero_acc : nat -> ivec := fun _ => iv_default.
End Ieee.
Arguments mkI {prec emax}. Arguments ix {prec emax}. Arguments iy {prec emax}. Arguments iz {prec emax}. Arguments obj {prec emax}.
Arguments ineg {prec emax}. Arguments iabs {prec emax}. Arguments ilt {prec emax}. Arguments igt {prec emax}.
Arguments smax {prec emax}. Arguments smin {prec emax}. Arguments iv_abs {prec emax}. Arguments iv_max {prec emax}. Arguments iv_min {prec emax}.
Arguments imax_abs {prec emax}. Arguments imax_component {prec emax}. Arguments iv_neg {prec emax}. Arguments iv_abs_member {prec emax}. Arguments abs_comp {prec emax}.
Arguments izero {prec emax}. Arguments iv_default {prec emax}. Arguments iv_fill {prec emax}. Arguments iupd {A}.
Arguments assign_vec {prec emax}. Arguments assign_scalar {prec emax}. Arguments mset {prec emax}. Arguments iv2 {prec emax}. Arguments ivs {prec emax}.
Arguments iadd {prec emax _ _}. Arguments isub {prec emax _ _}. Arguments imul {prec emax _ _}. Arguments idiv {prec emax _ _}. Arguments isqrt {prec emax _ _}. Arguments ione {prec emax _ _}.
Arguments iv_add {prec emax _ _}. Arguments iv_sub {prec emax _ _}. Arguments iv_mul {prec emax _ _}. Arguments iv_div {prec emax _ _}.
Arguments iv_adds {prec emax _ _}. Arguments iv_subs {prec emax _ _}. Arguments iv_muls {prec emax _ _}. Arguments iv_divs {prec emax _ _}.
Arguments s_add {prec emax _ _}. Arguments s_sub {prec emax _ _}. Arguments s_mul {prec emax _ _}. Arguments s_div {prec emax _ _}.
Arguments idot {prec emax _ _}. Arguments inorm2 {prec emax _ _}. Arguments inorm {prec emax _ _}. Arguments ire_norm {prec emax _ _}. Arguments idistance {prec emax _ _}. Arguments icross {prec emax _ _}.
Arguments irr3 {prec emax _ _}. Arguments iterm {prec emax _ _}. Arguments iforce {prec emax _ _}. Arguments icalls {prec emax _ _}. Arguments iadd_acc {prec emax _ _}. Arguments izero_acc {prec emax}.
