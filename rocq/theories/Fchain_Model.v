(** Chain coordinates (/repo/src/particle-system/chain.hpp) in floating-point arithmetic.
    A coordinate is a number of a binary format (Kahan_Model: [prec] digits, least exponent [emin], round to nearest with any tie rule, no overflow);
    every addition and subtraction of a vector component rounds (vector3.hpp:83-91).  Loops, index arithmetic and array accesses as in Chain_Model. *)
From Verif Require Export Kahan_Model Chain_Model.
Open Scope R_scope.

Section Fchain.
Variables (emin prec : Z) (choice : Z -> bool).
Notation fadd := (fadd emin prec choice).
Notation fsub := (fsub emin prec choice).
(** Vec3 operator+, vector3.hpp:83-85: component by component. *)
Definition fvadd (a b : vec) : vec := mkV (fadd (vx a) (vx b)) (fadd (vy a) (vy b)) (fadd (vz a) (vz b)).
(** Vec3 operator-, vector3.hpp:89-91. *)
Definition fvsub (a b : vec) : vec := mkV (fsub (vx a) (vx b)) (fsub (vy a) (vy b)) (fsub (vz a) (vz b)).

(** to_chain, chain.hpp:327-340. *)
Definition fto_chain (cart chain : list vec) (index : list nat) : outcome (list vec) :=
  match length cart with
  | O => UB
  | S n1 =>
    obind (aget index 0) (fun i0 => obind (aget cart i0) (fun c0 =>
    obind (aset chain n1 c0) (fun chain =>
    for_up 0 n1 (fun i chain =>
      obind (aget index (i + 1)) (fun a => obind (aget cart a) (fun ca =>
      obind (aget index i) (fun b => obind (aget cart b) (fun cb =>
      aset chain i (fvsub ca cb)))))) chain)))
  end.

(** to_cartesian, chain.hpp:342-354. *)
Definition fto_cartesian (chain cart : list vec) (index : list nat) : outcome (list vec) :=
  match length cart with
  | O => UB
  | S n1 =>
    obind (aget index 0) (fun i0 => obind (aget chain n1) (fun c0 =>
    obind (aset cart i0 c0) (fun cart =>
    for_up 1 n1 (fun i cart =>
      obind (aget index i) (fun a => obind (aget index (i - 1)) (fun b =>
      obind (aget cart b) (fun cb => obind (aget chain (i - 1)) (fun d =>
      aset cart a (fvadd cb d)))))) cart)))
  end.

(** get_new_node, chain.hpp:287-325; the sign change is exact. *)
Definition fget_new_node (chain : list vec) (head tail : nat) : outcome vec :=
  let '(first, last, sign) := if (tail <? head)%nat then (tail, head, false) else (head, tail, true) in
  obind (aget chain first) (fun d0 =>
    if sign then
      for_up (first + 1) (last - (first + 1)) (fun j nd => obind (aget chain j) (fun d => Ok (fvadd nd d))) d0
    else
      for_up (first + 1) (last - (first + 1)) (fun j nd => obind (aget chain j) (fun d => Ok (fvsub nd d))) (vneg d0)).

(** update_chain, chain.hpp:172-198. *)
Definition fupdate_chain (chain cart : list vec) (idx new_idx : list nat) : outcome (list vec) :=
  match length chain with
  | O => UB
  | S n1 =>
    obind (for_up 0 n1 (fun i new_chain =>
        obind (aget new_idx i) (fun a => obind (aget new_idx (i + 1)) (fun b =>
        obind (fget_new_node chain (find_pos idx a) (find_pos idx b)) (fun d => Ok (new_chain ++ [d]))))) [])
      (fun new_chain => obind (aget new_idx 0) (fun a => obind (aget cart a) (fun c => Ok (new_chain ++ [c]))))
  end.
End Fchain.
