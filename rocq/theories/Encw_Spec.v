(** How the 64-bit word of tf::Notifier holds its three fields. *)
From Verif Require Import Enc_Model.
From Coq Require Import ZArith.
Local Open Scope Z_scope.
(** The lowest 16 bits: the index of a waiter, or all ones. *)
Definition top (o : option nat) : Z := match o with Some i => Z.of_nat i | None => 65535 end.
(** The word for these fields: 32 bits of epoch, 16 of count, 16 of index. *)
Definition enc (x : word) : Z := Z.of_nat (ep x) mod 2 ^ 32 * 2 ^ 32 + Z.of_nat (wc x) * 2 ^ 16 + top (stk x).
(** A ticket as a word. *)
Definition tick64 (t : nat) : Z := Z.of_nat t mod 2 ^ 32 * 2 ^ 32.
