(** The 64-bit word of tf::Notifier and the bit arithmetic on it (src/taskflow/core/notifier.hpp), line by line. uint64_t is a Z reduced modulo 2^64. *)
From Coq Require Import ZArith.
Local Open Scope Z_scope.
(** Arithmetic on uint64_t, notifier.hpp:98-199. *)
Definition u64 (z : Z) : Z := z mod 2 ^ 64.
(** int64_t(x), notifier.hpp:112, 120, 143, 150 (two's complement). *)
Definition i64 (z : Z) : Z := if z <? 2 ^ 63 then z else z - 2 ^ 64.
(** The lowest bits, the stack, notifier.hpp:223-224. *)
Definition kStackMask : Z := Z.shiftl 1 16 - 1.
(** The bits of the counter, notifier.hpp:225-228. *)
Definition kWaiterMask : Z := Z.shiftl (Z.shiftl 1 16 - 1) 16.
(** One waiter, notifier.hpp:229. *)
Definition kWaiterInc : Z := Z.shiftl 1 16.
(** The bits of the epoch, notifier.hpp:230-232. *)
Definition kEpochMask : Z := Z.shiftl (Z.shiftl 1 32 - 1) 32.
(** One epoch, notifier.hpp:233. *)
Definition kEpochInc : Z := Z.shiftl 1 32.
(** The constructor for n waiters, notifier.hpp:84-88. *)
Definition b_init (n : Z) : Z := Z.lor kStackMask (u64 (kEpochMask - u64 (u64 (kEpochInc * n) * 2))).
(** prepare_wait, notifier.hpp:99. *)
Definition b_prepare (s : Z) : Z := u64 (s + kWaiterInc).
(** The ticket, notifier.hpp:107-109 and 138-140. *)
Definition b_epoch (e : Z) : Z := u64 (Z.land e kEpochMask + Z.shiftl (Z.shiftr (Z.land e kWaiterMask) 16) 32).
(** The comparison of lines 112, 120, 143 and 150 of notifier.hpp. *)
Definition b_diff (s t : Z) : Z := i64 (u64 (Z.land s kEpochMask - t)).
(** The assertion of notifier.hpp:122, 152. *)
Definition b_some (s : Z) : bool := negb (Z.land s kWaiterMask =? 0).
(** commit_wait's new word for the waiter with index i, notifier.hpp:123-124. *)
Definition b_commit (s i : Z) : Z := Z.lor (Z.land (u64 (u64 (s - kWaiterInc) + kEpochInc)) (Z.lxor kStackMask (Z.shiftl 1 64 - 1))) i.
(** The index of the top of the stack, or none, notifier.hpp:125-128, 179, 192-193. *)
Definition b_top (s : Z) : option Z := if Z.land s kStackMask =? kStackMask then None else Some (Z.land s kStackMask).
(** cancel_wait's new word, notifier.hpp:154. *)
Definition b_cancel (s : Z) : Z := u64 (u64 (s - kWaiterInc) + kEpochInc).
(** No waiter, notifier.hpp:167. *)
Definition b_empty (s : Z) : bool := (Z.land s kStackMask =? kStackMask) && (Z.land s kWaiterMask =? 0).
(** The number of waiters, notifier.hpp:169. *)
Definition b_waiters (s : Z) : Z := Z.shiftr (Z.land s kWaiterMask) 16.
(** notify(true), notifier.hpp:173. *)
Definition b_all (s : Z) : Z := u64 (u64 (Z.land s kEpochMask + u64 (kEpochInc * b_waiters s)) + kStackMask).
(** notify(false), a waiter that has prepared, notifier.hpp:176. *)
Definition b_one (s : Z) : Z := u64 (u64 (s + kEpochInc) - kWaiterInc).
(** notify(false), a waiter that sleeps, with the index of the one below it, notifier.hpp:181-187. *)
Definition b_pop (s : Z) (nx : option Z) : Z := u64 (Z.land s kEpochMask + match nx with Some i => i | None => kStackMask end).
