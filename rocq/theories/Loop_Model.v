(** Model of [hub::multi_thread::multi_threads_loop] and of the argument forwarding of
    [multi_thread]/[indexed_multi_thread]
    (/repo/src/multi-thread/multi-thread.hpp, lines 58-102). *)
From Verif Require Import Base.

(** multi-thread.hpp:63-67, body of the loop over [th_id] in [multi_threads_loop]:
    [begin = th_id*len_pth; end = begin+len_pth; if (end+len_pth > total_len) end = total_len].
    Simplification: [size_t] is [nat]; wrap-around (totals above 2^63) is not modelled. *)
Definition worker_range (total len th : nat) : nat * nat :=
  let b := th * len in
  let e := b + len in
  if total <? e + len then (b, total) else (b, e).

(** multi-thread.hpp:58-73, [multi_threads_loop]: the list of [task(begin,end)] calls, one per
    thread, in thread creation order.  [total_len / thread_num] with [thread_num = 0] is an
    integer division by zero, hence [UB]. *)
Definition multi_threads_loop (total threads : nat) : outcome (list (nat * nat)) :=
  match threads with
  | 0 => UB
  | _ => Ok (map (worker_range total (total / threads)) (seq 0 threads))
  end.

(** The callable and the extra arguments are passed to every thread with
    [std::forward<Args>(args)...] inside the loop (multi-thread.hpp:67, 80, 93, [multi_threads_loop],
    [multi_thread], [indexed_multi_thread]).  [std::thread] decay-copies its arguments: an
    lvalue is copied, an rvalue is moved from.  [forward_arg] returns what the new thread
    receives and what is left behind; [moved] is the moved-from value of the type. *)
Definition forward_arg {A} (moved : A -> A) (is_rvalue : bool) (v : A) : A * A :=
  if is_rvalue then (v, moved v) else (v, v).

(** [multi_thread(thread_num, job, arg)], multi-thread.hpp:75-86: the argument values received by the successive
    threads. *)
Fixpoint multi_thread_args {A} (moved : A -> A) (is_rvalue : bool) (threads : nat) (v : A)
  : list A :=
  match threads with
  | 0 => []
  | S n => let (got, left) := forward_arg moved is_rvalue v in
           got :: multi_thread_args moved is_rvalue n left
  end.
