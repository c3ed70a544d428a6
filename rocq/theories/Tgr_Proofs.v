(** Lemmas for C100: sums over nodes, phases and the counters. *)
From Verif Require Import Tgr_Model Tgr_Spec.
From Coq Require Import List Arith Lia Bool.
Import ListNotations.
Notation cnt := (count_occ Nat.eq_dec).
Lemma count_filter (E : list (nat * nat)) u v : cnt (map snd (filter (fun e => fst e =? u) E)) v = length (filter (fun e => (fst e =? u) && (snd e =? v)) E).
Proof.
  induction E as [|(a, b) E IH]; auto. cbn [filter fst snd]. destruct (a =? u); cbn [andb]; auto. cbn [map snd count_occ]. destruct (Nat.eq_dec b v) as [->|N].
  - rewrite Nat.eqb_refl. cbn [length]. now rewrite IH.
  - destruct (Nat.eqb_spec b v); [contradiction|]. exact IH.
Qed.
Lemma sum_ext (f h : nat -> nat) l : (forall u, In u l -> f u = h u) -> list_sum (map f l) = list_sum (map h l).
Proof. induction l as [|a l IH]; intros H; auto. change (f a + list_sum (map f l) = h a + list_sum (map h l)). rewrite (H a (or_introl eq_refl)), IH; auto. intros u I. apply H. now right. Qed.
Lemma sum_le (f h : nat -> nat) l : (forall u, In u l -> f u <= h u) -> list_sum (map f l) <= list_sum (map h l).
Proof. induction l as [|a l IH]; intros H; auto. change (f a + list_sum (map f l) <= h a + list_sum (map h l)). pose proof (H a (or_introl eq_refl)). assert (list_sum (map f l) <= list_sum (map h l)) by (apply IH; intros u I; apply H; now right). lia. Qed.
Lemma sum_eq_all (f h : nat -> nat) l : (forall u, In u l -> f u <= h u) -> list_sum (map f l) = list_sum (map h l) -> forall u, In u l -> f u = h u.
Proof.
  induction l as [|a l IH]; intros H E u; [contradiction|]. change (f a + list_sum (map f l) = h a + list_sum (map h l)) in E. pose proof (H a (or_introl eq_refl)). assert (L : forall w, In w l -> f w <= h w) by (intros w I; apply H; now right). pose proof (sum_le f h l L).
  intros [->|I]; [lia|]. apply IH; auto. lia.
Qed.
Lemma sum_zero (f : nat -> nat) l : list_sum (map f l) = 0 -> forall u, In u l -> f u = 0.
Proof. induction l as [|a l IH]; intros E u; [contradiction|]. change (f a + list_sum (map f l) = 0) in E. intros [->|I]; [lia|]. apply IH; auto. lia. Qed.
Lemma sum_lt_ex (f h : nat -> nat) l : list_sum (map f l) < list_sum (map h l) -> exists u, In u l /\ f u < h u.
Proof.
  induction l as [|a l IH]; intros E; [cbn in E; lia|]. change (f a + list_sum (map f l) < h a + list_sum (map h l)) in E. destruct (Nat.lt_ge_cases (f a) (h a)) as [L|L]; [exists a; split; auto; now left|].
  destruct IH as (u & I & K); [lia|]. exists u. split; auto. now right.
Qed.
Lemma sum_upd (f f' : nat -> nat) l u : NoDup l -> In u l -> (forall w, w <> u -> f' w = f w) -> list_sum (map f' l) + f u = list_sum (map f l) + f' u.
Proof.
  induction l as [|a l IH]; intros N I E; [contradiction|]. inversion N as [|x y N1 N2]. subst. change (f' a + list_sum (map f' l) + f u = f a + list_sum (map f l) + f' u). destruct I as [->|I].
  - rewrite (sum_ext f' f l); [lia|]. intros w I. apply E. intros ->. contradiction.
  - rewrite (E a) by (intros ->; contradiction). specialize (IH N2 I E). lia.
Qed.
Lemma sum_const (f : nat -> nat) l : (forall u, In u l -> f u = 0) -> list_sum (map f l) = 0.
Proof. induction l as [|a l IH]; intros H; auto. change (f a + list_sum (map f l) = 0). rewrite (H a (or_introl eq_refl)), IH; auto. intros u I. apply H. now right. Qed.
Section P.
Variable g : graph.
Notation n := (size g).
Notation V := (seq 0 (size g)).
Notation Sum f := (list_sum (map f V)).
Hypothesis WF : well_formed g.
Lemma inV u : In u V <-> u < n.
Proof. rewrite in_seq. lia. Qed.
Lemma indeg v : num_dependents g v = Sum (fun u => cnt (succs g u) v).
Proof.
  unfold num_dependents, deps, succs. rewrite map_length. rewrite (sum_ext _ (fun u => length (filter (fun e => (fst e =? u) && (snd e =? v)) (edges g)))) by (intros; apply count_filter).
  assert (H : forall e, In e (edges g) -> fst e < n) by (intros (a, b) I; apply (WF a b I)). revert H. generalize (edges g) as E. induction E as [|(a, b) E IH]; intros H.
  - rewrite sum_const; auto.
  - specialize (IH (fun e I => H e (or_intror I))). pose proof (H _ (or_introl eq_refl)) as A. cbn [fst] in A. cbn [filter fst snd]. destruct (b =? v).
    + cbn [length]. rewrite IH. set (f := fun u => length (filter (fun e => (fst e =? u) && (snd e =? v)) E)). set (f' := fun u => length (if (a =? u) && true then (a, b) :: filter (fun e => (fst e =? u) && (snd e =? v)) E else filter (fun e => (fst e =? u) && (snd e =? v)) E)).
      assert (X : Sum f' + f a = Sum f + f' a). { apply sum_upd; [apply seq_NoDup|now apply inV|]. intros w W. unfold f', f. destruct (Nat.eqb_spec a w); [congruence|]. reflexivity. }
      assert (Y : f' a = S (f a)). { unfold f', f. rewrite Nat.eqb_refl. reflexivity. } fold f. fold f'. lia.
    + rewrite IH. apply sum_ext. intros u _. now rewrite andb_false_r.
Qed.
Lemma succs_edge u v : In v (succs g u) <-> In (u, v) (edges g).
Proof.
  unfold succs. rewrite in_map_iff. split.
  - intros ((a, b) & E & I). apply filter_In in I. destruct I as (I & Q). cbn [fst snd] in *. apply Nat.eqb_eq in Q. now subst.
  - intros I. exists (u, v). split; auto. apply filter_In. split; auto. apply Nat.eqb_refl.
Qed.
Lemma source_iff v : In v (sources g) <-> v < n /\ num_dependents g v = 0.
Proof. unfold sources. rewrite filter_In, inV, Nat.eqb_eq. reflexivity. Qed.
(** Where a node stands in the current pass. *)
Inductive phase := Idle | Queued | Act (p : pc) | Gone.
Definition pupd (ph : nat -> phase) (u : nat) (x : phase) : nat -> phase := fun w => if w =? u then x else ph w.
Lemma pupd_same ph u x : pupd ph u x u = x.
Proof. unfold pupd. now rewrite Nat.eqb_refl. Qed.
Lemma pupd_other ph u x w : w <> u -> pupd ph u x w = ph w.
Proof. intros N. unfold pupd. destruct (Nat.eqb_spec w u); congruence. Qed.
(** How many of its outgoing edges a node has served. *)
Definition prog (x : phase) (len : nat) : nat := match x with Act (Out i) => i | Act (Hit i) | Act (Give i) => S i | Gone => len | _ => 0 end.
Definition dec (x : phase) (u v : nat) : nat := cnt (firstn (prog x (length (succs g u))) (succs g u)) v.
Definition D (ph : nat -> phase) (v : nat) : nat := Sum (fun u => dec (ph u) u v).
(** A node about to be scheduled by another one. *)
Definition pn (x : phase) (u v : nat) : nat := match x with Act (Hit i) | Act (Give i) => match nth_error (succs g u) i with Some w => if w =? v then 1 else 0 | None => 0 end | _ => 0 end.
Definition N (ph : nat -> phase) (v : nat) : nat := Sum (fun u => pn (ph u) u v).
Definition give (x : phase) : nat := match x with Act (Give _) => 1 | _ => 0 end.
Definition Gv (ph : nat -> phase) : nat := Sum (fun u => give (ph u)).
Definition b (x : phase) : nat := match x with Idle => 0 | _ => 1 end.
Definition fresh (x : phase) : bool := match x with Idle | Queued | Act Got | Act Busy | Act Worked => true | _ => false end.
Definition started (x : phase) : Prop := match x with Idle | Queued | Act Got => False | _ => True end.
Definition finished (x : phase) : Prop := match x with Idle | Queued | Act Got | Act Busy => False | _ => True end.
Definition inside (x : phase) (u : nat) : Prop := match x with Act (Out i) => i <= length (succs g u) | Act (Hit i) | Act (Give i) => i < length (succs g u) | _ => True end.
Lemma count_firstn k (l : list nat) v : cnt (firstn k l) v <= cnt l v.
Proof. rewrite <- (firstn_skipn k l) at 2. rewrite count_occ_app. lia. Qed.
Lemma dec_le x u v : dec x u v <= cnt (succs g u) v.
Proof. apply count_firstn. Qed.
Lemma D_le ph v : D ph v <= num_dependents g v.
Proof. rewrite indeg. apply sum_le. intros. apply dec_le. Qed.
Lemma dec_gone u v : dec Gone u v = cnt (succs g u) v.
Proof. unfold dec. cbn [prog]. now rewrite firstn_all. Qed.
Lemma firstn_S_nth (l : list nat) i v : nth_error l i = Some v -> firstn (S i) l = firstn i l ++ [v].
Proof. revert i. induction l as [|a l IH]; intros [|i] E; try discriminate; cbn in *; [injection E as ->; reflexivity|]. now rewrite <- IH. Qed.
Lemma dec_next u i v w : nth_error (succs g u) i = Some v -> cnt (firstn (S i) (succs g u)) w = cnt (firstn i (succs g u)) w + (if v =? w then 1 else 0).
Proof. intros E. rewrite (firstn_S_nth _ _ _ E), count_occ_app. cbn [count_occ]. destruct (Nat.eq_dec v w) as [->|Q]; [now rewrite Nat.eqb_refl|]. destruct (Nat.eqb_spec v w); [contradiction|lia]. Qed.
Lemma nth_lt (l : list nat) i v : nth_error l i = Some v -> i < length l.
Proof. intros E. apply nth_error_Some. congruence. Qed.
Lemma nth_node u i v : nth_error (succs g u) i = Some v -> u < n /\ v < n.
Proof. intros E. apply nth_error_In in E. apply succs_edge in E. exact (WF _ _ E). Qed.
Lemma D_upd ph u x v : u < n -> D (pupd ph u x) v + dec (ph u) u v = D ph v + dec x u v.
Proof. intros U. unfold D. pose proof (sum_upd (fun w => dec (ph w) w v) (fun w => dec (pupd ph u x w) w v) V u (seq_NoDup _ _) (proj2 (inV u) U)) as X. cbv beta in X. rewrite pupd_same in X. apply X. intros w W. now rewrite pupd_other. Qed.
Lemma N_upd ph u x v : u < n -> N (pupd ph u x) v + pn (ph u) u v = N ph v + pn x u v.
Proof. intros U. unfold N. pose proof (sum_upd (fun w => pn (ph w) w v) (fun w => pn (pupd ph u x w) w v) V u (seq_NoDup _ _) (proj2 (inV u) U)) as X. cbv beta in X. rewrite pupd_same in X. apply X. intros w W. now rewrite pupd_other. Qed.
Lemma Gv_upd ph u x : u < n -> Gv (pupd ph u x) + give (ph u) = Gv ph + give x.
Proof. intros U. unfold Gv. pose proof (sum_upd (fun w => give (ph w)) (fun w => give (pupd ph u x w)) V u (seq_NoDup _ _) (proj2 (inV u) U)) as X. cbv beta in X. rewrite pupd_same in X. apply X. intros w W. now rewrite pupd_other. Qed.
Lemma pn_le_N ph u v : u < n -> pn (ph u) u v <= N ph v.
Proof.
  intros U. destruct (Nat.eq_dec (pn (ph u) u v) 0) as [->|Z]; [lia|]. unfold N. pose proof (N_upd ph u Idle v U) as X. cbn [pn] in X. unfold N in X. lia.
Qed.
(** The state of the queues, workers and counters while a pass is going on. *)
Record live (ph : nat -> phase) (l : list nat) (s : st) : Prop := mkL {
  l_q : NoDup (queue s) /\ forall v, In v (queue s) <-> v < n /\ ph v = Queued;
  l_a : NoDup (map fst (act s)) /\ forall v p, In (v, p) (act s) <-> v < n /\ ph v = Act p;
  l_jc : forall v, v < n -> jc s v = if fresh (ph v) then num_dependents g v - D ph v else num_dependents g v;
  l_one : forall v, v < n -> N ph v + cnt l v + b (ph v) = if D ph v =? num_dependents g v then 1 else 0;
  l_tj : tj s = length (queue s) + length (act s) + Gv ph + length l;
  l_in : forall v, v < n -> inside (ph v) v;
  l_l : forall v, In v l -> v < n }.
(** A served node: all its predecessors have finished. *)
Lemma preds_done ph l s : live ph l s -> forall v, v < n -> b (ph v) = 1 \/ N ph v <> 0 \/ In v l -> D ph v = num_dependents g v.
Proof.
  intros L v Hv H. pose proof (l_one _ _ _ L v Hv) as E. destruct (Nat.eqb_spec (D ph v) (num_dependents g v)) as [Q|Q]; auto. exfalso. destruct H as [H|[H|H]]; [lia|lia|]. apply (count_occ_In Nat.eq_dec) in H. lia.
Qed.
Lemma preds_finished ph v : v < n -> D ph v = num_dependents g v -> forall u, In (u, v) (edges g) -> finished (ph u).
Proof.
  intros Hv E u I. rewrite indeg in E. assert (U : u < n) by apply (WF _ _ I). pose proof (sum_eq_all (fun u => dec (ph u) u v) (fun u => cnt (succs g u) v) V (fun u _ => dec_le _ _ _) E u (proj2 (inV u) U)) as Q. cbv beta in Q.
  assert (C : cnt (succs g u) v > 0) by (apply count_occ_In, succs_edge, I). unfold dec in Q. destruct (ph u) as [| |p|]; [cbn in Q; lia|cbn in Q; lia| |exact Logic.I]. destruct p; try exact Logic.I; cbn in Q; lia.
Qed.
(** With nothing running, every node of an acyclic graph has been served. *)
Lemma all_gone ph s : acyclic g -> live ph [] s -> queue s = [] -> act s = [] -> forall v, v < n -> ph v = Gone.
Proof.
  intros (rank & R) L Q A. assert (X : forall v, v < n -> ph v = Idle \/ ph v = Gone).
  { intros v Hv. destruct (ph v) as [| |p|] eqn:E; auto; exfalso.
    - assert (J : In v (queue s)) by (apply (proj2 (l_q _ _ _ L)); auto). rewrite Q in J. contradiction.
    - assert (J : In (v, p) (act s)) by (apply (proj2 (l_a _ _ _ L)); auto). rewrite A in J. contradiction. }
  assert (Z : forall v, N ph v = 0). { intros v. apply sum_const. intros u I. apply inV in I. destruct (X u I) as [-> | ->]; reflexivity. }
  assert (K : forall k v, rank v < k -> v < n -> ph v = Gone).
  { induction k as [|k IH]; intros v Lt Hv; [lia|]. destruct (X v Hv) as [E|E]; auto. exfalso. pose proof (l_one _ _ _ L v Hv) as O. rewrite E, Z in O. cbn [b count_occ] in O. destruct (Nat.eqb_spec (D ph v) (num_dependents g v)) as [F|F]; [lia|].
    pose proof (D_le ph v) as Le. assert (Ls : D ph v < num_dependents g v) by lia. rewrite indeg in Ls. destruct (sum_lt_ex _ _ _ Ls) as (u & I & J). cbv beta in J. apply inV in I.
    assert (C : In v (succs g u)) by (apply (count_occ_In Nat.eq_dec); lia). apply succs_edge in C. pose proof (R _ _ C). rewrite (IH u) in J; auto; [rewrite dec_gone in J; lia|lia]. }
  intros v Hv. apply (K (S (rank v))); auto.
Qed.
End P.
