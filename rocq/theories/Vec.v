(** Real 3-vectors: the fields and operators of /repo/src/vector/vector3.hpp over the reals
    (Vec3: componentwise + and -, scaling by a scalar, dot, cross, norm). *)
From Coq Require Export Reals Lra.
From Verif Require Export Base.
Open Scope R_scope.

Record vec := mkV { vx : R; vy : R; vz : R }.
Definition vzero := mkV 0 0 0.
Definition vadd (a b : vec) := mkV (vx a + vx b) (vy a + vy b) (vz a + vz b).      (* vector3.hpp operator+ *)
Definition vsub (a b : vec) := mkV (vx a - vx b) (vy a - vy b) (vz a - vz b).      (* vector3.hpp operator- *)
Definition vneg (a : vec) := mkV (- vx a) (- vy a) (- vz a).                       (* unary minus *)
Definition vscal (k : R) (a : vec) := mkV (k * vx a) (k * vy a) (k * vz a).        (* operator* with a scalar *)
Definition dot (a b : vec) := vx a * vx b + vy a * vy b + vz a * vz b.             (* vector3.hpp dot *)
Definition cross (a b : vec) :=                                                   (* vector3.hpp cross *)
  mkV (vy a * vz b - vz a * vy b) (vz a * vx b - vx a * vz b) (vx a * vy b - vy a * vx b).
Definition norm2 (a : vec) := dot a a.                                             (* vector3.hpp norm2 *)
Definition norm (a : vec) := sqrt (norm2 a).                                       (* vector3.hpp norm *)

Lemma vec_eq a b : vx a = vx b -> vy a = vy b -> vz a = vz b -> a = b.
Proof. destruct a, b; simpl; intros; subst; auto. Qed.

Ltac vunf := unfold norm2, cross, dot, vsub, vneg, vscal, vadd, vzero in *; cbn [vx vy vz] in *.
(** Solves vector identities that hold componentwise by ring. *)
Ltac vring := repeat match goal with v : vec |- _ => destruct v end;
  vunf; try (apply vec_eq; cbn [vx vy vz]); ring.

Lemma norm2_nonneg a : 0 <= norm2 a.
Proof. destruct a; vunf. nra. Qed.
Lemma norm2_zero a : norm2 a = 0 -> a = vzero.
Proof.
  destruct a as [x y z]; vunf; intros H.
  assert (x = 0 /\ y = 0 /\ z = 0) as (-> & -> & ->) by (repeat split; nra). reflexivity.
Qed.
Lemma norm2_pos a : a <> vzero -> 0 < norm2 a.
Proof.
  intros H. destruct (norm2_nonneg a) as [|E]; auto. exfalso; apply H, norm2_zero; auto.
Qed.
Lemma norm_nonneg a : 0 <= norm a.
Proof. apply sqrt_pos. Qed.
Lemma norm_sq a : norm a * norm a = norm2 a.
Proof. apply sqrt_sqrt, norm2_nonneg. Qed.
Lemma norm_pos a : a <> vzero -> 0 < norm a.
Proof. intros H; apply sqrt_lt_R0, norm2_pos; auto. Qed.
Lemma norm_neg a : norm (vneg a) = norm a.
Proof. unfold norm. f_equal. vring. Qed.
Lemma vsub_eq_zero a b : vsub a b = vzero -> a = b.
Proof.
  destruct a, b; unfold vsub, vzero; simpl; intros H; injection H as H1 H2 H3.
  f_equal; lra.
Qed.

(** Finite sums over index ranges. *)
Fixpoint rsum (f : nat -> R) (n : nat) : R := match n with O => 0 | S k => rsum f k + f k end.
Fixpoint vsum (f : nat -> vec) (n : nat) : vec := match n with O => vzero | S k => vadd (vsum f k) (f k) end.

Lemma rsum_ext f g n : (forall i, (i < n)%nat -> f i = g i) -> rsum f n = rsum g n.
Proof. induction n; simpl; intros H; auto. rewrite IHn, H; auto. Qed.
Lemma vsum_ext f g n : (forall i, (i < n)%nat -> f i = g i) -> vsum f n = vsum g n.
Proof. induction n; simpl; intros H; auto. rewrite IHn, H; auto. Qed.
Lemma vadd_assoc a b c : vadd a (vadd b c) = vadd (vadd a b) c. Proof. vring. Qed.
Lemma vadd_comm a b : vadd a b = vadd b a. Proof. vring. Qed.
Lemma vadd_0_l a : vadd vzero a = a. Proof. vring. Qed.
Lemma vadd_0_r a : vadd a vzero = a. Proof. vring. Qed.
Lemma vscal_vadd k a b : vscal k (vadd a b) = vadd (vscal k a) (vscal k b). Proof. vring. Qed.
Lemma vscal_0 k : vscal k vzero = vzero. Proof. vring. Qed.
Lemma vscal_0_l a : vscal 0 a = vzero. Proof. vring. Qed.
Lemma vscal_1 a : vscal 1 a = a. Proof. vring. Qed.
Lemma vscal_vscal k l a : vscal k (vscal l a) = vscal (k * l) a. Proof. vring. Qed.
Lemma cross_vadd_r a b c : cross a (vadd b c) = vadd (cross a b) (cross a c). Proof. vring. Qed.
Lemma cross_0_r a : cross a vzero = vzero. Proof. vring. Qed.
Lemma vsum_add f g n : vsum (fun i => vadd (f i) (g i)) n = vadd (vsum f n) (vsum g n).
Proof. induction n; simpl; [vring|]. rewrite IHn. generalize (vsum f n), (vsum g n), (f n), (g n); intros; vring. Qed.
Lemma rsum_add f g n : rsum (fun i => f i + g i) n = rsum f n + rsum g n.
Proof. induction n; simpl; [ring|]. rewrite IHn; ring. Qed.
Lemma vsum_scal k f n : vsum (fun i => vscal k (f i)) n = vscal k (vsum f n).
Proof. induction n; simpl; [vring|]. rewrite IHn, vscal_vadd. reflexivity. Qed.
Lemma rsum_scal k f n : rsum (fun i => k * f i) n = k * rsum f n.
Proof. induction n; simpl; [ring|]. rewrite IHn; ring. Qed.
Lemma vsum_zero n : vsum (fun _ => vzero) n = vzero.
Proof. induction n; simpl; auto. rewrite IHn. vring. Qed.
Lemma rsum_zero n : rsum (fun _ => 0) n = 0.
Proof. induction n; simpl; auto. rewrite IHn. ring. Qed.
