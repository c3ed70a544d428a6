From Coq Require Import Reals Lra Lia.
From Verif Require Import Bisect_Model.
Open Scope R_scope.

Definition between (a b x : R) : Prop := Rmin a b <= x <= Rmax a b.
Definition opposite (f : R -> R) (a b : R) : Prop := f a * f b <= 0.
Definition cont_on (f : R -> R) (a b : R) : Prop := forall x, between a b x -> continuity_pt f x.

Lemma between_cases a b x : between a b x <-> (a <= x <= b \/ b <= x <= a).
Proof.
  unfold between, Rmin, Rmax. destruct (Rle_dec a b); split; intros; lra.
Qed.
Lemma between_l a b : between a b a. Proof. apply between_cases; lra. Qed.
Lemma between_r a b : between a b b. Proof. apply between_cases; lra. Qed.

Lemma bis_step_cases f l h l' h' : bis_step f l h = (l', h') ->
  let mid := 0.5 * (h + l) in
  (f mid * f h > 0 /\ l' = l /\ h' = mid) \/ (f mid * f h <= 0 /\ l' = mid /\ h' = h).
Proof.
  unfold bis_step. intros H. cbv zeta in *.
  destruct (Rlt_dec 0 (f (0.5 * (h + l)) * f h)); inversion H; subst; [left|right]; repeat split; lra.
Qed.

Lemma bis_step_half f l h l' h' : bis_step f l h = (l', h') -> Rabs (h' - l') = Rabs (h - l) / 2.
Proof.
  intros H; apply bis_step_cases in H; cbv zeta in H.
  assert (E : h' - l' = (h - l) / 2) by (destruct H as [(_ & -> & ->)|(_ & -> & ->)]; lra).
  rewrite E. unfold Rdiv. rewrite Rabs_mult, (Rabs_right (/2)); lra.
Qed.
Lemma bis_step_within f l h l' h' x : bis_step f l h = (l', h') -> between l' h' x -> between l h x.
Proof.
  intros H; apply bis_step_cases in H; cbv zeta in H. rewrite !between_cases.
  destruct H as [(_ & -> & ->)|(_ & -> & ->)]; lra.
Qed.
Lemma bis_step_opposite f l h l' h' : bis_step f l h = (l', h') -> opposite f l h -> opposite f l' h'.
Proof.
  unfold opposite. intros H; apply bis_step_cases in H; cbv zeta in H. intros O.
  destruct H as [(P & -> & ->)|(P & -> & ->)]; [|lra].
  set (m := f (0.5 * (h + l))) in *. set (a := f l) in *. set (b := f h) in *.
  destruct (Rle_lt_dec (a * m) 0) as [|Q]; auto. exfalso.
  assert (0 < (a * m) * (m * b)) by (apply Rmult_lt_0_compat; lra).
  assert (0 < m * m) by nra.
  replace ((a * m) * (m * b)) with ((m * m) * (a * b)) in H by ring. nra.
Qed.

Lemma bis_iter_S f n l h : bis_iter f (S n) l h =
  let '(a, b) := bis_iter f n l h in bis_step f a b.
Proof.
  revert l h; induction n; intros l h.
  - simpl. destruct (bis_step f l h); auto.
  - change (bis_iter f (S (S n)) l h) with (let '(a, b) := bis_step f l h in bis_iter f (S n) a b).
    change (bis_iter f (S n) l h) with (let '(a, b) := bis_step f l h in bis_iter f n a b).
    destruct (bis_step f l h) as [a b]. apply IHn.
Qed.

Lemma bis_iter_inv f n l h l' h' : bis_iter f n l h = (l', h') ->
  Rabs (h' - l') = Rabs (h - l) / 2 ^ n
  /\ (forall x, between l' h' x -> between l h x)
  /\ (opposite f l h -> opposite f l' h').
Proof.
  revert l' h'; induction n; intros l' h' H.
  - simpl in H. injection H as <- <-. split; [simpl; field|split; auto].
  - rewrite bis_iter_S in H. destruct (bis_iter f n l h) as [a b].
    destruct (IHn a b eq_refl) as (W & I & O).
    split; [|split].
    + rewrite (bis_step_half _ _ _ _ _ H), W. simpl. field. apply pow_nonzero; lra.
    + intros x Hx. apply I. eapply bis_step_within; eauto.
    + intros Q. eapply bis_step_opposite; eauto.
Qed.

(** Intermediate value theorem in the form needed here. *)
Lemma ivt f a b : cont_on f a b -> opposite f a b -> exists x, between a b x /\ f x = 0.
Proof.
  assert (G : forall g a b, a < b -> (forall x, a <= x <= b -> continuity_pt g x) -> g a < 0 -> 0 < g b ->
              exists x, a <= x <= b /\ g x = 0).
  { intros g u v L C N P.
    set (cl := fun x => Rmax u (Rmin v x)).
    set (k := fun x => g (cl x)).
    assert (K : continuity k).
    { intros x. unfold k. apply (continuity_pt_comp cl g).
      - unfold cl. intros e He. exists e; split; auto. intros y (_ & Hy). simpl in *. unfold R_dist in *.
        eapply Rle_lt_trans; [|exact Hy]. unfold Rmax, Rmin.
        destruct (Rle_dec v y), (Rle_dec v x); repeat (destruct (Rle_dec _ _)); unfold Rabs;
        repeat destruct (Rcase_abs _); lra.
      - apply C. unfold cl, Rmax, Rmin. destruct (Rle_dec v x), (Rle_dec u v), (Rle_dec u x); lra. }
    assert (Eu : k u = g u). { unfold k, cl, Rmax, Rmin. destruct (Rle_dec v u); [lra|]. destruct (Rle_dec u u); lra. }
    assert (Ev : k v = g v). { unfold k, cl, Rmax, Rmin. destruct (Rle_dec v v); [|lra]. destruct (Rle_dec u v); lra. }
    destruct (IVT k u v K L) as (z & Hz & Z). { rewrite Eu; auto. } { rewrite Ev; auto. }
    exists z; split; auto. unfold k, cl, Rmax, Rmin in Z.
    destruct (Rle_dec v z).
    - assert (z = v) by lra. subst z. destruct (Rle_dec u v); [exact Z|lra].
    - destruct (Rle_dec u z); [exact Z|lra]. }
  assert (G2 : forall a b, a < b -> (forall x, a <= x <= b -> continuity_pt f x) -> opposite f a b ->
               exists x, a <= x <= b /\ f x = 0).
  { intros u v L C O. unfold opposite in O.
    destruct (Req_dec (f u) 0) as [E|E]; [exists u; split; [lra|auto]|].
    destruct (Req_dec (f v) 0) as [F|F]; [exists v; split; [lra|auto]|].
    destruct (Rlt_le_dec (f u) 0) as [N|N].
    - apply G; auto. nra.
    - destruct (G (fun x => - f x) u v L) as (z & Hz & Z).
      + intros x Hx. apply (continuity_pt_opp f). auto.
      + lra.
      + nra.
      + exists z; split; auto; lra. }
  intros C O. destruct (Rtotal_order a b) as [L|[E|L]].
  - destruct (G2 a b L) as (z & Hz & Z); auto.
    + intros x Hx. apply C, between_cases; lra.
    + exists z; split; auto. apply between_cases; lra.
  - subst b. exists a. split; [apply between_l|]. unfold opposite in O. nra.
  - destruct (G2 b a L) as (z & Hz & Z).
    + intros x Hx. apply C, between_cases; lra.
    + unfold opposite in *; lra.
    + exists z; split; auto. apply between_cases; lra.
Qed.

Lemma bisection_final eps f l h r : bisection eps f l h r ->
  exists n l' h', bis_iter f n l h = (l', h') /\ ~ bis_continue eps l' h' /\ r = 0.5 * (h' + l').
Proof.
  induction 1 as [l h N|l h l' h' r C St B (n & a & b & I & N & E)].
  - exists O, l, h. repeat split; auto.
  - exists (S n), a, b. split; auto. simpl. rewrite St. auto.
Qed.

Lemma bisection_det eps f l h r s : bisection eps f l h r -> bisection eps f l h s -> r = s.
Proof.
  intros H; revert s; induction H; intros s Hs; inversion Hs; subst; auto; try contradiction.
  apply IHbisection. congruence.
Qed.

Lemma abs_mid l h : Rabs (h - 0.5 * (h + l)) = Rabs (h - l) / 2.
Proof. replace (h - 0.5 * (h + l)) with ((h - l) * / 2) by lra. rewrite Rabs_mult, (Rabs_right (/2)); lra. Qed.

(** In a final interval every point lies within relative distance eps of the midpoint. *)
Lemma final_close eps l h x : 0 < eps <= 1 -> ~ bis_continue eps l h -> between l h x ->
  Rabs (0.5 * (h + l) - x) <= eps * Rabs (0.5 * (h + l)).
Proof.
  intros (E0 & E1) N B. unfold bis_continue in N. apply Rnot_gt_le in N.
  set (r := 0.5 * (h + l)).
  assert (A : Rabs (h - r) = Rabs (h - l) / 2) by apply abs_mid.
  assert (T : Rabs h <= Rabs r + Rabs (h - l) / 2).
  { rewrite <- A. replace h with (r + (h - r)) at 1 by ring. apply Rabs_triang. }
  assert (D : Rabs (r - x) <= Rabs (h - l) / 2).
  { unfold r. apply between_cases in B. unfold Rabs. destruct (Rcase_abs (h - l)), (Rcase_abs (0.5 * (h + l) - x)); lra. }
  assert (0 <= Rabs r) by apply Rabs_pos.
  assert (0 <= Rabs h) by apply Rabs_pos.
  assert (Rabs h * eps <= Rabs h * 1) by (apply Rmult_le_compat_l; lra).
  assert (H2 : Rabs h <= 2 * Rabs r) by lra.
  assert (Rabs h * eps <= 2 * Rabs r * eps) by (apply Rmult_le_compat_r; lra).
  lra.
Qed.

Lemma bis_result eps f l h r : 0 < eps <= 1 -> cont_on f l h -> opposite f l h -> bisection eps f l h r ->
  exists x, between l h x /\ f x = 0 /\ Rabs (r - x) <= eps * Rabs r.
Proof.
  intros E C O B. destruct (bisection_final _ _ _ _ _ B) as (n & a & b & I & N & ->).
  destruct (bis_iter_inv _ _ _ _ _ _ I) as (W & In & Op).
  destruct (ivt f a b) as (x & Hx & Z); auto.
  { intros y Hy. apply C, In, Hy. }
  exists x. split; [auto|split; auto]. apply final_close; auto.
Qed.

Lemma pow_shrinks w d : 0 < d -> exists n, w / 2 ^ n < d.
Proof.
  intros Hd. destruct (Pow_x_infinity 2 ltac:(rewrite Rabs_right; lra) (Rabs w / d + 1)) as (n & Hn).
  exists n. specialize (Hn n (Nat.le_refl n)).
  assert (P : 0 < 2 ^ n) by (apply pow_lt; lra).
  rewrite Rabs_right in Hn by lra.
  apply Rmult_lt_reg_r with (2 ^ n); auto.
  replace (w / 2 ^ n * 2 ^ n) with w by (field; lra).
  assert (w <= Rabs w) by apply RRle_abs.
  assert (Rabs w = Rabs w / d * d) by (field; lra).
  assert (Rabs w / d < 2 ^ n) by lra. nra.
Qed.

(** If some iterate fails the loop condition, the call returns. *)
Lemma bis_returns eps f : forall n l h a b, bis_iter f n l h = (a, b) -> ~ bis_continue eps a b ->
  exists r, bisection eps f l h r.
Proof.
  induction n; intros l h a b I N.
  - simpl in I. injection I as <- <-. eexists; apply bis_return; auto.
  - simpl in I. destruct (bis_step f l h) as [l' h'] eqn:S.
    destruct (IHn _ _ _ _ I N) as (r & Hr).
    destruct (Rgt_dec (Rabs (h - l)) (Rabs h * eps)) as [C|C].
    + exists r. eapply bis_loop; eauto.
    + eexists; apply bis_return; auto.
Qed.

Lemma bis_terminates eps f l h d : 0 < eps -> cont_on f l h -> opposite f l h ->
  0 < d -> (forall x, between l h x -> f x = 0 -> d <= Rabs x) ->
  exists r, bisection eps f l h r.
Proof.
  intros E C O Hd R.
  set (w := Rabs (h - l)).
  assert (Dd : 0 < d * eps / (1 + eps)) by (apply Rdiv_lt_0_compat; nra).
  destruct (pow_shrinks w _ Dd) as (n & Hn).
  destruct (bis_iter f n l h) as [a b] eqn:I.
  destruct (bis_iter_inv _ _ _ _ _ _ I) as (W & In & Op).
  apply (bis_returns eps f n l h a b I). unfold bis_continue.
  destruct (ivt f a b) as (x & Hx & Z); auto. { intros y Hy; apply C, In, Hy. }
  assert (Bx : d <= Rabs x) by (apply R; auto).
  assert (Dx : Rabs (x - b) <= Rabs (b - a)).
  { apply between_cases in Hx. unfold Rabs. destruct (Rcase_abs (x - b)), (Rcase_abs (b - a)); lra. }
  assert (T : Rabs x <= Rabs (x - b) + Rabs b).
  { replace x with ((x - b) + b) at 1 by ring. apply Rabs_triang. }
  fold w in W. rewrite W in *.
  assert (X : w / 2 ^ n * (1 + eps) < d * eps).
  { apply Rmult_lt_compat_r with (r := 1 + eps) in Hn; [|lra].
    replace (d * eps / (1 + eps) * (1 + eps)) with (d * eps) in Hn by (field; lra). exact Hn. }
  nra.
Qed.

(** Non-zero at 0 keeps the roots of a continuous function away from 0. *)
Lemma roots_away f : continuity_pt f 0 -> f 0 <> 0 -> exists d, 0 < d /\ forall x, f x = 0 -> d <= Rabs x.
Proof.
  intros C N. destruct (C (Rabs (f 0)) ltac:(apply Rabs_pos_lt; auto)) as (d & Hd & D).
  exists d; split; auto. intros x Z. destruct (Rlt_le_dec (Rabs x) d) as [L|]; auto. exfalso.
  destruct (Req_dec 0 x) as [<-|X]; [contradiction|].
  specialize (D x). simpl in D. unfold R_dist, D_x, no_cond in D.
  assert (Rabs (f x - f 0) < Rabs (f 0)).
  { apply D. split; [split; auto|]. replace (x - 0) with x by ring. auto. }
  rewrite Z in H. replace (0 - f 0) with (- f 0) in H by ring. rewrite Rabs_Ropp in H. lra.
Qed.

(** Without a sign change the lower end never moves. *)
Lemma bis_iter_nosign f n l h l' h' :
  (forall x y, between l h x -> between l h y -> 0 < f x * f y) ->
  bis_iter f n l h = (l', h') -> l' = l.
Proof.
  intros P; revert l' h'; induction n; intros l' h' H.
  - simpl in H. congruence.
  - rewrite bis_iter_S in H. destruct (bis_iter f n l h) as [a b] eqn:I.
    rewrite <- (IHn a b eq_refl).
    destruct (bis_iter_inv _ _ _ _ _ _ I) as (_ & In & _).
    apply bis_step_cases in H; cbv zeta in H. destruct H as [(_ & -> & _)|(N & _ & _)]; auto.
    exfalso. assert (0 < f (0.5 * (b + a)) * f b); [|lra]. apply P.
    + apply In, between_cases; lra.
    + apply In, between_r.
Qed.
