From Verif Require Import Ctrl_Model Ctrl_Spec.
From Coq Require Import Psatz.
Open Scope R_scope.

Lemma rgtb_spec a b : reflect (b < a) (rgtb a b).
Proof. unfold rgtb. destruct (Rlt_dec b a); constructor; auto. Qed.
Lemma ele_fin a b : ele (Fin a) (Fin b) = true <-> a <= b.
Proof. cbn. destruct (rgtb_spec a b); cbn; split; intros; try lra; auto; discriminate. Qed.

Lemma in_range_ok lo hi x : lo <= hi -> x <> NaN -> exists r, in_range (Fin lo) x (Fin hi) = Fin r /\ lo <= r <= hi.
Proof.
  intros H Hx. unfold in_range. destruct x as [r| | |]; cbn; try congruence.
  - destruct (rgtb_spec lo r); cbn; [destruct (rgtb_spec lo hi)|destruct (rgtb_spec r hi)]; eexists; split; try reflexivity; lra.
  - eexists; split; [reflexivity|lra].
  - destruct (rgtb_spec lo hi); eexists; split; try reflexivity; lra.
Qed.
Lemma in_range_fin lo hi r : lo <= hi -> in_range (Fin lo) (Fin r) (Fin hi) = Fin (clamp lo hi r).
Proof.
  intros H. unfold in_range, clamp. cbn. unfold Rmax, Rmin.
  destruct (rgtb_spec lo r); cbn; [destruct (rgtb_spec lo hi)|destruct (rgtb_spec r hi)]; destruct (Rle_dec r hi); repeat destruct (Rle_dec _ _); f_equal; lra.
Qed.
Lemma in_range_nan lo hi : in_range (Fin lo) NaN (Fin hi) = NaN.
Proof. reflexivity. Qed.

(** * Tables *)
Lemma aget_cons_map {A B} (x : B) (f : A -> B) l i : aget (x :: map f l) i = match i with O => Ok x | S k => match nth_error l k with Some a => Ok (f a) | None => UB end end.
Proof. unfold aget. destruct i; cbn; auto. rewrite nth_error_map. destruct (nth_error l i); reflexivity. Qed.
Lemma nth_seq n m k : (k < m)%nat -> nth_error (seq n m) k = Some (n + k)%nat.
Proof.
  revert n k. induction m; intros n k H; [lia|]. destruct k; cbn; [f_equal; lia|]. rewrite IHm by lia. f_equal; lia.
Qed.
Lemma tables l : c_max (configured l) = c_max pid_new /\ c_min (configured l) = c_min pid_new /\ c_exp (configured l) = c_exp pid_new.
Proof.
  unfold configured. generalize pid_new. induction l as [|s l IH]; intros c; cbn [fold_left]; auto.
  destruct (IH (apply_setter c s)) as (-> & -> & ->). destruct s; auto.
Qed.
Lemma guards_ok l : (c_s1 (configured l), c_s2 (configured l)) = guards l.
Proof.
  unfold configured, guards. change (0.65, 0.95) with (c_s1 pid_new, c_s2 pid_new). generalize pid_new.
  induction l as [|s l IH]; intros c; cbn [fold_left]; auto. rewrite IH. destruct s; reflexivity.
Qed.
Lemma coefs_ok l : (c_kp (configured l), c_ki (configured l)) = coefs l.
Proof.
  unfold configured, coefs. change (0.7, 0.4) with (c_kp pid_new, c_ki pid_new). generalize pid_new.
  induction l as [|s l IH]; intros c; cbn [fold_left]; auto. rewrite IH. destruct s; reflexivity.
Qed.
Lemma max_get l n : (n < 50)%nat -> aget (c_max (configured l)) n = Ok (high_factor n).
Proof.
  intros H. destruct (tables l) as (-> & _ & _). unfold pid_new. cbn [c_max]. rewrite aget_cons_map. destruct n as [|k]; auto.
  rewrite nth_seq by (unfold max_order; lia). unfold high_factor. repeat f_equal. lra.
Qed.
Lemma min_get l n : (n < 50)%nat -> aget (c_min (configured l)) n = Ok (low_factor n).
Proof.
  intros H. destruct (tables l) as (_ & -> & _). unfold pid_new. cbn [c_min]. rewrite aget_cons_map. destruct n as [|k]; auto.
  rewrite nth_seq by (unfold max_order; lia). unfold low_factor. reflexivity.
Qed.
Lemma exp_get l n : (1 <= n < 50)%nat -> aget (c_exp (configured l)) n = Ok (1 / INR n).
Proof.
  intros H. destruct (tables l) as (_ & _ & ->). unfold pid_new. cbn [c_exp]. rewrite aget_cons_map. destruct n as [|k]; [lia|].
  rewrite nth_seq by (unfold max_order; lia). reflexivity.
Qed.
Lemma exp_get0 l : aget (c_exp (configured l)) 0 = Ok 0.
Proof. destruct (tables l) as (_ & _ & ->). reflexivity. Qed.
Lemma out_get l n : (50 <= n)%nat -> aget (c_max (configured l)) n = UB /\ aget (c_min (configured l)) n = UB /\ aget (c_exp (configured l)) n = UB.
Proof.
  intros H. destruct (tables l) as (-> & -> & ->).
  assert (X : forall (t : list R), length t = 50%nat -> aget t n = UB).
  { intros t L. unfold aget. destruct (nth_error t n) eqn:E; auto. assert (n < length t)%nat by (apply nth_error_Some; congruence). lia. }
  repeat split; apply X; reflexivity.
Qed.
Lemma expon_range n : (1 <= n)%nat -> 0 < 1 / INR n <= 1.
Proof.
  intros H. assert (1 <= INR n) by (change 1 with (INR 1); apply le_INR; auto).
  split; [apply Rdiv_lt_0_compat; lra|]. apply Rmult_le_reg_r with (INR n); [lra|]. unfold Rdiv. rewrite Rmult_assoc, Rinv_l; lra.
Qed.
Lemma factors n : 0 < low_factor n /\ low_factor n < 1 /\ 1 < high_factor n.
Proof.
  destruct n as [|k]; [cbn; lra|]. unfold low_factor, high_factor. pose proof (expon_range (S k) ltac:(lia)) as [Hp _].
  revert Hp. generalize (1 / INR (S k)). intros x Hp.
  assert (0 < Rpower 0.02 x < 1).
  { unfold Rpower. split; [apply exp_pos|]. rewrite <- exp_0. apply exp_increasing.
    assert (ln 0.02 < 0) by (rewrite <- ln_1; apply ln_increasing; lra). nra. }
  split; [lra|]. split; [lra|]. unfold Rpower. rewrite <- exp_0. apply exp_increasing.
  assert (0 < ln 50) by (rewrite <- ln_1; apply ln_increasing; lra). nra.
Qed.
Lemma factors_le n : low_factor n <= high_factor n.
Proof. destruct (factors n) as (A & B & C). lra. Qed.
Lemma clamp_mono lo hi x y : x <= y -> clamp lo hi x <= clamp lo hi y.
Proof. intros H. unfold clamp. apply Rle_max_compat_l, Rle_min_compat_r. auto. Qed.
Lemma clamp_bounds lo hi x : lo <= hi -> lo <= clamp lo hi x <= hi.
Proof. intros H. unfold clamp, Rmax, Rmin. repeat destruct (Rle_dec _ _); lra. Qed.

Lemma nlim_ok l n es : (n < 50)%nat -> exists v, next (configured l) n es = Ok v /\ next_with_limiter (configured l) n es = Ok (in_range (Fin (low_factor n)) v (Fin (high_factor n))).
Proof.
  intros H. assert (exists v, next (configured l) n es = Ok v) as [v E].
  { assert (exists x, aget (c_exp (configured l)) n = Ok x) as [x Ex] by (destruct n; [rewrite exp_get0|rewrite exp_get by lia]; eauto).
    destruct es; cbn [next]; destruct (nonzero _); rewrite ?Ex, ?max_get by auto; cbn [obind]; eauto. }
  exists v. split; auto. unfold next_with_limiter. rewrite E. cbn [obind]. unfold limiter. rewrite min_get, max_get by auto. reflexivity.
Qed.
Lemma next_pos l n s1 s2 e : (1 <= n < 50)%nat -> guards l = (s1, s2) -> 0 < s2 -> 0 < e ->
  next (configured l) n (Err1 (Fin e)) = Ok (Fin (s1 * Rpower (s2 / e) (1 / INR n))).
Proof.
  intros H G Hs He. rewrite <- guards_ok in G. assert (G1 : c_s1 (configured l) = s1) by congruence. assert (G2 : c_s2 (configured l) = s2) by congruence.
  cbn [next nonzero]. destruct (Req_EM_T e 0); [lra|]. rewrite exp_get by auto. cbn [obind]. rewrite G1, G2.
  unfold ediv. destruct (Req_EM_T e 0); [lra|]. unfold epow. destruct (expon_range n ltac:(lia)). destruct (Req_EM_T (1 / INR n) 0); [lra|].
  assert (0 < s2 / e) by (apply Rdiv_lt_0_compat; auto). destruct (Rlt_dec 0 (s2 / e)); [|lra]. reflexivity.
Qed.

(** * Error checkers *)
Lemma emax_le m x : m <> NaN -> ele (emax m x) (Fin 1) = true <-> ele m (Fin 1) = true /\ (ele x (Fin 1) = true \/ x = NaN).
Proof.
  intros Hm. unfold emax. destruct m as [a| | |]; try congruence; destruct x as [b| | |]; cbn;
    repeat match goal with |- context [rgtb ?u ?v] => destruct (rgtb_spec u v); cbn end; split; intros; intuition (try lra; try discriminate; auto).
Qed.
Lemma emax_nn m x : m <> NaN -> emax m x <> NaN.
Proof. unfold emax. destruct m, x; cbn; try congruence; destruct (rgtb_spec r0 r); congruence. Qed.
Lemma quot_le d t : 0 <= d -> 0 <= t -> (ele (ediv (Fin d) (Fin t)) (Fin 1) = true \/ ediv (Fin d) (Fin t) = NaN) <-> d <= t.
Proof.
  intros Hd Ht. unfold ediv, esgn. destruct (Req_EM_T t 0) as [E|E].
  - destruct (Rlt_dec 0 d); cbn; [split; [intros [|]; discriminate|lra]|]. destruct (Rlt_dec d 0); [lra|]. split; [lra|auto].
  - rewrite ele_fin. assert (0 < t) by lra. split.
    + intros [H0|]; [|discriminate]. apply Rmult_le_reg_r with (/ t); [apply Rinv_0_lt_compat; auto|]. rewrite Rinv_r; auto.
    + intros H0. left. apply Rmult_le_reg_r with t; auto. unfold Rdiv. rewrite Rmult_assoc, Rinv_l; auto. lra.
Qed.
Lemma wo_fold {T} (q : T -> R * R) l : (forall x, In x l -> 0 <= fst (q x) /\ 0 <= snd (q x)) -> forall m, m <> NaN ->
  ele (fold_left (fun m x => emax m (ediv (Fin (fst (q x))) (Fin (snd (q x))))) l m) (Fin 1) = true <->
  ele m (Fin 1) = true /\ forall x, In x l -> fst (q x) <= snd (q x).
Proof.
  induction l as [|x l IH]; intros H m Hm; cbn [fold_left].
  - split; [intros A; split; [auto|intros y []]|tauto].
  - rewrite IH; [|intros y Hy; apply H; right; auto|apply emax_nn; auto]. rewrite emax_le by auto.
    destruct (H x (or_introl eq_refl)) as [H1 H2]. rewrite (quot_le _ _ H1 H2). split.
    + intros [[A B] C]. split; auto. intros y [<-|Hy]; auto.
    + intros [A B]. split; [split; [auto|apply B; left; auto]|]. intros y Hy; apply B; right; auto.
Qed.
Lemma max_abs_nonneg v : 0 <= max_abs v.
Proof. unfold max_abs. eapply Rle_trans; [apply Rabs_pos|apply Rmax_r]. Qed.
Lemma max_abs_le v t : max_abs v <= t <-> Rabs (vx v) <= t /\ Rabs (vy v) <= t /\ Rabs (vz v) <= t.
Proof.
  unfold max_abs. split.
  - intros H. pose proof (Rmax_l (Rmax (Rabs (vx v)) (Rabs (vy v))) (Rabs (vz v))). pose proof (Rmax_r (Rmax (Rabs (vx v)) (Rabs (vy v))) (Rabs (vz v))).
    pose proof (Rmax_l (Rabs (vx v)) (Rabs (vy v))). pose proof (Rmax_r (Rabs (vx v)) (Rabs (vy v))). lra.
  - intros (A & B & C). repeat apply Rmax_lub; auto.
Qed.
Lemma in_zip3 {T} (d : T) y0 y1 y2 : length y1 = length y0 -> length y2 = length y0 ->
  forall (Q : T -> T -> T -> Prop), (forall a b c, In (a, b, c) (zip3 y0 y1 y2) -> Q a b c) <-> (forall i, (i < length y0)%nat -> Q (nth i y0 d) (nth i y1 d) (nth i y2 d)).
Proof.
  revert y1 y2. induction y0 as [|a y0 IH]; intros [|b y1] [|c y2] L1 L2 Q; try discriminate.
  - cbn. split; intros; [lia|contradiction].
  - cbn in L1, L2. unfold zip3 in *. cbn [combine]. split.
    + intros H [|i] Hi; [apply H; left; auto|]. cbn [nth]. apply (proj1 (IH y1 y2 ltac:(lia) ltac:(lia) Q)); [|cbn in Hi; lia]. intros; apply H; right; auto.
    + intros H a' b' c' [E|E]; [injection E as <- <- <-; apply (H 0%nat); cbn; lia|].
      revert E. apply (proj2 (IH y1 y2 ltac:(lia) ltac:(lia) Q)). intros i Hi. apply (H (S i)). cbn; lia.
Qed.
Lemma in_zip2 {T} (d : T) y0 y1 : length y1 = length y0 ->
  forall (Q : T -> T -> Prop), (forall a b, In (a, b) (combine y0 y1) -> Q a b) <-> (forall i, (i < length y0)%nat -> Q (nth i y0 d) (nth i y1 d)).
Proof.
  revert y1. induction y0 as [|a y0 IH]; intros [|b y1] L1 Q; try discriminate.
  - cbn. split; intros; [lia|contradiction].
  - cbn in L1. cbn [combine]. split.
    + intros H [|i] Hi; [apply H; left; auto|]. cbn [nth]. apply (proj1 (IH y1 ltac:(lia) Q)); [|cbn in Hi; lia]. intros; apply H; right; auto.
    + intros H a' b' [E|E]; [injection E as <- <-; apply (H 0%nat); cbn; lia|].
      revert E. apply (proj2 (IH y1 ltac:(lia) Q)). intros i Hi. apply (H (S i)). cbn; lia.
Qed.
Lemma wo_iff {T} (d : T) (mag : T -> R) sub atol rtol y0 y1 y2 : (forall x, 0 <= mag x) -> 0 <= atol -> 0 <= rtol -> length y1 = length y0 -> length y2 = length y0 ->
  ele (wo_error mag sub atol rtol y0 y1 y2) (Fin 1) = true <->
  forall i, (i < length y0)%nat -> mag (sub (nth i y2 d) (nth i y1 d)) <= atol + Rmax (mag (nth i y1 d)) (mag (nth i y0 d)) * rtol.
Proof.
  intros Hm Ha Hr L1 L2. rewrite <- (in_zip3 d y0 y1 y2 L1 L2 (fun a b c => mag (sub c b) <= atol + Rmax (mag b) (mag a) * rtol)).
  unfold wo_error.
  pose (q := fun x : T * T * T => let '(a, b, c) := x in (mag (sub c b), atol + Rmax (mag b) (mag a) * rtol)).
  assert (E : forall l m, fold_left (fun m '(a, b, b') => emax m (ediv (Fin (mag (sub b' b))) (Fin (atol + Rmax (mag b) (mag a) * rtol)))) l m =
              fold_left (fun m x => emax m (ediv (Fin (fst (q x))) (Fin (snd (q x))))) l m).
  { induction l as [|[[a b] c] l IH]; intros m; cbn [fold_left]; auto. }
  rewrite E, wo_fold; [|intros [[a b] c] _; cbn; split; [auto|]|discriminate].
  - rewrite ele_fin. split.
    + intros [_ H] a b c HI. apply (H _ HI).
    + intros H. split; [lra|]. intros [[a b] c] HI. cbn. apply H; auto.
  - assert (0 <= Rmax (mag b) (mag a)) by (eapply Rle_trans; [apply (Hm b)|apply Rmax_l]). nra.
Qed.
Lemma wo2_iff {T} (d : T) (mag : T -> R) atol rtol y0 df : (forall x, 0 <= mag x) -> 0 <= atol -> 0 <= rtol -> length df = length y0 ->
  ele (wo_error2 mag atol rtol y0 df) (Fin 1) = true <->
  forall i, (i < length y0)%nat -> mag (nth i df d) <= atol + mag (nth i y0 d) * rtol.
Proof.
  intros Hm Ha Hr L1. rewrite <- (in_zip2 d y0 df L1 (fun a b => mag b <= atol + mag a * rtol)).
  unfold wo_error2.
  pose (q := fun x : T * T => let '(a, b) := x in (mag b, atol + mag a * rtol)).
  assert (E : forall l m, fold_left (fun m '(a, b) => emax m (ediv (Fin (mag b)) (Fin (atol + mag a * rtol)))) l m =
              fold_left (fun m x => emax m (ediv (Fin (fst (q x))) (Fin (snd (q x))))) l m).
  { induction l as [|[a b] l IH]; intros m; cbn [fold_left]; auto. }
  rewrite E, wo_fold; [|intros [a b] _; cbn; split; [auto|]|discriminate].
  - rewrite ele_fin. split.
    + intros [_ H] a b HI. apply (H _ HI).
    + intros H. split; [lra|]. intros [a b] HI. cbn. apply H; auto.
  - specialize (Hm a). nra.
Qed.

(** RMS *)
Definition rterm (atol rtol : R) (x : R * R * R) : R :=
  let '(a, b, c) := x in (b - c) * (b - c) / (tol atol rtol a b * tol atol rtol a b).
Lemma tol_pos atol rtol a b : 0 < atol -> 0 <= rtol -> 0 < tol atol rtol a b.
Proof. intros. unfold tol. assert (0 <= Rmax (Rabs a) (Rabs b)) by (eapply Rle_trans; [apply Rabs_pos|apply Rmax_l]). nra. Qed.
Fixpoint lsum {A} (f : A -> R) (l : list A) : R := match l with [] => 0 | x :: t => f x + lsum f t end.
Lemma rms_fold atol rtol l : 0 < atol -> 0 <= rtol -> forall s, fold_left (fun acc '(a, b, b') =>
               let scale := Rmax (Rabs a) (Rabs b) * rtol + atol in
               if Req_EM_T scale 0 then acc else acc + (Rabs (b - b') / scale) * (Rabs (b - b') / scale)) l s = s + lsum (rterm atol rtol) l.
Proof.
  intros Ha Hr. induction l as [|[[a b] c] l IH]; intros s; cbn [fold_left lsum]; [lra|]. rewrite IH. cbv zeta.
  assert (Et : Rmax (Rabs a) (Rabs b) * rtol + atol = tol atol rtol a b) by (unfold tol; ring). rewrite Et. pose proof (tol_pos atol rtol a b Ha Hr).
  destruct (Req_EM_T _ _); [lra|]. unfold rterm. rewrite Rplus_assoc. f_equal. f_equal.
  replace ((b - c) * (b - c)) with (Rabs (b - c) * Rabs (b - c)) by (rewrite <- Rabs_mult; apply Rabs_pos_eq; apply Rle_0_sqr). field. lra.
Qed.
Lemma lsum_nonneg {A} (f : A -> R) l : (forall x, 0 <= f x) -> 0 <= lsum f l.
Proof. intros H. induction l; cbn; [lra|]. pose proof (H a). lra. Qed.
Lemma lsum_in {A} (f : A -> R) l x : (forall x, 0 <= f x) -> In x l -> f x <= lsum f l.
Proof. intros H. induction l as [|a l IH]; cbn; [intros []|]; intros [<-|Hi]. - pose proof (lsum_nonneg f l H). lra. - specialize (IH Hi). pose proof (H a). lra. Qed.
Lemma rterm_nonneg atol rtol x : 0 < atol -> 0 <= rtol -> 0 <= rterm atol rtol x.
Proof.
  intros Ha Hr. destruct x as [[a b] c]. cbn. pose proof (tol_pos atol rtol a b Ha Hr). apply Rmult_le_pos; [apply Rle_0_sqr|]. left. apply Rinv_0_lt_compat. apply Rmult_lt_0_compat; auto.
Qed.
Lemma lsum_zip3 atol rtol y0 y1 y2 : length y1 = length y0 -> length y2 = length y0 ->
  lsum (rterm atol rtol) (zip3 y0 y1 y2) = rsum (fun i => rterm atol rtol (nth i y0 0, nth i y1 0, nth i y2 0)) (length y0).
Proof.
  assert (X : forall f n, rsum f (S n) = f 0%nat + rsum (fun i => f (S i)) n).
  { intros f n. induction n; [cbn; ring|]. change (rsum f (S (S n))) with (rsum f (S n) + f (S n)). rewrite IHn. cbn. ring. }
  revert y1 y2. induction y0 as [|a y0 IH]; intros [|b y1] [|c y2] L1 L2; try discriminate; auto.
  cbn [length]. rewrite X. unfold zip3 in *. cbn [combine lsum]. f_equal. rewrite IH; [reflexivity| |]; cbn in *; lia.
Qed.
Lemma rms_value atol rtol y0 y1 y2 : 0 < atol -> 0 <= rtol -> y0 <> [] ->
  rms_error atol rtol y0 y1 y2 = Fin (sqrt (lsum (rterm atol rtol) (zip3 y0 y1 y2) / INR (length y0))).
Proof.
  intros Ha Hr Hy. unfold rms_error. rewrite (rms_fold atol rtol _ Ha Hr). rewrite Rplus_0_l.
  assert (0 < INR (length y0)) by (apply lt_0_INR; destruct y0; cbn; [congruence|lia]).
  unfold ediv. destruct (Req_EM_T _ 0); [lra|]. reflexivity.
Qed.
Lemma sqrt_le1 x : 0 <= x -> sqrt x <= 1 <-> x <= 1.
Proof.
  intros H. split; intros L.
  - rewrite <- (sqrt_sqrt x H). pose proof (sqrt_pos x). nra.
  - rewrite <- sqrt_1. apply sqrt_le_1; lra.
Qed.
(** Max ratio *)
Lemma mr_fold {T} (q : T -> R * R) l : forall md ms,
  let r := fold_left (fun '(md, ms) x => (Rmax md (fst (q x)), Rmax ms (snd (q x)))) l (md, ms) in
  (forall t, fst r <= t <-> md <= t /\ forall x, In x l -> fst (q x) <= t) /\
  (forall t, t <= snd r <-> t <= ms \/ exists x, In x l /\ t <= snd (q x)).
Proof.
  induction l as [|x l IH]; intros md ms; cbn [fold_left].
  - cbn. split; intros t; split.
    + intros H; split; auto; intros y [].
    + tauto.
    + auto.
    + intros [H|(y & [] & _)]; auto.
  - destruct (IH (Rmax md (fst (q x))) (Rmax ms (snd (q x)))) as [A B]. split; intros t.
    + rewrite A. split.
      * intros [H1 H2]. pose proof (Rmax_l md (fst (q x))). pose proof (Rmax_r md (fst (q x))). split; [lra|]. intros y [<-|Hy]; [lra|auto].
      * intros [H1 H2]. split; [apply Rmax_lub; [auto|apply H2; left; auto]|]. intros y Hy; apply H2; right; auto.
    + rewrite B. split.
      * intros [H|(y & Hy & H)]; [|right; exists y; split; [right; auto|auto]]. unfold Rmax in H. destruct (Rle_dec ms (snd (q x))); [right; exists x; split; [left; auto|auto]|auto].
      * intros [H|(y & [<-|Hy] & H)]; [left|left|right; exists y; auto]; eapply Rle_trans; eauto; [apply Rmax_l|apply Rmax_r].
Qed.

(** * Sequent iterator *)
Section Seq.
  Context {P : Type} (wr : P -> list R) (rd : P -> list R -> outcome P) (integ : P -> R -> outcome P)
          (err : list R -> list R -> list R -> ext) (order : nat) (Inv : P -> Prop) (input : list R) (macro : R) (sol : nat -> list R).
  Hypothesis HR : restarts wr rd integ Inv input macro sol.
  Definition nsub (i : nat) : nat := nth i ns 0%nat.
  Definition err_at (i : nat) : ext := scaled_error order (nsub i) (nsub (i - 1)) (err input (sol (nsub (i - 1))) (sol (nsub i))).
  Lemma nsub_get i : (i <= 12)%nat -> aget ns i = Ok (nsub i) /\ (0 < nsub i)%nat.
  Proof. intros H. do 13 (destruct i as [|i]; [split; [reflexivity|cbn; lia]|]). lia. Qed.
  Lemma seq_loop_ok fuel : forall i p dual e0, (1 <= i)%nat -> (i + fuel <= 13)%nat -> Inv p ->
    (exists k p', (i <= k < i + fuel)%nat /\ ele (err_at k) (Fin 1) = true /\ (forall j, (i <= j < k)%nat -> ele (err_at j) (Fin 1) = false) /\ Inv p' /\ seq_loop wr rd integ err order fuel i p input (sol (nsub (i - 1))) dual e0 macro = Ok (p', err_at k, sol (nsub k))) \/
    ((forall j, (i <= j < i + fuel)%nat -> ele (err_at j) (Fin 1) = false) /\ exists p', Inv p' /\ seq_loop wr rd integ err order fuel i p input (sol (nsub (i - 1))) dual e0 macro =
        Ok (p', match fuel with O => e0 | _ => err_at (i + fuel - 1) end, match fuel with O => dual | _ => sol (nsub (i + fuel - 2)) end)).
  Proof.
    induction fuel as [|f IH]; intros i p dual e0 Hi Hb Hp; cbn [seq_loop].
    - right. split; [intros; lia|]. exists p. auto.
    - destruct (nsub_get i ltac:(lia)) as [-> Pi]. destruct (nsub_get (i - 1) ltac:(lia)) as [-> Pi']. cbn [obind].
      destruct (rs_run _ _ _ _ _ _ _ HR p (nsub i) Pi Hp) as (q & p1 & -> & E1 & W1 & I1). cbn [obind]. rewrite E1. cbn [obind]. rewrite W1.
      change (scaled_error order (nsub i) (nsub (i - 1)) (err input (sol (nsub (i - 1))) (sol (nsub i)))) with (err_at i).
      destruct (ele (err_at i) (Fin 1)) eqn:Ee.
      + left. exists i, p1. split; [lia|]. split; auto. split; [intros; lia|]. auto.
      + pose proof (IH (i + 1)%nat p1 (sol (nsub (i - 1))) (err_at i) ltac:(lia) ltac:(lia) I1) as X. replace (i + 1 - 1)%nat with i in X by lia.
        destruct X as [(k & p' & K1 & K2 & K3 & K4 & ->)|(K & p' & I' & ->)].
        * left. exists k, p'. split; [lia|]. split; auto. split; auto. intros j Hj. destruct (Nat.eq_dec j i) as [->|]; auto. apply K3; lia.
        * right. split. { intros j Hj. destruct (Nat.eq_dec j i) as [->|]; auto. apply K; lia. }
          exists p'. split; auto. destruct f as [|f].
          -- replace (i + 1 - 2)%nat with (i - 1)%nat by lia. replace (i + 1 - 1)%nat with i by lia. reflexivity.
          -- replace (i + 1 + S f - 1)%nat with (i + S (S f) - 1)%nat by lia. replace (i + 1 + S f - 2)%nat with (i + S (S f) - 2)%nat by lia. reflexivity.
  Qed.
End Seq.
