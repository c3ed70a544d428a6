From Verif Require Import Orbit_Model Orbit_Spec Orbit_Proofs Orbit_Proofs2 Anom_Proofs Anom_Proofs2 Manip_Model Manip_Spec.
From Coq Require Import List.
Import ListNotations.
Open Scope R_scope.

Lemma M_tot_spec c : M_tot c = total_mass (members c).
Proof.
  destruct c as [p|l]; unfold M_tot, total_mass, members; simpl; [ring|].
  assert (G : forall l a, fold_left (fun t p => t + pt_m p) l a = a + lsum pt_m l).
  { induction l0; intros; simpl; [ring|]. rewrite IHl0. ring. }
  rewrite G. ring.
Qed.
Lemma com_fold (f : particle -> vec) l : forall m s,
  fold_left (fun '(m, s) p => (m + pt_m p, vadd s (vscal (pt_m p) (f p)))) l (m, s) =
  (m + total_mass l, vadd s (lvsum (fun p => vscal (pt_m p) (f p)) l)).
Proof.
  induction l; intros m s; simpl.
  - f_equal; [unfold total_mass; simpl; ring|vring].
  - rewrite IHl. unfold total_mass; simpl. f_equal; [ring|]. generalize (lvsum (fun p => vscal (pt_m p) (f p)) l), (f a). intros; vring.
Qed.
Lemma vscal_inv m v : m <> 0 -> vscal m (vscal (/ m) v) = v.
Proof. intros. rewrite vscal_vscal. rewrite Rinv_r by auto. apply vscal_1. Qed.
Lemma vscal_inj m a b : m <> 0 -> vscal m a = vscal m b -> a = b.
Proof.
  intros H E. rewrite <- (vscal_1 a), <- (vscal_1 b), <- (Rinv_l m H), <- !vscal_vscal, E. auto.
Qed.
Lemma COM_p_centre c : M_tot c <> 0 -> is_centre pt_p (members c) (COM_p c).
Proof.
  intros H. rewrite M_tot_spec in H. unfold is_centre. destruct c as [p|l]; unfold members, COM_p in *.
  - unfold total_mass; simpl. destruct (pt_p p). vring.
  - rewrite (com_fold pt_p), Rplus_0_l, vadd_0_l. apply vscal_inv; auto.
Qed.
Lemma COM_v_centre c : M_tot c <> 0 -> is_centre pt_v (members c) (COM_v c).
Proof.
  intros H. rewrite M_tot_spec in H. unfold is_centre. destruct c as [p|l]; unfold members, COM_v in *.
  - unfold total_mass; simpl. destruct (pt_v p). vring.
  - rewrite (com_fold pt_v), Rplus_0_l, vadd_0_l. apply vscal_inv; auto.
Qed.
Lemma centre_unique f l a b : total_mass l <> 0 -> is_centre f l a -> is_centre f l b -> a = b.
Proof. unfold is_centre. intros H A B. apply (vscal_inj (total_mass l)); congruence. Qed.

(** Variadic overloads. *)
Lemma fold_right_m ps a : fold_right (fun p acc => pt_m p + acc) a ps = a + total_mass ps.
Proof. unfold total_mass. induction ps; simpl; [ring|]. rewrite IHps. ring. Qed.
Lemma fold_right_v f ps a : fold_right (fun p acc => vadd (vscal (pt_m p) (f p)) acc) a ps = vadd a (lvsum (fun p => vscal (pt_m p) (f p)) ps).
Proof. induction ps; simpl; [vring|]. rewrite IHps. generalize (lvsum (fun p => vscal (pt_m p) (f p)) ps), (f a0). intros; vring. Qed.
Lemma M_tot_var_eq p1 p2 ps : M_tot_var p1 p2 ps = M_tot (Many (p1 :: p2 :: ps)).
Proof. rewrite M_tot_spec. unfold M_tot_var. rewrite fold_right_m. unfold total_mass; simpl. ring. Qed.
Lemma COM_p_var_eq p1 p2 ps : COM_p_var p1 p2 ps = COM_p (Many (p1 :: p2 :: ps)).
Proof.
  unfold COM_p_var, COM_p. rewrite (com_fold pt_p), fold_right_m, (fold_right_v pt_p). unfold total_mass; simpl.
  f_equal; [f_equal; ring|]. generalize (lvsum (fun p => vscal (pt_m p) (pt_p p)) ps), (pt_p p1), (pt_p p2); intros; vring.
Qed.
Lemma COM_v_var_eq p1 p2 ps : COM_v_var p1 p2 ps = COM_v (Many (p1 :: p2 :: ps)).
Proof.
  unfold COM_v_var, COM_v. rewrite (com_fold pt_v), fold_right_m, (fold_right_v pt_v). unfold total_mass; simpl.
  f_equal; [f_equal; ring|]. generalize (lvsum (fun p => vscal (pt_m p) (pt_v p)) ps), (pt_v p1), (pt_v p2); intros; vring.
Qed.
Definition trip (x : particle * particle * list particle) : cluster := let '(a, b, c) := x in Many (a :: b :: c).
Lemma move_var_eq pos vel p1 p2 ps : trip (move_particles_var pos vel p1 p2 ps) = move_particles pos vel (Many (p1 :: p2 :: ps)).
Proof. unfold move_particles_var, move_particles, trip, on_members. rewrite COM_p_var_eq, COM_v_var_eq. reflexivity. Qed.

(** Rigid motion. *)
Lemma members_on f c : members (on_members f c) = map f (members c).
Proof. destruct c; auto. Qed.
Lemma add_add dp dv p : add_v dv (add_p dp p) = mkP (pt_m p) (vadd (pt_p p) dp) (vadd (pt_v p) dv) (pt_R p).
Proof. reflexivity. Qed.
Lemma move_rigid pos vel c : rigidly_moved (vsub pos (COM_p c)) (vsub vel (COM_v c)) (members c) (members (move_particles pos vel c)).
Proof. unfold rigidly_moved, move_particles. rewrite members_on. reflexivity. Qed.
Lemma total_mass_map f l : (forall p, pt_m (f p) = pt_m p) -> total_mass (map f l) = total_mass l.
Proof. intros H. unfold total_mass. induction l; simpl; auto. rewrite H, IHl. auto. Qed.
Lemma lvsum_shift f g d l : (forall p, In p l -> g p = vadd (f p) d) ->
  lvsum (fun p => vscal (pt_m p) (g p)) l = vadd (lvsum (fun p => vscal (pt_m p) (f p)) l) (vscal (total_mass l) d).
Proof.
  unfold total_mass. induction l; simpl; intros H; [vring|]. rewrite IHl by auto. rewrite (H a) by auto.
  generalize (lvsum (fun p => vscal (pt_m p) (f p)) l), (lsum pt_m l), (f a). intros; vring.
Qed.
Lemma lvsum_map {A B} (f : B -> vec) (g : A -> B) l : lvsum f (map g l) = lvsum (fun x => f (g x)) l.
Proof. induction l; simpl; auto. rewrite IHl; auto. Qed.
Lemma lsum_map {A B} (f : B -> R) (g : A -> B) l : lsum f (map g l) = lsum (fun x => f (g x)) l.
Proof. induction l; simpl; auto. rewrite IHl; auto. Qed.
Lemma lsum_ext {A} (f g : A -> R) l : (forall x, In x l -> f x = g x) -> lsum f l = lsum g l.
Proof. induction l; simpl; intros H; auto. rewrite H, IHl; auto. Qed.
Lemma lsum_app {A} (f : A -> R) l l' : lsum f (l ++ l') = lsum f l + lsum f l'.
Proof. induction l; simpl; [ring|]. rewrite IHl. ring. Qed.
Lemma lvsum_ext {A} (f g : A -> vec) l : (forall x, In x l -> f x = g x) -> lvsum f l = lvsum g l.
Proof. induction l; simpl; intros H; auto. rewrite H, IHl; auto. Qed.
Lemma rigid_mass dp dv l l' : rigidly_moved dp dv l l' -> total_mass l' = total_mass l.
Proof. intros ->. apply total_mass_map. auto. Qed.
Lemma rigid_centre_p dp dv l l' c : rigidly_moved dp dv l l' -> is_centre pt_p l c -> is_centre pt_p l' (vadd c dp).
Proof.
  unfold is_centre. intros R C. rewrite (rigid_mass _ _ _ _ R). rewrite R, lvsum_map. cbn [pt_m pt_p].
  rewrite (lvsum_shift pt_p _ dp) by auto. rewrite <- C. generalize (total_mass l); intros; destruct c, dp; vring.
Qed.
Lemma rigid_centre_v dp dv l l' c : rigidly_moved dp dv l l' -> is_centre pt_v l c -> is_centre pt_v l' (vadd c dv).
Proof.
  unfold is_centre. intros R C. rewrite (rigid_mass _ _ _ _ R). rewrite R, lvsum_map. cbn [pt_m pt_v].
  rewrite (lvsum_shift pt_v _ dv) by auto. rewrite <- C. generalize (total_mass l); intros; destruct c, dv; vring.
Qed.
Lemma pairs_map {A B} (f : A -> B) l : pairs (map f l) = map (fun '(x, y) => (f x, f y)) (pairs l).
Proof.
  induction l; simpl; auto. rewrite map_app, !map_map, IHl. auto.
Qed.
Lemma rigid_potential dp dv l l' : rigidly_moved dp dv l l' -> potential l' = potential l.
Proof.
  intros ->. unfold potential. rewrite pairs_map, lsum_map. f_equal. apply lsum_ext. intros (p, q) _. cbn [pt_m pt_p].
  do 2 f_equal. destruct (pt_p p), (pt_p q), dp. vring.
Qed.
Lemma rigid_kinetic dp dv l l' v0 : rigidly_moved dp dv l l' -> kinetic (vadd v0 dv) l' = kinetic v0 l.
Proof.
  intros ->. unfold kinetic. rewrite lsum_map. apply lsum_ext. intros p _. cbn [pt_m pt_v]. f_equal.
  f_equal. destruct (pt_v p), v0, dv. vring.
Qed.

(** Energies. *)
Lemma E_k_spec c : E_k c = kinetic vzero (members c).
Proof.
  unfold kinetic. destruct c as [p|l]; unfold E_k, members.
  - simpl. replace (vsub (pt_v p) vzero) with (pt_v p) by (destruct (pt_v p); vring). unfold norm2. lra.
  - assert (G : forall l a, fold_left (fun t p => t + pt_m p * dot (pt_v p) (pt_v p)) l a = a + lsum (fun p => pt_m p * dot (pt_v p) (pt_v p)) l).
    { induction l0; intros; simpl; [ring|]. rewrite IHl0. ring. }
    rewrite G, Rplus_0_l. clear G. induction l; simpl; [lra|]. rewrite Rmult_plus_distr_l, IHl.
    replace (vsub (pt_v a) vzero) with (pt_v a) by (destruct (pt_v a); vring). unfold norm2. lra.
Qed.
Lemma E_p_spec c : E_p c = potential (members c).
Proof.
  unfold potential. destruct c as [p|l]; unfold E_p, members; [simpl; ring|].
  assert (G : forall l a, E_p_loop a l = a - lsum (fun '(p, q) => Gc * pt_m p * pt_m q / norm (vsub (pt_p p) (pt_p q))) (pairs l)).
  { induction l0; intros; simpl; [ring|]. rewrite IHl0, lsum_app, lsum_map.
    assert (F : forall t b, fold_left (fun t j => t - Gc * pt_m a * pt_m j / norm (vsub (pt_p a) (pt_p j))) t b =
                 b - lsum (fun j => Gc * pt_m a * pt_m j / norm (vsub (pt_p a) (pt_p j))) t).
    { induction t; intros; simpl; [ring|]. rewrite IHt. ring. }
    rewrite F. ring. }
  rewrite G. ring.
Qed.
(** Koenig's theorem. *)
Lemma lsum_scal {A} k (f : A -> R) l : lsum (fun x => k * f x) l = k * lsum f l.
Proof. induction l; simpl; [ring|]. rewrite IHl. ring. Qed.
Lemma lsum_plus {A} (f g : A -> R) l : lsum (fun x => f x + g x) l = lsum f l + lsum g l.
Proof. induction l; simpl; [ring|]. rewrite IHl. ring. Qed.
Lemma dot_lvsum {A} (f : A -> vec) d l : dot (lvsum f l) d = lsum (fun x => dot (f x) d) l.
Proof. induction l; simpl; [destruct d; vring|]. rewrite <- IHl. generalize (lvsum f l), (f a). intros; vring. Qed.
Lemma koenig l v0 c : is_centre pt_v l c ->
  kinetic v0 l = kinetic c l + / 2 * total_mass l * norm2 (vsub c v0).
Proof.
  intros C. unfold kinetic, is_centre in *.
  assert (E : lsum (fun p => / 2 * pt_m p * norm2 (vsub (pt_v p) v0)) l =
    lsum (fun p => / 2 * pt_m p * norm2 (vsub (pt_v p) c)) l + (lsum (fun p => dot (vscal (pt_m p) (pt_v p)) (vsub c v0)) l +
      (/ 2 * norm2 (vsub c v0) - dot c (vsub c v0)) * lsum pt_m l)).
  { rewrite <- lsum_scal, <- !lsum_plus. apply lsum_ext. intros p _. destruct (pt_v p), c, v0. vunf. field. }
  rewrite E, <- dot_lvsum, <- C. unfold total_mass. generalize (lsum pt_m l). intros m. destruct c, v0. vunf. field.
Qed.
Lemma E_inner_spec c : M_tot c <> 0 -> E_inner c = kinetic (COM_v c) (members c) + potential (members c).
Proof.
  intros H. unfold E_inner, E_tot, E_k_COM. rewrite E_k_spec, E_p_spec.
  rewrite (koenig (members c) vzero (COM_v c)) by (apply COM_v_centre; auto). rewrite M_tot_spec.
  replace (vsub (COM_v c) vzero) with (COM_v c) by (destruct (COM_v c); vring). unfold norm2. lra.
Qed.

(** cluster_size. *)
Lemma size_inner i tl a :
  let m := fold_left (fun t j => let r := norm (vsub (pt_p i) (pt_p j)) in if Rlt_dec t r then r else t) tl a in
  a <= m /\ (forall j, In j tl -> norm (vsub (pt_p i) (pt_p j)) <= m) /\
  (m = a \/ exists j, In j tl /\ m = norm (vsub (pt_p i) (pt_p j))).
Proof.
  revert a; induction tl; intros b m.
  - subst m. simpl. split; [lra|]. split; [contradiction|auto].
  - subst m. cbn [fold_left]. cbv zeta. set (r := norm (vsub (pt_p i) (pt_p a))). set (b' := if Rlt_dec b r then r else b).
    specialize (IHtl b'). cbv zeta in IHtl. destruct IHtl as (A & B & C).
    assert (b <= b' /\ r <= b') as (L1 & L2) by (unfold b'; destruct (Rlt_dec b r); lra).
    split; [lra|]. split.
    + intros j [->|H]; [fold r; lra|auto].
    + destruct C as [C|(j & J & C)]; [|right; exists j; simpl; auto].
      rewrite C. unfold b'. destruct (Rlt_dec b r); [right; exists a; simpl; auto|auto].
Qed.
Lemma size_loop_spec l : forall a,
  a <= size_loop a l /\ (forall p q, In (p, q) (pairs l) -> norm (vsub (pt_p p) (pt_p q)) <= size_loop a l) /\
  (size_loop a l = a \/ exists p q, In (p, q) (pairs l) /\ size_loop a l = norm (vsub (pt_p p) (pt_p q))).
Proof.
  induction l; intros b; cbn [size_loop pairs].
  - split; [lra|]. split; [contradiction|auto].
  - pose proof (size_inner a l b) as S. cbv zeta in S. destruct S as (A & B & C).
    match goal with |- context [size_loop ?x l] => set (m := x) in * end.
    destruct (IHl m) as (A' & B' & C'). split; [lra|]. split.
    + intros p q H. apply in_app_or in H. destruct H as [H|H]; [|auto].
      apply in_map_iff in H. destruct H as (y & E & H). injection E as <- <-. apply B in H. lra.
    + destruct C' as [C'|(p & q & H & C')].
      * rewrite C'. destruct C as [C|(j & H & C)]; [auto|]. right. exists a, j. split; auto. apply in_or_app. left. apply in_map_iff. exists j; auto.
      * right. exists p, q. split; auto. apply in_or_app. auto.
Qed.
