(** C44/C45 continued: two clusters together, several single particles as arguments, explicit sizes. *)
From Verif Require Import Vec Orbit_Model Orbit_Spec Scat_Proofs Scat_Props Orbnew_Model Orbnew_Props Ctrl_Model Manip2_Model Manip_Spec Manip_Proofs Manip_Props.
From Coq Require Import List Lra Lia.
Import ListNotations.
Open Scope R_scope.

Lemma lvsum_app {A} (f : A -> vec) l l' : lvsum f (l ++ l') = vadd (lvsum f l) (lvsum f l').
Proof. induction l as [|a l IH]; simpl; [destruct (lvsum f l'); vring|]. rewrite IH. generalize (f a), (lvsum f l), (lvsum f l'). intros; vring. Qed.
Lemma pairs_app {A} (f : A * A -> R) l l' : lsum f (pairs (l ++ l')) = lsum f (pairs l) + lsum f (pairs l') + lsum (fun p => lsum (fun q => f (p, q)) l') l.
Proof.
  induction l as [|a l IH]; simpl; [ring|]. rewrite lsum_app, IH, map_app, !lsum_app, !lsum_map. ring.
Qed.
(** The reduced mass is the inertia of the relative motion: the inner energy of two clusters taken together is the sum of their inner
    energies, the kinetic energy of their relative motion with the reduced mass, and the mutual potential. *)
Theorem C44_two_clusters c1 c2 : let l1 := members c1 in let l2 := members c2 in
  total_mass l1 <> 0 -> total_mass l2 <> 0 -> total_mass l1 + total_mass l2 <> 0 ->
  E_inner (Many (l1 ++ l2)) = E_inner c1 + E_inner c2 + / 2 * M_rdc c1 c2 * norm2 (vsub (COM_v c1) (COM_v c2)) -
    lsum (fun p => lsum (fun q => Gc * pt_m p * pt_m q / norm (vsub (pt_p p) (pt_p q))) l2) l1.
Proof.
  intros l1 l2 H1 H2 H12.
  assert (T : total_mass (l1 ++ l2) = total_mass l1 + total_mass l2) by (apply total_app).
  rewrite !E_inner_spec by (rewrite M_tot_spec; cbn [members]; try rewrite T; auto). cbn [members]. fold l1 l2.
  set (V := COM_v (Many (l1 ++ l2))). set (V1 := COM_v c1). set (V2 := COM_v c2).
  assert (C1 : is_centre pt_v l1 V1) by (apply COM_v_centre; rewrite M_tot_spec; auto).
  assert (C2 : is_centre pt_v l2 V2) by (apply COM_v_centre; rewrite M_tot_spec; auto).
  assert (C : is_centre pt_v (l1 ++ l2) V) by (apply (COM_v_centre (Many (l1 ++ l2))); rewrite M_tot_spec; cbn [members]; rewrite T; auto).
  assert (K : kinetic V (l1 ++ l2) = kinetic V l1 + kinetic V l2) by (unfold kinetic; apply lsum_app).
  rewrite K, (koenig l1 V V1 C1), (koenig l2 V V2 C2).
  unfold potential. rewrite (pairs_app _ l1 l2). unfold M_rdc. rewrite !M_tot_spec. fold l1 l2.
  unfold is_centre in C, C1, C2. rewrite lvsum_app, <- C1, <- C2, T in C.
  set (m1 := total_mass l1) in *. set (m2 := total_mass l2) in *.
  assert (E : / 2 * m1 * norm2 (vsub V1 V) + / 2 * m2 * norm2 (vsub V2 V) = / 2 * (m1 * m2 / (m1 + m2)) * norm2 (vsub V1 V2)).
  { assert (EV : V = vscal (/ (m1 + m2)) (vadd (vscal m1 V1) (vscal m2 V2))).
    { apply (vscal_inj (m1 + m2)); auto. rewrite C, vscal_inv; auto. }
    rewrite EV. destruct V1, V2. vunf. field. auto. }
  lra.
Qed.
(** Same for angular momentum's reduced mass: calc_angular_momentum is the total angular momentum of the pair in its centre-of-mass frame. *)
Theorem C41_angular_momentum : forall m1 m2 p1 p2 v1 v2, m1 + m2 <> 0 ->
  vadd (vscal m1 p1) (vscal m2 p2) = vzero -> vadd (vscal m1 v1) (vscal m2 v2) = vzero ->
  calc_angular_momentum m1 m2 (vsub p1 p2) (vsub v1 v2) = vadd (vscal m1 (cross p1 v1)) (vscal m2 (cross p2 v2)).
Proof.
  intros m1 m2 p1 p2 v1 v2 Hm HP HV. unfold calc_angular_momentum.
  assert (EP : forall a b : vec, vadd (vscal m1 a) (vscal m2 b) = vzero -> a = vscal (m2 / (m1 + m2)) (vsub a b) /\ b = vscal (- m1 / (m1 + m2)) (vsub a b)).
  { intros [ax ay az] [bx by_ bz] H. unfold vadd, vscal, vzero in H. cbn in H. injection H as H1 H2 H3.
    assert (K : forall x y, m1 * x + m2 * y = 0 -> x = m2 / (m1 + m2) * (x - y) /\ y = - m1 / (m1 + m2) * (x - y)).
    { intros x y Q. split; apply (Rmult_eq_reg_r (m1 + m2)); auto; field_simplify; auto; lra. }
    destruct (K _ _ H1), (K _ _ H2), (K _ _ H3). unfold vscal, vsub. cbn. split; f_equal; assumption. }
  destruct (EP p1 p2 HP) as (P1 & P2). destruct (EP v1 v2 HV) as (V1 & V2).
  set (d := vsub p1 p2) in *. set (w := vsub v1 v2) in *. rewrite P1, P2, V1, V2. destruct d as [dx dy dz], w as [wx wy wz]. unfold cross, vscal, vadd. cbn. f_equal; field; auto.
Qed.

(** Several single particles as arguments give what the range holding them gives. *)
Theorem C44_variadic p1 p2 ps : let l := p1 :: p2 :: ps in
  E_k_var p1 p2 ps = kinetic vzero l /\ E_p_var p1 p2 ps = potential l /\ E_tot_var p1 p2 ps = kinetic vzero l + potential l /\
  E_k_COM_var p1 p2 ps = E_k_COM (Many l) /\ E_inner_var p1 p2 ps = E_inner (Many l) /\ cluster_size_var p1 p2 ps = cluster_size (Many l).
Proof.
  intros l. assert (K : E_k_var p1 p2 ps = kinetic vzero l).
  { change (kinetic vzero l) with (kinetic vzero (members (Many l))). rewrite <- E_k_spec. unfold E_k_var, E_k. f_equal. unfold l. cbn [fold_left].
    assert (G : forall a, fold_right (fun p acc => pt_m p * dot (pt_v p) (pt_v p) + acc) a ps = a + lsum (fun p => pt_m p * dot (pt_v p) (pt_v p)) ps)
      by (intros a; induction ps as [|x xs IH]; simpl; [ring|]; rewrite IH; ring).
    assert (F : forall xs a, fold_left (fun t p => t + pt_m p * dot (pt_v p) (pt_v p)) xs a = a + lsum (fun p => pt_m p * dot (pt_v p) (pt_v p)) xs)
      by (induction xs as [|x xs IH]; intros a; simpl; [ring|]; rewrite IH; ring).
    rewrite G, F. ring. }
  assert (P : E_p_var p1 p2 ps = potential l) by (exact (E_p_spec (Many l))).
  assert (C : E_k_COM_var p1 p2 ps = E_k_COM (Many l)) by (unfold E_k_COM_var, E_k_COM; rewrite COM_v_var_eq, M_tot_var_eq; reflexivity).
  split; auto. split; auto. split; [unfold E_tot_var; rewrite K, P; auto|]. split; auto. split; [|reflexivity].
  unfold E_inner_var, E_tot_var, E_inner, E_tot. rewrite K, P, C, E_k_spec, E_p_spec. reflexivity.
Qed.
(** E_tid: with U(d) the point-mass potential of the two clusters at distance d, bringing them closer than r by the sum of their sizes
    changes U by E_tid r/(r - R1 - R2): E_tid is the change to first order in the sizes. *)
Theorem C44_E_tid c1 c2 R1 R2 : let r := norm (vsub (COM_p c1) (COM_p c2)) in let m1 := total_mass (members c1) in let m2 := total_mass (members c2) in
  let U := fun d => - (Gc * m1 * m2) / d in
  0 < r -> R1 + R2 < r -> U (r - (R1 + R2)) - U r = E_tid_sizes c1 c2 R1 R2 * (r / (r - (R1 + R2))).
Proof. intros r m1 m2 U Hr HR. unfold U, E_tid_sizes. fold r. rewrite !M_tot_spec. fold m1 m2. field. lra. Qed.
(** tidal_radius with a given size: the tide of the first cluster on a sphere of that size is f times its own gravity. *)
Theorem C44_tidal_radius_size f c1 c2 S : let m1 := total_mass (members c1) in let m2 := total_mass (members c2) in
  0 < f -> 0 < m1 -> 0 < m2 -> 0 < S ->
  let r := tidal_radius_size f c1 c2 S in 0 < r /\ m1 / m2 * ((S / r) * (S / r) * (S / r)) = f.
Proof.
  intros m1 m2 Hf H1 H2 HS. set (c := One (mkP m2 vzero vzero (Some S))).
  pose proof (C44_tidal_radius f c1 c) as X. cbv zeta in X.
  replace (tidal_radius_size f c1 c2 S) with (tidal_radius_clusters f c1 c).
  2:{ unfold tidal_radius_clusters, tidal_radius_size, c. cbn. rewrite !M_tot_spec. reflexivity. }
  replace (total_mass (members c)) with m2 in X by (unfold c, total_mass; cbn; ring). change (cluster_size c) with S in X. apply X; auto.
Qed.
(** critical_vel of two bound clusters: far apart (no mutual potential), their joint inner energy at relative velocity w is negative, zero, positive
    as |w| is below, at, above it. *)
Theorem C45_critical_vel_clusters c1 c2 w : let m1 := total_mass (members c1) in let m2 := total_mass (members c2) in
  0 < m1 -> 0 < m2 -> E_inner c1 + E_inner c2 <= 0 -> let vc := critical_vel_clusters c1 c2 in
  let E := E_inner c1 + E_inner c2 + / 2 * (m1 * m2 / (m1 + m2)) * norm2 w in
  (E < 0 <-> norm w < vc) /\ (E = 0 <-> norm w = vc) /\ (0 < E <-> vc < norm w).
Proof.
  intros m1 m2 H1 H2 HE vc E. pose proof (C45_critical_vel m1 m2 (E_inner c1) (E_inner c2) H1 H2 HE) as X. cbv zeta in X.
  assert (EQ : critical_vel m1 m2 (E_inner c1) (E_inner c2) = vc) by (unfold vc, critical_vel_clusters; rewrite !M_tot_spec; reflexivity).
  rewrite EQ in X. destruct X as (V0 & V2).
  assert (N : norm2 w = norm w * norm w) by (unfold norm; rewrite sqrt_sqrt; auto; destruct w; vunf; nra).
  assert (N0 : 0 <= norm w) by apply sqrt_pos. assert (MU : 0 < m1 * m2 / (m1 + m2)) by (apply Rdiv_lt_0_compat; nra).
  assert (EE : E = / 2 * (m1 * m2 / (m1 + m2)) * ((norm w - vc) * (norm w + vc))) by (unfold E; rewrite N; nra).
  set (k := m1 * m2 / (m1 + m2)) in *. clearbody k E vc. rewrite EE. clear - MU N0 V0.
  destruct (Rtotal_order (norm w) vc) as [L|[L|L]].
  - assert (P : 0 < (vc - norm w) * (norm w + vc)) by (apply Rmult_lt_0_compat; lra). assert (/ 2 * k * ((norm w - vc) * (norm w + vc)) < 0) by (pose proof (Rmult_lt_0_compat _ _ MU P); lra). repeat split; intros; lra.
  - rewrite L. replace (/ 2 * k * ((vc - vc) * (vc + vc))) with 0 by ring. repeat split; intros; lra.
  - assert (P : 0 < (norm w - vc) * (norm w + vc)) by (apply Rmult_lt_0_compat; lra). assert (0 < / 2 * k * ((norm w - vc) * (norm w + vc))) by (pose proof (Rmult_lt_0_compat _ _ MU P); lra). repeat split; intros; lra.
Qed.
(** b_max of two clusters: the periapsis is within the tidal radius for their masses and sizes exactly up to it. *)
Theorem C45_b_max_clusters c1 c2 v f b i Om om r inw o : let M1 := total_mass (members c1) in let M2 := total_mass (members c2) in
  let R1 := cluster_size c1 in let R2 := cluster_size c2 in
  0 < f -> 0 < M1 -> 0 < M2 -> 0 <= R1 -> 0 <= R2 -> 0 < R1 \/ 0 < R2 -> v <> 0 ->
  hyperbolic_new M1 M2 v b i Om om r inw = Ok o ->
  let q := o_p o / (1 + o_e o) in let tf := tidal_factor q M1 M2 R1 R2 in
  (Rabs b <= b_max_clusters c1 c2 v f <-> q <= tidal_radius f M1 M2 R1 R2) /\
  (Rabs b = b_max_clusters c1 c2 v f -> Rmax (fst tf) (snd tf) = f).
Proof.
  intros M1 M2 R1 R2 Hf H1 H2 HR1 HR2 HR Hv HO. unfold b_max_clusters. rewrite !M_tot_spec. exact (C45_b_max_tidal M1 M2 R1 R2 v f b i Om om r inw o Hf H1 H2 HR1 HR2 HR Hv HO).
Qed.
(** Two concrete clusters meeting the hypotheses, with a bound inner energy. *)
Example C45_case_clusters : let c1 := Many [mkP 1 (mkV 1 0 0) (mkV 0 1 0) None; mkP 1 (mkV 2 0 0) (mkV 0 1 0) None] in let c2 := One (mkP 1 (mkV 9 0 0) vzero None) in
  E_inner c1 + E_inner c2 = -1 /\ 0 < total_mass (members c1) /\ 0 < total_mass (members c2) /\ cluster_size c1 = 1.
Proof.
  cbv zeta. assert (N : norm (vsub (mkV 1 0 0) (mkV 2 0 0)) = 1) by (unfold norm; replace (norm2 (vsub (mkV 1 0 0) (mkV 2 0 0))) with 1 by (vunf; ring); apply sqrt_1).
  split; [|split; [|split]].
  - rewrite !E_inner_spec by (rewrite M_tot_spec; unfold total_mass; cbn; lra).
    assert (EV : COM_v (Many [mkP 1 (mkV 1 0 0) (mkV 0 1 0) None; mkP 1 (mkV 2 0 0) (mkV 0 1 0) None]) = mkV 0 1 0) by (unfold COM_v; cbn; vunf; f_equal; field).
    rewrite EV. unfold potential, kinetic. cbn [members pairs map app lsum pt_p pt_m pt_v COM_v]. rewrite N. unfold Gc. vunf. field.
  - unfold total_mass; cbn; lra.
  - unfold total_mass; cbn; lra.
  - unfold cluster_size. cbn [size_loop fold_left pt_p]. rewrite N. destruct (Rlt_dec 0 1); lra.
Qed.
Print Assumptions C44_two_clusters. Print Assumptions C41_angular_momentum. Print Assumptions C44_variadic. Print Assumptions C44_E_tid.
Print Assumptions C44_tidal_radius_size. Print Assumptions C45_critical_vel_clusters. Print Assumptions C45_b_max_clusters.
