(** Lemmas about Gauss-Radau, part 3: quadrature order. *)
From Verif Require Export Radau_Proofs2.
From Coq Require Import Psatz ZArith.
Open Scope R_scope.

(** * Moments of the node polynomial *)
Definition zlcm : Z := 720720.
Definition zmoment (m : nat) : Z :=
  fold_right (fun '(i, c) acc => (c * (zlcm / Z.of_nat (i + m + 1)) + acc)%Z) 0%Z (combine (seq 0 9) (zwp 7)).
Lemma zsmall_scaled a l : (Z.abs a * 10 ^ 28 <=? l * zD ^ Z.of_nat 7)%Z = true -> Rabs (IZR a / IZR zD ^ 7) <= e28 * IZR l.
Proof.
  intros H. apply Z.leb_le, IZR_le in H. rewrite !mult_IZR, <- Rabs_Zabs, <- (pow_IZR zD 7) in H. pose proof (zDn 7) as P.
  assert (T : IZR (10 ^ 28) = 10 ^ 28) by (rewrite (pow_IZR 10 28); reflexivity). rewrite T in H. clear T.
  assert (T : 0 < 10 ^ 28) by (apply pow_lt; lra). unfold e28.
  unfold Rdiv. rewrite Rabs_mult, Rabs_inv, (Rabs_right (IZR zD ^ 7)) by lra.
  generalize dependent (IZR zD ^ 7). generalize dependent (10 ^ 28). intros A HA B H HB.
  apply (Rmult_le_reg_r (A * B)); [apply Rmult_lt_0_compat; auto|].
  replace (Rabs (IZR a) * / B * (A * B)) with (Rabs (IZR a) * A) by (field; lra).
  replace (/ A * IZR l * (A * B)) with (IZR l * B) by (field; lra). exact H.
Qed.
Lemma check_moments : forallb (fun m => (Z.abs (zmoment m) * 10 ^ 28 <=? zlcm * zD ^ Z.of_nat 7)%Z) (seq 0 7) = true.
Proof. vm_compute. reflexivity. Qed.
Lemma zwp7_len : length (zwp 7) = 9%nat. Proof. vm_compute. reflexivity. Qed.
Definition om (i : nat) : R := IZR (nth i (zwp 7) 0%Z) / IZR zD ^ 7.
Lemma pvalue_nth p s : pvalue p s = rsum (fun i => nth i p 0 * s ^ i) (length p).
Proof.
  assert (X : forall p x, pvalue (p ++ [x]) s = pvalue p s + x * s ^ length p).
  { clear. intros p x. induction p as [|y p IH]; cbn; [ring|]. unfold pvalue in IH. rewrite IH. ring. }
  induction p as [|x p IH] using rev_ind; [reflexivity|]. rewrite X, IH, app_length, Nat.add_1_r. cbn [rsum]. f_equal.
  - apply rsum_ext. intros i Hi. rewrite app_nth1 by auto. auto.
  - rewrite app_nth2, Nat.sub_diag by lia. reflexivity.
Qed.
Lemma om_poly s : newton_basis 7 s = rsum (fun i => om i * s ^ i) 9.
Proof.
  rewrite basis_poly. unfold zv. rewrite pvalue_nth, map_length, zwp7_len. unfold Rdiv. rewrite Rmult_comm, <- rsum_scal.
  apply rsum_ext. intros i _. unfold om. rewrite (map_nth IZR _ 0%Z). unfold Rdiv. ring.
Qed.
Lemma fold_combine f : forall l a, fold_right (fun '(i, c) acc => (f i c + acc)%Z) 0%Z (combine (seq a (length l)) l) = zsum (fun i => f (a + i)%nat (nth i l 0%Z)) (length l).
Proof.
  induction l as [|x l IH]; intros a; [reflexivity|]. cbn [length seq combine fold_right]. rewrite IH.
  assert (Z : forall g n, zsum g (S n) = (g 0%nat + zsum (fun i => g (S i)) n)%Z).
  { clear. intros g n. induction n; [cbn; ring|]. change (zsum g (S (S n))) with (zsum g (S n) + g (S n))%Z. rewrite IHn. cbn [zsum]. ring. }
  rewrite Z. f_equal; [cbn [nth]; f_equal; lia|]. 
  clear. generalize (length l). intros n. induction n; cbn [zsum]; auto. rewrite IHn. cbn [nth]. f_equal. f_equal. lia.
Qed.
Lemma moment_val m : zmoment m = zsum (fun i => (nth i (zwp 7) 0 * (zlcm / Z.of_nat (i + m + 1)))%Z) 9.
Proof.
  unfold zmoment. rewrite <- zwp7_len. rewrite (fold_combine (fun i c => (c * (zlcm / Z.of_nat (i + m + 1)))%Z)). reflexivity.
Qed.
Lemma lcm_div k : (1 <= k <= 16)%nat -> IZR (zlcm / Z.of_nat k) * INR k = IZR zlcm.
Proof.
  intros H. rewrite INR_IZR_INZ, <- mult_IZR. f_equal. do 17 (destruct k as [|k]; [lia || reflexivity|]). lia.
Qed.
Lemma moment_small m : (m < 7)%nat -> Rabs (rsum (fun i => om i / INR (i + m + 1)) 9) <= e28.
Proof.
  intros H. pose proof check_moments as C. rewrite forallb_forall in C. specialize (C m ltac:(apply in_seq; lia)). apply zsmall_scaled in C.
  rewrite moment_val, zsum_ok in C. assert (L : 1 <= IZR zlcm) by (apply IZR_le; unfold zlcm; lia).
  assert (E : rsum (fun i => om i / INR (i + m + 1)) 9 = (rsum (fun i => IZR (nth i (zwp 7) 0%Z * (zlcm / Z.of_nat (i + m + 1)))) 9 / IZR zD ^ 7) * / IZR zlcm).
  { unfold Rdiv. rewrite Rmult_assoc, Rmult_comm, <- rsum_scal. apply rsum_ext. intros i Hi. unfold om. rewrite mult_IZR.
    rewrite <- (lcm_div (i + m + 1)) by lia. pose proof (zDn 7) as P. assert (0 < INR (i + m + 1)) by (apply lt_0_INR; lia).
    assert (N : IZR (zlcm / Z.of_nat (i + m + 1)) <> 0). { intros X. pose proof (lcm_div (i + m + 1) ltac:(lia)) as Y. rewrite X in Y. lra. }
    generalize dependent (IZR (zlcm / Z.of_nat (i + m + 1))). generalize dependent (IZR zD ^ 7). intros; field; repeat split; (assumption || lra). }
  rewrite E, Rabs_mult, Rabs_inv, (Rabs_right (IZR zlcm)) by lra.
  apply Rmult_le_reg_r with (IZR zlcm); [lra|]. rewrite Rmult_assoc, Rinv_l, Rmult_1_r by lra. exact C.
Qed.

(** * Integrals *)
Lemma integral_unique f u v : integral01 f u -> integral01 f v -> u = v.
Proof.
  intros (A & HA & ->) (B & HB & ->).
  assert (D : forall x, derivable_pt_lim (A - B)%F x 0). { intros x. replace 0 with (f x - f x) by ring. apply derivable_pt_lim_minus; auto. }
  assert (P : derivable (A - B)%F) by (intros x; exists 0; apply D).
  assert (C : constant (A - B)%F). { apply (null_derivative_1 _ P). intros x. apply derive_pt_eq_0. apply D. }
  specialize (C 0 1). unfold minus_fct in C. lra.
Qed.
Lemma derivable_ext f g x l : (forall y, f y = g y) -> derivable_pt_lim f x l -> derivable_pt_lim g x l.
Proof. intros E H eps He. destruct (H eps He) as [d Hd]. exists d. intros h Hh Hd'. rewrite <- !E. auto. Qed.
Lemma integral_minus f g u v : integral01 f u -> integral01 g v -> integral01 (fun x => f x - g x) (u - v).
Proof.
  intros (A & HA & ->) (B & HB & ->). exists (fun x => A x - B x). split; [|ring]. intros x. apply derivable_pt_lim_minus; auto.
Qed.
Lemma integral_ext f g u : (forall x, f x = g x) -> integral01 f u -> integral01 g u.
Proof. intros E (A & HA & ->). exists A. split; auto. intros x. rewrite <- E. auto. Qed.
Lemma integral_sum (f : nat -> R -> R) u n : (forall i, (i < n)%nat -> integral01 (f i) (u i)) -> integral01 (fun x => rsum (fun i => f i x) n) (rsum u n).
Proof.
  induction n as [|n IH]; intros H; cbn [rsum].
  - exists (fun _ => 0). split; [intros; apply derivable_pt_lim_const|ring].
  - destruct IH as (A & HA & ->); auto. destruct (H n ltac:(lia)) as (B & HB & ->). exists (fun x => A x + B x). split; [|ring].
    intros x. apply (derivable_pt_lim_plus A B); auto.
Qed.
Lemma integral_monom c i : integral01 (fun x => c * x ^ i) (c / INR (i + 1)).
Proof.
  assert (N : INR (i + 1) <> 0) by (apply not_0_INR; lia).
  exists (fun x => (c / INR (i + 1)) * x ^ (i + 1)). split.
  - intros x. replace (c * x ^ i) with (c / INR (i + 1) * (INR (i + 1) * x ^ pred (i + 1))).
    + apply (derivable_pt_lim_scal (fun x => x ^ (i + 1))). apply derivable_pt_lim_pow_pos. lia.
    + replace (pred (i + 1)) with i by lia. field. auto.
  - rewrite pow1, pow_i by lia. field. auto.
Qed.

(** * Synthetic division *)
Fixpoint sdiv (a : R) (p : list R) : list R :=
  match p with [] => [] | [_] => [] | _ :: t => pvalue t a :: sdiv a t end.
Lemma sdiv_val a x : forall p, pvalue p x = pvalue p a + (x - a) * pvalue (sdiv a p) x.
Proof.
  induction p as [|c p IH]; [cbn; ring|]. destruct p as [|d p]; [cbn; ring|].
  change (sdiv a (c :: d :: p)) with (pvalue (d :: p) a :: sdiv a (d :: p)).
  change (pvalue (c :: d :: p) x) with (c + x * pvalue (d :: p) x). change (pvalue (c :: d :: p) a) with (c + a * pvalue (d :: p) a).
  change (pvalue (pvalue (d :: p) a :: sdiv a (d :: p)) x) with (pvalue (d :: p) a + x * pvalue (sdiv a (d :: p)) x).
  rewrite IH. ring.
Qed.
Lemma sdiv_len a : forall p, length (sdiv a p) = (length p - 1)%nat.
Proof.
  induction p as [|c p IH]; [reflexivity|]. destruct p as [|d p]; [reflexivity|].
  change (sdiv a (c :: d :: p)) with (pvalue (d :: p) a :: sdiv a (d :: p)). cbn [length]. rewrite IH. cbn [length]. lia.
Qed.
Lemma psize_pos p : 0 <= psize p.
Proof. induction p; cbn; [lra|]. unfold psize in IHp. pose proof (Rabs_pos a). lra. Qed.
Lemma sdiv_size a : Rabs a <= 1 -> forall p, psize (sdiv a p) <= INR (length p - 1) * psize p.
Proof.
  intros Ha. induction p as [|c p IH]; [cbn; lra|]. destruct p as [|d p]; [cbn; lra|].
  change (sdiv a (c :: d :: p)) with (pvalue (d :: p) a :: sdiv a (d :: p)).
  change (psize (pvalue (d :: p) a :: sdiv a (d :: p))) with (Rabs (pvalue (d :: p) a) + psize (sdiv a (d :: p))).
  change (psize (c :: d :: p)) with (Rabs c + psize (d :: p)). pose proof (pvalue_le (d :: p) a Ha). pose proof (psize_pos (d :: p)). pose proof (Rabs_pos c).
  set (q := d :: p) in *. replace (length (c :: q) - 1)%nat with (S (length q - 1)) by (unfold q; cbn; lia). rewrite S_INR.
  pose proof (pos_INR (length q - 1)). nra.
Qed.
(** Polynomial differences. *)
Fixpoint psub (p q : list R) : list R :=
  match p, q with [], _ => map Ropp q | _, [] => p | x :: p', y :: q' => (x - y) :: psub p' q' end.
Lemma psub_val x : forall p q, pvalue (psub p q) x = pvalue p x - pvalue q x.
Proof.
  induction p as [|c p IH]; intros q; cbn [psub].
  - induction q as [|d q IHq]; cbn; [ring|]. unfold pvalue in IHq. rewrite IHq. cbn. ring.
  - destruct q as [|d q]; [cbn; ring|]. specialize (IH q). unfold pvalue in *. cbn [fold_right]. rewrite IH. ring.
Qed.
Lemma psub_size : forall p q, psize (psub p q) <= psize p + psize q.
Proof.
  induction p as [|c p IH]; intros q; cbn [psub].
  - induction q as [|d q IHq]; cbn; [lra|]. unfold psize in *. rewrite Rabs_Ropp. cbn in *. lra.
  - destruct q as [|d q]; [cbn; lra|]. specialize (IH q). unfold psize in *. cbn [fold_right].
    pose proof (Rabs_triang c (- d)). rewrite Rabs_Ropp in *. unfold Rminus. lra.
Qed.
Lemma psub_len : forall p q, length (psub p q) = Nat.max (length p) (length q).
Proof.
  induction p as [|c p IH]; intros q; cbn [psub]; [rewrite map_length; reflexivity|]. destruct q; cbn [length]; [lia|]. rewrite IH. lia.
Qed.
Lemma hs_range k : (k < 7)%nat -> 0 < hs k <= 1.
Proof.
  intros H. rewrite hs_z. unfold zr. pose proof zD_pos.
  assert (C : forallb (fun k => (0 <? zhs k) && (zhs k <=? zD))%Z (seq 0 7) = true) by (vm_compute; reflexivity).
  rewrite forallb_forall in C. specialize (C k ltac:(apply in_seq; lia)). apply andb_prop in C. destruct C as [C1 C2]. apply Z.ltb_lt, IZR_lt in C1. apply Z.leb_le, IZR_le in C2. split.
  - apply Rdiv_lt_0_compat; auto.
  - apply Rmult_le_reg_r with (IZR zD); auto. unfold Rdiv. rewrite Rmult_assoc, Rinv_l; lra.
Qed.
Lemma hs_incr i j : (i < j)%nat -> (j < 7)%nat -> hs i < hs j.
Proof.
  intros H Hj. rewrite !hs_z. unfold zr. pose proof zD_pos.
  assert (C : forallb (fun j => forallb (fun i => (zhs i <? zhs j)%Z) (seq 0 j)) (seq 0 7) = true) by (vm_compute; reflexivity).
  rewrite forallb_forall in C. specialize (C j ltac:(apply in_seq; lia)). rewrite forallb_forall in C. specialize (C i ltac:(apply in_seq; lia)).
  apply Z.ltb_lt, IZR_lt in C. apply Rmult_lt_compat_r; auto. apply Rinv_0_lt_compat; auto.
Qed.
(** A polynomial vanishing at 0 and the first k nodes is divisible by the Newton basis polynomial. *)
Fixpoint ndiv (k : nat) (p : list R) : list R := match k with O => sdiv 0 p | S j => sdiv (hs j) (ndiv j p) end.
Lemma ndiv_val p : pvalue p 0 = 0 -> forall k, (k <= 7)%nat -> (forall j, (j < k)%nat -> pvalue p (hs j) = 0) ->
  forall x, pvalue p x = newton_basis k x * pvalue (ndiv k p) x.
Proof.
  intros H0. induction k as [|k IH]; intros Hk H x; cbn [ndiv newton_basis].
  - rewrite (sdiv_val 0 x p), H0. ring.
  - rewrite IH by (try lia; intros; apply H; lia).
    assert (Z : pvalue (ndiv k p) (hs k) = 0).
    { specialize (IH ltac:(lia) ltac:(intros; apply H; lia) (hs k)). rewrite H in IH by lia. symmetry in IH. apply Rmult_integral in IH. destruct IH as [IH|]; auto. exfalso.
      assert (G : forall m, (m <= k)%nat -> newton_basis m (hs k) <> 0).
      { induction m; intros Hm; cbn [newton_basis]; [pose proof (hs_range k ltac:(lia)); lra|]. apply Rmult_integral_contrapositive. split; [apply IHm; lia|].
        pose proof (hs_incr m k ltac:(lia) ltac:(lia)). lra. }
      apply (G k); auto. }
    rewrite (sdiv_val (hs k) x (ndiv k p)), Z. ring.
Qed.
Lemma ndiv_len p : forall k, length (ndiv k p) = (length p - S k)%nat.
Proof. induction k; cbn [ndiv]; rewrite sdiv_len; [lia|]. rewrite IHk. lia. Qed.
Lemma ndiv_size p : (length p <= 15)%nat -> psize (ndiv 7 p) <= 121080960 * psize p.
Proof.
  intros L. assert (S0 : psize (ndiv 0 p) <= 14 * psize p).
  { cbn [ndiv]. eapply Rle_trans; [apply sdiv_size; rewrite Rabs_R0; lra|]. apply Rmult_le_compat_r; [apply psize_pos|].
    replace 14 with (INR 14) by (cbn; lra). apply le_INR. lia. }
  assert (St : forall k c, (k < 7)%nat -> psize (ndiv k p) <= c * psize p -> psize (ndiv (S k) p) <= INR (13 - k) * c * psize p).
  { intros k c Hk H. cbn [ndiv]. pose proof (hs_range k Hk). eapply Rle_trans; [apply sdiv_size; rewrite Rabs_right; lra|]. rewrite ndiv_len.
    rewrite Rmult_assoc. apply Rmult_le_compat; auto using pos_INR, psize_pos. apply le_INR. lia. }
  do 7 (apply St in S0; [|lia]). cbn [INR Nat.sub] in S0. eapply Rle_trans; [exact S0|]. apply Rmult_le_compat_r; [apply psize_pos|]. lra.
Qed.
Lemma psize_nth p : psize p = rsum (fun i => Rabs (nth i p 0)) (length p).
Proof.
  induction p as [|x p IH]; [reflexivity|]. assert (Z : forall g n, rsum g (S n) = g 0%nat + rsum (fun i => g (S i)) n).
  { clear. intros g n. induction n; [cbn; ring|]. change (rsum g (S (S n))) with (rsum g (S n) + g (S n)). rewrite IHn. cbn [rsum]. ring. }
  cbn [length]. rewrite Z. cbn [nth]. rewrite <- IH. reflexivity.
Qed.
(** The integral of the node polynomial times a polynomial of degree at most 6. *)
Lemma integral_om q v : (length q <= 7)%nat -> integral01 (fun x => newton_basis 7 x * pvalue q x) v -> Rabs v <= e28 * psize q.
Proof.
  intros L H.
  assert (I : integral01 (fun x => newton_basis 7 x * pvalue q x) (rsum (fun m => nth m q 0 * rsum (fun i => om i / INR (i + m + 1)) 9) (length q))).
  { apply (integral_ext (fun x => rsum (fun m => rsum (fun i => (nth m q 0 * om i) * x ^ (i + m)) 9) (length q))).
    - intros x. rewrite om_poly, pvalue_nth. rewrite <- rsum_scal. apply rsum_ext. intros m Hm.
      rewrite Rmult_comm, <- rsum_scal. apply rsum_ext. intros i Hi. rewrite pow_add. ring.
    - apply (integral_sum (fun m x => rsum (fun i => (nth m q 0 * om i) * x ^ (i + m)) 9)). intros m Hm. rewrite <- rsum_scal.
      apply (integral_sum (fun i x => (nth m q 0 * om i) * x ^ (i + m))). intros i Hi.
      replace (nth m q 0 * (om i / INR (i + m + 1))) with ((nth m q 0 * om i) / INR ((i + m) + 1)) by (unfold Rdiv; ring). apply integral_monom. }
  rewrite (integral_unique _ _ _ H I). eapply Rle_trans; [apply rsum_abs|]. rewrite psize_nth, <- rsum_scal. apply rsum_le. intros m Hm.
  rewrite Rabs_mult, Rmult_comm. apply Rmult_le_compat_r; [apply Rabs_pos|]. apply moment_small. lia.
Qed.
Lemma quadrature p r u v : (length p <= 15)%nat -> (length r <= 8)%nat -> (forall i, (i < 8)%nat -> pvalue p (radau_node i) = pvalue r (radau_node i)) ->
  integral01 (pvalue p) u -> integral01 (pvalue r) v -> Rabs (u - v) <= / 10 ^ 19 * (psize p + psize r).
Proof.
  intros Lp Lr H Hu Hv. set (d := psub p r). assert (Ld : (length d <= 15)%nat) by (unfold d; rewrite psub_len; lia).
  assert (D : forall x, pvalue d x = newton_basis 7 x * pvalue (ndiv 7 d) x).
  { apply ndiv_val; auto.
    - unfold d. rewrite psub_val. specialize (H 0%nat ltac:(lia)). cbn [radau_node] in H. lra.
    - intros j Hj. unfold d. rewrite psub_val. specialize (H (S j) ltac:(lia)). cbn [radau_node] in H. lra. }
  assert (I : integral01 (fun x => newton_basis 7 x * pvalue (ndiv 7 d) x) (u - v)).
  { eapply integral_ext; [|exact (integral_minus _ _ _ _ Hu Hv)]. intros x. rewrite <- D. unfold d. rewrite psub_val. auto. }
  apply integral_om in I; [|rewrite ndiv_len; lia]. eapply Rle_trans; [exact I|]. pose proof (ndiv_size d Ld) as Sz. pose proof (psub_size p r) as Ss. fold d in Ss.
  pose proof e28_pos as E. apply Rle_trans with (e28 * (121080960 * (psize p + psize r))); [apply Rmult_le_compat_l; lra|].
  rewrite <- Rmult_assoc. apply Rmult_le_compat_r; [pose proof (psize_pos p); pose proof (psize_pos r); lra|].
  unfold e28. assert (T : 10 ^ 28 = 10 ^ 19 * 1000000000) by (cbn [pow]; lra). rewrite T, Rinv_mult. assert (0 < / 10 ^ 19) by (apply Rinv_0_lt_compat, pow_lt; lra).
  generalize dependent (/ 10 ^ 19). intros; lra.
Qed.
