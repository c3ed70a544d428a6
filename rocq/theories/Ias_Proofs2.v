(** The four particle systems under the Gauss-Radau corrector: reading, writing and derivatives always succeed. *)
From Verif Require Export Ias_Proofs.
From Verif Require Import Force_Proofs System_Spec Chain_Spec Chain_Proofs System_Proofs System_Proofs2 System_Proofs3 System_Proofs4 BS_Proofs3 Radau_Spec Radau_Proofs Radau_Proofs4 Radau_Proofs5 Meth_Proofs2.
From Coq Require Import Permutation.
Open Scope R_scope.

Lemma auxl_len I x n : length x = n -> length (auxl I x) = (if I_dep I then n else 0)%nat.
Proof. intros H. unfold auxl. destruct (I_dep I); auto. Qed.
(** Plain system. *)
Lemma simple_rt I s0 p y : good I 1 s0 p -> length y = variable_number I 1 (length (s_m s0)) -> exists q, read I p y = Ok q.
Proof.
  intros (Wp & Ep) Ly. rewrite <- Ep in Ly. fold (npart p) in Ly. unfold read. cbv zeta. rewrite Ly, Nat.eqb_refl.
  destruct y as [|t y]; [unfold variable_number in Ly; cbn [length] in Ly; destruct (I_dep I); lia|]. eexists. reflexivity.
Qed.
Lemma simple_dt I s0 p : sized I -> good I 1 s0 p -> length (derivative I p) = variable_number I 1 (length (s_m s0)) /\ nth 0 (derivative I p) 0 = 1.
Proof.
  intros HI (W & E). rewrite deriv_pack. destruct (acc_len I p 1 HI W) as (A & _). destruct W as (P & V & _). split; [|reflexivity].
  rewrite pack_varnum with (n := npart p); auto. unfold npart. rewrite E. reflexivity.
Qed.
(** Regularised system. *)
Lemma regu_rt I s0 p y : good I 3 s0 p -> length y = variable_number I 3 (length (s_m s0)) -> exists q, rread I p y = Ok q.
Proof.
  intros (Wp & Ep) Ly. rewrite <- Ep in Ly. fold (npart p) in Ly. destruct (unpack I 3 (npart p) y ltac:(lia) Ly) as (t & a & b & c & tl & E & La & Lb & Lc & Lt).
  destruct tl as [|om [|be [|]]]; try (simpl in Lt; lia). destruct (pack_tail t a b c om be I (npart p) La Lb (fun _ => Lc)) as [E1 E2].
  unfold rread. cbv zeta. rewrite Ly, Nat.eqb_refl, E, E1, E2. eexists. reflexivity.
Qed.
Lemma regu_dt I r s0 p : sized I -> good I 3 s0 p -> length (rderivative I r p) = variable_number I 3 (length (s_m s0)).
Proof.
  intros HI (W & E). destruct (rderiv_pack I r p) as (om & be & ->). destruct (acc_len I p 3 HI W) as (_ & A). destruct W as (P & V & _).
  rewrite pack_varnum with (n := npart p); rewrite ?map_length; auto. unfold npart. rewrite E. reflexivity.
Qed.
(** Chain systems. *)
Definition cgood (I : inter) (m : list R) (idx : list nat) (c : cst) : Prop := consistent I c /\ c_idx c = idx /\ s_m (c_st c) = m.
Lemma gc1 I c : gcwrite I 1 c = cwrite I c. Proof. rewrite cwrite_pack. reflexivity. Qed.
Lemma gc3 I c : gcwrite I 3 c = arwrite I c. Proof. rewrite arwrite_pack. reflexivity. Qed.
Lemma cgood_len I m idx e c : (e = 1 \/ e = 3)%nat -> cgood I m idx c -> length (gcwrite I e c) = variable_number I e (length m).
Proof. intros He (C & _ & E). rewrite gcwrite_length by auto. unfold npart. rewrite E. reflexivity. Qed.
Lemma chain_rt I m idx e c y : (e = 1 \/ e = 3)%nat -> cgood I m idx c -> length y = variable_number I e (length m) ->
  exists c', cread_gen I e c y = Ok c' /\ cgood I m idx c' /\ gcwrite I e c' = y /\ s_sc (c_st c') = s_sc (c_st c).
Proof.
  intros He (C & Ei & Em) L. pose proof C as (H1 & H2 & Hp & Hv & Ep & Ev & Hw). set (n := npart (c_st c)) in *. assert (En : n = length m) by (unfold n, npart; rewrite Em; auto). rewrite <- En in L.
  destruct (unpack I e n y) as (t & a & b & w & tl & -> & La & Lb & Lw & Lt); [destruct He; lia|auto|].
  assert (BK : forall x, length x = n -> exists z, length z = n /\ chain_of n (c_idx c) z = Ok x).
  { intros x Lx. destruct (round_trip_back n (c_idx c) x (blank n) (blank n) H1 H2 Lx) as (z & Z1 & Z2); [unfold blank; apply repeat_length|unfold blank; apply repeat_length|].
    exists z. split; [|exact Z2]. destruct (to_cartesian_ok n (c_idx c) x (blank n) H1 H2 Lx) as (z' & Z3 & Z4 & _); [unfold blank; apply repeat_length|]. congruence. }
  destruct (BK a La) as (p & Lp & Pp). destruct (BK b Lb) as (v & Lv & Pv). destruct (BK w Lw) as (u & Lu & Pu).
  assert (RD := cread_gen_pack I e c a b w p v u t tl He). cbv zeta in RD. fold n in RD. rewrite RD; auto; [|intros Hd; apply Hw; auto]. clear RD.
  eexists. split; [reflexivity|]. split; [split; [|split; [exact Ei|exact Em]]|split; [|reflexivity]].
  - unfold consistent. unfold npart. cbn [c_st c_cp c_cv c_cw c_idx s_m s_p s_v s_w]. fold (npart (c_st c)). fold n. do 6 (split; [auto|]). intros Hd. rewrite Hd. auto.
  - unfold gcwrite. cbn [c_st c_cp c_cv c_cw c_idx s_t s_om s_be]. unfold auxl. f_equal; [destruct (I_dep I); auto|].
    destruct He; subst e; cbn [Nat.eqb]; [destruct tl; simpl in Lt; auto; lia|]. destruct tl as [|x [|z [|]]]; simpl in Lt; try lia. reflexivity.
Qed.
Lemma chain_rd I m idx e c y c' : (e = 1 \/ e = 3)%nat -> cgood I m idx c -> length y = variable_number I e (length m) -> cread_gen I e c y = Ok c' ->
  cgood I m idx c' /\ gcwrite I e c' = y /\ s_sc (c_st c') = s_sc (c_st c).
Proof. intros He G L E. destruct (chain_rt I m idx e c y He G L) as (c2 & E2 & Q). assert (c2 = c') by congruence. subst. exact Q. Qed.
Lemma c_total_ok I m idx CI c : agree I CI (length m) -> cgood I m idx c -> c_total I CI c = Ok (eval_total I (s_m (c_st c)) (s_p (c_st c)) (s_v (c_st c))).
Proof.
  intros Ag ((H1 & H2 & Hp & Hv & Ep & Ev & Hw) & Ei & Em). unfold npart in *. rewrite Em in *.
  destruct (Ag m (s_p (c_st c)) (s_v (c_st c)) (c_idx c) (c_cp c) (c_cv c) eq_refl Hp Hv H2 Ep Ev) as (A & B & D).
  unfold c_total, c_tot_vi, c_newt, c_ext, c_dep_real, eval_total, tot_vi. rewrite Em, A. cbn [obind].
  destruct (I_ind I); [rewrite B by auto|]; cbn [obind]; (destruct (I_dep I); [rewrite D by auto|]; reflexivity).
Qed.
Lemma c_extra_ok I m idx CI c : agree I CI (length m) -> cgood I m idx c -> I_ind I = true \/ I_dep I = true ->
  c_extra I CI c = Ok (eval_extra I (s_m (c_st c)) (s_p (c_st c)) (s_v (c_st c))).
Proof.
  intros Ag ((H1 & H2 & Hp & Hv & Ep & Ev & Hw) & Ei & Em) Hx. unfold npart in *. rewrite Em in *.
  destruct (Ag m (s_p (c_st c)) (s_v (c_st c)) (c_idx c) (c_cp c) (c_cv c) eq_refl Hp Hv H2 Ep Ev) as (A & B & D).
  unfold c_extra, c_ext, c_dep_real, eval_extra. rewrite Em.
  destruct (I_ind I) eqn:E1, (I_dep I) eqn:E2; rewrite ?B, ?D by auto; cbn [obind]; try reflexivity. destruct Hx; discriminate.
Qed.
Lemma chain_dt I m idx CI c : sized I -> agree I CI (length m) -> cgood I m idx c -> exists a ca, length a = length m /\ chain_of (length m) idx a = Ok ca /\ length ca = length m /\
  a = eval_total I (s_m (c_st c)) (s_p (c_st c)) (s_v (c_st c)) /\
  chain_deriv I CI c = Ok (pack 1 (c_cv c) ca (auxl I ca) [], c).
Proof.
  intros HI Ag G. pose proof G as ((H1 & H2 & Hp & Hv & Ep & Ev & Hw) & Ei & Em). unfold chain_deriv. rewrite (c_total_ok I m idx) by auto. cbn [obind].
  unfold npart in *. rewrite Em in *. set (a := eval_total I m (s_p (c_st c)) (s_v (c_st c))).
  assert (La : length a = length m). { destruct (HI m (s_p (c_st c)) (s_v (c_st c)) Hp Hv) as (A & B & C). unfold a, eval_total, tot_vi. destruct (I_ind I), (I_dep I); rewrite ?vladd_length; rewrite ?vladd_length; congruence. }
  exists a, (chain_form (c_idx c) a). rewrite Ei in *. rewrite chain_of_form by auto. split; auto. split; auto. split; [rewrite chain_form_length; auto|]. split; auto.
  cbn [obind]. unfold pack, auxl. destruct (I_dep I); cbn [coords flat_map]; rewrite ?app_nil_r; reflexivity.
Qed.
Lemma archain_dt I m idx CI r c : sized I -> agree I CI (length m) -> (2 <= length m)%nat -> cgood I m idx c -> exists a ca x y, length a = length m /\ chain_of (length m) idx a = Ok ca /\ length ca = length m /\
  a = racc I (c_st c) /\ archain_deriv I CI r c = Ok (pack (fst (pos_phy r (c_st c) 1)) (map (vscal (fst (pos_phy r (c_st c) 1))) (c_cv c)) (map (vscal (fst (vel_phy r (c_st c) 1))) ca)
      (auxl I (map (vscal (fst (vel_phy r (c_st c) 1))) ca)) [x; y], cset_st c (set_sc (c_st c) (snd (vel_phy r (c_st c) 1)))).
Proof.
  intros HI Ag Hn G. pose proof G as (C & Ei & Em). pose proof C as (H1 & H2 & Hp & Hv & Ep & Ev & Hw). unfold archain_deriv. cbv zeta.
  assert (N : npart (c_st c) = length m) by (unfold npart; rewrite Em; auto). rewrite (cvel_phy_ok I) by (auto; lia). cbn [obind]. destruct (vel_phy r (c_st c) 1) as [vr sc]. cbn [fst snd].
  assert (EN : c_newt CI c = Ok (I_newt I (s_m (c_st c)) (s_p (c_st c)))).
  { unfold c_newt. rewrite N in *. rewrite Em. destruct (Ag m (s_p (c_st c)) (s_v (c_st c)) (c_idx c) (c_cp c) (c_cv c) eq_refl Hp Hv H2 Ep Ev) as (A & _). auto. }
  rewrite EN. cbn [obind]. unfold racc.
  assert (EA : (if I_ind I || I_dep I then obind (c_extra I CI c) (fun x => Ok (vladd x (I_newt I (s_m (c_st c)) (s_p (c_st c))))) else Ok (I_newt I (s_m (c_st c)) (s_p (c_st c)))) = Ok (racc I (c_st c))).
  { unfold racc. destruct (I_ind I || I_dep I) eqn:B; auto. apply orb_prop in B. rewrite (c_extra_ok I m idx) by auto. reflexivity. }
  rewrite EA. cbn [obind]. set (a := racc I (c_st c)).
  assert (La : length a = length m).
  { rewrite N in *. destruct (HI (s_m (c_st c)) (s_p (c_st c)) (s_v (c_st c))) as (A & B & D); [congruence|congruence|]. unfold a, racc, eval_extra.
    destruct (I_ind I), (I_dep I); cbn [orb]; rewrite ?vladd_length; rewrite ?vladd_length; congruence. }
  rewrite N in *. exists a, (chain_form idx a). rewrite Ei in *. rewrite chain_of_form by auto. eexists. eexists. split; auto. split; auto. split; [rewrite chain_form_length; auto|]. split; [reflexivity|].
  cbn [obind]. unfold pack, auxl, scaled. destruct (I_dep I); cbn [coords flat_map app]; reflexivity.
Qed.

(** * The chain coordinates as a plain system with other masses: total momentum and mass moment are linear in them *)
(** Mass beyond link [l] of the chain; the last entry is the total mass. *)
Definition chain_masses (idx : list nat) (m : list R) : list R :=
  let n := length m in let w := fun j => nth (nth j idx 0%nat) m 0 in
  map (fun l => rsum w n - (if (l =? n - 1)%nat then 0 else rsum w (l + 1))) (seq 0 n).
Lemma chain_masses_len idx m : length (chain_masses idx m) = length m.
Proof. unfold chain_masses. rewrite map_length, seq_length. reflexivity. Qed.
Lemma abel (w u : nat -> R) k : rsum (fun j => w j * u j) (S k) = rsum w (S k) * u 0%nat + rsum (fun l => (rsum w (S k) - rsum w (l + 1)) * (u (l + 1)%nat - u l)) k.
Proof.
  induction k as [|k IH]; [cbn; ring|].
  assert (T : forall j, rsum (fun l => u (l + 1)%nat - u l) j = u j - u 0%nat).
  { induction j as [|j IHj]; [cbn; ring|]. cbn [rsum]. rewrite IHj. replace (j + 1)%nat with (S j) by lia. ring. }
  change (rsum (fun j => w j * u j) (S (S k))) with (rsum (fun j => w j * u j) (S k) + w (S k) * u (S k)). rewrite IH.
  change (rsum w (S (S k))) with (rsum w (S k) + w (S k)). set (W := rsum w (S k)).
  rewrite (rsum_ext (fun l => (W + w (S k) - rsum w (l + 1)) * (u (l + 1)%nat - u l)) (fun l => (W - rsum w (l + 1)) * (u (l + 1)%nat - u l) + w (S k) * (u (l + 1)%nat - u l))) by (intros; ring).
  rewrite rsum_add, rsum_scal, T. cbn [rsum]. replace (k + 1)%nat with (S k) by lia. fold W. ring.
Qed.
Lemma ax_net a m v : (a < 3)%nat -> ax a (net_force m v) = rsum (fun i => nth i m 0 * ax a (nth i v vzero)) (length m).
Proof.
  intros Ha. unfold net_force. induction (length m) as [|k IH]; [destruct a as [|[|]]; reflexivity|]. cbn [vsum rsum]. rewrite <- IH. destruct a as [|[|]]; reflexivity.
Qed.
Lemma chain_net idx m a ca : (1 <= length m)%nat -> is_index (length m) idx -> length a = length m -> chain_of (length m) idx a = Ok ca ->
  net_force (chain_masses idx m) ca = net_force m a.
Proof.
  intros H1 Hi La E. destruct (chain_of_nth _ _ _ _ H1 Hi La E) as (Lc & V). apply ax_ext. intros x Hx. rewrite !ax_net by auto. rewrite chain_masses_len. set (n := length m) in *.
  set (w := fun j => nth (nth j idx 0%nat) m 0). set (u := fun j => ax x (nth (nth j idx 0%nat) a vzero)).
  assert (R : rsum (fun i => nth i m 0 * ax x (nth i a vzero)) n = rsum (fun j => w j * u j) n).
  { rewrite !rsum_lsumR. assert (Pm : Permutation (map (fun j => nth j idx 0%nat) (seq 0 n)) (seq 0 n)).
    { assert (X : map (fun j => nth j idx 0%nat) (seq 0 n) = idx); [|rewrite X; exact Hi]. pose proof (is_index_len n idx Hi) as L. rewrite <- L. clear. induction idx as [|b t IH]; cbn; auto. rewrite <- seq_shift, map_map. f_equal. exact IH. }
    rewrite <- (lsumR_perm _ _ _ Pm), lsumR_map. reflexivity. }
  rewrite R. destruct n as [|k] eqn:En; [lia|]. rewrite (abel w u). unfold chain_masses. fold n. rewrite En. fold w. set (W := rsum w (S k)). clearbody W. cbn [rsum].
  assert (M : forall l, (l < S k)%nat -> nth l (map (fun l => W - (if (l =? S k - 1)%nat then 0 else rsum w (l + 1))) (seq 0 (S k))) 0 = W - (if (l =? S k - 1)%nat then 0 else rsum w (l + 1))).
  { assert (Gm : forall (g : nat -> Rdefinitions.R) l, (l < S k)%nat -> nth l (map g (seq 0 (S k))) 0 = g l) by (intros g l Hl; rewrite (nth_indep _ 0 (g 0%nat)) by (rewrite map_length, seq_length; auto); rewrite map_nth, seq_nth by auto; reflexivity).
    intros l Hl. apply (Gm (fun l => W - (if (l =? S k - 1)%nat then 0 else rsum w (l + 1)))). auto. }
  rewrite M by lia. replace (k =? S k - 1)%nat with true by (symmetry; apply Nat.eqb_eq; lia). rewrite V by lia. unfold chain_at at 1. replace (k =? S k - 1)%nat with true by (symmetry; apply Nat.eqb_eq; lia).
  rewrite Rplus_comm. match goal with |- ?a + ?b = ?c + ?d => assert (X1 : a = c); [idtac|assert (X2 : b = d); [|rewrite X1, X2; reflexivity]] end; [unfold u; ring|]. apply rsum_ext. intros l Hl. rewrite M by lia. rewrite V by lia. unfold chain_at. destruct (Nat.eqb_spec l (S k - 1)); [lia|]. f_equal.
  unfold u. destruct x as [|[|]]; reflexivity.
Qed.
(** The chain coordinates seen as a plain system. *)
Definition vst (c : cst) : st := let s := c_st c in mkSt (chain_masses (c_idx c) (s_m s)) (s_t s) (c_cp c) (c_cv c) (c_cw c) (s_om s) (s_be s) (s_sc s) (s_inc s) (s_sync s).
Lemma vst_write I e c : gwrite I e (vst c) = gcwrite I e c. Proof. reflexivity. Qed.
Lemma vst_view I m idx c : cgood I m idx c -> momentum (vst c) = momentum (c_st c) /\ moment (vst c) = moment (c_st c) /\ s_t (vst c) = s_t (c_st c) /\ s_m (vst c) = chain_masses idx m /\
  length (s_p (vst c)) = length m /\ length (s_v (vst c)) = length m /\ (I_dep I = true -> length (s_w (vst c)) = length m).
Proof.
  intros (C & Ei & Em). pose proof C as (H1 & H2 & Hp & Hv & Ep & Ev & Hw). unfold npart in *. rewrite Em, Ei in *. destruct (consistent_chain_len I c C) as (A & B & D). unfold npart in *. rewrite Em in *.
  split; [|split; [|split; [reflexivity|split; [cbn; congruence|cbn; auto]]]].
  - change (momentum (vst c)) with (net_force (chain_masses (c_idx c) (s_m (c_st c))) (c_cv c)). rewrite Ei, Em, (chain_net idx m (s_v (c_st c))) by auto. unfold net_force, momentum, npart. rewrite Em. reflexivity.
  - change (moment (vst c)) with (net_force (chain_masses (c_idx c) (s_m (c_st c))) (c_cp c)). rewrite Ei, Em, (chain_net idx m (s_p (c_st c))) by auto. unfold net_force, moment, npart. rewrite Em. reflexivity.
Qed.
