From Coq Require Import Permutation.
From Verif Require Import Chain_Proofs Force_Proofs Axes_Spec Inv_Proofs Meth_Proofs Meth_Proofs2 Meth_Proofs3 Meth_Proofs4 System_Proofs System_Proofs2 System_Proofs3 System_Proofs4 Build_Proofs Build_Props BS_Proofs3.
Import System_Spec.
Open Scope R_scope.

(** * Axis changes are isometries *)
Lemma axis_cases A : axis_change A -> exists (c : nat -> nat) (s : nat -> R), (forall i, s i = 1 \/ s i = -1) /\
  (forall v, A v = mkV (s 0%nat * coordinate (c 0%nat) v) (s 1%nat * coordinate (c 1%nat) v) (s 2%nat * coordinate (c 2%nat) v)) /\
  Permutation (map c [0; 1; 2]%nat) [0; 1; 2]%nat /\
  In (c 0%nat, c 1%nat, c 2%nat) [(0, 1, 2); (0, 2, 1); (1, 0, 2); (1, 2, 0); (2, 0, 1); (2, 1, 0)]%nat.
Proof.
  intros (c & s & P & Hs & E). exists c, s. split; auto. split; auto. split; auto. cbn [map] in P.
  assert (N : NoDup [c 0; c 1; c 2]%nat) by (eapply Permutation_NoDup; [apply Permutation_sym; exact P|]; repeat constructor; cbn; lia).
  assert (M : forall x, In x [c 0; c 1; c 2]%nat -> (x < 3)%nat) by (intros x Hx; apply (Permutation_in _ P) in Hx; cbn in Hx; lia).
  pose proof (M (c 0%nat)) as M0. pose proof (M (c 1%nat)) as M1. pose proof (M (c 2%nat)) as M2. cbn in M0, M1, M2.
  specialize (M0 ltac:(auto)). specialize (M1 ltac:(auto)). specialize (M2 ltac:(auto)).
  apply NoDup_cons_iff in N as (N1 & N2). apply NoDup_cons_iff in N2 as (N3 & _). cbn in N1, N3.
  assert (Z : forall x y z, (x < 3)%nat -> (y < 3)%nat -> (z < 3)%nat -> (x <> y /\ x <> z /\ y <> z)%nat ->
    In (x, y, z) [(0, 1, 2); (0, 2, 1); (1, 0, 2); (1, 2, 0); (2, 0, 1); (2, 1, 0)]%nat).
  { clear. intros x y z Hx Hy Hz H. cbn.
    destruct x as [|[|[|x]]]; [| | |lia]; (destruct y as [|[|[|y]]]; [| | |lia]); (destruct z as [|[|[|z]]]; [| | |lia]); try lia; auto 12. }
  apply Z; auto. split; [|split]; intros Q; [apply N1|apply N1|apply N3]; auto.
Qed.
Lemma axis_isometry A : axis_change A -> isometry A.
Proof.
  intros H. destruct (axis_cases A H) as (c & s & Hs & E & _ & Hin).
  assert (Sq : forall i, s i * s i = 1) by (intros i; destruct (Hs i) as [-> | ->]; lra).
  split; [|split].
  - intros [a1 a2 a3] [b1 b2 b3]. rewrite !E. cbn in Hin. repeat destruct Hin as [Hin|Hin]; try contradiction; injection Hin as <- <- <-; vunf; cbn; f_equal; ring.
  - intros k [a1 a2 a3]. rewrite !E. cbn in Hin. repeat destruct Hin as [Hin|Hin]; try contradiction; injection Hin as <- <- <-; vunf; cbn; f_equal; ring.
  - intros [a1 a2 a3] [b1 b2 b3]. rewrite !E. unfold dot. cbn [vx vy vz].
    assert (Q : forall i x y, s i * x * (s i * y) = x * y) by (intros; transitivity (s i * s i * (x * y)); [ring|rewrite Sq; ring]).
    rewrite !Q. cbn in Hin. repeat destruct Hin as [Hin|Hin]; try contradiction; injection Hin as <- <- <-; cbn; ring.
Qed.

(** * Frames of arrays *)
Lemma nth_seq_map (f : nat -> vec) n i : (i < n)%nat -> nth i (map f (seq 0 n)) vzero = f i.
Proof. intros H. rewrite (nth_indep _ vzero (f 0%nat)) by (rewrite map_length, seq_length; auto). rewrite map_nth, seq_nth; auto. Qed.
Section FRAME.
  Variables (n : nat) (pi : nat -> nat) (A : vec -> vec) (I : inter).
  Hypotheses (PI : renumbering n pi) (ISO : isometry A).
  Notation fr := (view n pi A vzero).
  Notation T := (frame_array I n pi A).
  Lemma frame_pack t a b c tl : length a = n -> length b = n -> (I_dep I = true -> length c = n) ->
    T (pack t a b (auxl I c) tl) = pack t (fr a) (fr b) (auxl I (fr c)) tl.
  Proof.
    intros La Lb Lc. destruct (pack_parts t a b (auxl I c) tl n La Lb) as (E1 & E2 & E3 & E4).
    unfold frame_array. rewrite E1, E2, E3, E4. unfold pack, auxl in *. f_equal. f_equal. f_equal.
    unfold omega_offset. destruct (I_dep I); cbn [Nat.b2n].
    - f_equal.
      + rewrite <- (Lc eq_refl) at 2. rewrite to_vecs_coords. reflexivity.
      + replace (n * 3 * (2 + 1) + 1)%nat with (3 * n + (6 * n + 1))%nat by lia. rewrite <- skipn_skip, E4.
        rewrite skipn_app, skipn_all2 by (rewrite coords_length, Lc; auto). rewrite coords_length, Lc by auto.
        rewrite Nat.sub_diag. reflexivity.
    - cbn [coords flat_map app] in *. replace (n * 3 * (2 + 0) + 1)%nat with (6 * n + 1)%nat by lia. rewrite E4. reflexivity.
  Qed.
  Lemma vzip_lin k l a b : length a = n -> length b = n ->
    vzip (fun x y => k * x + l * y) a b = map (fun i => vadd (vscal k (nth i a vzero)) (vscal l (nth i b vzero))) (seq 0 n).
  Proof.
    intros La Lb. apply (nth_ext_v _ _ n); [rewrite vzip_length; lia|rewrite map_length, seq_length; auto|]. intros i Hi.
    rewrite vzip_nth by lia.
    rewrite nth_seq_map by auto. generalize (nth i a vzero), (nth i b vzero). intros [] []; reflexivity.
  Qed.
  Lemma fr_vzip k l a b : length a = n -> length b = n -> fr (vzip (fun x y => k * x + l * y) a b) = vzip (fun x y => k * x + l * y) (fr a) (fr b).
  Proof.
    intros La Lb. rewrite !vzip_lin by (rewrite ?view_length; auto). unfold view at 1. apply map_ext_in. intros i Hi. apply in_seq in Hi.
    assert (Lt := pi_lt n pi PI i ltac:(lia)).
    rewrite nth_seq_map by auto. rewrite !(view_nth n pi A) by lia.
    rewrite (A_add A ISO), !(A_scal A ISO). rewrite !vadd_0_r. reflexivity.
  Qed.
  Lemma fr_vzip_gen f a b : (exists k l, forall x y, f x y = k * x + l * y) -> length a = n -> length b = n -> fr (vzip f a b) = vzip f (fr a) (fr b).
  Proof.
    intros (k & l & E) La Lb.
    assert (Q : forall a b, vzip f a b = vzip (fun x y => k * x + l * y) a b) by (intros; unfold vzip; apply map_ext; intros; rewrite !E; reflexivity).
    rewrite !Q. apply fr_vzip; auto.
  Qed.
  Lemma frame_zip e f x y : (e = 1 \/ e = 3)%nat -> (exists k l, forall x y, f x y = k * x + l * y) ->
    length x = variable_number I e n -> length y = variable_number I e n -> T (zipw f x y) = zipw f (T x) (T y).
  Proof.
    intros He Hf Lx Ly.
    destruct (unpack I e n x) as (t & a & b & c & tl & -> & La & Lb & Lc & Lt); [lia|auto|].
    destruct (unpack I e n y) as (t' & a' & b' & c' & tl' & -> & La' & Lb' & Lc' & Lt'); [lia|auto|].
    assert (HA : length (auxl I c) = length (auxl I c')) by (unfold auxl; destruct (I_dep I); auto; lia).
    rewrite zipw_pack by lia.
    assert (EA : vzip f (auxl I c) (auxl I c') = auxl I (vzip f c c')) by (unfold auxl; destruct (I_dep I); reflexivity).
    rewrite EA, !frame_pack by (rewrite ?vzip_length; intros; lia).
    rewrite !fr_vzip_gen by auto.
    rewrite zipw_pack; rewrite ?view_length; try lia.
    - f_equal. unfold auxl. destruct (I_dep I); reflexivity.
    - unfold auxl. destruct (I_dep I); [rewrite !view_length; lia|reflexivity].
  Qed.
  Lemma frame_length e y : (1 <= e)%nat -> length y = variable_number I e n -> length (T y) = variable_number I e n.
  Proof.
    intros He L. destruct (unpack I e n y) as (t & a & b & c & tl & -> & La & Lb & Lc & Lt); auto.
    rewrite frame_pack by auto. rewrite pack_varnum with (n := n); rewrite ?view_length; auto. f_equal; lia.
  Qed.

  (** * Framed states *)
  Hypotheses (SZ : sized I) (CO : covariant n pi A vzero I).
  Definition Fr (e : nat) (p q : st) : Prop :=
    well_sized I e q /\ well_sized I e p /\ G n pi A vzero I vzero q p /\ (e = 3%nat -> s_om p = s_om q /\ s_be p = s_be q /\ s_sc p = s_sc q).
  Definition FrS (e : nat) (p q : st) : Prop := Fr e p q /\ s_sync p = true /\ s_sync q = true.
  Lemma G_views s s' : G n pi A vzero I vzero s s' <->
    npart s = n /\ s_m s' = renum n pi (s_m s) /\ s_t s' = s_t s /\ s_p s' = fr (s_p s) /\ s_v s' = fr (s_v s) /\ (I_dep I = true -> s_w s' = fr (s_w s)).
  Proof.
    unfold G. assert (E : forall t, vadd vzero (vscal t vzero) = vzero) by (intros; vring). rewrite E. reflexivity.
  Qed.
  Lemma fr_write e p q : (e = 1 \/ e = 3)%nat -> Fr e p q -> gwrite I e p = T (gwrite I e q).
  Proof.
    intros He ((Lp & Lv & Lw & _) & _ & HG & E3). apply G_views in HG as (N & Em & Et & Ep & Ev & Ew). rewrite N in *.
    unfold gwrite. rewrite frame_pack by auto. rewrite Et, Ep, Ev. f_equal.
    - unfold auxl. destruct (I_dep I); auto.
    - destruct He; subst e; cbn [Nat.eqb]; auto. destruct (E3 eq_refl) as (-> & -> & _). reflexivity.
  Qed.
  Lemma fr_read e p q y : (e = 1 \/ e = 3)%nat -> Fr e p q -> length y = variable_number I e n ->
    exists p' q', grd I e p (T y) = Ok p' /\ grd I e q y = Ok q' /\ Fr e p' q' /\ s_sync p' = s_sync p /\ s_sync q' = s_sync q.
  Proof.
    intros He (Wq & Wp & HG & E3) L. apply G_views in HG as (N & Em & Et & Ep & Ev & Ew).
    destruct (unpack I e n y) as (t & a & b & w & tl & -> & La & Lb & Lc & Lt); [lia|auto|]. rewrite frame_pack by auto.
    assert (Np : npart p = n) by (unfold npart; rewrite Em; apply renum_length).
    assert (RD : forall s a b w, npart s = n -> well_sized I e s -> length a = n -> length b = n -> length w = n ->
      exists s', grd I e s (pack t a b (auxl I w) tl) = Ok s' /\ well_sized I e s' /\ s_m s' = s_m s /\ s_t s' = t /\ s_p s' = a /\ s_v s' = b /\ (I_dep I = true -> s_w s' = w) /\
        (e = 3%nat -> s_om s' = nth 0 tl 0 /\ s_be s' = nth 1 tl 0 /\ s_sc s' = s_sc s) /\ s_sync s' = s_sync s).
    { clear - He Lt. intros s a b w Ns W La Lb Lw.
      set (s1 := mkSt (s_m s) t a b w (nth 0 tl 0) (nth 1 tl 0) 0 (s_inc s) true).
      assert (W1 : well_sized I e s1) by (unfold well_sized; destruct W as (_ & _ & _ & Q); unfold npart in *; rewrite Ns in Q; cbn; rewrite La, Lb, Lw, Ns; repeat split; auto).
      assert (GW : gwrite I e s1 = pack t a b (auxl I w) tl).
      { unfold gwrite, s1. cbn [s_t s_p s_v s_w s_om s_be]. f_equal. destruct He; subst e; cbn [Nat.eqb]; [destruct tl; simpl in Lt; auto; lia|].
        destruct tl as [|x [|z [|]]]; simpl in Lt; try lia. reflexivity. }
      rewrite <- GW. destruct W1 as (X1 & X2 & X3 & X4). unfold npart in *. cbn in X1, X2, X3, X4.
      destruct He; subst e; unfold grd; cbn [Nat.eqb].
      - rewrite gwrite1, (read_write I s1 s); [|unfold well_sized, npart; cbn; auto|reflexivity]. eexists. split; [reflexivity|].
        unfold well_sized, npart. cbn. repeat split; auto; try discriminate; intros D; rewrite D; auto.
      - rewrite gwrite3, (rread_rwrite I s1 s); [|unfold well_sized, npart; cbn; auto|reflexivity]. eexists. split; [reflexivity|].
        unfold well_sized, npart. cbn. repeat split; auto; try discriminate; intros D; rewrite D; auto. }
    destruct (RD q a b w N Wq La Lb Lc) as (q' & Eq & Wq' & Mq & Tq & Pq & Vq & Uq & Oq & Sq).
    destruct (RD p (fr a) (fr b) (fr w) Np Wp) as (p' & Ep' & Wp' & Mp & Tp & Pp & Vp & Up & Op & Sp); try apply view_length.
    exists p', q'. split; auto. split; auto. split; [|split; auto]. split; auto. split; auto. split.
    - apply G_views. unfold npart in *. rewrite Mq, Mp, Pq, Pp, Vq, Vp, Tq, Tp. split; auto. split; auto. split; auto. split; auto. split; auto.
      intros D. rewrite (Uq D), (Up D). reflexivity.
    - intros H3. destruct (Op H3) as (-> & -> & ->), (Oq H3) as (-> & -> & ->), (E3 H3) as (_ & _ & ->). auto.
  Qed.
  Lemma fr_clear e p q : Fr e p q -> Fr e (clear_increment p) (clear_increment q).
  Proof.
    intros ((A1 & A2 & A3 & A4) & (B1 & B2 & B3 & B4) & HG & E3). split; [|split; [|split]].
    - unfold well_sized, npart in *. cbn. rewrite map_length. auto.
    - unfold well_sized, npart in *. cbn. rewrite map_length. auto.
    - exact HG.
    - exact E3.
  Qed.
  Section RUN.
    Variables (e : nat) (dr ki : st -> R -> st).
    Hypotheses (He : (e = 1 \/ e = 3)%nat) (Fdr : forall p q h, Fr e p q -> Fr e (dr p h) (dr q h)) (Fki : forall p q h, Fr e p q -> Fr e (ki p h) (ki q h))
      (Tdr : forall y s h, well_sized I e s -> tracks I e y s -> tracks I e y (dr s h)) (Tki : forall y s h, well_sized I e s -> tracks I e y s -> tracks I e y (ki s h)).
    Lemma fr_ops l p q h : Fr e p q -> Fr e (integrate dr ki l p h) (integrate dr ki l q h).
    Proof.
      unfold integrate. revert p q. induction l as [|[c|c] l IH]; intros p q H; cbn [fold_left run_op]; auto.
    Qed.
    Lemma tracks_ops y l : forall p q h, Fr e p q -> tracks I e y q -> tracks I e y (integrate dr ki l q h).
    Proof.
      unfold integrate. induction l as [|[c|c] l IH]; intros p q h H HT; cbn [fold_left run_op]; auto.
      - apply (IH (dr p (c * h))); auto. apply Tdr; auto. apply H.
      - apply (IH (ki p (c * h))); auto. apply Tki; auto. apply H.
    Qed.
    Lemma tracks_ops_p y l : forall p q h, Fr e p q -> tracks I e y p -> tracks I e y (integrate dr ki l p h).
    Proof.
      unfold integrate. induction l as [|[c|c] l IH]; intros p q h H HT; cbn [fold_left run_op]; auto.
      - apply (IH _ (dr q (c * h))); auto. apply Tdr; auto. apply H.
      - apply (IH _ (ki q (c * h))); auto. apply Tki; auto. apply H.
    Qed.
    Lemma fr_run kdk p q h k : FrS e p q -> let run := fun s => integrate dr ki (nsteps_ops kdk k) (clear_increment s) (h / INR k) in
      FrS e (run p) (run q) /\ length (s_inc (run q)) = variable_number I e n /\ s_inc (run p) = T (s_inc (run q)).
    Proof.
      intros (F & S1 & S2) run. pose proof F as (Wq & Wp & HG & _).
      destruct (clear_tracks I e q He Wq S2) as [Tq0 _]. destruct (clear_tracks I e p He Wp S1) as [Tp0 _].
      pose proof (fr_clear e p q F) as F0.
      assert (F1 : Fr e (run p) (run q)) by (apply fr_ops; auto).
      pose proof (tracks_ops _ (nsteps_ops kdk k) _ _ (h / INR k) F0 Tq0) as (Sq & Lq & Eq).
      pose proof (tracks_ops_p _ (nsteps_ops kdk k) _ _ (h / INR k) F0 Tp0) as (Sp & Lp & Ep).
      fold (run q) in Sq, Lq, Eq. fold (run p) in Sp, Lp, Ep.
      apply G_views in HG as (N & Em & _).
      assert (Np : npart p = n) by (unfold npart; rewrite Em; apply renum_length).
      assert (Gq : length (gwrite I e q) = variable_number I e n) by (rewrite (gw_length I e He q Wq), N; auto).
      assert (Gp : length (gwrite I e p) = variable_number I e n) by (rewrite (gw_length I e He p Wp), Np; auto).
      split; [split; auto|]. split; [congruence|].
      apply (zip_cancel (gwrite I e p)); [congruence|rewrite (frame_length e); [congruence|lia|congruence]|].
      rewrite <- Ep, (fr_write e _ _ He F1), Eq, (fr_write e _ _ He F), <- !zipw_plus. apply (frame_zip e); auto; [exists 1, 1; intros; ring|congruence].
    Qed.
  End RUN.
  Lemma Fr_drift p q h : Fr 1 p q -> Fr 1 (drift p h) (drift q h).
  Proof.
    intros (Wq & Wp & HG & E). split; [apply ws_drift; auto|]. split; [apply ws_drift; auto|]. split; [|discriminate].
    apply (G_drift n pi A ISO vzero I 1); auto.
  Qed.
  Lemma Fr_kick p q h : Fr 1 p q -> Fr 1 (kick I p h) (kick I q h).
  Proof.
    intros (Wq & Wp & HG & E). split; [apply ws_kick; auto|]. split; [apply ws_kick; auto|]. split; [|discriminate].
    apply (G_kick n pi A ISO vzero I SZ CO 1); auto.
  Qed.
  Lemma shift_0 s : shift n A vzero s = 0. Proof. unfold shift. rewrite !dot_zero_l. ring. Qed.
  Lemma Fr_G3 p q : Fr 3 p q -> G3 n pi A vzero I vzero 0 q p.
  Proof. intros (_ & _ & HG & E). destruct (E eq_refl) as (E1 & E2 & E3). split; auto. split; auto. split; auto. rewrite E2. ring. Qed.
  Lemma G3_Fr p q : well_sized I 3 q -> well_sized I 3 p -> G3 n pi A vzero I vzero 0 q p -> Fr 3 p q.
  Proof. intros Wq Wp (HG & E1 & E2 & E3). split; auto. split; auto. split; auto. intros _. split; auto. split; auto. rewrite E2. ring. Qed.
  Lemma Fr_rdrift r p q h : Fr 3 p q -> Fr 3 (rdrift r p h) (rdrift r q h).
  Proof.
    intros F. pose proof F as (Wq & Wp & _). apply Fr_G3 in F. apply G3_Fr; [apply ws_rdrift; auto|apply ws_rdrift; auto|].
    rewrite <- (shift_0 q) in *. apply (G3_rdrift n pi A PI ISO vzero I 3); auto.
  Qed.
  Lemma Fr_rkick r p q h : Fr 3 p q -> Fr 3 (rkick I r p h) (rkick I r q h).
  Proof.
    intros F. pose proof F as (Wq & Wp & _). apply Fr_G3 in F. apply G3_Fr; [apply ws_rkick; auto|apply ws_rkick; auto|].
    apply (G3_rkick n pi A PI ISO vzero I SZ CO (or_introl eq_refl) 3); auto.
  Qed.
  Lemma Fr_pre e p q : Fr e p q -> Fr e (pre_iter I p) (pre_iter I q).
  Proof.
    intros (Wq & Wp & HG & E). split; [apply ws_pre; auto|]. split; [apply ws_pre; auto|]. split; [apply G_pre; auto|].
    intros H. specialize (E H). unfold pre_iter. destruct (I_dep I); exact E.
  Qed.
  Lemma Fr_sync e p q f f' : Fr e p q -> Fr e (set_sync p f) (set_sync q f').
  Proof. intros F. exact F. Qed.

  Notation Rsys e := (Rit st st T (variable_number I e n) (Fr e)).
  (** * One call *)
  Lemma simple_call tn M kdk err next lim bP bQ p q h : blind I 1 n pi A err -> Brel T (variable_number I 1 n) 0 bP bQ -> Fr 1 p q ->
    orel (Rsys 1%nat) (bs_simple I tn M kdk err next lim bP p h) (bs_simple I tn M kdk err next lim bQ q h).
  Proof.
    intros HB HR F. unfold bs_simple. apply Fr_pre in F. revert F. generalize (pre_iter I p), (pre_iter I q). clear p q. intros p q F.
    apply (iterate_sim M kdk st st (write I) (write I) (read I) (read I) set_sync set_sync (simple_run I kdk) (simple_run I kdk) err err next lim T
             (variable_number I 1 n) (FrS 1) (Fr 1)); auto.
    - intros a b c La Lb. apply (frame_zip 1); auto. exists (1 + c), (- c). intros. unfold comb. ring.
    - intros a b La Lb. apply (frame_zip 1); auto. exists 1, 1. intros. ring.
    - intros p0 q0 y (F0 & S1 & S2) L. destruct (fr_read 1 p0 q0 y) as (p' & q' & E1 & E2 & F' & S1' & S2'); auto. exists p', q'. split; auto. split; auto. split; auto. split; congruence.
    - intros p0 q0 h0 k F0 Hk. destruct (fr_run 1 drift (kick I) (or_introl eq_refl) Fr_drift Fr_kick) with (kdk := kdk) (p := p0) (q := q0) (h := h0) (k := k) as (F1 & L1 & E1); auto.
      + intros; apply tracks_drift; auto.
      + intros; apply tracks_kick; auto.
      + eexists. eexists. eexists. unfold simple_run. split; [reflexivity|]. split; [exact L1|]. split; [rewrite E1; reflexivity|]. exact F1.
    - intros p0 q0 (F0 & _). exact F0.
    - rewrite <- !gwrite1. apply fr_write; auto.
    - rewrite <- gwrite1, (gw_length I 1 (or_introl eq_refl)) by apply F. destruct F as (_ & _ & (-> & _) & _). reflexivity.
    - split; [exact F|]. split; reflexivity.
  Qed.
  Lemma regu_call r tn M kdk err next lim bP bQ p q h : blind I 3 n pi A err -> Brel T (variable_number I 3 n) 0 bP bQ -> Fr 3 p q ->
    orel (Rsys 3%nat) (bs_regu I r tn M kdk err next lim bP p h) (bs_regu I r tn M kdk err next lim bQ q h).
  Proof.
    intros HB HR F. unfold bs_regu. apply Fr_pre in F. revert F. generalize (pre_iter I p), (pre_iter I q). clear p q. intros p q F.
    apply (iterate_sim M kdk st st (rwrite I) (rwrite I) (rread I) (rread I) set_sync set_sync (regu_run I r kdk) (regu_run I r kdk) err err next lim T
             (variable_number I 3 n) (FrS 3) (Fr 3)); auto.
    - intros a b c La Lb. apply (frame_zip 3); auto. exists (1 + c), (- c). intros. unfold comb. ring.
    - intros a b La Lb. apply (frame_zip 3); auto. exists 1, 1. intros. ring.
    - intros p0 q0 y (F0 & S1 & S2) L. destruct (fr_read 3 p0 q0 y) as (p' & q' & E1 & E2 & F' & S1' & S2'); auto. exists p', q'. split; auto. split; auto. split; auto. split; congruence.
    - intros p0 q0 h0 k F0 Hk. destruct (fr_run 3 (rdrift r) (rkick I r) (or_intror eq_refl) (Fr_rdrift r) (Fr_rkick r)) with (kdk := kdk) (p := p0) (q := q0) (h := h0) (k := k) as (F1 & L1 & E1); auto.
      + intros; apply tracks_rdrift; auto.
      + intros; apply tracks_rkick; auto.
      + eexists. eexists. eexists. unfold regu_run. split; [reflexivity|]. split; [exact L1|]. split; [rewrite E1; reflexivity|]. exact F1.
    - intros p0 q0 (F0 & _). exact F0.
    - rewrite <- !gwrite3. apply fr_write; auto.
    - rewrite <- gwrite3, (gw_length I 3 (or_intror eq_refl)) by apply F. destruct F as (_ & _ & (-> & _) & _). reflexivity.
    - split; [exact F|]. split; reflexivity.
  Qed.
  Lemma seq_simple_call l err nxt order mi d d' p q h : blind I 1 n pi A err -> (1 <= mi)%nat -> Fr 1 p q ->
    orel (fun x y => Fr 1 (fst x) (fst y) /\ snd x = snd y) (seq_simple I l err nxt order mi d p h) (seq_simple I l err nxt order mi d' q h).
  Proof.
    intros HB Hm F. unfold seq_simple. apply Fr_pre in F. revert F. generalize (pre_iter I p), (pre_iter I q). clear p q. intros p q F.
    apply (seq_sim st st (write I) (write I) (read I) (read I) _ _ err err nxt order T (variable_number I 1 n) (Fr 1)); auto.
    - intros p0 q0 F0. rewrite <- !gwrite1. split; [apply fr_write; auto|]. rewrite (gw_length I 1 (or_introl eq_refl)) by apply F0. destruct F0 as (_ & _ & (-> & _) & _). reflexivity.
    - intros p0 q0 y F0 L. destruct (fr_read 1 p0 q0 y) as (p' & q' & E1 & E2 & F' & _); auto. exists p', q'. auto.
    - intros p0 q0 h0 F0. eexists. eexists. split; [reflexivity|]. split; [reflexivity|]. apply fr_ops; auto using Fr_drift, Fr_kick.
  Qed.
  Lemma seq_regu_call r l err nxt order mi d d' p q h : blind I 3 n pi A err -> (1 <= mi)%nat -> Fr 3 p q ->
    orel (fun x y => Fr 3 (fst x) (fst y) /\ snd x = snd y) (seq_regu I r l err nxt order mi d p h) (seq_regu I r l err nxt order mi d' q h).
  Proof.
    intros HB Hm F. unfold seq_regu. apply Fr_pre in F. revert F. generalize (pre_iter I p), (pre_iter I q). clear p q. intros p q F.
    apply (seq_sim st st (rwrite I) (rwrite I) (rread I) (rread I) _ _ err err nxt order T (variable_number I 3 n) (Fr 3)); auto.
    - intros p0 q0 F0. rewrite <- !gwrite3. split; [apply fr_write; auto|]. rewrite (gw_length I 3 (or_intror eq_refl)) by apply F0. destruct F0 as (_ & _ & (-> & _) & _). reflexivity.
    - intros p0 q0 y F0 L. destruct (fr_read 3 p0 q0 y) as (p' & q' & E1 & E2 & F' & _); auto. exists p', q'. auto.
    - intros p0 q0 h0 F0. eexists. eexists. split; [reflexivity|]. split; [reflexivity|]. apply fr_ops; auto using Fr_rdrift, Fr_rkick.
  Qed.
End FRAME.
