(** Special values: arithmetic facts and the error checkers. *)
From Verif Require Import Nan_Spec Ctrl_Spec Ctrl_Proofs.
Open Scope R_scope.

Lemma eadd_nan_l a : eadd NaN a = NaN. Proof. destruct a; reflexivity. Qed.
Lemma eadd_nan_r a : eadd a NaN = NaN. Proof. destruct a; reflexivity. Qed.
Lemma emul_nan_l a : emul NaN a = NaN. Proof. destruct a; reflexivity. Qed.
Lemma emul_nan_r a : emul a NaN = NaN. Proof. destruct a; reflexivity. Qed.
Lemma ediv_nan_l a : ediv NaN a = NaN. Proof. destruct a; reflexivity. Qed.
Lemma ediv_nan_r a : ediv a NaN = NaN. Proof. destruct a; reflexivity. Qed.
Lemma esub_nan_l a : esub NaN a = NaN. Proof. apply eadd_nan_l. Qed.
Lemma esub_nan_r a : esub a NaN = NaN. Proof. apply eadd_nan_r. Qed.
Lemma esub_fin a b : esub (Fin a) (Fin b) = Fin (a - b). Proof. reflexivity. Qed.
Lemma emax_nan a : emax a NaN = a. Proof. unfold emax. destruct a; reflexivity. Qed.
Lemma emax_nan_l a : emax NaN a = NaN. Proof. unfold emax. destruct a; reflexivity. Qed.
Lemma emax_fin x y : emax (Fin x) (Fin y) = Fin (Rmax x y).
Proof. unfold emax, egt, rgtb. destruct (Rlt_dec x y); unfold Rmax; destruct (Rle_dec x y); try reflexivity; f_equal; lra. Qed.
Lemma ediv_fin x y : y <> 0 -> ediv (Fin x) (Fin y) = Fin (x / y).
Proof. intros H. cbn. destruct (Req_EM_T y 0); [contradiction|reflexivity]. Qed.
Lemma egt_fin x y : egt (Fin x) (Fin y) = if Rlt_dec y x then true else false. Proof. reflexivity. Qed.
Lemma ele_fin x y : ele (Fin x) (Fin y) = if Rle_dec x y then true else false.
Proof. unfold ele, egt, rgtb. destruct (Rlt_dec y x), (Rle_dec x y); try reflexivity; lra. Qed.

Definition fin3 (abc : R * R * R) : ext * ext * ext := let '(a, b, c) := abc in (Fin a, Fin b, Fin c).
Lemma zip3_fin : forall a b c, zip3 (fin a) (fin b) (fin c) = map fin3 (zip3 a b c).
Proof.
  unfold zip3, fin. induction a as [|x a IH]; intros [|y b] [|z c]; try reflexivity. cbn [map combine]. rewrite IH. reflexivity.
Qed.
Lemma fold_left_map_eq {X Y Z : Type} (f : Z -> Y -> Z) (g : X -> Y) l : forall z, fold_left f (map g l) z = fold_left (fun z x => f z (g x)) l z.
Proof. induction l as [|x l IH]; intros z; cbn; auto. Qed.
Lemma fold_left_ext_eq {X Z : Type} (f g : Z -> X -> Z) l : (forall z x, f z x = g z x) -> forall z, fold_left f l z = fold_left g l z.
Proof. intros H. induction l as [|x l IH]; intros z; cbn; auto. rewrite H. auto. Qed.

Lemma xwo_fin atol rtol a b c : xwo_error atol rtol (fin a) (fin b) (fin c) = wo_error Rabs Rminus atol rtol a b c.
Proof.
  unfold xwo_error, wo_error. rewrite zip3_fin, fold_left_map_eq. apply fold_left_ext_eq. intros z [[x y] w].
  cbn [fin3]. unfold wo_ratio. rewrite esub_fin. cbn [eabs]. rewrite emax_fin. reflexivity.
Qed.
Lemma xmr_fin atol rtol a b c : xmr_error atol rtol (fin a) (fin b) (fin c) = mr_error Rabs Rminus atol rtol a b c.
Proof.
  unfold xmr_error, mr_error. rewrite zip3_fin, fold_left_map_eq.
  match goal with |- context [fold_left ?f (zip3 a b c) (Fin 0, Fin 0)] => set (F := f) end.
  match goal with |- context [fold_left ?f (zip3 a b c) (0, 0)] => set (G := f) end.
  assert (E : forall l u v, fold_left F l (Fin u, Fin v) = (Fin (fst (fold_left G l (u, v))), Fin (snd (fold_left G l (u, v))))).
  { induction l as [|[[x y] w] l IH]; intros u v; [reflexivity|]. cbn [fold_left]. unfold F at 2. cbn [fin3]. rewrite esub_fin. cbn [eabs emul].
    rewrite emax_fin. cbn [eadd]. rewrite emax_fin. rewrite IH. reflexivity. }
  rewrite E. destruct (fold_left G (zip3 a b c) (0, 0)) as [md ms]. reflexivity.
Qed.
Lemma xrms_fin atol rtol a b c : xrms_error atol rtol (fin a) (fin b) (fin c) = rms_error atol rtol a b c.
Proof.
  unfold xrms_error, rms_error. rewrite zip3_fin, fold_left_map_eq.
  match goal with |- context [fold_left ?f (zip3 a b c) (Fin 0)] => set (F := f) end.
  match goal with |- context [fold_left ?f (zip3 a b c) 0] => set (G := f) end.
  assert (E : forall l u, 0 <= u -> fold_left F l (Fin u) = Fin (fold_left G l u) /\ 0 <= fold_left G l u).
  { induction l as [|[[x y] w] l IH]; intros u Hu; [auto|]. cbn [fold_left]. unfold F at 2, G at 2 4. cbn [fin3 eabs]. rewrite emax_fin, esub_fin. cbn [emul eadd eabs].
    unfold ezero, nonzero. destruct (Req_EM_T (Rmax (Rabs x) (Rabs y) * rtol + atol) 0) as [Z|Z]; cbn [negb]; [apply IH; auto|].
    rewrite ediv_fin by auto. cbn [emul eadd]. apply IH. nra. }
  destruct (E (zip3 a b c) 0 (Rle_refl 0)) as [E1 P]. rewrite E1. unfold fin. rewrite map_length.
  set (s := fold_left G (zip3 a b c) 0) in *. destruct (Nat.eq_dec (length a) 0) as [L|L].
  - rewrite L. cbn [INR]. cbn [ediv]. destruct (Req_EM_T 0 0); [|lra]. unfold esgn. destruct (Rlt_dec 0 s); [reflexivity|]. destruct (Rlt_dec s 0); [lra|reflexivity].
  - assert (0 < INR (length a)) by (apply lt_0_INR; lia). rewrite ediv_fin by lra. cbn [esqrt].
    destruct (Rlt_dec (s / INR (length a)) 0) as [Q|Q]; [|reflexivity]. exfalso. assert (0 <= s / INR (length a)) by (apply Rmult_le_pos; [lra|left; apply Rinv_0_lt_compat; lra]). lra.
Qed.

(** ** What each checker makes of a NaN *)
Lemma zip3_app {T} : forall (a b c a' b' c' : list T), length a = length b -> length a = length c ->
  zip3 (a ++ a') (b ++ b') (c ++ c') = zip3 a b c ++ zip3 a' b' c'.
Proof.
  unfold zip3. induction a as [|x a IH]; intros [|y b] [|z c] a' b' c' L1 L2; try discriminate; [reflexivity|]. cbn [app combine]. rewrite IH; auto.
Qed.
Lemma wo_ratio_nan atol rtol a b b' : b = NaN \/ b' = NaN -> wo_ratio atol rtol (a, b, b') = NaN.
Proof. intros [->| ->]; unfold wo_ratio; rewrite ?esub_nan_l, ?esub_nan_r; cbn [eabs]; apply ediv_nan_l. Qed.
Lemma xwo_skip atol rtol a b b' y0 y1 y1' z0 z1 z1' : length y0 = length y1 -> length y0 = length y1' -> b = NaN \/ b' = NaN ->
  xwo_error atol rtol (y0 ++ a :: z0) (y1 ++ b :: z1) (y1' ++ b' :: z1') = xwo_error atol rtol (y0 ++ z0) (y1 ++ z1) (y1' ++ z1').
Proof.
  intros L1 L2 H. unfold xwo_error. rewrite !zip3_app by auto. rewrite !fold_left_app.
  change (zip3 (a :: z0) (b :: z1) (b' :: z1')) with ((a, b, b') :: zip3 z0 z1 z1'). cbn [fold_left]. rewrite (wo_ratio_nan _ _ _ _ _ H), emax_nan. reflexivity.
Qed.
(** An infinite entry of the coarser estimate makes the scale infinite: the ratio is not a number, whatever the other estimate is. *)
Lemma wo_ratio_inf atol rtol r b b' : b = PInf \/ b = MInf -> 0 <= rtol -> wo_ratio atol rtol (Fin r, b, b') = NaN.
Proof.
  intros Hb Hr. unfold wo_ratio.
  assert (E : eadd (Fin atol) (emul (emax (eabs b) (eabs (Fin r))) (Fin rtol)) = PInf \/ eadd (Fin atol) (emul (emax (eabs b) (eabs (Fin r))) (Fin rtol)) = NaN).
  { destruct Hb as [->| ->]; cbn [eabs emax egt emul]; unfold emax; cbn [egt emul]; unfold esgn; destruct (Rlt_dec 0 rtol); auto; destruct (Rlt_dec rtol 0); auto; lra. }
  assert (N : forall x, x = PInf \/ x = NaN -> ediv x PInf = NaN /\ ediv x NaN = NaN) by (intros x [->| ->]; split; reflexivity).
  assert (X : eabs (esub b' b) = PInf \/ eabs (esub b' b) = NaN) by (destruct Hb as [->| ->], b'; cbn; auto).
  destruct (N _ X) as [N1 N2]. destruct E as [-> | ->]; auto.
Qed.
Lemma xwo_skip_inf atol rtol r b b' y0 y1 y1' z0 z1 z1' : length y0 = length y1 -> length y0 = length y1' -> b = PInf \/ b = MInf -> 0 <= rtol ->
  xwo_error atol rtol (y0 ++ Fin r :: z0) (y1 ++ b :: z1) (y1' ++ b' :: z1') = xwo_error atol rtol (y0 ++ z0) (y1 ++ z1) (y1' ++ z1').
Proof.
  intros L1 L2 H Hr. unfold xwo_error. rewrite !zip3_app by auto. rewrite !fold_left_app.
  change (zip3 (Fin r :: z0) (b :: z1) (b' :: z1')) with ((Fin r, b, b') :: zip3 z0 z1 z1'). cbn [fold_left]. rewrite (wo_ratio_inf _ _ _ _ _ H Hr), emax_nan. reflexivity.
Qed.
(** An infinite entry of the finer estimate alone is always seen. *)
Lemma wo_fold_pinf l rtol atol : fold_left (fun m abb => emax m (wo_ratio atol rtol abb)) l PInf = PInf.
Proof. induction l as [|x l IH]; cbn [fold_left]; auto. replace (emax PInf (wo_ratio atol rtol x)) with PInf; auto. unfold emax. destruct (wo_ratio atol rtol x); reflexivity. Qed.
Lemma wo_fold_num atol rtol l : forall m, m <> NaN -> m <> MInf -> fold_left (fun m abb => emax m (wo_ratio atol rtol abb)) l m <> NaN /\ fold_left (fun m abb => emax m (wo_ratio atol rtol abb)) l m <> MInf.
Proof.
  induction l as [|x l IH]; intros m N1 N2; cbn [fold_left]; auto. apply IH; unfold emax; destruct (wo_ratio atol rtol x), m; cbn [egt]; try destruct (rgtb _ _); congruence.
Qed.
Lemma xwo_sees_inf atol rtol r s b' y0 y1 y1' z0 z1 z1' : length y0 = length y1 -> length y0 = length y1' -> b' = PInf \/ b' = MInf -> 0 < atol -> 0 <= rtol ->
  xwo_error atol rtol (y0 ++ Fin r :: z0) (y1 ++ Fin s :: z1) (y1' ++ b' :: z1') = PInf.
Proof.
  intros L1 L2 H Ha Hr. unfold xwo_error. rewrite !zip3_app by auto. rewrite !fold_left_app.
  change (zip3 (Fin r :: z0) (Fin s :: z1) (b' :: z1')) with ((Fin r, Fin s, b') :: zip3 z0 z1 z1'). cbn [fold_left].
  assert (E : wo_ratio atol rtol (Fin r, Fin s, b') = PInf).
  { unfold wo_ratio. cbn [eabs]. assert (X : exists q, 0 <= q /\ emax (Fin (Rabs s)) (Fin (Rabs r)) = Fin q).
    { unfold emax. destruct (egt _ _); eexists; split; try reflexivity; apply Rabs_pos. }
    destruct X as (q & Q & ->). cbn [emul eadd]. replace (eabs (esub b' (Fin s))) with PInf by (destruct H as [->| ->]; reflexivity).
    cbn [ediv]. destruct (Rlt_dec _ 0); [nra|reflexivity]. }
  rewrite E. destruct (wo_fold_num atol rtol (zip3 y0 y1 y1') (Fin 0)) as [N1 N2]; try discriminate.
  set (m := fold_left _ _ (Fin 0)) in *. replace (emax m PInf) with PInf; [apply wo_fold_pinf|]. unfold emax. destruct m; cbn; congruence.
Qed.
Lemma xwo_all_nan atol rtol y0 y1 y1' : Forall (eq NaN) y1' -> xwo_error atol rtol y0 y1 y1' = Fin 0.
Proof.
  intros H. unfold xwo_error. revert y0 y1. induction H as [|x l <- H IH]; intros y0 y1.
  - unfold zip3. rewrite combine_nil. reflexivity.
  - destruct y0 as [|a y0], y1 as [|b y1]; try reflexivity. change (zip3 (a :: y0) (b :: y1) (NaN :: l)) with ((a, b, NaN) :: zip3 y0 y1 l).
    cbn [fold_left]. rewrite wo_ratio_nan, emax_nan by auto. apply IH.
Qed.
Lemma xmr_all_nan atol rtol y0 y1 y1' : Forall (eq NaN) y1' -> exists ms, xmr_error atol rtol y0 y1 y1' = ediv (Fin 0) ms.
Proof.
  intros H. unfold xmr_error.
  match goal with |- context [fold_left ?f (zip3 y0 y1 y1') (Fin 0, Fin 0)] => set (F := f) end.
  assert (E : forall y0 y1 ms, exists ms', fold_left F (zip3 y0 y1 y1') (Fin 0, ms) = (Fin 0, ms')).
  { clear y0 y1. induction H as [|x l <- H IH]; intros y0 y1 ms.
    - unfold zip3. rewrite combine_nil. exists ms. reflexivity.
    - destruct y0 as [|a y0], y1 as [|b y1]; try (exists ms; reflexivity). change (zip3 (a :: y0) (b :: y1) (NaN :: l)) with ((a, b, NaN) :: zip3 y0 y1 l).
      cbn [fold_left]. unfold F at 2. rewrite esub_nan_l. cbn [eabs]. rewrite emax_nan. apply IH. }
  destruct (E y0 y1 (Fin 0)) as [ms ->]. exists ms. reflexivity.
Qed.
Lemma xmr_all_nan_accepts atol rtol y0 y1 y1' : 0 < atol -> 0 <= rtol -> y0 <> [] -> Forall finite y0 -> length y1 = length y0 -> length y1' = length y0 ->
  Forall (eq NaN) y1' -> xmr_error atol rtol y0 y1 y1' = Fin 0.
Proof.
  intros Ha Hr Hne F L1 L2 H. unfold xmr_error.
  match goal with |- context [fold_left ?f (zip3 y0 y1 y1') (Fin 0, Fin 0)] => set (G := f) end.
  assert (E : forall y0 y1 y1' ms, Forall finite y0 -> length y1 = length y0 -> length y1' = length y0 -> Forall (eq NaN) y1' ->
    exists r, fold_left G (zip3 y0 y1 y1') (Fin 0, Fin ms) = (Fin 0, Fin r) /\ ms <= r /\ (y0 <> [] -> atol <= r)).
  { clear - Ha Hr. induction y0 as [|a y0 IH]; intros [|b y1] [|b' y1'] ms F L1 L2 H; try discriminate.
    - exists ms. split; [reflexivity|]. split; [lra|congruence].
    - inversion F as [|? ? [x ->] F2]; subst. inversion H as [|? ? <- H2]; subst. cbn [length] in L1, L2.
      change (zip3 (Fin x :: y0) (b :: y1) (NaN :: y1')) with ((Fin x, b, NaN) :: zip3 y0 y1 y1'). cbn [fold_left]. unfold G at 2. rewrite esub_nan_l. cbn [eabs]. rewrite emax_nan.
      cbn [emul eadd]. rewrite emax_fin. destruct (IH y1 y1' (Rmax ms (atol + Rabs x * rtol)) F2 ltac:(lia) ltac:(lia) H2) as (r & E & A & _). exists r. split; [exact E|].
      pose proof (Rmax_l ms (atol + Rabs x * rtol)). pose proof (Rmax_r ms (atol + Rabs x * rtol)). pose proof (Rabs_pos x). split; [lra|]. intros _. nra. }
  destruct (E y0 y1 y1' 0 F L1 L2 H) as (r & -> & _ & A). specialize (A Hne). rewrite ediv_fin by lra. unfold Rdiv. rewrite Rmult_0_l. reflexivity.
Qed.
(** The accumulated square error of RMS: a number, +inf or NaN; never a number again. *)
Definition ge0 (e : ext) : Prop := match e with Fin r => 0 <= r | PInf | NaN => True | MInf => False end.
Lemma eabs_ge0 a : ge0 (eabs a). Proof. destruct a; cbn; auto. apply Rabs_pos. Qed.
Lemma eadd_ge0 a b : ge0 a -> ge0 b -> ge0 (eadd a b) /\ (finite (eadd a b) -> finite a /\ finite b).
Proof.
  unfold finite. destruct a, b; cbn; intros; try contradiction; split; auto; try lra; intros [q E]; try discriminate; eauto.
Qed.
Lemma esq_ge0 a : ge0 (emul a a) /\ (finite (emul a a) -> finite a).
Proof. unfold finite. destruct a; cbn; split; auto; try nra; intros [q E]; try discriminate; eauto. Qed.

Lemma rms_step atol rtol a b b' acc : 0 < atol -> 0 <= rtol -> finite a -> ge0 acc ->
  let scale := eadd (emul (emax (eabs a) (eabs b)) (Fin rtol)) (Fin atol) in
  let r := ediv (eabs (esub b b')) scale in
  let z := if ezero scale then acc else eadd acc (emul r r) in
  ge0 z /\ (finite z -> finite acc /\ finite b /\ finite b').
Proof.
  intros Ha Hr [x ->] Hacc scale r z.
  assert (Sc : ezero scale = false).
  { unfold scale, ezero. cbn [eabs]. destruct b as [y| | |]; cbn [eabs].
    - rewrite emax_fin. cbn [emul eadd nonzero]. destruct (Req_EM_T _ 0) as [E|E]; [|reflexivity]. exfalso.
      assert (0 <= Rmax (Rabs x) (Rabs y)) by (eapply Rle_trans; [apply Rabs_pos|apply Rmax_l]). nra.
    - unfold emax. cbn [egt]. cbn [emul]. unfold esgn. destruct (Rlt_dec 0 rtol); [reflexivity|]. destruct (Rlt_dec rtol 0); [lra|reflexivity].
    - unfold emax. cbn [egt]. cbn [emul]. unfold esgn. destruct (Rlt_dec 0 rtol); [reflexivity|]. destruct (Rlt_dec rtol 0); [lra|reflexivity].
    - unfold emax. cbn [egt eadd emul nonzero]. destruct (Req_EM_T _ 0) as [E|E]; [|reflexivity]. exfalso. assert (0 <= Rabs x) by apply Rabs_pos. nra. }
  unfold z. rewrite Sc. destruct (eadd_ge0 acc (emul r r) Hacc (proj1 (esq_ge0 r))) as [G F]. split; [exact G|].
  intros Hf. destruct (F Hf) as [F1 F2]. apply (proj2 (esq_ge0 r)) in F2. split; [exact F1|].
  destruct F2 as [q Hq]. unfold r in Hq.
  destruct b as [y| | |].
  - destruct b' as [w| | |]; [split; eexists; reflexivity| | |]; exfalso; revert Hq; unfold scale; cbn [eabs]; rewrite emax_fin; cbn [esub eneg eadd eabs emul ediv].
    + destruct (Rlt_dec _ 0); discriminate.
    + destruct (Rlt_dec _ 0); discriminate.
    + discriminate.
  - exfalso. revert Hq. unfold scale, emax. cbn [eabs egt emul]. unfold esgn. destruct (Rlt_dec 0 rtol); [|destruct (Rlt_dec rtol 0); [lra|]];
      destruct b'; cbn; discriminate.
  - exfalso. revert Hq. unfold scale, emax. cbn [eabs egt emul]. unfold esgn. destruct (Rlt_dec 0 rtol); [|destruct (Rlt_dec rtol 0); [lra|]];
      destruct b'; cbn; discriminate.
  - exfalso. rewrite esub_nan_l in Hq. cbn [eabs] in Hq. rewrite ediv_nan_l in Hq. discriminate.
Qed.
Lemma xrms_accept atol rtol y0 y1 y1' : 0 < atol -> 0 <= rtol -> length y1 = length y0 -> length y1' = length y0 -> Forall finite y0 ->
  ele (xrms_error atol rtol y0 y1 y1') (Fin 1) = true -> Forall finite y1 /\ Forall finite y1'.
Proof.
  intros Ha Hr L1 L2 F0 E.
  set (F := fun acc (x : ext * ext * ext) => let '(a, b, b') := x in
       let scale := eadd (emul (emax (eabs a) (eabs b)) (Fin rtol)) (Fin atol) in
       if ezero scale then acc else let r := ediv (eabs (esub b b')) scale in eadd acc (emul r r)).
  assert (G : forall y0 y1 y1' acc, length y1 = length y0 -> length y1' = length y0 -> Forall finite y0 -> ge0 acc ->
     ge0 (fold_left F (zip3 y0 y1 y1') acc) /\ (finite (fold_left F (zip3 y0 y1 y1') acc) -> finite acc /\ Forall finite y1 /\ Forall finite y1')).
  { clear -Ha Hr F. intros y0. induction y0 as [|a y0 IH]; intros [|b y1] [|b' y1'] acc L1 L2 F0 Hg; try discriminate.
    - cbn. split; auto.
    - change (zip3 (a :: y0) (b :: y1) (b' :: y1')) with ((a, b, b') :: zip3 y0 y1 y1'). cbn [fold_left].
      inversion F0 as [|? ? Fa F0']; subst. destruct (rms_step atol rtol a b b' acc Ha Hr Fa Hg) as [S1 S2].
      destruct (IH y1 y1' (F acc (a, b, b')) ltac:(auto) ltac:(auto) F0' S1) as [I1 I2]. split; [exact I1|].
      intros Hf. destruct (I2 Hf) as (I3 & I4 & I5). destruct (S2 I3) as (S3 & S4 & S5). auto. }
  destruct (G y0 y1 y1' (Fin 0) L1 L2 F0 (Rle_refl 0)) as [G1 G2]. fold F in E. unfold xrms_error in E. fold F in E.
  set (s := fold_left F (zip3 y0 y1 y1') (Fin 0)) in *.
  assert (Fs : finite s).
  { destruct s as [q| | |]; [eexists; reflexivity|exfalso|destruct G1|exfalso].
    - cbn [ediv] in E. destruct (Rlt_dec (INR (length y0)) 0) as [Q|Q]; [pose proof (pos_INR (length y0)); lra|discriminate].
    - discriminate. }
  destruct (G2 Fs) as (_ & H). exact H.
Qed.
