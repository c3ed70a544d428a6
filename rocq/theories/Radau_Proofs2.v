(** Lemmas about Gauss-Radau, part 2: the coefficient tables, by integer arithmetic. *)
From Verif Require Export Radau_Proofs.
From Coq Require Import Psatz ZArith.
Open Scope R_scope.

(** The tables in units of 1e-40; only used to let the kernel check bounds by integer arithmetic. *)
Definition zD : Z := 10000000000000000000000000000000000000000.
Definition z_h : list Z :=
  [
   562625605369221464656521910318000000000; 1802406917368923649875799427800000000000;
   3526247171131696373739077696480000000000; 5471536263305553830014485547660000000000;
   7342101772154105315232106055580000000000; 8853209468390957680903597710300000000000;
   9775206135612875018911744886260000000000; 10000000000000000000000000000000000000000]%Z.
Definition z_est_b : list Z :=
  [
   10000000000000000000000000000000000000000; 20000000000000000000000000000000000000000;
   10000000000000000000000000000000000000000; 30000000000000000000000000000000000000000;
   30000000000000000000000000000000000000000; 10000000000000000000000000000000000000000;
   40000000000000000000000000000000000000000; 60000000000000000000000000000000000000000;
   40000000000000000000000000000000000000000; 10000000000000000000000000000000000000000;
   50000000000000000000000000000000000000000; 100000000000000000000000000000000000000000;
   100000000000000000000000000000000000000000; 50000000000000000000000000000000000000000;
   10000000000000000000000000000000000000000; 60000000000000000000000000000000000000000;
   150000000000000000000000000000000000000000; 200000000000000000000000000000000000000000;
   150000000000000000000000000000000000000000; 60000000000000000000000000000000000000000;
   10000000000000000000000000000000000000000; 70000000000000000000000000000000000000000;
   210000000000000000000000000000000000000000; 350000000000000000000000000000000000000000;
   350000000000000000000000000000000000000000; 210000000000000000000000000000000000000000;
   70000000000000000000000000000000000000000; 10000000000000000000000000000000000000000]%Z.
Definition z_g2b : list Z :=
  [
   10000000000000000000000000000000000000000; (-562625605369221464656521910318000000000);
   10000000000000000000000000000000000000000; 101408028300636299864818047860000000000;
   (-2365032522738145114532321338120000000000); 10000000000000000000000000000000000000000;
   (-35758977292516175949344588994100000000); 935376952594620658957484611455000000000;
   (-5891279693869841488271399034600000000000); 10000000000000000000000000000000000000000;
   19565654099472210769005670603200000000; (-547553868890686864408084294395000000000);
   4158812000823068616886219111920000000000; (-11362815957175395318285884582300000000000);
   10000000000000000000000000000000000000000; (-14365302363708915424459552998600000000);
   421585277212687077072973470356000000000; (-3600995965020568122897664610580000000000);
   12501507118406910258505440751100000000000; (-18704917729329500633517990637900000000000);
   10000000000000000000000000000000000000000; 12717903090268677492943116148400000000;
   (-387603579159067703699046248206000000000); 3609622434528459832253398080350000000000;
   (-14668842084004269643701552583100000000000); 29061362593084293014237913073000000000000;
   (-27558127197720458314421588348200000000000); 10000000000000000000000000000000000000000]%Z.
Definition z_b2g : list Z :=
  [
   10000000000000000000000000000000000000000; 562625605369221464656521910318000000000;
   10000000000000000000000000000000000000000; 31654757181708292499904800394000000000;
   2365032522738145114532321338120000000000; 10000000000000000000000000000000000000000;
   1780977692217433881125279219740000000; 457929855060279188954538730112000000000;
   5891279693869841488271399034600000000000; 10000000000000000000000000000000000000000;
   100202365223291272095672152244000000; 84318571535257015444999741627700000000;
   2535340690545692665214615971060000000000; 11362815957175395318285884582300000000000;
   10000000000000000000000000000000000000000; 5637641639318207610383850115430000;
   15297840025004658189490079588900000000; 978342365324440053653648396422000000000;
   8752546646840910912297245883710000000000; 18704917729329500633517990637900000000000;
   10000000000000000000000000000000000000000; 317188154017613664758548178792000;
   2762930909826476593130226393690000000; 360285539837364596003870741266000000000;
   5767330002770787313544596061350000000000; 22485887607691597933926895260100000000000;
   27558127197720458314421588348200000000000; 10000000000000000000000000000000000000000]%Z.
Definition z_rs : list Z :=
  [
   177738089140780008407526623988000000000000; 447509303845559921986046250353000000000000;
   80659386483818866885371223022800000000000; 555095216749226862607771099218000000000000;
   195740293777069706783363904372000000000000; 58010015592640614823286803504000000000000;
   521625022561530373477792209295000000000000; 285409022679299111073474153873000000000000;
   140104739330160380493901680907000000000000; 51406241058109342286363203024200000000000;
   508080910907447463230817180713000000000000; 373038175637124211672269545084000000000000;
   252900342103279709751944749769000000000000; 140099072392295085641729477931000000000000;
   53459768998711075141214895116200000000000; 709853803416487645973553313623000000000000;
   628448441358018197140240262907000000000000; 521020450666394756209272428984000000000000;
   367361232269326597782946191852000000000000; 195691943377340508924875261834000000000000;
   66176620137024244874471300012200000000000; 2308581652314266533383947452990000000000000;
   2256686153226572718898135881200000000000000; 2078990291808557011082233083860000000000000;
   1657537217326802767156398249260000000000000; 1035788205317551178183856340060000000000000;
   445769049331641486107191459286000000000000; 108460261902368446847064289379000000000000]%Z.
Definition zr (z : Z) : R := IZR z / IZR zD.
Ltac ztable := unfold zr, zD; cbn [map]; repeat (apply f_equal2; [lra|]); reflexivity.
Lemma tab_h : radau_h = map zr z_h. Proof. unfold radau_h, z_h. ztable. Qed.
Lemma tab_g2b : radau_g2b = map zr z_g2b. Proof. unfold radau_g2b, z_g2b. ztable. Qed.
Lemma tab_b2g : radau_b2g = map zr z_b2g. Proof. unfold radau_b2g, z_b2g. ztable. Qed.
Lemma tab_rs : radau_rs = map zr z_rs. Proof. unfold radau_rs, z_rs. ztable. Qed.
Lemma zD_pos : 0 < IZR zD. Proof. apply IZR_lt. reflexivity. Qed.
Lemma zDn n : 0 < IZR zD ^ n. Proof. apply pow_lt, zD_pos. Qed.
Lemma zr0 : zr 0 = 0. Proof. unfold zr, Rdiv. ring. Qed.
Definition ztri (t : list Z) (n j : nat) : Z := nth (n * (n + 1) / 2 + j) t 0%Z.
Lemma ztri_ok t n j : tri (map zr t) n j = zr (ztri t n j).
Proof. unfold tri, ztri. rewrite <- zr0. apply map_nth. Qed.
Definition zhs (i : nat) : Z := nth i z_h 0%Z.
Lemma hs_z i : hs i = zr (zhs i).
Proof. unfold hs, zhs. rewrite tab_h, <- zr0. apply map_nth. Qed.
Lemma g2b_z n j : g2b n j = zr (ztri z_g2b n j). Proof. unfold g2b. rewrite tab_g2b. apply ztri_ok. Qed.
Lemma b2g_z n j : b2g n j = zr (ztri z_b2g n j). Proof. unfold b2g. rewrite tab_b2g. apply ztri_ok. Qed.
Lemma rs_z n j : rs n j = zr (ztri z_rs n j). Proof. unfold rs. rewrite tab_rs. apply ztri_ok. Qed.
(** Never let a tactic unfold the tables. *)
Global Opaque radau_h radau_g2b radau_b2g radau_rs.

Definition e28 : R := / 10 ^ 28.
Definition zsmall (a : Z) (n : nat) : bool := (Z.abs a * 10 ^ 28 <=? zD ^ Z.of_nat n)%Z.
Lemma zsmall_ok a n : zsmall a n = true -> Rabs (IZR a / IZR zD ^ n) <= e28.
Proof.
  intros H. unfold zsmall in H. apply Z.leb_le, IZR_le in H. rewrite mult_IZR, <- Rabs_Zabs, <- pow_IZR in H. pose proof (zDn n) as P.
  assert (T : IZR (10 ^ 28) = 10 ^ 28) by (rewrite (pow_IZR 10 28); reflexivity). rewrite T in H. clear T.
  assert (T : 0 < 10 ^ 28) by (apply pow_lt; lra). unfold e28.
  unfold Rdiv. rewrite Rabs_mult, Rabs_inv, (Rabs_right (IZR zD ^ n)) by lra.
  apply (Rmult_le_reg_r (10 ^ 28 * IZR zD ^ n)); [apply Rmult_lt_0_compat; auto|].
  replace (Rabs (IZR a) * / IZR zD ^ n * (10 ^ 28 * IZR zD ^ n)) with (Rabs (IZR a) * 10 ^ 28) by (field; lra).
  replace (/ 10 ^ 28 * (10 ^ 28 * IZR zD ^ n)) with (IZR zD ^ n) by (field; lra). exact H.
Qed.
Lemma e28_pos : 0 < e28. Proof. apply Rinv_0_lt_compat, pow_lt. lra. Qed.

(** * Newton basis at the nodes *)
Fixpoint zw (j : nat) (a : Z) : Z := match j with O => a | S k => (zw k a * (a - zhs k))%Z end.
Lemma basis_z j a : newton_basis j (zr a) = IZR (zw j a) / IZR zD ^ (j + 1).
Proof.
  pose proof zD_pos. induction j as [|j IH]; cbn [newton_basis zw].
  - unfold zr. cbn. field. lra.
  - rewrite IH, hs_z. unfold zr. rewrite mult_IZR, minus_IZR. cbn [Nat.add pow]. pose proof (zDn (j + 1)). field. lra.
Qed.
Lemma basis_zero k : forall j, (k < j)%nat -> newton_basis j (hs k) = 0.
Proof.
  induction j as [|j IH]; intros H; [lia|]. cbn [newton_basis]. destruct (Nat.eq_dec k j) as [->|]; [ring|]. rewrite IH by lia. ring.
Qed.
Lemma basis_0 j : newton_basis j 0 = 0.
Proof. induction j; cbn [newton_basis]; [auto|]. rewrite IHj. ring. Qed.
Lemma check_rs_ok :
  forallb (fun k => zsmall (zw k (zhs k) * ztri z_rs k 0 - zD ^ Z.of_nat (k + 2)) (k + 2) &&
    forallb (fun j => zsmall (zw j (zhs k) * zD ^ Z.of_nat (k + 1 - j) - zw k (zhs k) * ztri z_rs k (j + 1)) (k + 2)) (seq 0 k)) (seq 0 7) = true. Proof. vm_compute. reflexivity. Qed.
Lemma rs_alg0 d A x y : d <> 0 -> A <> 0 -> (x * y - d * A) / (d * A) = x / A * (y / d) - 1.
Proof. intros. field. auto. Qed.
Lemma rs_0 k : (k < 7)%nat -> Rabs (newton_basis k (hs k) * rs k 0 - 1) <= e28.
Proof.
  intros H. pose proof check_rs_ok as C. rewrite forallb_forall in C. specialize (C k ltac:(apply in_seq; lia)).
  apply andb_prop in C. destruct C as [C _]. apply zsmall_ok in C.
  rewrite hs_z, basis_z, rs_z. unfold zr. rewrite minus_IZR, mult_IZR, <- pow_IZR in C. pose proof (zDn (k + 1)). pose proof zD_pos.
  replace (k + 2)%nat with (S (k + 1)) in C by lia. rewrite <- (tech_pow_Rmult (IZR zD)) in C.
  rewrite rs_alg0 in C by lra. exact C.
Qed.
Lemma rs_alg d A B x y z : d <> 0 -> A <> 0 -> B <> 0 -> (x * (d * B) - y * z) / (d * (A * B)) = x / A - y / (A * B) * (z / d).
Proof. intros. field. auto. Qed.
Lemma rs_j k j : (k < 7)%nat -> (j < k)%nat -> Rabs (newton_basis j (hs k) - newton_basis k (hs k) * rs k (j + 1)) <= e28.
Proof.
  intros H Hj. pose proof check_rs_ok as C. rewrite forallb_forall in C. specialize (C k ltac:(apply in_seq; lia)).
  apply andb_prop in C. destruct C as [_ C]. rewrite forallb_forall in C. specialize (C j ltac:(apply in_seq; lia)). apply zsmall_ok in C.
  rewrite hs_z, !basis_z, rs_z. unfold zr. rewrite minus_IZR, !mult_IZR, <- pow_IZR in C. pose proof (zDn (j + 1)). pose proof (zDn (k + 1 - j)). pose proof zD_pos.
  replace (k + 2)%nat with (S ((j + 1) + (k - j)))%nat in C by lia. replace (k + 1 - j)%nat with (S (k - j)) in C by lia.
  replace (k + 1)%nat with ((j + 1) + (k - j))%nat by lia. pose proof (zDn (k - j)). rewrite (pow_add _ (j + 1) (k - j)). rewrite <- !(tech_pow_Rmult (IZR zD)) in C. rewrite (pow_add _ (j + 1) (k - j)) in C.
  rewrite rs_alg in C by lra. exact C.
Qed.

(** * Newton form to monomials *)
Fixpoint zlin (a b : Z) (p q : list Z) : list Z :=     (* a p + b q *)
  match p, q with
  | [], _ => map (Z.mul b) q
  | _, [] => map (Z.mul a) p
  | x :: p', y :: q' => (a * x + b * y)%Z :: zlin a b p' q'
  end.
Definition zv (p : list Z) (s : R) : R := pvalue (map IZR p) s.
Lemma zv_map a p s : zv (map (Z.mul a) p) s = IZR a * zv p s.
Proof. unfold zv. induction p as [|x p IH]; cbn; [ring|]. unfold pvalue in IH. rewrite IH, mult_IZR. ring. Qed.
Lemma zv_lin a b : forall p q s, zv (zlin a b p q) s = IZR a * zv p s + IZR b * zv q s.
Proof.
  induction p as [|x p IH]; intros q s; cbn [zlin].
  - rewrite zv_map. unfold zv at 2. cbn. ring.
  - destruct q as [|y q]; [rewrite zv_map; change (zv [] s) with 0; ring|]. specialize (IH q s). unfold zv, pvalue in *. cbn [map fold_right].
    rewrite IH, plus_IZR, !mult_IZR. cbn [map fold_right]. ring.
Qed.
Fixpoint zwp (j : nat) : list Z := match j with O => [0; 1]%Z | S k => zlin zD (- zhs k) (0%Z :: zwp k) (zwp k) end.
Lemma basis_poly j s : newton_basis j s = zv (zwp j) s / IZR zD ^ j.
Proof.
  pose proof zD_pos. induction j as [|j IH]; cbn [newton_basis zwp].
  - unfold zv, pvalue. cbn. field.
  - rewrite zv_lin, opp_IZR, IH, hs_z. unfold zr. unfold zv at 2. cbn [map pvalue fold_right]. fold (pvalue (map IZR (zwp j)) s). fold (zv (zwp j) s).
    cbn [pow]. pose proof (zDn j). field. lra.
Qed.
Definition zrow (j : nat) : list Z := 0%Z :: map (fun i => ztri z_g2b j i) (seq 0 (j + 1)).
Lemma zv_ext p q s : p = q -> zv p s = zv q s. Proof. congruence. Qed.
Lemma zrow_val j s : zv (zrow j) s = IZR zD * rsum (fun i => g2b j i * s ^ (i + 1)) (j + 1).
Proof.
  assert (G : forall n a, zv (map (fun i => ztri z_g2b j i) (seq a n)) s * s ^ a = rsum (fun i => IZR (ztri z_g2b j (a + i)) * s ^ (a + i)) n).
  { induction n as [|n IH]; intros a; [unfold zv, pvalue; cbn; ring|].
    rewrite seq_S, map_app. assert (X : forall p x, zv (p ++ [x]) s = zv p s + IZR x * s ^ length p).
    { clear. intros p x. unfold zv. induction p as [|y p IH]; cbn; [ring|]. unfold pvalue in IH. rewrite IH. ring. }
    cbn [map rsum]. rewrite X, <- IH, map_length, seq_length, pow_add. ring. }
  unfold zrow. unfold zv. cbn [map pvalue fold_right]. fold (pvalue (map IZR (map (fun i => ztri z_g2b j i) (seq 0 (j + 1)))) s).
  fold (zv (map (fun i => ztri z_g2b j i) (seq 0 (j + 1))) s). specialize (G (j + 1)%nat 0%nat). cbn [pow Nat.add] in G. rewrite Rmult_1_r in G. rewrite G.
  rewrite Rplus_0_l, <- !rsum_scal. apply rsum_ext. intros i _. rewrite g2b_z. unfold zr. pose proof zD_pos. rewrite pow_add. cbn [pow]. field. lra.
Qed.
Definition zabs_sum (p : list Z) : Z := fold_right (fun a acc => (Z.abs a + acc)%Z) 0%Z p.
Lemma pvalue_le p s : Rabs s <= 1 -> Rabs (pvalue p s) <= psize p.
Proof.
  intros Hs. induction p as [|a p IH]; cbn; [rewrite Rabs_R0; lra|]. unfold pvalue, psize in IH.
  eapply Rle_trans; [apply Rabs_triang|]. rewrite Rabs_mult. apply Rplus_le_compat_l.
  pose proof (Rabs_pos s). pose proof (Rabs_pos (fold_right (fun a acc => a + s * acc) 0 p)). nra.
Qed.
Lemma psize_z p : psize (map IZR p) = IZR (zabs_sum p).
Proof. unfold psize, zabs_sum. induction p; cbn [map fold_right]; auto. rewrite IHp, plus_IZR, abs_IZR. auto. Qed.
Definition zdiff (j : nat) : list Z := zlin zD (- (zD ^ Z.of_nat j)) (zwp j) (zrow j).
Lemma check_g2b_ok :
  forallb (fun j => zsmall (zabs_sum (zdiff j)) (j + 1)) (seq 0 7) = true. Proof. vm_compute. reflexivity. Qed.
Lemma zabs_sum_nonneg p : (0 <= zabs_sum p)%Z.
Proof. induction p; cbn; [lia|]. unfold zabs_sum in IHp. lia. Qed.
Lemma g2b_row j s : (j < 7)%nat -> Rabs s <= 1 -> Rabs (newton_basis j s - rsum (fun i => g2b j i * s ^ (i + 1)) (j + 1)) <= e28.
Proof.
  intros H Hs. pose proof check_g2b_ok as C. rewrite forallb_forall in C. specialize (C j ltac:(apply in_seq; lia)). apply zsmall_ok in C.
  assert (E : newton_basis j s - rsum (fun i => g2b j i * s ^ (i + 1)) (j + 1) = zv (zdiff j) s / IZR zD ^ (j + 1)).
  { unfold zdiff. rewrite zv_lin, opp_IZR, <- pow_IZR, zrow_val, basis_poly. pose proof zD_pos. pose proof (zDn j). rewrite pow_add. cbn [pow]. field. lra. }
  rewrite E. pose proof (zDn (j + 1)) as P. pose proof (pvalue_le (map IZR (zdiff j)) s Hs) as V. rewrite psize_z in V.
  unfold Rdiv in *. rewrite Rabs_mult, Rabs_inv, (Rabs_right (IZR zD ^ (j + 1))) in * by lra.
  eapply Rle_trans; [|exact C]. apply Rmult_le_compat_r; [left; apply Rinv_0_lt_compat; auto|].
  rewrite (Rabs_right (IZR (zabs_sum _))) by (apply Rle_ge, IZR_le, zabs_sum_nonneg). exact V.
Qed.

(** * Products of the two conversion tables *)
Fixpoint zsum (f : nat -> Z) (n : nat) : Z := match n with O => 0%Z | S k => (zsum f k + f k)%Z end.
Lemma zsum_ok f n : IZR (zsum f n) = rsum (fun i => IZR (f i)) n.
Proof. induction n; cbn [zsum rsum]; auto. rewrite plus_IZR, IHn. auto. Qed.
Definition zprod (s t : list Z) (l m : nat) : Z :=
  zsum (fun j => if (m <=? j)%nat && (j <=? l)%nat then (ztri s l j * ztri t j m)%Z else 0%Z) 7.
Definition check_inv (s t : list Z) : bool :=
  forallb (fun l => forallb (fun m => zsmall (zprod s t l m - (if (l =? m)%nat then zD * zD else 0)) 2) (seq 0 7)) (seq 0 7).
Lemma check_inv1 : check_inv z_b2g z_g2b = true. Proof. vm_compute. reflexivity. Qed.
Lemma check_inv2 : check_inv z_g2b z_b2g = true. Proof. vm_compute. reflexivity. Qed.
Lemma inv_entry s t : check_inv s t = true -> forall l m, (l < 7)%nat -> (m < 7)%nat ->
  Rabs (rsum (fun j => if (m <=? j)%nat && (j <=? l)%nat then zr (ztri s l j) * zr (ztri t j m) else 0) 7 - (if (l =? m)%nat then 1 else 0)) <= e28.
Proof.
  intros C l m Hl Hm. unfold check_inv in C. rewrite forallb_forall in C. specialize (C l ltac:(apply in_seq; lia)). rewrite forallb_forall in C. specialize (C m ltac:(apply in_seq; lia)).
  apply zsmall_ok in C. rewrite minus_IZR in C. unfold zprod in C. rewrite zsum_ok in C. pose proof zD_pos as P.
  match goal with |- Rabs ?a <= _ => match type of C with Rabs ?b <= _ => replace a with b; [exact C|] end end.
  assert (E : rsum (fun j => if (m <=? j)%nat && (j <=? l)%nat then zr (ztri s l j) * zr (ztri t j m) else 0) 7 =
    / (IZR zD * IZR zD) * rsum (fun i => IZR (if (m <=? i)%nat && (i <=? l)%nat then (ztri s l i * ztri t i m)%Z else 0%Z)) 7).
  { rewrite <- rsum_scal. apply rsum_ext. intros i _. destruct (_ && _); [|ring]. unfold zr. rewrite mult_IZR. field. lra. }
  rewrite E. cbn [pow]. destruct (l =? m)%nat; rewrite ?mult_IZR; field; lra.
Qed.
Lemma rsum_swap f n m : rsum (fun i => rsum (fun j => f i j) m) n = rsum (fun j => rsum (fun i => f i j) n) m.
Proof.
  induction n; cbn [rsum]; [rewrite rsum_zero; auto|]. rewrite IHn, <- rsum_add. auto.
Qed.
Lemma rsum_abs f n : Rabs (rsum f n) <= rsum (fun i => Rabs (f i)) n.
Proof. induction n; cbn [rsum]; [rewrite Rabs_R0; lra|]. eapply Rle_trans; [apply Rabs_triang|]. lra. Qed.
Lemma rsum_le f g n : (forall i, (i < n)%nat -> f i <= g i) -> rsum f n <= rsum g n.
Proof. induction n; intros H; cbn [rsum]; [lra|]. specialize (IHn ltac:(auto)). specialize (H n ltac:(lia)). lra. Qed.
Lemma rsum_pick v m n : (m < n)%nat -> rsum (fun l => v l * (if (l =? m)%nat then 1 else 0)) n = v m.
Proof.
  induction n; intros H; [lia|]. cbn [rsum]. destruct (Nat.eqb_spec n m) as [->|].
  - rewrite (rsum_ext _ (fun _ => 0)); [rewrite rsum_zero; ring|]. intros i Hi. destruct (Nat.eqb_spec i m); [lia|ring].
  - rewrite IHn by lia. ring.
Qed.
Lemma rsum_sub f g n : rsum (fun i => f i - g i) n = rsum f n - rsum g n.
Proof. induction n; cbn [rsum]; [ring|]. rewrite IHn. ring. Qed.
(** g2b after b2g and the other way round, per component. *)
Definition conv (c : nat -> nat -> R) (v : nat -> R) (m : nat) : R := rsum (fun j => if (m <=? j)%nat then v j * c j m else 0) 7.
Lemma conv_inv c d : (forall l m, (l < 7)%nat -> (m < 7)%nat ->
    Rabs (rsum (fun j => if (m <=? j)%nat && (j <=? l)%nat then c l j * d j m else 0) 7 - (if (l =? m)%nat then 1 else 0)) <= e28) ->
  forall v m, (m < 7)%nat -> Rabs (conv d (conv c v) m - v m) <= e28 * size7 v.
Proof.
  intros H v m Hm.
  set (M := fun l => rsum (fun j => if (m <=? j)%nat && (j <=? l)%nat then c l j * d j m else 0) 7).
  assert (E : conv d (conv c v) m = rsum (fun l => v l * M l) 7).
  { unfold conv, M. rewrite (rsum_ext _ (fun j => rsum (fun l => v l * (if (m <=? j)%nat && (j <=? l)%nat then c l j * d j m else 0)) 7)).
    - rewrite rsum_swap. apply rsum_ext. intros l _. apply rsum_scal.
    - intros j _. destruct (m <=? j)%nat; cbn [andb]; [|rewrite (rsum_ext _ (fun _ => 0)); [rewrite rsum_zero; auto|intros; ring]].
      rewrite Rmult_comm, <- rsum_scal. apply rsum_ext. intros l _. destruct (j <=? l)%nat; ring. }
  rewrite E, <- (rsum_pick v m 7) at 1 by auto. rewrite <- rsum_sub. eapply Rle_trans; [apply rsum_abs|]. unfold size7. rewrite <- rsum_scal. apply rsum_le.
  intros l Hl. replace (v l * M l - v l * (if (l =? m)%nat then 1 else 0)) with (v l * (M l - (if (l =? m)%nat then 1 else 0))) by ring.
  rewrite Rabs_mult, Rmult_comm. apply Rmult_le_compat_r; [apply Rabs_pos|]. apply H; auto.
Qed.
Lemma conv_g2b_b2g v m : (m < 7)%nat -> Rabs (conv g2b (conv b2g v) m - v m) <= e28 * size7 v.
Proof.
  apply conv_inv. intros l k Hl Hk. rewrite (rsum_ext _ (fun j => if (k <=? j)%nat && (j <=? l)%nat then zr (ztri z_b2g l j) * zr (ztri z_g2b j k) else 0)).
  - apply (inv_entry _ _ check_inv1); auto.
  - intros j _. rewrite b2g_z, g2b_z. auto.
Qed.
Lemma conv_b2g_g2b v m : (m < 7)%nat -> Rabs (conv b2g (conv g2b v) m - v m) <= e28 * size7 v.
Proof.
  apply conv_inv. intros l k Hl Hk. rewrite (rsum_ext _ (fun j => if (k <=? j)%nat && (j <=? l)%nat then zr (ztri z_g2b l j) * zr (ztri z_b2g j k) else 0)).
  - apply (inv_entry _ _ check_inv2); auto.
  - intros j _. rewrite b2g_z, g2b_z. auto.
Qed.
(** The Newton polynomial and the monomial one with converted coefficients. *)
Lemma conv_poly g s : rsum (fun i => conv g2b g i * s ^ (i + 1)) 7 = rsum (fun j => g j * rsum (fun i => g2b j i * s ^ (i + 1)) (j + 1)) 7.
Proof.
  unfold conv. cbn [rsum Nat.leb Nat.add]. ring.
Qed.
Lemma newton_vs_monomial dy0 g s : Rabs s <= 1 -> Rabs (newton_poly dy0 g s - force_poly dy0 (conv g2b g) s) <= e28 * size7 g.
Proof.
  intros Hs. unfold newton_poly, force_poly. rewrite conv_poly.
  replace (dy0 + rsum (fun j => g j * newton_basis j s) 7 - (dy0 + rsum (fun j => g j * rsum (fun i => g2b j i * s ^ (i + 1)) (j + 1)) 7))
    with (rsum (fun j => g j * newton_basis j s) 7 - rsum (fun j => g j * rsum (fun i => g2b j i * s ^ (i + 1)) (j + 1)) 7) by ring.
  rewrite <- rsum_sub. eapply Rle_trans; [apply rsum_abs|]. unfold size7. rewrite <- rsum_scal. apply rsum_le. intros j Hj.
  rewrite <- Rmult_minus_distr_l, Rabs_mult, Rmult_comm. apply Rmult_le_compat_r; [apply Rabs_pos|]. apply g2b_row; auto.
Qed.

(** * Interpolation by update_b_table *)
Lemma new_g_val g dy0 dyh k : new_g g dy0 dyh k = (dyh - dy0) * rs k 0 - rsum (fun j => g j * rs k (j + 1)) k.
Proof.
  unfold new_g. assert (G : forall n a, fold_left (fun acc j => acc - g j * rs k (j + 1)) (seq 0 n) a = a - rsum (fun j => g j * rs k (j + 1)) n).
  { induction n as [|n IH]; intros a; [cbn; ring|]. rewrite seq_S, fold_left_app, IH. cbn [fold_left rsum Nat.add]. ring. }
  apply G.
Qed.
Lemma newton_at_node dy0 g k : (k < 7)%nat -> newton_poly dy0 g (hs k) = dy0 + rsum (fun j => g j * newton_basis j (hs k)) k + g k * newton_basis k (hs k).
Proof.
  intros H. unfold newton_poly. assert (G : forall n, (k < n)%nat -> rsum (fun j => g j * newton_basis j (hs k)) n = rsum (fun j => g j * newton_basis j (hs k)) k + g k * newton_basis k (hs k)).
  { induction n as [|n IH]; intros Hn; [lia|]. cbn [rsum]. destruct (Nat.eq_dec n k) as [->|]; auto. rewrite IH, (basis_zero k n) by lia. ring. }
  rewrite G by auto. ring.
Qed.
Lemma interpolate_one dy0 dyh g k : (k < 7)%nat -> g k = new_g g dy0 dyh k ->
  Rabs (newton_poly dy0 g (hs k) - dyh) <= e28 * (Rabs (dyh - dy0) + rsum (fun j => Rabs (g j)) k).
Proof.
  intros H E. rewrite newton_at_node, E, new_g_val by auto. set (W := newton_basis k (hs k)).
  replace (dy0 + rsum (fun j => g j * newton_basis j (hs k)) k + ((dyh - dy0) * rs k 0 - rsum (fun j => g j * rs k (j + 1)) k) * W - dyh)
    with ((dyh - dy0) * (W * rs k 0 - 1) + (rsum (fun j => g j * newton_basis j (hs k)) k - W * rsum (fun j => g j * rs k (j + 1)) k)) by ring.
  rewrite <- rsum_scal, <- rsum_sub. eapply Rle_trans; [apply Rabs_triang|]. rewrite Rmult_plus_distr_l. apply Rplus_le_compat.
  - rewrite Rabs_mult, Rmult_comm. apply Rmult_le_compat_r; [apply Rabs_pos|apply rs_0; auto].
  - eapply Rle_trans; [apply rsum_abs|]. rewrite <- rsum_scal. apply rsum_le. intros j Hj.
    replace (g j * newton_basis j (hs k) - W * (g j * rs k (j + 1))) with (g j * (newton_basis j (hs k) - W * rs k (j + 1))) by ring.
    rewrite Rabs_mult, Rmult_comm. apply Rmult_le_compat_r; [apply Rabs_pos|]. apply rs_j; auto.
Qed.
