From Verif Require Import BS_Model BS_Spec Chain_Proofs System_Proofs.
Open Scope R_scope.

(** * polynomials *)
Lemma peval_cons a p x : peval (a :: p) x = a + x * peval p x. Proof. reflexivity. Qed.
Fixpoint padd (p q : list R) : list R :=
  match p, q with [], _ => q | _, [] => p | a :: p', b :: q' => (a + b) :: padd p' q' end.
Lemma padd_eval p q x : peval (padd p q) x = peval p x + peval q x.
Proof. revert q; induction p as [|a p IH]; intros [|b q]; cbn [padd]; rewrite ?peval_cons; [cbn; ring|cbn; ring|cbn; ring|]. rewrite IH. ring. Qed.
Lemma padd_length p q : length (padd p q) = Nat.max (length p) (length q).
Proof. revert q; induction p as [|a p IH]; intros [|b q]; simpl; auto. Qed.
Definition pscal (c : R) (p : list R) := map (Rmult c) p.
Lemma pscal_eval c p x : peval (pscal c p) x = c * peval p x.
Proof. induction p as [|a p IH]; cbn [pscal map]; [cbn; ring|]. fold (pscal c p). rewrite !peval_cons, IH. ring. Qed.
Lemma pscal_length c p : length (pscal c p) = length p. Proof. apply map_length. Qed.

Lemma pfactor p r : exists q, (length q <= length p - 1)%nat /\ forall x, peval p x = peval p r + (x - r) * peval q x.
Proof.
  induction p as [|a p IH].
  - exists []. split; auto. intros x. cbn. ring.
  - destruct p as [|b p].
    + exists []. split; auto. intros x. rewrite !peval_cons. cbn. ring.
    + destruct IH as (s & L & E). exists (peval (b :: p) r :: s). split; [simpl in *; lia|]. intros x.
      rewrite (peval_cons a), (peval_cons a), (peval_cons _ s). rewrite E at 1. ring.
Qed.
Lemma proots n : forall p (r : nat -> R), (length p <= n)%nat -> (forall i j, (i < n)%nat -> (j < n)%nat -> i <> j -> r i <> r j) ->
  (forall i, (i < n)%nat -> peval p (r i) = 0) -> forall x, peval p x = 0.
Proof.
  induction n as [|n IH]; intros p r L D Z x.
  - destruct p; [reflexivity|simpl in L; lia].
  - destruct (pfactor p (r n)) as (q & Lq & E). rewrite E, Z by lia.
    rewrite (IH q r); [ring|lia|intros; apply D; lia|].
    intros i Hi. assert (H := Z i ltac:(lia)). rewrite E, Z in H by lia. assert (r i - r n <> 0) by (assert (r i <> r n) by (apply D; lia); lra).
    apply (Rmult_eq_reg_l (r i - r n)); auto. lra.
Qed.

(** * nodes *)
Lemma h_at_pos N i : (i < N)%nat -> (0 < h_at N i)%nat.
Proof.
  intros H. unfold h_at. destruct (Nat.leb_spec N 11); [|lia].
  do 11 (destruct i as [|i]; [simpl; lia|]). lia.
Qed.
Lemma h_at_step N i : (S i < N)%nat -> (h_at N i < h_at N (S i))%nat.
Proof.
  intros H. unfold h_at. destruct (Nat.leb_spec N 11); [|lia].
  do 10 (destruct i as [|i]; [simpl; lia|]). lia.
Qed.
Lemma h_at_lt N i j : (i < j)%nat -> (j < N)%nat -> (h_at N i < h_at N j)%nat.
Proof.
  intros H1. induction H1 as [|j H1 IH]; intros H2; [apply h_at_step; auto|].
  pose proof (h_at_step N j H2). lia.
Qed.
Lemma node_lt N i j : (i < j)%nat -> (j < N)%nat -> node N j < node N i.
Proof.
  intros H1 H2. pose proof (h_at_lt N i j H1 H2) as H. pose proof (h_at_pos N i ltac:(lia)) as Hp.
  apply lt_INR in H. apply lt_INR in Hp. simpl in Hp. unfold node. apply Rinv_lt_contravar; [|nra].
  apply Rmult_lt_0_compat; nra.
Qed.
Lemma node_neq N i j : (i < N)%nat -> (j < N)%nat -> i <> j -> node N i <> node N j.
Proof.
  intros Hi Hj H. destruct (Nat.lt_total i j) as [L|[L|L]]; [|lia|]; pose proof (node_lt N _ _ L); lra || (specialize (H0 ltac:(lia)); lra).
Qed.
Lemma node_pos N i : (i < N)%nat -> 0 < node N i.
Proof. intros H. pose proof (h_at_pos N i H) as Hp. apply lt_INR in Hp. simpl in Hp. unfold node. apply Rinv_0_lt_compat. nra. Qed.
Lemma coef_node N k j : (k < N)%nat -> (0 < j <= k)%nat -> coef_at N k (k - j) = node N k / (node N (j - 1) - node N k).
Proof.
  intros Hk Hj. unfold coef_at. destruct (Nat.ltb_spec (k - j) k); [|lia].
  replace (k - (k - j) - 1)%nat with (j - 1)%nat by lia. cbv zeta. unfold node. rewrite !mult_INR.
  pose proof (h_at_lt N (j - 1) k ltac:(lia) Hk) as H1. pose proof (h_at_pos N (j - 1) ltac:(lia)) as H2.
  apply lt_INR in H1. apply lt_INR in H2. simpl in H2. set (a := INR (h_at N (j - 1))) in *. set (b := INR (h_at N k)) in *.
  assert (0 < b * b - a * a) by nra. field. repeat split; nra.
Qed.

(** * the Neville polynomials *)
Fixpoint nev (N : nat) (T : nat -> R) (d j : nat) : list R :=     (* through rows j .. j+d *)
  match d with
  | O => [T j]
  | S d' =>
    let A := nev N T d' j in let B := nev N T d' (S j) in
    let xj := node N j in let xk := node N (j + S d') in
    pscal (/ (xj - xk)) (padd (0 :: padd A (pscal (-1) B)) (padd (pscal (- xk) A) (pscal xj B)))
  end.
Lemma nev_eval N T d j x : peval (nev N T (S d) j) x =
  ((x - node N (j + S d)) * peval (nev N T d j) x - (x - node N j) * peval (nev N T d (S j)) x) / (node N j - node N (j + S d)).
Proof. cbn [nev]. cbv zeta. rewrite pscal_eval, !padd_eval, peval_cons, !padd_eval, !pscal_eval. unfold Rdiv. ring. Qed.
Lemma nev_length N T d j : (length (nev N T d j) <= d + 1)%nat.
Proof.
  revert j; induction d as [|d IH]; intros j; [simpl; lia|]. cbn [nev]. cbv zeta.
  rewrite pscal_length, !padd_length. cbn [length]. rewrite !padd_length, !pscal_length.
  pose proof (IH j). pose proof (IH (S j)). lia.
Qed.
Lemma nev_interp N T d : forall j i, (j + d < N)%nat -> (j <= i <= j + d)%nat -> peval (nev N T d j) (node N i) = T i.
Proof.
  induction d as [|d IH]; intros j i HN Hi.
  - assert (i = j) by lia. subst. cbn [nev]. rewrite peval_cons. cbn. ring.
  - rewrite nev_eval. assert (Hd : node N j - node N (j + S d) <> 0) by (assert (node N j <> node N (j + S d)) by (apply node_neq; lia); lra).
    destruct (Nat.eq_dec i j) as [->|]; [|destruct (Nat.eq_dec i (j + S d)) as [->|]].
    + rewrite IH by lia. field; auto.
    + rewrite (IH (S j)) by lia. field; auto.
    + rewrite (IH j), (IH (S j)) by lia. field; auto.
Qed.
Lemma interp_unique N T j k p q x : (j <= k)%nat -> (k < N)%nat -> interpolates N T j k p -> interpolates N T j k q -> peval p x = peval q x.
Proof.
  intros Hj HN [Lp Ep] [Lq Eq].
  assert (peval (padd p (pscal (-1) q)) x = 0) as H.
  { apply (proots (k - j + 1) _ (fun i => node N (j + i))).
    - rewrite padd_length, pscal_length. lia.
    - intros; apply node_neq; lia.
    - intros i Hi. rewrite padd_eval, pscal_eval, Ep, Eq by lia. ring. }
  rewrite padd_eval, pscal_eval in H. lra.
Qed.
Lemma nev_extrapolates N T j k : (j <= k)%nat -> (k < N)%nat -> extrapolates_to N T j k (peval (nev N T (k - j) j) 0).
Proof.
  intros Hj HN. assert (I : interpolates N T j k (nev N T (k - j) j)).
  { split; [apply nev_length|]. intros i Hi. apply nev_interp; lia. }
  split; [eauto|]. intros p Hp. apply (interp_unique N T j k); auto.
Qed.
Lemma nev_step N T d j : (j + S d < N)%nat ->
  peval (nev N T (S d) j) 0 = peval (nev N T d (S j)) 0 + (peval (nev N T d (S j)) 0 - peval (nev N T d j) 0) * (node N (j + S d) / (node N j - node N (j + S d))).
Proof.
  intros H. rewrite nev_eval. assert (node N j <> node N (j + S d)) by (apply node_neq; lia).
  field. lra.
Qed.

(** * the in-place table *)
Lemma zipw_length f a b : length b = length a -> length (zipw f a b) = length a.
Proof. intros H. unfold zipw. rewrite map_length, combine_length. lia. Qed.
Lemma zipw_nth f a b i : length b = length a -> (i < length a)%nat -> nth i (zipw f a b) 0 = f (nth i a 0) (nth i b 0).
Proof.
  revert b i; induction a as [|x a IH]; intros [|y b] i H Hi; simpl in *; try lia.
  destruct i; simpl; auto. apply IH; lia.
Qed.
Definition entry (ext : list (list R)) (j : nat) : list R := nth j ext [].
Lemma aget_entry ext j : (j < length ext)%nat -> aget ext j = Ok (entry ext j).
Proof. intros H. unfold aget, entry. rewrite (nth_error_nth' ext [] H). reflexivity. Qed.
Lemma aset_ok {A} (l : list A) i x : (i < length l)%nat -> aset l i x = Ok (list_set l i x).
Proof. intros H. unfold aset. apply Nat.ltb_lt in H. rewrite H. reflexivity. Qed.
Lemma entry_set_eq ext j x : (j < length ext)%nat -> entry (list_set ext j x) j = x.
Proof. apply nth_list_set_eq. Qed.
Lemma entry_set_neq ext i j x : i <> j -> entry (list_set ext i x) j = entry ext j.
Proof. apply nth_list_set_neq. Qed.
Lemma extrap_loop_ok N n k Q : forall j ext, (j <= k)%nat -> (k < N)%nat -> (N <= length ext)%nat -> affine Q ->
  (forall i, (i <= k)%nat -> length (entry ext i) = n) -> (forall i, (i <= k)%nat -> Q (entry ext i)) ->
  exists ext', extrap_loop N k j ext = Ok ext' /\ length ext' = length ext /\
    (forall i, (i <= k)%nat -> length (entry ext' i) = n) /\ (forall i, (i <= k)%nat -> Q (entry ext' i)) /\
    (forall i, (j <= i)%nat -> entry ext' i = entry ext i) /\
    (forall i x, (i < j)%nat -> (x < n)%nat -> nth x (entry ext' i) 0 =
       nth x (entry ext' (S i)) 0 + (nth x (entry ext' (S i)) 0 - nth x (entry ext i) 0) * coef_at N k (k - S i)).
Proof.
  induction j as [|j IH]; intros ext Hj Hk HN HQ L A.
  - exists ext. cbn [extrap_loop]. repeat split; auto. intros; lia.
  - cbn [extrap_loop]. unfold bs_coef.
    assert (B : (k * N + (k - S j) <? N * N)%nat = true) by (apply Nat.ltb_lt; nia). rewrite B. cbn [obind].
    rewrite !aget_entry by lia. cbn [obind]. rewrite aset_ok by lia. cbn [obind].
    set (nw := zipw _ _ _).
    destruct (IH (list_set ext j nw)) as (ext' & E & L1 & L2 & A2 & K & V); auto; try lia; rewrite ?list_set_length; auto.
    + intros i Hi. destruct (Nat.eq_dec j i) as [<-|]; [rewrite entry_set_eq by lia; unfold nw; rewrite zipw_length; rewrite !L; auto; lia|rewrite entry_set_neq; auto].
    + intros i Hi. destruct (Nat.eq_dec j i) as [<-|]; [rewrite entry_set_eq by lia; unfold nw; apply HQ; rewrite ?L; auto; lia|rewrite entry_set_neq; auto].
    + exists ext'. rewrite list_set_length in L1. split; auto. split; auto. split; auto. split; auto. split.
      * intros i Hi. rewrite K by lia. apply entry_set_neq. lia.
      * intros i x Hi Hx. destruct (Nat.eq_dec i j) as [->|].
        -- rewrite (K j) by lia. rewrite (K (S j)) by lia. rewrite entry_set_eq by lia. rewrite entry_set_neq by lia.
           unfold nw. rewrite zipw_nth; [reflexivity|rewrite !L; lia|rewrite L; lia].
        -- rewrite V by lia. rewrite entry_set_neq by lia. reflexivity.
Qed.
(** State of the table after row k: entry j is the extrapolation from rows j..k. *)
Definition table_ok (N n k : nat) (T : nat -> list R) (ext : list (list R)) : Prop :=
  (forall i, (i <= k)%nat -> length (entry ext i) = n) /\
  forall j x, (j <= k)%nat -> (x < n)%nat -> nth x (entry ext j) 0 = peval (nev N (fun i => nth x (T i) 0) (k - j) j) 0.
Lemma extrapolate_ok N n k T ext Q : (S k < N)%nat -> (N <= length ext)%nat -> length (T (S k)) = n -> affine Q ->
  (forall i, (i <= k)%nat -> Q (entry ext i)) -> Q (T (S k)) ->
  table_ok N n k T ext -> exists ext', obind (aset ext (S k) (T (S k))) (extrapolate N (S k)) = Ok ext' /\ length ext' = length ext /\
    table_ok N n (S k) T ext' /\ (forall i, (i <= S k)%nat -> Q (entry ext' i)).
Proof.
  intros Hk HN LT HQ A AT [L V]. rewrite aset_ok by lia. cbn [obind]. unfold extrapolate.
  set (e1 := list_set ext (S k) (T (S k))).
  destruct (extrap_loop_ok N n (S k) Q (S k) e1) as (ext' & E & L1 & L2 & A2 & K & W); auto; unfold e1; rewrite ?list_set_length; auto.
  - intros i Hi. destruct (Nat.eq_dec (S k) i) as [<-|]; [rewrite entry_set_eq by lia; auto|rewrite entry_set_neq by auto; apply L; lia].
  - intros i Hi. destruct (Nat.eq_dec (S k) i) as [<-|]; [rewrite entry_set_eq by lia; auto|rewrite entry_set_neq by auto; apply A; lia].
  - exists ext'. split; auto. rewrite L1. unfold e1. rewrite list_set_length. split; auto. split; auto. split; auto.
    intros j x Hj Hx. remember (S k - j)%nat as d eqn:Hd. revert j Hj Hd. induction d as [|d IH]; intros j Hj Hd.
    + assert (j = S k) by lia. subst j. rewrite K by lia. unfold e1. rewrite entry_set_eq by lia. cbn [nev]. rewrite peval_cons. cbn. ring.
    + rewrite W by lia. rewrite IH by lia. unfold e1. rewrite entry_set_neq by lia. rewrite V by lia.
      rewrite nev_step by lia. rewrite coef_node by lia. replace (j + S d)%nat with (S k) by lia. replace (S j - 1)%nat with j by lia.
      replace (k - j)%nat with d by lia. reflexivity.
Qed.
Lemma fill_ok N n T ext Q : forall K, (K < N)%nat -> (N <= length ext)%nat -> (forall i, (i <= K)%nat -> length (T i) = n) -> affine Q ->
  (forall i, (i <= K)%nat -> Q (T i)) ->
  exists ext', fill_table N K T ext = Ok ext' /\ length ext' = length ext /\ table_ok N n K T ext' /\ forall i, (i <= K)%nat -> Q (entry ext' i).
Proof.
  induction K as [|K IH]; intros HK HN L HQ A.
  - cbn [fill_table]. rewrite aset_ok by lia. exists (list_set ext 0 (T 0%nat)). rewrite list_set_length. split; auto. split; auto.
    assert (X : forall i, (i <= 0)%nat -> entry (list_set ext 0 (T 0%nat)) i = T i).
    { intros i Hi. assert (i = 0)%nat by lia. subst. apply entry_set_eq. lia. }
    split; [split|].
    + intros i Hi. rewrite X by lia. auto.
    + intros j x Hj Hx. rewrite X by lia. assert (j = 0)%nat by lia. subst. cbn [nev Nat.sub]. rewrite peval_cons. cbn. ring.
    + intros i Hi. rewrite X by lia. auto.
  - destruct IH as (e & E & L1 & T1 & A1); auto; try lia. cbn [fill_table]. rewrite E. cbn [obind].
    destruct (extrapolate_ok N n K T e Q) as (e' & E' & L2 & T2 & A2); auto; try lia. exists e'. split; auto. split; [congruence|]. auto.
Qed.

(** * pure description of the table *)
Definition tabv (N n : nat) (T : nat -> list R) (j k : nat) : list R :=
  map (fun x => peval (nev N (fun i => nth x (T i) 0) (k - j) j) 0) (seq 0 n).
Lemma tabv_length N n T j k : length (tabv N n T j k) = n.
Proof. unfold tabv. rewrite map_length, seq_length. reflexivity. Qed.
Lemma tabv_nth N n T j k x : (x < n)%nat -> nth x (tabv N n T j k) 0 = peval (nev N (fun i => nth x (T i) 0) (k - j) j) 0.
Proof.
  intros H. unfold tabv. rewrite nth_indep with (d' := peval (nev N (fun i => nth 0 (T i) 0) (k - j) j) 0) by (rewrite map_length, seq_length; auto).
  rewrite (map_nth (fun x => peval (nev N (fun i => nth x (T i) 0) (k - j) j) 0)), seq_nth; auto.
Qed.
Lemma table_tabv N n k T ext j : table_ok N n k T ext -> (j <= k)%nat -> entry ext j = tabv N n T j k.
Proof.
  intros [L V] Hj. apply rlist_ext; [rewrite tabv_length; auto|]. intros x Hx. rewrite L in Hx by auto.
  rewrite tabv_nth by auto. auto.
Qed.
Lemma tabv_extrapolant N n T j k : (j <= k)%nat -> (k < N)%nat -> extrapolant N n T j k (tabv N n T j k).
Proof. intros Hj HN. split; [apply tabv_length|]. intros x Hx. rewrite tabv_nth by auto. apply nev_extrapolates; auto. Qed.
Lemma extrapolant_unique N n T j k y y' : extrapolant N n T j k y -> extrapolant N n T j k y' -> y = y'.
Proof.
  intros [L V] [L' V']. apply rlist_ext; [congruence|]. intros x Hx. rewrite L in Hx.
  destruct (V x Hx) as [[p Hp] U]. destruct (V' x Hx) as [_ U']. rewrite (U p Hp), (U' p Hp). reflexivity.
Qed.
Lemma fill_tabv N n T Q K : (K < N)%nat -> (forall i, (i <= K)%nat -> length (T i) = n) -> affine Q ->
  (forall i, (i <= K)%nat -> Q (T i)) -> Q (tabv N n T 0 K).
Proof.
  intros H1 H3 H4 H5. destruct (fill_ok N n T (repeat [] N) Q K H1) as (e & _ & _ & T1 & A); auto; [rewrite repeat_length; auto|].
  rewrite <- (table_tabv N n K T e 0 T1) by lia. apply A. lia.
Qed.

(** * ranks and bounds *)
Section Iter.
  Context (M : nat) (kdk : bool) (HM : (3 <= M)%nat).
  Notation N := (M + 1)%nat.
  Lemma allowed_range i : (2 <= allowed M i <= M - 1)%nat.
  Proof. unfold allowed. destruct (Nat.ltb_spec i 2); destruct (Nat.ltb_spec (M - 1) 2); destruct (Nat.ltb_spec (M - 1) i); lia. Qed.
  Lemma allowed_le i : (allowed M i <= Nat.max 2 i)%nat.
  Proof. unfold allowed. destruct (Nat.ltb_spec i 2); destruct (Nat.ltb_spec (M - 1) 2); destruct (Nat.ltb_spec (M - 1) i); lia. Qed.
  Lemma aget_ok {A} (l : list A) i : (i < length l)%nat -> exists x, aget l i = Ok x.
  Proof. intros H. unfold aget. destruct (nth_error l i) eqn:E; eauto. apply nth_error_None in E. lia. Qed.
  (** Everything but the rank and the returned length is unchanged. *)
  Definition same_tables (b b' : bs) : Prop := b' = set_rank b (b_rank b').
  Lemma with_step_ok b r k : sizes M b -> (1 <= k <= M)%nat -> (r <= k + 1)%nat -> (r <= M)%nat ->
    exists s, with_step M kdk (set_rank b r) k = Ok (set_rank b r, s).
  Proof.
    intros (S1 & S2 & S3) Hk Hr HrM. unfold with_step, get_next_step_len. cbn [set_rank b_rank b_ideal].
    destruct (Nat.leb_spec r k).
    - destruct (aget_ok (b_ideal b) r) as (x & ->); [lia|]. cbn [obind]. eauto.
    - assert (r = k + 1)%nat by lia. subst r. rewrite Nat.eqb_refl.
      destruct (aget_ok (b_ideal b) k) as (x & ->); [lia|]. cbn [obind]. unfold bs_cost.
      assert ((k + 1 <? N)%nat = true) as -> by (apply Nat.ltb_lt; lia).
      assert ((k <? N)%nat = true) as -> by (apply Nat.ltb_lt; lia). cbn [obind]. eauto.
  Qed.
  Lemma set_next_ok b k : sizes M b -> b_first b = false -> (1 <= b_rank b <= M - 1)%nat -> (1 <= k)%nat ->
    (k = b_rank b - 1 \/ k = b_rank b \/ k = b_rank b + 1)%nat ->
    exists r s, set_next_iteration M kdk b k = Ok (set_rank b r, s) /\ (1 <= r <= M - 1)%nat.
  Proof.
    intros S Hf Hr Hk Hw. pose proof S as (S1 & S2 & S3). unfold set_next_iteration. rewrite Hf. cbn [negb].
    assert (G : forall x y, aget_sub (b_cpl b) x y = if (x <? y)%nat then UB else aget (b_cpl b) (x - y)) by reflexivity.
    destruct ((k =? b_rank b - 1)%nat || (k =? b_rank b)%nat) eqn:E.
    - rewrite G. destruct (Nat.ltb_spec k 1); [lia|].
      assert (k <= b_rank b)%nat by (apply orb_prop in E; destruct E as [E|E]; apply Nat.eqb_eq in E; lia).
      destruct (aget_ok (b_cpl b) (k - 1)) as (cm & ->); [lia|]. destruct (aget_ok (b_cpl b) k) as (c & ->); [lia|]. cbn [obind].
      assert (W : forall y, (y <= k + 1)%nat -> exists r s, with_step M kdk (set_rank b (allowed M y)) k = Ok (set_rank b r, s) /\ (1 <= r <= M - 1)%nat).
      { intros y Hy. pose proof (allowed_range y). pose proof (allowed_le y).
        destruct (with_step_ok b (allowed M y) k) as (s & ->); auto; try lia. exists (allowed M y), s. split; auto. lia. }
      destruct (Rlt_dec cm (dec_factor * c)); [apply W; lia|]. destruct (Rlt_dec c (inc_factor * cm)); [|apply W; lia].
      destruct (negb (b_reject b)); apply W; lia.
    - apply orb_false_elim in E. destruct E as [E1 E2]. apply Nat.eqb_neq in E1, E2.
      assert (Hk1 : (k = b_rank b + 1)%nat) by lia. assert ((k =? b_rank b + 1)%nat = true) as -> by (apply Nat.eqb_eq; auto).
      rewrite !G. destruct (Nat.ltb_spec k 2); [lia|]. destruct (Nat.ltb_spec k 1); [lia|].
      destruct (aget_ok (b_cpl b) (k - 2)) as (cmm & ->); [lia|]. destruct (aget_ok (b_cpl b) (k - 1)) as (cm & ->); [lia|]. cbn [obind]. cbv zeta.
      set (b1 := if Rlt_dec cmm (dec_factor * cm) then set_rank b (allowed M (k - 2)) else b).
      assert (X : exists r, b1 = set_rank b r /\ (1 <= r <= M - 1)%nat /\ (r <= k)%nat).
      { unfold b1. pose proof (allowed_range (k - 2)). pose proof (allowed_le (k - 2)).
        destruct (Rlt_dec cmm (dec_factor * cm)); [exists (allowed M (k - 2)); repeat split; auto; lia|exists (b_rank b); repeat split; try lia; destruct b; reflexivity]. }
      destruct X as (r & X & R1 & R2). rewrite X. cbn [set_rank b_cpl b_rank b_reject].
      destruct (aget_ok (b_cpl b) k) as (c & ->); [lia|]. cbn [obind]. destruct (aget_ok (b_cpl b) r) as (cr & ->); [lia|]. cbn [obind].
      pose proof (allowed_range k). pose proof (allowed_le k).
      destruct (Rlt_dec c (inc_factor * cr)); [destruct (negb (b_reject b))|].
      + destruct (with_step_ok b (allowed M k) k) as (s & E); auto; try lia.
        change (set_rank (set_rank b r) (allowed M k)) with (set_rank b (allowed M k)). rewrite E. eexists _, _. split; [reflexivity|]. lia.
      + destruct (with_step_ok b r k) as (s & E); auto; try lia. fold (set_rank b r). rewrite E. eexists _, _. split; [reflexivity|]. lia.
      + destruct (with_step_ok b r k) as (s & E); auto; try lia. fold (set_rank b r). rewrite E. eexists _, _. split; [reflexivity|]. lia.
  Qed.
  Lemma set_next_first b k : sizes M b -> b_first b = true -> (k <= M)%nat -> 
    exists s, set_next_iteration M kdk b k = Ok (if b_reject b then b else set_rank b k, s).
  Proof.
    intros (S1 & S2 & S3) Hf Hk. unfold set_next_iteration. rewrite Hf. cbn [negb]. cbv zeta.
    destruct (b_reject b); cbn [negb set_rank b_ideal]; destruct (aget_ok (b_ideal b) k) as (s & ->); try lia; cbn [obind]; eauto.
  Qed.
  Lemma diverged_ok b e k : b_first b = false -> (1 <= b_rank b <= M - 1)%nat ->
    (k = b_rank b - 1 \/ k = b_rank b \/ k = b_rank b + 1)%nat -> exists d, is_diverged_anyhow M b e k = Ok d.
  Proof.
    intros Hf Hr Hk. unfold is_diverged_anyhow. rewrite Hf. cbn [negb].
    assert (B : forall i, (i <= M)%nat -> bs_h N i = Ok (h_at N i)) by (intros i Hi; unfold bs_h; rewrite (proj2 (Nat.ltb_lt i N)) by lia; auto).
    destruct (Nat.eqb_spec k (b_rank b - 1)); [rewrite !B by lia; cbn [obind]; eauto|].
    destruct (Nat.eqb_spec k (b_rank b)); [rewrite !B by lia; cbn [obind]; eauto|]. cbn [obind]; eauto.
  Qed.
End Iter.
