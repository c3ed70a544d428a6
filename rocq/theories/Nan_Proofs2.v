(** On ordinary numbers the special-value iterator computes what the real-number iterator computes; with the RMS checker it accepts
    ordinary numbers only. *)
From Verif Require Import Nan_Spec Nan_Proofs BS_Proofs2.
Open Scope R_scope.

Definition omap {A B} (f : A -> B) (x : outcome A) : outcome B := obind x (fun a => Ok (f a)).
Lemma aget_map {A B} (f : A -> B) l i : aget (map f l) i = omap f (aget l i).
Proof. unfold aget, omap. rewrite nth_error_map. destruct (nth_error l i); reflexivity. Qed.
Lemma list_set_map {A B} (f : A -> B) : forall l i x, list_set (map f l) i (f x) = map f (list_set l i x).
Proof. induction l as [|y l IH]; intros [|i] x; cbn; auto. rewrite IH. reflexivity. Qed.
Lemma aset_map {A B} (f : A -> B) l i x : aset (map f l) i (f x) = omap (map f) (aset l i x).
Proof. unfold aset. rewrite map_length. destruct (i <? length l)%nat; [|reflexivity]. cbn. rewrite list_set_map. reflexivity. Qed.
Lemma combine_map {A B} (f : A -> B) : forall a b, combine (map f a) (map f b) = map (fun xy => (f (fst xy), f (snd xy))) (combine a b).
Proof. induction a as [|x a IH]; intros [|y b]; cbn; auto. rewrite IH. reflexivity. Qed.
Lemma xzipw_fin F G a b : (forall x y, F (Fin x) (Fin y) = Fin (G x y)) -> xzipw F (fin a) (fin b) = fin (zipw G a b).
Proof.
  intros H. unfold xzipw, zipw, fin. rewrite combine_map, !map_map. apply map_ext. intros [x y]. apply H.
Qed.
Lemma xextrap_fin N k : forall j tab, xextrap_loop N k j (map fin tab) = omap (map fin) (extrap_loop N k j tab).
Proof.
  induction j as [|j IH]; intros tab; cbn [xextrap_loop extrap_loop]; [reflexivity|].
  destruct (bs_coef N k (k - S j)) as [c| |]; cbn [obind omap]; try reflexivity.
  rewrite aget_map. destruct (aget tab (S j)) as [a| |]; cbn [obind omap]; auto.
  rewrite aget_map. destruct (aget tab j) as [b| |]; cbn [obind omap]; auto.
  rewrite (xzipw_fin _ (fun x y => x + (x - y) * c)) by reflexivity. rewrite aset_map.
  destruct (aset tab j (zipw (fun x y => x + (x - y) * c) a b)) as [t| |]; cbn [obind omap]; auto.
Qed.

Section Agree.
  Variables (tn M : nat) (kdk : bool).
  Variables (P P' : Type) (phi : P -> P').
  Variable wr : P -> list R. Variable wr' : P' -> list ext.
  Variable rd : P -> list R -> outcome P. Variable rd' : P' -> list ext -> outcome P'.
  Variable collect : P -> bool -> P. Variable collect' : P' -> bool -> P'.
  Variable run : P -> R -> nat -> outcome (P * list R). Variable run' : P' -> ext -> nat -> outcome (P' * list ext).
  Variable err : list R -> list R -> list R -> R. Variable err' : list ext -> list ext -> list ext -> ext.
  Variable nx : nat -> R -> R. Variable nx' : nat -> ext -> outcome ext.
  Variable lim : nat -> R -> R. Variable lim' : nat -> ext -> outcome ext.
  Hypothesis Hwr : forall p, wr' (phi p) = fin (wr p).
  Hypothesis Hrd : forall p y q, rd p y = Ok q -> rd' (phi p) (fin y) = Ok (phi q).
  Hypothesis Hco : forall p f, collect' (phi p) f = phi (collect p f).
  Hypothesis Hrun : forall p h n q dy, run p h n = Ok (q, dy) -> run' (phi p) (Fin h) n = Ok (phi q, fin dy).
  Hypothesis Herr : forall a b c, err' (fin a) (fin b) (fin c) = Fin (err a b c).
  Hypothesis Herr0 : forall a b c, 0 <= err a b c.
  Hypothesis Hnx : forall k e, (k <= M)%nat -> 0 <= e -> nx' (2 * k + 1) (Fin e) = Ok (Fin (nx (2 * k + 1) e)) /\ 0 < nx (2 * k + 1) e.
  Hypothesis Hlim : forall k r, (k <= M)%nat -> lim' (2 * k + 1) (Fin r) = Ok (Fin (lim (2 * k + 1) r)) /\ 0 < lim (2 * k + 1) r.

  Lemma cost_pos i : 0 < INR (cost_at (M + 1) kdk i).
  Proof.
    apply lt_0_INR. assert (G : (0 < h_at (M + 1) 0)%nat) by (unfold h_at; destruct (M + 1 <=? 11)%nat; cbn; lia).
    induction i as [|i IH]; cbn [cost_at]; lia.
  Qed.
  Lemma step_len_agree b k_new k r : get_next_step_len M kdk b k_new k = Ok r -> xget_next_step_len M kdk (emb_bs b) k_new k = Ok (Fin r).
  Proof.
    unfold get_next_step_len, xget_next_step_len. destruct (k_new <=? k)%nat.
    - intros E. cbn [x_ideal emb_bs]. unfold fin. rewrite aget_map, E. reflexivity.
    - destruct (k_new =? k + 1)%nat; [|discriminate]. intros E. apply obind_ok in E. destruct E as (s & E1 & E). apply obind_ok in E. destruct E as (c1 & E2 & E).
      apply obind_ok in E. destruct E as (c & E3 & E). cbn [x_ideal emb_bs]. unfold fin. rewrite aget_map, E1. cbn [omap obind]. rewrite E2, E3. cbn [obind emul].
      assert (c <> 0). { unfold bs_cost in E3. destruct (k <? M + 1)%nat; [|discriminate]. injection E3 as <-. apply Rgt_not_eq, cost_pos. }
      rewrite ediv_fin by auto. congruence.
  Qed.
  Lemma set_rank_emb b r : xset_rank (emb_bs b) r = emb_bs (set_rank b r). Proof. reflexivity. Qed.
  Lemma with_step_agree b k b' r : with_step M kdk b k = Ok (b', r) -> xwith_step M kdk (emb_bs b) k = Ok (emb_bs b', Fin r).
  Proof.
    unfold with_step, xwith_step. intros E. apply obind_ok in E. destruct E as (s & E1 & E). injection E as <- <-.
    change (x_rank (emb_bs b)) with (b_rank b). rewrite (step_len_agree _ _ _ _ E1). reflexivity.
  Qed.
  Lemma cpl_agree b k d r : aget_sub (b_cpl b) k d = Ok r -> xget_sub (x_cpl (emb_bs b)) k d = Ok (Fin r).
  Proof. unfold aget_sub, xget_sub. destruct (k <? d)%nat; [discriminate|]. intros E. cbn [x_cpl emb_bs]. unfold fin. rewrite aget_map, E. reflexivity. Qed.
  Lemma cpl_agree0 b k r : aget (b_cpl b) k = Ok r -> aget (x_cpl (emb_bs b)) k = Ok (Fin r).
  Proof. intros E. cbn [x_cpl emb_bs]. unfold fin. rewrite aget_map, E. reflexivity. Qed.
  Lemma next_iteration_agree b k b' r : set_next_iteration M kdk b k = Ok (b', r) -> xset_next_iteration M kdk (emb_bs b) k = Ok (emb_bs b', Fin r).
  Proof.
    unfold set_next_iteration, xset_next_iteration. change (x_first (emb_bs b)) with (b_first b). change (x_rank (emb_bs b)) with (b_rank b).
    change (x_reject (emb_bs b)) with (b_reject b).
    destruct (negb (b_first b)).
    - destruct ((k =? b_rank b - 1)%nat || (k =? b_rank b)%nat).
      + intros E. apply obind_ok in E. destruct E as (cm & E1 & E). apply obind_ok in E. destruct E as (c & E2 & E).
        rewrite (cpl_agree _ _ _ _ E1), (cpl_agree0 _ _ _ E2). cbn [obind emul]. rewrite !egt_fin.
        destruct (Rlt_dec cm (dec_factor * c)); [rewrite set_rank_emb; apply with_step_agree; exact E|].
        destruct (Rlt_dec c (inc_factor * cm)); [|rewrite set_rank_emb; apply with_step_agree; exact E].
        destruct (negb (b_reject b)); rewrite set_rank_emb; apply with_step_agree; exact E.
      + destruct (k =? b_rank b + 1)%nat; [|discriminate].
        intros E. apply obind_ok in E. destruct E as (cmm & E1 & E). apply obind_ok in E. destruct E as (cm & E2 & E). cbv zeta in E.
        rewrite (cpl_agree _ _ _ _ E1), (cpl_agree _ _ _ _ E2). cbn [obind emul]. rewrite !egt_fin. cbv zeta.
        set (b1 := if Rlt_dec cmm (dec_factor * cm) then set_rank b (allowed M (k - 2)) else b) in *.
        assert (B1 : (if if Rlt_dec cmm (dec_factor * cm) then true else false then xset_rank (emb_bs b) (allowed M (k - 2)) else emb_bs b) = emb_bs b1)
          by (unfold b1; destruct (Rlt_dec cmm (dec_factor * cm)); reflexivity).
        rewrite B1. apply obind_ok in E. destruct E as (c & E3 & E). apply obind_ok in E. destruct E as (cr & E4 & E).
        rewrite (cpl_agree0 _ _ _ E3). cbn [obind]. change (x_rank (emb_bs b1)) with (b_rank b1). rewrite (cpl_agree0 _ _ _ E4). cbn [obind emul]. rewrite egt_fin.
        change (x_reject (emb_bs b1)) with (b_reject b1).
        destruct (Rlt_dec c (inc_factor * cr)); [destruct (negb (b_reject b1))|]; rewrite ?set_rank_emb; apply with_step_agree; exact E.
    - cbv zeta. intros E. apply obind_ok in E. destruct E as (s & E1 & E). injection E as <- <-.
      destruct (negb (b_reject b)); rewrite ?set_rank_emb; cbn [x_ideal emb_bs]; unfold fin; rewrite aget_map, E1; reflexivity.
  Qed.
  Lemma diverged_agree b e k d : is_diverged_anyhow M b e k = Ok d -> xis_diverged M (emb_bs b) (Fin e) k = Ok d.
  Proof.
    unfold is_diverged_anyhow, xis_diverged. change (x_first (emb_bs b)) with (b_first b). change (x_rank (emb_bs b)) with (b_rank b).
    destruct (negb (b_first b)); [|auto]. intros E. apply obind_ok in E. destruct E as (r & E1 & E). rewrite E1. cbn [obind]. rewrite egt_fin.
    injection E as <-. destruct (Rgt_dec e (r * r)), (Rlt_dec (r * r) e); try reflexivity; lra.
  Qed.
  Lemma row_table_agree b input dy h k b1 e : (k <= M)%nat -> h <> 0 ->
    row_table M kdk err nx b input dy h k = Ok (b1, e) ->
    xrow_table M kdk err' nx' (emb_bs b) (fin input) (fin dy) (Fin h) k = Ok (emb_bs b1, Fin e) /\ 0 <= e.
  Proof.
    intros Hk Hh. unfold row_table, xrow_table. intros E.
    apply obind_ok in E. destruct E as (ext0 & E1 & E). apply obind_ok in E. destruct E as (tab & E2 & E).
    apply obind_ok in E. destruct E as (e1 & E3 & E). apply obind_ok in E. destruct E as (e0 & E4 & E). cbv zeta in E.
    apply obind_ok in E. destruct E as (ideal & E5 & E). apply obind_ok in E. destruct E as (c & E6 & E). apply obind_ok in E. destruct E as (cpl & E7 & E).
    injection E as <- <-. cbn [x_ext emb_bs]. rewrite aset_map, E1. cbn [omap obind]. unfold xextrapolate, extrapolate in *. rewrite xextrap_fin, E2. cbn [omap obind].
    rewrite !aget_map, E3, E4. cbn [omap obind]. rewrite Herr.
    destruct (Hnx k (err input e1 e0) Hk (Herr0 _ _ _)) as [N1 N2]. rewrite N1. cbn [obind emul].
    cbn [x_ideal x_cpl emb_bs]. unfold fin at 1. rewrite aset_map, E5. cbn [omap obind]. rewrite E6. cbn [obind].
    rewrite ediv_fin by (apply Rmult_integral_contrapositive_currified; lra). unfold fin at 1. rewrite aset_map, E7. cbn [omap obind].
    split; [reflexivity|apply Herr0].
  Qed.
  Lemma window_agree b k : xin_converged_window (emb_bs b) k = in_converged_window b k. Proof. reflexivity. Qed.

  Definition emb_res (r : rowres) : xrowres := match r with Continue => XContinue | Accepted h => XAccepted (Fin h) | Rejected h => XRejected (Fin h) end.
  Definition res_ok (r : rowres) : Prop := match r with Rejected h => h <> 0 | _ => True end.
  Lemma rows_agree : forall f k b p input h b' p' r, h <> 0 ->
    rows M kdk P rd collect run err nx lim f k b p input h = Ok (b', p', r) ->
    xrows M kdk P' rd' collect' run' err' nx' lim' f k (emb_bs b) (phi p) (fin input) (Fin h) = Ok (emb_bs b', phi p', emb_res r) /\ res_ok r.
  Proof.
    induction f as [|f IH]; intros k b p input h b' p' r Hh E; cbn [rows xrows] in *.
    - injection E as <- <- <-. split; [reflexivity|exact Logic.I].
    - apply obind_ok in E. destruct E as (p1 & E1 & E). apply obind_ok in E. destruct E as (n & E2 & E). apply obind_ok in E. destruct E as ([p2 dy] & E3 & E).
      apply obind_ok in E. destruct E as ([b1 e] & E4 & E).
      assert (Hk : (k <= M)%nat) by (unfold bs_h in E2; destruct (k <? M + 1)%nat eqn:Q; [apply Nat.ltb_lt in Q; lia|discriminate]).
      rewrite (Hrd _ _ _ E1). cbn [obind]. rewrite E2. cbn [obind]. rewrite (Hrun _ _ _ _ _ E3). cbn [obind].
      destruct (row_table_agree _ _ _ _ _ _ _ Hk Hh E4) as [R1 R2]. rewrite R1. cbn [obind]. rewrite window_agree.
      destruct (in_converged_window b1 k); [|apply IH; auto].
      rewrite ele_fin. destruct (Rle_dec e 1) as [Le|Le].
      + apply obind_ok in E. destruct E as (e0 & E5 & E). apply obind_ok in E. destruct E as (p3 & E6 & E). cbv zeta in E.
        apply obind_ok in E. destruct E as ([b2 new_h] & E7 & E). injection E as <- <- <-.
        cbn [x_ext emb_bs]. rewrite aget_map, E5. cbn [omap obind]. rewrite (xzipw_fin _ Rplus) by reflexivity. rewrite (Hrd _ _ _ E6). cbn [obind]. cbv zeta.
        change (xaccept1 (emb_bs b1) (Fin e)) with (emb_bs (accept1 b1 e)). rewrite (next_iteration_agree _ _ _ _ E7). cbn [obind].
        rewrite ediv_fin by auto. destruct (Hlim k (new_h / h) Hk) as [L1 L2]. rewrite L1. cbn [obind emul]. rewrite Hco. split; [reflexivity|exact Logic.I].
      + apply obind_ok in E. destruct E as (d & E5 & E). rewrite (diverged_agree _ _ _ _ E5). cbn [obind]. destruct d; [|apply IH; auto].
        apply obind_ok in E. destruct E as ([b2 new_h] & E7 & E). injection E as <- <- <-.
        change (xreject1 (emb_bs b1)) with (emb_bs (reject1 b1)). rewrite (next_iteration_agree _ _ _ _ E7). cbn [obind].
        rewrite ediv_fin by auto. destruct (Hlim k (new_h / h) Hk) as [L1 L2]. rewrite L1. cbn [obind emul]. split; [reflexivity|].
        unfold res_ok. apply Rmult_integral_contrapositive_currified; [exact Hh|apply Rgt_not_eq; exact L2].
  Qed.
  Lemma attempts_agree : forall t b p input h b' p' h', h <> 0 ->
    attempts M kdk P rd collect run err nx lim t b p input h = Ok (b', p', h') ->
    xattempts M kdk P' rd' collect' run' err' nx' lim' t (emb_bs b) (phi p) (fin input) (Fin h) = Ok (emb_bs b', phi p', Fin h').
  Proof.
    induction t as [|t IH]; intros b p input h b' p' h' Hh E; cbn [attempts xattempts] in *; [discriminate|].
    apply obind_ok in E. destruct E as (n0 & E1 & E). rewrite E1. cbn [obind]. apply obind_ok in E. destruct E as ([p1 dy] & E2 & E).
    rewrite (Hrun _ _ _ _ _ E2). cbn [obind]. apply obind_ok in E. destruct E as (tab & E3 & E).
    change (x_ext (xcount_try (emb_bs b))) with (map fin (b_ext (count_try b))). rewrite aset_map, E3. cbn [omap obind].
    apply obind_ok in E. destruct E as ([[b1 p2] res] & E4 & E). destruct (rows_agree _ _ _ _ _ _ _ _ _ Hh E4) as [R1 R2].
    change (xset_row (xcount_try (emb_bs b)) (map fin tab) (x_ideal (xcount_try (emb_bs b))) (x_cpl (xcount_try (emb_bs b))))
      with (emb_bs (set_row (count_try b) tab (b_ideal (count_try b)) (b_cpl (count_try b)))).
    change (x_rank (xcount_try (emb_bs b))) with (b_rank (count_try b)). rewrite R1. cbn [obind].
    destruct res as [|h1|h1]; cbn [emb_res].
    - apply obind_ok in E. destruct E as (p3 & E5 & E). rewrite (Hrd _ _ _ E5). cbn [obind]. apply IH; auto.
    - injection E as <- <- <-. reflexivity.
    - apply obind_ok in E. destruct E as (p3 & E5 & E). rewrite (Hrd _ _ _ E5). cbn [obind]. apply IH; auto.
  Qed.
  Lemma iterate_agree b p h b' p' h' : h <> 0 ->
    iterate tn M kdk P wr rd collect run err nx lim b p h = Ok (b', p', h') ->
    xiterate tn M kdk P' wr' rd' collect' run' err' nx' lim' (emb_bs b) (phi p) (Fin h) = Ok (emb_bs b', phi p', Fin h').
  Proof. intros Hh E. unfold iterate in E. unfold xiterate. rewrite Hwr, Hco. apply attempts_agree; auto. Qed.
End Agree.

(** ** With the RMS checker only ordinary numbers are accepted *)
Section Rms.
  Variables (tn M : nat) (kdk : bool).
  Variables (P : Type) (wr : P -> list ext) (rd : P -> list ext -> outcome P) (collect : P -> bool -> P).
  Variable run : P -> ext -> nat -> outcome (P * list ext).
  Variables (atol rtol : R).
  Variables (nx lim : nat -> ext -> outcome ext).
  Hypothesis Ha : 0 < atol.
  Hypothesis Hr : 0 <= rtol.
  Variable L : nat.
  Variable Inv : P -> Prop.
  Hypothesis Hlen : forall p h n q dy, Inv p -> run p h n = Ok (q, dy) -> length dy = L /\ Inv q.
  Hypothesis Hrd : forall p y q, Inv p -> rd p y = Ok q -> Inv q.

  (** Entries of the extrapolation table below [k] have the length of the state array. *)
  Definition tab_ok (k : nat) (tab : list (list ext)) : Prop := forall j a, (j < k)%nat -> nth_error tab j = Some a -> length a = L.
  Lemma nth_error_list_set {A} : forall (l : list A) i x j, (i < length l)%nat -> nth_error (list_set l i x) j = if (j =? i)%nat then Some x else nth_error l j.
  Proof.
    induction l as [|y l IH]; intros [|i] x [|j] H; cbn in *; try lia; auto. rewrite IH by lia. reflexivity.
  Qed.
  Lemma aset_nth {A} (l : list A) i x l' j : aset l i x = Ok l' -> nth_error l' j = if (j =? i)%nat then Some x else nth_error l j.
  Proof.
    unfold aset. destruct (i <? length l)%nat eqn:Q; [|discriminate]. intros E. injection E as <-. apply Nat.ltb_lt in Q. apply nth_error_list_set. exact Q.
  Qed.
  Lemma aget_nth_error {A} (l : list A) i x : aget l i = Ok x -> nth_error l i = Some x.
  Proof. unfold aget. destruct (nth_error l i); congruence. Qed.
  Lemma xzipw_length F a b : length (xzipw F a b) = min (length a) (length b).
  Proof. unfold xzipw. rewrite map_length, combine_length. reflexivity. Qed.
  Lemma extrap_tab k : forall j tab tab', tab_ok (S k) tab -> (j <= k)%nat -> xextrap_loop (M + 1) k j tab = Ok tab' -> tab_ok (S k) tab'.
  Proof.
    induction j as [|j IH]; intros tab tab' H Hj E; cbn [xextrap_loop] in E; [injection E as <-; exact H|].
    apply obind_ok in E. destruct E as (c & E1 & E). apply obind_ok in E. destruct E as (a & E2 & E). apply obind_ok in E. destruct E as (b & E3 & E).
    apply obind_ok in E. destruct E as (t & E4 & E). apply (IH t tab'); auto; [|lia].
    intros i x Hi Hx. rewrite (aset_nth _ _ _ _ i E4) in Hx. destruct (i =? j)%nat; [|apply (H i); auto].
    injection Hx as <-. rewrite xzipw_length, (H (S j) a), (H j b); auto using aget_nth_error; try lia.
  Qed.
  (** A component that is not an ordinary number in row k is not an ordinary number in the extrapolated result. *)
  Lemma extrap_nonfinite k i : forall j tab tab' a x, tab_ok (S k) tab -> (j <= k)%nat -> nth_error tab j = Some a -> nth_error a i = Some x -> ~ finite x ->
    xextrap_loop (M + 1) k j tab = Ok tab' -> exists a' y, nth_error tab' 0 = Some a' /\ nth_error a' i = Some y /\ ~ finite y.
  Proof.
    induction j as [|j IH]; intros tab tab' a x H Hj Ta Na Nf E; cbn [xextrap_loop] in E; [injection E as <-; eauto|].
    apply obind_ok in E. destruct E as (c & E1 & E). apply obind_ok in E. destruct E as (a1 & E2 & E). apply obind_ok in E. destruct E as (b & E3 & E).
    apply obind_ok in E. destruct E as (t & E4 & E).
    assert (a1 = a) by (apply aget_nth_error in E2; congruence). subst a1. apply aget_nth_error in E3.
    assert (La : length a = L) by (apply (H (S j)); auto; lia). assert (Lb : length b = L) by (apply (H j); auto; lia).
    assert (Hi : (i < length a)%nat) by (apply nth_error_Some; congruence).
    destruct (nth_error b i) as [y|] eqn:Ny; [|apply nth_error_None in Ny; lia].
    refine (IH t tab' (xzipw (fun x y => eadd x (emul (esub x y) (Fin c))) a b) (eadd x (emul (esub x y) (Fin c))) _ ltac:(lia) _ _ _ E).
    - intros u w Hu Hw. rewrite (aset_nth _ _ _ _ u E4) in Hw. destruct (u =? j)%nat; [|apply (H u); auto].
      injection Hw as <-. rewrite xzipw_length. lia.
    - rewrite (aset_nth _ _ _ _ j E4), Nat.eqb_refl. reflexivity.
    - unfold xzipw. rewrite nth_error_map.
      assert (Nc : nth_error (combine a b) i = Some (x, y)).
      { clear -Na Ny. revert b i Na Ny. induction a as [|u a IHa]; intros [|w b] [|i] Na Ny; cbn in *; try discriminate; [congruence|apply IHa; auto]. }
      rewrite Nc. reflexivity.
    - intros [q Q]. apply Nf. destruct x as [r| | |]; [eexists; reflexivity| | |]; exfalso.
      + destruct (emul (esub PInf y) (Fin c)); discriminate.
      + destruct (emul (esub MInf y) (Fin c)); discriminate.
      + rewrite eadd_nan_l in Q. discriminate.
  Qed.
  Lemma xis_diverged_nan b k d : xis_diverged M b NaN k = Ok d -> d = false.
  Proof.
    unfold xis_diverged. destruct (negb (x_first b)); [|congruence]. intros E. apply obind_ok in E. destruct E as (r & _ & E). cbn in E. congruence.
  Qed.

  Variable input : list ext.
  Hypothesis Hin : Forall finite input.
  Hypothesis HinL : length input = L.
  Definition from_numbers (p' : P) : Prop :=
    exists q p3 dy, Inv q /\ Forall finite dy /\ Forall finite (xzipw eadd input dy) /\ rd q (xzipw eadd input dy) = Ok p3 /\ p' = collect p3 false.
  Definition finite_run : Prop := exists p0 p h k q dy, Inv p0 /\ rd p0 input = Ok p /\ (1 <= k <= M)%nat /\ run p h (h_at (M + 1) k) = Ok (q, dy) /\ Forall finite dy.
  Lemma zip_finite : forall a b, Forall finite a -> Forall finite b -> Forall finite (xzipw eadd a b).
  Proof.
    unfold xzipw. induction a as [|x a IH]; intros [|y b] Fa Fb; try constructor; inversion Fa; inversion Fb; subst.
    - destruct H1 as [u ->], H5 as [w ->]. eexists. reflexivity.
    - apply IH; auto.
  Qed.
  Lemma row_table_rms b dy h k b1 e : tab_ok k (x_ext b) -> length dy = L -> (1 <= k)%nat ->
    xrow_table M kdk (xrms_error atol rtol) nx b input dy h k = Ok (b1, e) ->
    tab_ok (S k) (x_ext b1) /\ (ele e (Fin 1) = true -> Forall finite dy /\ exists e0, nth_error (x_ext b1) 0 = Some e0 /\ Forall finite e0).
  Proof.
    intros Ht Ld Hk E. unfold xrow_table in E.
    apply obind_ok in E. destruct E as (t0 & E1 & E). apply obind_ok in E. destruct E as (tab & E2 & E).
    apply obind_ok in E. destruct E as (e1 & E3 & E). apply obind_ok in E. destruct E as (e0 & E4 & E). cbv zeta in E.
    apply obind_ok in E. destruct E as (f & E5 & E). apply obind_ok in E. destruct E as (ideal & E6 & E). apply obind_ok in E. destruct E as (c & E7 & E).
    apply obind_ok in E. destruct E as (cpl & E8 & E). injection E as <- <-. cbn [x_ext xset_row].
    assert (T0 : tab_ok (S k) t0).
    { intros j a Hj Ha0. rewrite (aset_nth _ _ _ _ j E1) in Ha0. destruct (j =? k)%nat eqn:Q; [congruence|]. apply Nat.eqb_neq in Q. apply (Ht j); auto. lia. }
    assert (T1 : tab_ok (S k) tab) by (eapply extrap_tab; [exact T0| |exact E2]; lia). split; [exact T1|].
    intros Le. apply aget_nth_error in E3, E4.
    assert (L1 : length e1 = L) by (apply (T1 1%nat); auto; lia). assert (L0 : length e0 = L) by (apply (T1 0%nat); auto; lia).
    destruct (xrms_accept atol rtol input e1 e0 Ha Hr ltac:(lia) ltac:(lia) Hin Le) as [F1 F0]. split; [|eauto].
    apply Forall_forall. intros x Hx. apply In_nth_error in Hx. destruct Hx as [i Hx].
    assert (D : finite x \/ ~ finite x) by (destruct x; [left; eexists; reflexivity|right; intros [q Q]; discriminate..]).
    destruct D as [D|D]; [exact D|exfalso].
    assert (Nk : nth_error t0 k = Some dy) by (rewrite (aset_nth _ _ _ _ k E1), Nat.eqb_refl; reflexivity).
    destruct (extrap_nonfinite k i k t0 tab dy x T0 (le_n _) Nk Hx D E2) as (a' & y & A1 & A2 & A3).
    assert (a' = e0) by congruence. subst a'. apply A3. rewrite Forall_forall in F0. apply F0. eapply nth_error_In; eauto.
  Qed.
  Lemma rows_inv : forall f k b p h b' p' r, Inv p -> xrows M kdk P rd collect run (xrms_error atol rtol) nx lim f k b p input h = Ok (b', p', r) -> (forall h', r <> XAccepted h') -> Inv p'.
  Proof.
    induction f as [|f IH]; intros k b p h b' p' r Ip E Nr; cbn [xrows] in E; [congruence|].
    apply obind_ok in E. destruct E as (p1 & E1 & E). apply obind_ok in E. destruct E as (n & E2 & E). apply obind_ok in E. destruct E as ([p2 dy] & E3 & E).
    apply obind_ok in E. destruct E as ([b1 e] & E4 & E).
    assert (I2 : Inv p2) by (apply (Hlen p1 h n p2 dy); [apply (Hrd p input); auto|exact E3]).
    destruct (xin_converged_window b1 k); [|apply (IH (S k) b1 p2 h b' p' r); auto].
    destruct (ele e (Fin 1)).
    - apply obind_ok in E. destruct E as (e0' & E5 & E). apply obind_ok in E. destruct E as (p3 & E6 & E). cbv zeta in E.
      apply obind_ok in E. destruct E as ([b2 new_h] & E7 & E). apply obind_ok in E. destruct E as (fa & E8 & E). injection E as _ _ <-. exfalso. eapply Nr. reflexivity.
    - apply obind_ok in E. destruct E as (d & E5 & E). destruct d; [|apply (IH (S k) b1 p2 h b' p' r); auto].
      apply obind_ok in E. destruct E as ([b2 new_h] & E7 & E). apply obind_ok in E. destruct E as (fa & E8 & E). injection E as _ <- _. exact I2.
  Qed.
  Lemma rows_rms : forall f k b p h b' p' h', Inv p -> tab_ok k (x_ext b) -> (1 <= k)%nat ->
    xrows M kdk P rd collect run (xrms_error atol rtol) nx lim f k b p input h = Ok (b', p', XAccepted h') -> from_numbers p' /\ finite_run.
  Proof.
    induction f as [|f IH]; intros k b p h b' p' h' Ip Ht Hk E; cbn [xrows] in E; [discriminate|].
    apply obind_ok in E. destruct E as (p1 & E1 & E). apply obind_ok in E. destruct E as (n & E2 & E). apply obind_ok in E. destruct E as ([p2 dy] & E3 & E).
    apply obind_ok in E. destruct E as ([b1 e] & E4 & E).
    assert (I1 : Inv p1) by (apply (Hrd p input); auto). destruct (Hlen _ _ _ _ _ I1 E3) as [Ld I2].
    destruct (row_table_rms _ _ _ _ _ _ Ht Ld Hk E4) as [T1 T2].
    destruct (xin_converged_window b1 k); [|apply (IH (S k) b1 p2 h b' p' h'); auto].
    destruct (ele e (Fin 1)).
    - destruct (T2 eq_refl) as (Fd & e0 & N0 & F0). apply obind_ok in E. destruct E as (e0' & E5 & E). apply aget_nth_error in E5.
      assert (e0' = e0) by congruence. subst e0'. apply obind_ok in E. destruct E as (p3 & E6 & E). cbv zeta in E.
      apply obind_ok in E. destruct E as ([b2 new_h] & E7 & E). apply obind_ok in E. destruct E as (fa & E8 & E). injection E as _ <- _.
      split; [exists p2, p3, e0; auto using zip_finite|]. unfold bs_h in E2. destruct (k <? M + 1)%nat eqn:Qk; [|discriminate]. apply Nat.ltb_lt in Qk. injection E2 as <-. exists p, p1, h, k, p2, dy. repeat split; auto; lia.
    - apply obind_ok in E. destruct E as (d & E5 & E). destruct d; [|apply (IH (S k) b1 p2 h b' p' h'); auto].
      apply obind_ok in E. destruct E as ([b2 new_h] & E7 & E). apply obind_ok in E. destruct E as (fa & E8 & E). discriminate.
  Qed.
  Lemma attempts_rms : forall t b p h b' p' h', Inv p ->
    xattempts M kdk P rd collect run (xrms_error atol rtol) nx lim t b p input h = Ok (b', p', h') -> from_numbers p' /\ finite_run.
  Proof.
    induction t as [|t IH]; intros b p h b' p' h' Ip E; cbn [xattempts] in E; [discriminate|].
    apply obind_ok in E. destruct E as (n0 & E1 & E). apply obind_ok in E. destruct E as ([p1 dy] & E2 & E). apply obind_ok in E. destruct E as (tab & E3 & E).
    apply obind_ok in E. destruct E as ([[b1 p2] res] & E4 & E).
    destruct (Hlen _ _ _ _ _ Ip E2) as [Ld I1].
    destruct res as [|h1|h1].
    - apply obind_ok in E. destruct E as (p3 & E5 & E). refine (IH _ _ _ _ _ _ _ E). apply (Hrd p2 input); [|exact E5]. eapply rows_inv; [exact I1|exact E4|discriminate].
    - injection E as _ <- _. eapply rows_rms; [exact I1| | |exact E4]; [|lia]. cbn [x_ext xset_row].
      intros j a Hj Ha0. rewrite (aset_nth _ _ _ _ j E3) in Ha0. replace j with 0%nat in Ha0 by lia. cbn in Ha0. injection Ha0 as <-. exact Ld.
    - apply obind_ok in E. destruct E as (p3 & E5 & E). refine (IH _ _ _ _ _ _ _ E). apply (Hrd p2 input); [|exact E5]. eapply rows_inv; [exact I1|exact E4|discriminate].
  Qed.
End Rms.
