(** C79: automatic file names. *)
From Coq Require DecimalZ.
From Coq Require Import DecimalString.
From Verif Require Import Name_Model.
Open Scope nat_scope.

(** A clock reading as localtime gives it, with a four-digit year. *)
Definition clock (t : tm) : Prop :=
  1 <= t_day t <= 31 /\ 1 <= t_mon t <= 12 /\ 1000 <= t_year t < 100 * 100 /\ t_hour t <= 23 /\ t_min t <= 59 /\ t_sec t <= 60.
(** A prefix is never used again at a clock reading it was used at, once another name was asked for in between. *)
Definition contiguous (h : list (string * tm)) : Prop :=
  forall i k j c, i < k < j -> nth_error h i = Some c -> nth_error h j = Some c -> nth_error h k = Some c.

(** ** Strings *)
Lemma sapp_assoc : forall a b c : string, ((a ++ b) ++ c)%string = (a ++ (b ++ c))%string.
Proof. induction a; intros; cbn; congruence. Qed.
Lemma sapp_len : forall a b, String.length (a ++ b) = String.length a + String.length b.
Proof. induction a; intros; cbn; auto. Qed.
Lemma sapp_inv : forall a b c d : string, String.length a = String.length b -> (a ++ c)%string = (b ++ d)%string -> a = b /\ c = d.
Proof.
  induction a as [|x a IH]; intros [|y b] c d L E; cbn in L, E; try discriminate; auto. injection L as L. injection E as -> E.
  destruct (IH _ _ _ L E) as (-> & ->). auto.
Qed.
Lemma sapp_inv_r : forall a b c d : string, String.length c = String.length d -> (a ++ c)%string = (b ++ d)%string -> a = b /\ c = d.
Proof. intros a b c d L E. apply sapp_inv; auto. pose proof (f_equal String.length E) as F. rewrite !sapp_len in F. lia. Qed.
Fixpoint has (c : ascii) (s : string) : Prop := match s with EmptyString => False | String x s => x = c \/ has c s end.
Lemma has_app : forall c a b, has c (a ++ b) <-> has c a \/ has c b.
Proof. induction a; intros; cbn; [tauto|]. rewrite IHa. tauto. Qed.
(** the last occurrence of a mark cuts a string uniquely *)
Lemma cut : forall m a b d e, ~ has m d -> ~ has m e -> (a ++ String m d)%string = (b ++ String m e)%string -> a = b /\ d = e.
Proof.
  induction a as [|x a IH]; intros [|y b] d e Hd He E; cbn in E.
  - injection E as ->. auto.
  - exfalso. injection E as -> ->. apply Hd. apply has_app. right. cbn. auto.
  - exfalso. injection E as -> <-. apply He. apply has_app. right. cbn. auto.
  - injection E as -> E. destruct (IH _ _ _ Hd He E) as (-> & ->). auto.
Qed.
Lemma int_string_inj : forall a b, int_string a = int_string b -> a = b.
Proof.
  intros a b H. unfold int_string in H. apply (f_equal NilEmpty.int_of_string) in H. rewrite !NilEmpty.isi in H. injection H as H.
  rewrite <- (DecimalZ.of_to a), <- (DecimalZ.of_to b). congruence.
Qed.
Definition digitish (c : ascii) : Prop := In c ["0";"1";"2";"3";"4";"5";"6";"7";"8";"9";"-"]%char.
Lemma uint_digits : forall u c, has c (NilEmpty.string_of_uint u) -> digitish c.
Proof. unfold digitish. induction u; cbn [NilEmpty.string_of_uint has]; intros c H; [contradiction|..]; destruct H as [<-|H]; auto; cbn; auto 12. Qed.
Lemma int_digits : forall z c, has c (int_string z) -> digitish c.
Proof.
  intros z c. unfold int_string, NilEmpty.string_of_int. destruct (Z.to_int z); [apply uint_digits|]. cbn [has]. intros [<-|H]; [unfold digitish; cbn; auto 12|].
  apply uint_digits in H. auto.
Qed.

(** ** The stamp *)
Lemma stamp_len : forall t, String.length (stamp t) = 19.
Proof. reflexivity. Qed.
Lemma digit_inj : forall a b, digit a = digit b -> a mod 10 = b mod 10.
Proof.
  intros a b H. unfold digit in H. apply (f_equal nat_of_ascii) in H. pose proof (Nat.mod_upper_bound a 10). pose proof (Nat.mod_upper_bound b 10).
  rewrite !nat_ascii_embedding in H by lia. lia.
Qed.
Lemma pad2_inj : forall a b, a < 100 -> b < 100 -> pad2 a = pad2 b -> a = b.
Proof.
  intros a b Ha Hb H. unfold pad2 in H. assert (digit (a / 10) = digit (b / 10) /\ digit a = digit b) as (H1 & H2) by (split; congruence).
  apply digit_inj in H1, H2. rewrite (Nat.mod_small (a / 10)), (Nat.mod_small (b / 10)) in H1 by (apply Nat.div_lt_upper_bound; lia).
  rewrite (Nat.div_mod a 10), (Nat.div_mod b 10) by lia. lia.
Qed.
Lemma pad4_inj : forall a b, a < 100 * 100 -> b < 100 * 100 -> pad4 a = pad4 b -> a = b.
Proof.
  intros a b Ha Hb H. unfold pad4 in H. apply sapp_inv in H; [|reflexivity]. destruct H as (H1 & H2).
  pose proof (Nat.div_mod a 100). pose proof (Nat.div_mod b 100). pose proof (Nat.mod_upper_bound a 100). pose proof (Nat.mod_upper_bound b 100).
  apply pad2_inj in H1; [|apply Nat.div_lt_upper_bound; lia|apply Nat.div_lt_upper_bound; lia]. apply pad2_inj in H2; lia.
Qed.
Lemma stamp_inj : forall s t, clock s -> clock t -> stamp s = stamp t -> s = t.
Proof.
  intros [d m y h mi s] [d' m' y' h' mi' s'] C1 C2 E. unfold clock in *; cbn [t_day t_mon t_year t_hour t_min t_sec] in C1, C2. unfold stamp in E. cbn [t_day t_mon t_year t_hour t_min t_sec] in E.
  repeat (apply sapp_inv in E; [|reflexivity]; let H := fresh "H" in destruct E as (H & E)).
  assert (X0 : d = d') by (apply pad2_inj; auto; lia). assert (X1 : m = m') by (apply pad2_inj; auto; lia). assert (X2 : y = y') by (apply pad4_inj; auto; lia).
  assert (X3 : h = h') by (apply pad2_inj; auto; lia). assert (X4 : mi = mi') by (apply pad2_inj; auto; lia). assert (X5 : s = s') by (apply pad2_inj; auto; lia).
  clear - X0 X1 X2 X3 X4 X5. congruence.
Qed.
Lemma base_inj : forall p q s t, clock s -> clock t -> (p ++ stamp s)%string = (q ++ stamp t)%string -> p = q /\ s = t.
Proof. intros p q s t Hs Ht E. apply sapp_inv_r in E; [|reflexivity]. destruct E as (-> & E). split; auto. apply stamp_inj; auto. Qed.
Lemma digit_range : forall n, exists k, k < 10 /\ digit n = ascii_of_nat (48 + k).
Proof. intros n. exists (n mod 10). split; auto. apply Nat.mod_upper_bound. lia. Qed.
Lemma digit_not_paren : forall n, digit n <> ")"%char.
Proof. intros n. destruct (digit_range n) as (k & K & ->). do 10 (destruct k as [|k]; [discriminate|]). lia. Qed.
Lemma stamp_end : forall t, exists a c, stamp t = (a ++ String c EmptyString)%string /\ c <> ")"%char.
Proof.
  intros t. exists (pad2 (t_day t) ++ "-" ++ pad2 (t_mon t) ++ "-" ++ pad4 (t_year t) ++ "_" ++ pad2 (t_hour t) ++ ":" ++ pad2 (t_min t) ++ ":" ++ String (digit (t_sec t / 10)) EmptyString)%string, (digit (t_sec t)).
  split; [reflexivity|apply digit_not_paren].
Qed.

(** ** The names *)
(** run length: how many calls in a row, ending with call n, asked for the same name *)
Fixpoint rl (b : list string) (n : nat) : nat :=
  match n with O => 1 | S m => if String.eqb (nth (S m) b EmptyString) (nth m b EmptyString) then S (rl b m) else 1 end.
Definition base (c : string * tm) : string := (fst c ++ stamp (snd c))%string.
Definition given (b : string) (r : nat) : string :=
  match r with O => EmptyString | S O => (b ++ ".dat")%string | S (S k) => (b ++ "(" ++ int_string (Z.of_nat (S k)) ++ ").dat")%string end.
Lemma rl_pos : forall b n, 1 <= rl b n <= S n.
Proof. induction n as [|n IH]; cbn [rl]; [lia|]. destruct (String.eqb _ _); lia. Qed.
Lemma rl_app : forall b c n, n < List.length b -> rl (b ++ c) n = rl b n.
Proof. induction n as [|n IH]; cbn [rl]; intros H; auto. rewrite !app_nth1 by lia. rewrite IH by lia. reflexivity. Qed.
Lemma base_nonempty : forall c, base c <> EmptyString.
Proof. intros c E. apply (f_equal String.length) in E. unfold base in E. rewrite sapp_len, stamp_len in E. cbn in E. lia. Qed.

Lemma auto_names_run : forall h, (Z.of_nat (List.length h) <= int_max)%Z ->
  exists out s, auto_names h = Ok (out, s) /\ List.length out = List.length h /\
    (forall i, i < List.length h -> nth i out EmptyString = given (nth i (map base h) EmptyString) (rl (map base h) i)) /\
    (h = [] -> s = ns_init) /\
    (forall n, List.length h = S n -> ns_last s = nth n (map base h) EmptyString /\ ns_dup s = Z.of_nat (rl (map base h) n)).
Proof.
  induction h as [|c h IH] using rev_ind; intros L.
  - exists [], ns_init. cbn. repeat split; auto; try lia; discriminate.
  - rewrite app_length in L. cbn in L. destruct IH as (out & s & E & Lo & Ho & S0 & Sn); [lia|]. unfold auto_names in *. rewrite fold_left_app, E. cbn [fold_left obind fst snd].
    assert (Lm : List.length (map base h) = List.length h) by apply map_length.
    assert (W : forall nm s', auto_name s (fst c) (snd c) = Ok (nm, s') -> nm = given (base c) (rl (map base (h ++ [c])) (List.length h)) ->
              ns_last s' = base c -> ns_dup s' = Z.of_nat (rl (map base (h ++ [c])) (List.length h)) ->
              exists out0 s0, obind (auto_name s (fst c) (snd c)) (fun q => Ok (out ++ [fst q], snd q)) = Ok (out0, s0) /\ List.length out0 = List.length (h ++ [c]) /\
                (forall i, i < List.length (h ++ [c]) -> nth i out0 EmptyString = given (nth i (map base (h ++ [c])) EmptyString) (rl (map base (h ++ [c])) i)) /\
                (h ++ [c] = [] -> s0 = ns_init) /\
                (forall n, List.length (h ++ [c]) = S n -> ns_last s0 = nth n (map base (h ++ [c])) EmptyString /\ ns_dup s0 = Z.of_nat (rl (map base (h ++ [c])) n))).
    { intros nm s' A N1 N2 N3. rewrite A. cbn [obind fst snd]. exists (out ++ [nm]), s'. rewrite !app_length. cbn [List.length]. split; [reflexivity|]. split; [lia|].
      assert (Nc : nth (List.length h) (map base (h ++ [c])) EmptyString = base c) by (rewrite map_app, app_nth2, Lm, Nat.sub_diag by lia; reflexivity).
      split; [|split].
      - intros i Hi. destruct (Nat.eq_dec i (List.length h)) as [->|Ni].
        + rewrite app_nth2, Lo, Nat.sub_diag by lia. cbn. rewrite Nc. exact N1.
        + rewrite app_nth1 by lia. rewrite Ho by lia. rewrite map_app, app_nth1, rl_app by (rewrite ?Lm; lia). reflexivity.
      - intros Z. destruct h; discriminate.
      - intros n Hn. assert (n = List.length h) by lia. subst n. rewrite Nc. auto. }
    unfold auto_name in *. fold (base c) in *. destruct h as [|c0 h0] eqn:Eh.
    + rewrite (S0 eq_refl) in *. cbn [ns_last ns_init] in *. destruct (String.eqb_spec (base c) EmptyString) as [Z|_]; [exfalso; exact (base_nonempty _ Z)|].
      eapply W; [reflexivity|..]; reflexivity.
    + rewrite <- Eh in *. destruct (List.length h) as [|n] eqn:Ln; [subst h; discriminate|]. destruct (Sn n eq_refl) as (S1 & S2).
      assert (R : rl (map base (h ++ [c])) (S n) = if String.eqb (base c) (ns_last s) then S (rl (map base h) n) else 1).
      { cbn [rl]. rewrite map_app. rewrite (app_nth2 _ _ _ (n := S n)) by (rewrite Lm; lia). rewrite Lm. replace (S n - S n) with 0 by lia. rewrite app_nth1 by (rewrite Lm; lia).
        rewrite S1, rl_app by (rewrite Lm; lia). reflexivity. }
      pose proof (rl_pos (map base h) n) as RP. destruct (String.eqb_spec (base c) (ns_last s)) as [Q|Q].
      * destruct (Z.eqb_spec (ns_dup s) int_max) as [Z|Z]; [exfalso; rewrite S2 in Z; lia|].
        eapply W; [reflexivity|..]; cbn [ns_last ns_dup]; rewrite ?R; auto.
        -- unfold given. destruct (rl (map base h) n) as [|k] eqn:K; [lia|]. rewrite S2. reflexivity.
        -- rewrite S2. lia.
      * eapply W; [reflexivity|..]; cbn [ns_last ns_dup]; rewrite ?R; auto.
Qed.
Lemma rl_run : forall b n k, k < rl b n -> nth (n - k) b EmptyString = nth n b EmptyString.
Proof.
  induction n as [|n IH]; intros k Hk; cbn [rl] in Hk; [f_equal; lia|]. destruct k as [|k]; [f_equal; lia|].
  destruct (String.eqb_spec (nth (S n) b EmptyString) (nth n b EmptyString)) as [E|E]; [|lia]. rewrite E. cbn [Nat.sub]. apply IH. lia.
Qed.
Lemma rl_start : forall b n, rl b (S n - rl b n) = 1.
Proof.
  induction n as [|n IH]; [reflexivity|]. pose proof (rl_pos b n). cbn [rl]. destruct (String.eqb_spec (nth (S n) b EmptyString) (nth n b EmptyString)) as [E|E].
  - exact IH.
  - replace (S (S n) - 1) with (S n) by lia. cbn [rl]. destruct (String.eqb_spec (nth (S n) b EmptyString) (nth n b EmptyString)); [contradiction|reflexivity].
Qed.
Lemma rl_grow : forall b i d, (forall k, i <= k <= i + d -> nth k b EmptyString = nth i b EmptyString) -> rl b (i + d) = rl b i + d.
Proof.
  induction d as [|d IH]; intros H; [rewrite !Nat.add_0_r; reflexivity|]. rewrite Nat.add_succ_r. cbn [rl]. rewrite (H (S (i + d))), (H (i + d)) by lia.
  rewrite String.eqb_refl, IH by (intros; apply H; lia). lia.
Qed.
Lemma dat : forall a b, (a ++ ".dat")%string = (b ++ ".dat")%string -> a = b.
Proof. intros a b E. apply sapp_inv_r in E; tauto. Qed.
Lemma given_inj : forall c d r s, 1 <= r -> 1 <= s -> given (base c) r = given (base d) s -> base c = base d /\ r = s.
Proof.
  assert (X : forall c x k, (base c ++ ".dat")%string <> (x ++ "(" ++ int_string k ++ ").dat")%string).
  { intros c x k E. replace (x ++ "(" ++ int_string k ++ ").dat")%string with ((x ++ "(" ++ int_string k) ++ ")" ++ ".dat")%string in E by (rewrite !sapp_assoc; reflexivity).
    rewrite <- sapp_assoc in E. apply dat in E. destruct (stamp_end (snd c)) as (a & z & Es & Hz). unfold base in E. rewrite Es, <- sapp_assoc in E.
    apply sapp_inv_r in E; [|reflexivity]. destruct E as (_ & E). congruence. }
  intros c d r s Hr Hs E. destruct r as [|[|r]], s as [|[|s]]; try lia; cbn [given] in E.
  - split; auto. apply dat; auto.
  - exfalso. exact (X _ _ _ E).
  - exfalso. exact (X _ _ _ (eq_sym E)).
  - assert (G : forall x k, (x ++ "(" ++ int_string k ++ ").dat")%string = ((x ++ String "(" (int_string k)) ++ ").dat")%string) by (intros; rewrite !sapp_assoc; reflexivity).
    rewrite !G in E. apply sapp_inv_r in E; [|reflexivity]. destruct E as (E & _).
    assert (N : forall k, ~ has "("%char (int_string k)) by (intros k H; apply int_digits in H; cbn in H; intuition discriminate).
    apply cut in E; auto. destruct E as (E1 & E2). apply int_string_inj in E2. split; auto. lia.
Qed.

(** C79.  For every history of fewer than 2^31 calls, with any prefixes and clock readings: every call returns, and the names
    returned are pairwise distinct exactly when no prefix comes back at a clock reading it was used at after another name
    was asked for. *)
Theorem C79_distinct_names : forall h, (Z.of_nat (List.length h) <= 2147483647)%Z -> (forall c, In c h -> clock (snd c)) ->
  exists out s, auto_names h = Ok (out, s) /\ List.length out = List.length h /\ (NoDup out <-> contiguous h).
Proof.
  intros h L Hc. destruct (auto_names_run h L) as (out & s & E & Lo & Ho & _). exists out, s. split; auto. split; auto.
  assert (Nb : forall i c, nth_error h i = Some c -> nth i (map base h) EmptyString = base c).
  { intros i c Hi. apply nth_error_nth. rewrite nth_error_map, Hi. reflexivity. }
  assert (At : forall i, i < List.length h -> exists c, nth_error h i = Some c). { intros i Hi. destruct (nth_error h i) eqn:Q; eauto. apply nth_error_None in Q. lia. }
  assert (BI : forall c d, In c h -> In d h -> base c = base d -> c = d).
  { intros [p s1] [q t] H1 H2 Q. destruct (base_inj p q s1 t (Hc _ H1) (Hc _ H2) Q) as (-> & ->). reflexivity. }
  set (b := map base h) in *. split.
  - intros ND i k j c Hk Hi Hj. assert (Lj : j < List.length h) by (apply nth_error_Some; congruence). destruct (At k) as (d & Hd); [lia|].
    destruct (string_dec (base c) (base d)) as [Q|Q]; [rewrite Hd; f_equal; symmetry; apply BI; auto; eapply nth_error_In; eauto|]. exfalso.
    pose proof (rl_pos b i) as Pi. pose proof (rl_pos b j) as Pj.
    assert (Sj : j - k >= rl b j). { destruct (le_lt_dec (rl b j) (j - k)); auto. exfalso. apply Q. pose proof (rl_run b j (j - k) l) as Rr. replace (j - (j - k)) with k in Rr by lia.
      rewrite (Nb k d), (Nb j c) in Rr by auto. congruence. }
    set (si := S i - rl b i). set (sj := S j - rl b j).
    assert (Ei : nth si b EmptyString = base c). { rewrite <- (Nb i c) by auto. rewrite <- (rl_run b i (rl b i - 1)) by lia. f_equal. unfold si. lia. }
    assert (Ej : nth sj b EmptyString = base c). { rewrite <- (Nb j c) by auto. rewrite <- (rl_run b j (rl b j - 1)) by lia. f_equal. unfold sj. lia. }
    assert (Same : nth si out EmptyString = nth sj out EmptyString).
    { rewrite !Ho by (unfold si, sj; lia). unfold si at 2, sj at 2. rewrite !rl_start. rewrite Ei, Ej. reflexivity. }
    apply (proj1 (NoDup_nth out EmptyString) ND) in Same; unfold si, sj in *; lia.
  - intros Ct. apply (NoDup_nth out EmptyString). intros i j Hi Hj Q. rewrite Lo in Hi, Hj. rewrite !Ho in Q by lia.
    assert (W : forall i j, i < j -> j < List.length h -> given (nth i b EmptyString) (rl b i) = given (nth j b EmptyString) (rl b j) -> False).
    { clear i j Hi Hj Q. intros i j Hij Hj Q. destruct (At i) as (c & Hci); [lia|]. destruct (At j) as (d & Hdj); [lia|]. rewrite (Nb i c), (Nb j d) in Q by auto.
      apply given_inj in Q; try (apply rl_pos). destruct Q as (Q & Rr). assert (c = d) by (apply BI; auto; eapply nth_error_In; eauto). subst d.
      assert (G : rl b (i + (j - i)) = rl b i + (j - i)).
      { apply rl_grow. intros k Hk. rewrite (Nb i c) by auto. apply Nb. destruct (Nat.eq_dec k i) as [->|]; auto. destruct (Nat.eq_dec k j) as [->|]; auto. apply (Ct i k j c); auto. lia. }
      replace (i + (j - i)) with j in G by lia. lia. }
    destruct (lt_eq_lt_dec i j) as [[A|A]|A]; auto; exfalso; [exact (W i j A Hj Q)|exact (W j i A Hi (eq_sym Q))].
Qed.
Print Assumptions C79_distinct_names.

(** C79.  What the names are: the prefix and the clock reading, and from the second call in a row with both equal a running number. *)
Theorem C79_form : forall h p t n, (Z.of_nat (List.length h + S n) < 2147483647)%Z ->
  (forall q s c, h = q ++ [(s, c)] -> (s ++ stamp c)%string <> (p ++ stamp t)%string) ->
  forall out s, auto_names (h ++ repeat (p, t) (S n)) = Ok (out, s) ->
  nth (List.length h + n) out EmptyString =
    match n with O => (p ++ stamp t ++ ".dat")%string | _ => (p ++ stamp t ++ "(" ++ int_string (Z.of_nat n) ++ ").dat")%string end.
Proof.
  intros h p t n L Hl out s E. destruct (auto_names_run (h ++ repeat (p, t) (S n))) as (out' & s' & E' & _ & Ho & _).
  { rewrite app_length, repeat_length. unfold int_max. lia. }
  rewrite E in E'. injection E' as -> ->. rewrite Ho by (rewrite app_length, repeat_length; lia). clear Ho E.
  set (b := map base (h ++ repeat (p, t) (S n))).
  assert (Nb : forall k, k <= n -> nth (List.length h + k) b EmptyString = base (p, t)).
  { intros k Hk. unfold b. rewrite map_app, app_nth2, map_length by (rewrite map_length; lia). replace (List.length h + k - List.length h) with k by lia.
    change EmptyString with (base (p, t)) at 1 || idtac. rewrite (nth_indep _ EmptyString (base (p, t))) by (rewrite map_length, repeat_length; lia). rewrite map_nth.
    f_equal. destruct (nth_in_or_default k (repeat (p, t) (S n)) (p, t)) as [I|I]; [apply repeat_spec in I; auto|auto]. }
  assert (R0 : rl b (List.length h) = 1).
  { destruct h as [|x h] using rev_ind; [reflexivity|]. clear IHh. destruct x as [s c]. assert (Lh : List.length (h ++ [(s, c)]) = S (List.length h)) by (rewrite app_length; cbn; lia). rewrite Lh. cbn [rl].
    pose proof (Nb 0 ltac:(lia)) as N0. rewrite Lh, Nat.add_0_r in N0. rewrite N0.
    assert (N1 : nth (List.length h) b EmptyString = base (s, c)). { unfold b. rewrite !map_app, <- app_assoc. rewrite app_nth2, map_length, Nat.sub_diag by (rewrite map_length; lia). reflexivity. }
    rewrite N1. destruct (String.eqb_spec (base (p, t)) (base (s, c))) as [Q|Q]; auto. exfalso. apply (Hl h s c eq_refl). symmetry. exact Q. }
  assert (Rn : rl b (List.length h + n) = S n).
  { rewrite rl_grow, R0; [lia|]. intros k Hk. replace k with (List.length h + (k - List.length h)) by lia. rewrite Nb by lia.
    pose proof (Nb 0 ltac:(lia)) as N0. rewrite Nat.add_0_r in N0. congruence. }
  rewrite Rn, Nb by lia. unfold base. cbn [fst snd]. destruct n as [|n]; cbn [given]; rewrite sapp_assoc; reflexivity.
Qed.
Print Assumptions C79_form.

(** C79.  One prefix and a clock whose readings never come back: all names are distinct. *)
Theorem C79_one_prefix : forall p ts, (Z.of_nat (List.length ts) <= 2147483647)%Z -> (forall t, In t ts -> clock t) ->
  (forall i k j t, i < k < j -> nth_error ts i = Some t -> nth_error ts j = Some t -> nth_error ts k = Some t) ->
  exists out s, auto_names (map (pair p) ts) = Ok (out, s) /\ List.length out = List.length ts /\ NoDup out.
Proof.
  intros p ts L Hc Hm. destruct (C79_distinct_names (map (pair p) ts)) as (out & s & E & Lo & N).
  - rewrite map_length; auto. - intros c Hi. apply in_map_iff in Hi. destruct Hi as (t & <- & Ht). auto.
  - rewrite map_length in Lo. exists out, s. split; auto. split; auto. apply N. intros i k j c Hk Hi Hj. rewrite nth_error_map in *.
    destruct (nth_error ts i) as [t|] eqn:E1; [|discriminate]. destruct (nth_error ts j) as [t2|] eqn:E2; [|discriminate]. cbn in Hi, Hj. injection Hi as <-. injection Hj as ->.
    rewrite (Hm i k j t Hk E1 E2). reflexivity.
Qed.
Print Assumptions C79_one_prefix.

(** C79 fails with two prefixes in one second: the third call returns the first name again. *)
Theorem C79_two_prefixes_refuted : exists h out s, (forall c, In c h -> clock (snd c)) /\ auto_names h = Ok (out, s) /\
  nth 0 out EmptyString = nth 2 out EmptyString /\ ~ NoDup out.
Proof.
  exists [("a"%string, mkTm 1 2 2024 3 4 5); ("b"%string, mkTm 1 2 2024 3 4 5); ("a"%string, mkTm 1 2 2024 3 4 5)]. eexists. eexists.
  split; [|split; [vm_compute; reflexivity|split; [reflexivity|]]].
  - intros c [<-|[<-|[<-|[]]]]; unfold clock; cbn [t_day t_mon t_year t_hour t_min t_sec snd]; repeat split; lia.
  - intros N. inversion N as [|? ? N1 _]. apply N1. right. left. reflexivity.
Qed.
Print Assumptions C79_two_prefixes_refuted.

(** C79.  Numbered names: for one prefix and one extension, different numbers give different names... *)
Theorem C79_make_name : forall p e a b, make_name p a e = make_name p b e -> a = b.
Proof.
  intros p e a b E. unfold make_name in E. apply sapp_inv in E; [|reflexivity]. destruct E as (_ & E). apply int_string_inj.
  assert (L : String.length (int_string a) = String.length (int_string b)) by (apply (f_equal String.length) in E; rewrite !sapp_len in E; lia).
  apply sapp_inv in E; tauto.
Qed.
Print Assumptions C79_make_name.
(** ... but not across prefixes. *)
Theorem C79_make_name_across_prefixes_refuted : exists p q a b, (p, a) <> (q, b) /\ make_name p a ".dat" = make_name q b ".dat".
Proof. exists "run1"%string, "run"%string, 2%Z, 12%Z. split; [congruence|reflexivity]. Qed.
Print Assumptions C79_make_name_across_prefixes_refuted.

(** The hypotheses are met: three calls in one second, then one in the next. *)
Example C79_case : exists h out s, (forall c, In c h -> clock (snd c)) /\ contiguous h /\ auto_names h = Ok (out, s) /\
  out = ["space_31-12-2024_23:59:59.dat"; "space_31-12-2024_23:59:59(1).dat"; "space_31-12-2024_23:59:59(2).dat"; "space_01-01-2025_00:00:00.dat"]%string.
Proof.
  exists [("space_"%string, mkTm 31 12 2024 23 59 59); ("space_"%string, mkTm 31 12 2024 23 59 59); ("space_"%string, mkTm 31 12 2024 23 59 59); ("space_"%string, mkTm 1 1 2025 0 0 0)]. eexists. eexists.
  split; [|split; [|split; [vm_compute; reflexivity|reflexivity]]].
  - intros c [<-|[<-|[<-|[<-|[]]]]]; unfold clock; cbn [t_day t_mon t_year t_hour t_min t_sec snd]; repeat split; lia.
  - match goal with |- contiguous [?A; _; _; ?B] => generalize A, B end.
    intros A B i k j c Hk Hi Hj. destruct i as [|[|[|[|i]]]], j as [|[|[|[|j]]]], k as [|[|[|[|k]]]]; try lia; cbn in Hi, Hj |- *; try congruence; destruct j; discriminate.
Qed.
