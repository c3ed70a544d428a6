(** C47 (containers), C67 (text forms of particles). *)
From Verif Require Import Text Part_Model Part_Spec.

(** * Lists *)
Lemma vresize_map {A B} (f : A -> B) d e n l : f d = e -> vresize e n (map f l) = map f (vresize d n l).
Proof.
  intros <-. unfold vresize. rewrite map_app, firstn_map, map_length. f_equal. induction (n - length l); simpl; auto. f_equal; auto.
Qed.
Lemma vresize_len {A} (d : A) n l : length (vresize d n l) = n.
Proof. unfold vresize. rewrite app_length, firstn_length, repeat_length. lia. Qed.
Lemma vresize_spec {A} (d : A) n l : vresize d n l = if n <=? length l then firstn n l else l ++ repeat d (n - length l).
Proof.
  unfold vresize. destruct (Nat.leb_spec n (length l)).
  - replace (n - length l) with 0 by lia. simpl. apply app_nil_r.
  - rewrite firstn_all2 by lia. auto.
Qed.
Lemma aget_map {A B} (f : A -> B) l i x : nth_error l i = Some x -> aget (map f l) i = Ok (f x).
Proof. intros H. unfold aget. rewrite nth_error_map, H. auto. Qed.
Lemma collect_all {A} (f : nat -> outcome A) l : (forall i x, nth_error l i = Some x -> f i = Ok x) -> collect_upto f (length l) = Ok l.
Proof.
  intros H. assert (G : forall k, k <= length l -> collect_upto f k = Ok (firstn k l)).
  { induction k as [|k IH]; intros Hk; [reflexivity|]. cbn [collect_upto]. rewrite IH by lia. simpl.
    destruct (nth_error l k) as [x|] eqn:E; [|apply nth_error_None in E; lia]. rewrite (H _ _ E). simpl. f_equal.
    clear - E. revert k E. induction l as [|y l IH]; intros [|k] E; simpl in *; try discriminate; [congruence|]. f_equal. auto. }
  rewrite G by lia. rewrite firstn_all. auto.
Qed.
Lemma seq_op_len {P} (d : P) l (ids : list nat) o : length ids = length l -> length (id_op ids o) = length (seq_op d l o).
Proof.
  intros H. destruct o; simpl; auto; [rewrite !app_length; simpl; lia|]. rewrite H. destruct (n <=? length l); [rewrite !firstn_length; lia|].
  rewrite !app_length, !repeat_length. lia.
Qed.
Definition ids_after {P} (n : nat) (ops : list (cop P)) : list nat := fold_left id_op ops (seq 0 n).

(** * Histories *)
Section C47.
Context {T : Type} (zero : T).
Notation p0 := (PP zero (v3_0 zero) (v3_0 zero)).
Notation s0 := (SP zero zero (v3_0 zero) (v3_0 zero)).
Notation d0 := (DP zero zero zero (v3_0 zero) (v3_0 zero)).
Notation t0 := (TP zero zero zero zero (v3_0 zero) (v3_0 zero)).

Definition rep_pp (c : pps T) (l : list (pp T)) (ids : list nat) : Prop :=
  q_pos c = map pp_pos l /\ q_vel c = map pp_vel l /\ q_mass c = map pp_mass l /\ q_idn c = ids /\ q_num c = length l /\ length ids = length l.
Definition rep_sp (c : sps T) (l : list (sp T)) (ids : list nat) : Prop :=
  z_pos c = map sp_pos l /\ z_vel c = map sp_vel l /\ z_mass c = map sp_mass l /\ z_rad c = map sp_rad l /\ z_idn c = ids /\ z_num c = length l /\ length ids = length l.
Definition rep_dp (c : dps T) (l : list (dp T)) (ids : list nat) : Prop :=
  d_pos c = map dp_pos l /\ d_vel c = map dp_vel l /\ d_mass c = map dp_mass l /\ d_sub c = map dp_sub l /\ d_cs c = map dp_cs l /\ d_idn c = ids /\ d_num c = length l /\ length ids = length l.
Definition rep_tp (c : tps T) (l : list (tp T)) (ids : list nat) : Prop :=
  t_pos c = map tp_pos l /\ t_vel c = map tp_vel l /\ t_mass c = map tp_mass l /\ t_rad c = map tp_rad l /\ t_k c = map tp_k l /\ t_tau c = map tp_tau l /\
  t_idn c = ids /\ t_num c = length l /\ length ids = length l.

Lemma pp_step c l ids o : rep_pp c l ids -> rep_pp (pps_op zero c o) (seq_op p0 l o) (id_op ids o).
Proof.
  intros (A & B & C & D & E & F). pose proof (seq_op_len p0 l ids o F) as L. unfold rep_pp. destruct o; cbn in *.
  - rewrite A, B, C, D, E, !map_app, app_length, F. simpl. repeat split; auto. rewrite !app_length. simpl. lia.
  - rewrite A, B, C, D, <- !vresize_spec, vresize_len, !vresize_len. repeat split; try (apply vresize_map; reflexivity).
  - auto 10.
  - auto 10.
Qed.
Lemma sp_step c l ids o : rep_sp c l ids -> rep_sp (sps_op zero c o) (seq_op s0 l o) (id_op ids o).
Proof.
  intros (A & B & C & A1 & D & E & F). pose proof (seq_op_len s0 l ids o F) as L. unfold rep_sp. destruct o; cbn in *.
  - rewrite A, B, C, A1, D, E, !map_app, app_length, F. simpl. repeat split; auto. rewrite !app_length. simpl. lia.
  - rewrite A, B, C, A1, D, <- !vresize_spec, vresize_len, !vresize_len. repeat split; try (apply vresize_map; reflexivity).
  - auto 10.
  - auto 10.
Qed.
Lemma dp_step c l ids o : rep_dp c l ids -> rep_dp (dps_op zero c o) (seq_op d0 l o) (id_op ids o).
Proof.
  intros (A & B & C & A1 & A2 & D & E & F). pose proof (seq_op_len d0 l ids o F) as L. unfold rep_dp. destruct o; cbn in *.
  - rewrite A, B, C, A1, A2, D, E, !map_app, app_length, F. simpl. repeat split; auto. rewrite !app_length. simpl. lia.
  - rewrite A, B, C, A1, A2, D, <- !vresize_spec, vresize_len, !vresize_len. repeat split; try (apply vresize_map; reflexivity).
  - auto 10.
  - auto 12.
Qed.
Lemma tp_step c l ids o : rep_tp c l ids -> rep_tp (tps_op zero c o) (seq_op t0 l o) (id_op ids o).
Proof.
  intros (A & B & C & A1 & A2 & A3 & D & E & F). pose proof (seq_op_len t0 l ids o F) as L. unfold rep_tp. destruct o; cbn in *.
  - rewrite A, B, C, A1, A2, A3, D, E, !map_app, app_length, F. simpl. repeat split; auto. rewrite !app_length. simpl. lia.
  - rewrite A, B, C, A1, A2, A3, D, <- !vresize_spec, vresize_len, !vresize_len. repeat split; try (apply vresize_map; reflexivity).
  - auto 12.
  - auto 12.
Qed.
Lemma run_rep {C P : Type} (rep : C -> list P -> list nat -> Prop) (op : C -> cop P -> C) d :
  (forall c l ids o, rep c l ids -> rep (op c o) (seq_op d l o) (id_op ids o)) ->
  forall ops c l ids, rep c l ids -> rep (fold_left op ops c) (fold_left (seq_op d) ops l) (fold_left id_op ops ids).
Proof. intros H. induction ops as [|o ops IH]; intros c l ids R; simpl; auto. Qed.

(** For each kind of container and every history of the container: the particles it converts to are those the
    sequence operations give, its ids are those of the id operations, and every field array has length number(). *)
Theorem C47_point_history t set ops : let c := fold_left (pps_op zero) ops (pps_new t set) in let l := fold_left (seq_op p0) ops set in
  pps_aos c = Ok l /\ q_idn c = ids_after (length set) ops /\ q_num c = length l /\ q_time c = t /\
  length (q_pos c) = q_num c /\ length (q_vel c) = q_num c /\ length (q_mass c) = q_num c /\ length (q_idn c) = q_num c.
Proof.
  cbv zeta. assert (R : rep_pp (pps_new t set) set (seq 0 (length set))) by (unfold rep_pp; simpl; rewrite seq_length; auto 10).
  apply (run_rep rep_pp (pps_op zero) p0 pp_step ops) in R.
  assert (TM : forall ops c, q_time (fold_left (pps_op zero) ops c) = q_time c) by (induction ops0 as [|o os IH]; intros c; simpl; auto; rewrite IH; destruct o; auto).
  rewrite TM. unfold ids_after. set (c := fold_left (pps_op zero) ops (pps_new t set)) in *. set (l := fold_left (seq_op p0) ops set) in *.
  destruct R as (A & B & C & D & E & F). rewrite A, B, C, D, E, !map_length. split; [|auto 10].
  unfold pps_aos. rewrite E. apply collect_all. intros i x Hx. rewrite A, B, C, !(aget_map _ _ _ _ Hx). destruct x. reflexivity.
Qed.
Theorem C47_size_history t set ops : let c := fold_left (sps_op zero) ops (sps_new t set) in let l := fold_left (seq_op s0) ops set in
  sps_aos c = Ok l /\ z_idn c = ids_after (length set) ops /\ z_num c = length l /\ z_time c = t /\
  length (z_pos c) = z_num c /\ length (z_vel c) = z_num c /\ length (z_mass c) = z_num c /\ length (z_rad c) = z_num c /\ length (z_idn c) = z_num c.
Proof.
  cbv zeta. assert (R : rep_sp (sps_new t set) set (seq 0 (length set))) by (unfold rep_sp; simpl; rewrite seq_length; auto 10).
  apply (run_rep rep_sp (sps_op zero) s0 sp_step ops) in R.
  assert (TM : forall ops c, z_time (fold_left (sps_op zero) ops c) = z_time c) by (induction ops0 as [|o os IH]; intros c; simpl; auto; rewrite IH; destruct o; auto).
  rewrite TM. unfold ids_after. set (c := fold_left (sps_op zero) ops (sps_new t set)) in *. set (l := fold_left (seq_op s0) ops set) in *.
  destruct R as (A & B & C & A1 & D & E & F). rewrite A, B, C, A1, D, E, !map_length. split; [|auto 10].
  unfold sps_aos. rewrite E. apply collect_all. intros i x Hx. rewrite A, B, C, A1, !(aget_map _ _ _ _ Hx). destruct x. reflexivity.
Qed.
Theorem C47_drag_history t set ops : let c := fold_left (dps_op zero) ops (dps_new t set) in let l := fold_left (seq_op d0) ops set in
  dps_aos c = Ok l /\ d_idn c = ids_after (length set) ops /\ d_num c = length l /\ d_time c = t /\
  length (d_pos c) = d_num c /\ length (d_vel c) = d_num c /\ length (d_mass c) = d_num c /\ length (d_sub c) = d_num c /\ length (d_cs c) = d_num c /\ length (d_idn c) = d_num c.
Proof.
  cbv zeta. assert (R : rep_dp (dps_new t set) set (seq 0 (length set))) by (unfold rep_dp; simpl; rewrite seq_length; auto 10).
  apply (run_rep rep_dp (dps_op zero) d0 dp_step ops) in R.
  assert (TM : forall ops c, d_time (fold_left (dps_op zero) ops c) = d_time c) by (induction ops0 as [|o os IH]; intros c; simpl; auto; rewrite IH; destruct o; auto).
  rewrite TM. unfold ids_after. set (c := fold_left (dps_op zero) ops (dps_new t set)) in *. set (l := fold_left (seq_op d0) ops set) in *.
  destruct R as (A & B & C & A1 & A2 & D & E & F). rewrite A, B, C, A1, A2, D, E, !map_length. split; [|auto 12].
  unfold dps_aos. rewrite E. apply collect_all. intros i x Hx. rewrite A, B, C, A1, A2, !(aget_map _ _ _ _ Hx). destruct x. reflexivity.
Qed.
Theorem C47_tide_history t set ops : let c := fold_left (tps_op zero) ops (tps_new t set) in let l := fold_left (seq_op t0) ops set in
  tps_aos c = Ok l /\ t_idn c = ids_after (length set) ops /\ t_num c = length l /\ t_time c = t /\
  length (t_pos c) = t_num c /\ length (t_vel c) = t_num c /\ length (t_mass c) = t_num c /\ length (t_rad c) = t_num c /\ length (t_k c) = t_num c /\ length (t_tau c) = t_num c /\ length (t_idn c) = t_num c.
Proof.
  cbv zeta. assert (R : rep_tp (tps_new t set) set (seq 0 (length set))) by (unfold rep_tp; simpl; rewrite seq_length; auto 12).
  apply (run_rep rep_tp (tps_op zero) t0 tp_step ops) in R.
  assert (TM : forall ops c, t_time (fold_left (tps_op zero) ops c) = t_time c) by (induction ops0 as [|o os IH]; intros c; simpl; auto; rewrite IH; destruct o; auto).
  rewrite TM. unfold ids_after. set (c := fold_left (tps_op zero) ops (tps_new t set)) in *. set (l := fold_left (seq_op t0) ops set) in *.
  destruct R as (A & B & C & A1 & A2 & A3 & D & E & F). rewrite A, B, C, A1, A2, A3, D, E, !map_length. split; [|auto 12].
  unfold tps_aos. rewrite E. apply collect_all. intros i x Hx. rewrite A, B, C, A1, A2, A3, !(aget_map _ _ _ _ Hx). destruct x. reflexivity.
Qed.
End C47.
(** As long as resize never enlarges the container the ids are 0 .. number()-1 in order, hence distinct. *)
Theorem C47_ids_are_indices {P} (d : P) set ops : never_grows (length set) ops ->
  ids_after (length set) ops = seq 0 (length (fold_left (seq_op d) ops set)) /\ NoDup (ids_after (length set) ops).
Proof.
  intros H. assert (E : ids_after (length set) ops = seq 0 (length (fold_left (seq_op d) ops set))).
  { unfold ids_after. revert set H. induction ops as [|o ops IH]; intros set H; [reflexivity|]. destruct o; cbn [never_grows fold_left] in *.
    - cbn [id_op seq_op]. rewrite seq_length. replace (seq 0 (length set) ++ [length set]) with (seq 0 (length (set ++ [p]))).
      + apply IH. rewrite app_length, Nat.add_1_r. auto.
      + rewrite app_length, seq_app. reflexivity.
    - destruct H as (Hn & H). cbn [id_op seq_op]. rewrite seq_length. destruct (Nat.leb_spec n (length set)); [|lia].
      replace (firstn n (seq 0 (length set))) with (seq 0 (length (firstn n set))).
      + apply IH. rewrite firstn_length_le; auto.
      + rewrite firstn_length_le by auto. replace (length set) with (n + (length set - n)) by lia. rewrite seq_app, firstn_app, seq_length.
        rewrite firstn_all2 by (rewrite seq_length; auto). replace (n - n) with 0 by lia. simpl. rewrite app_nil_r. auto.
    - apply IH. auto.
    - cbn [id_op seq_op]. apply (IH []). auto. }
  rewrite E. split; auto. apply seq_NoDup.
Qed.
(** Growing by resize makes ids that are not the indices, and not distinct. *)
Theorem C47_ids_after_growth_refuted {T} (zero : T) : exists ops, let c := fold_left (pps_op zero) ops (pps_new zero []) in
  q_idn c = [0; 0; 2] /\ ~ NoDup (q_idn c) /\ q_num c = 3.
Proof.
  exists [Resize 2; Emplace (PP zero (v3_0 zero) (v3_0 zero))]. cbv zeta. split; [reflexivity|]. split; [|reflexivity].
  cbn. intros H. inversion_clear H. apply H0. left. auto.
Qed.
Example C47_case : never_grows 1 [Emplace (PP 1 (V3 1 2 3) (V3 4 5 6)); Resize 1; Reserve 7; Emplace (PP 2 (V3 0 0 0) (V3 0 0 1))] /\
  pps_aos (fold_left (pps_op 0) [Emplace (PP 1 (V3 1 2 3) (V3 4 5 6)); Resize 1; Reserve 7; Emplace (PP 2 (V3 0 0 0) (V3 0 0 1))] (pps_new 9 [PP 5 (V3 1 1 1) (V3 2 2 2)]))
  = Ok [PP 5 (V3 1 1 1) (V3 2 2 2); PP 2 (V3 0 0 0) (V3 0 0 1)].
Proof. split; [simpl; lia|reflexivity]. Qed.
Print Assumptions C47_point_history. Print Assumptions C47_size_history. Print Assumptions C47_drag_history. Print Assumptions C47_tide_history.
Print Assumptions C47_ids_are_indices. Print Assumptions C47_ids_after_growth_refuted.

(** * C67: text forms *)
Section C67.
Context {T : Type} (zero : T) (fmt : T -> text) (fmtn : nat -> text).
Hypothesis plain_fmt : forall x, plain (fmt x).
Hypothesis plain_fmtn : forall n, plain (fmtn n).
Lemma split_cells (l : list text) last : (forall t, In t l -> plain t) -> plain last -> split_on comma (concat (map (fun t => t ++ [comma]) l) ++ last) = l ++ [last].
Proof.
  intros H P. induction l as [|a l IH]; simpl; [apply split_on_none, P|].
  rewrite <- !app_assoc. simpl. rewrite split_on_app by (apply H; left; auto). rewrite IH; auto. intros t Ht. apply H. right. auto.
Qed.
(** The value printed under each column name is the particle's quantity of that name, for every row and every kind. *)
Definition table_row (row names : text) (vals : list (string * text)) : Prop :=
  exists body, row = body ++ [newline] /\ ~ In newline body /\ map Some (split_on comma body) = map (cell vals) (split_on comma names).
Lemma row_of (row : text) (l : list text) last names vals : (forall t, In t l -> plain t) -> plain last ->
  row = (concat (map (fun t => t ++ [comma]) l) ++ last) ++ [newline] ->
  map Some (l ++ [last]) = map (cell vals) (split_on comma names) -> table_row row names vals.
Proof.
  intros H P -> E. eexists. split; [reflexivity|]. rewrite split_cells by auto. split; auto.
  intros Q. apply in_app_iff in Q as [Q|Q]; [|apply P; auto]. apply in_concat in Q as (x & Hx & Q). apply in_map_iff in Hx as (t & <- & Ht).
  apply in_app_iff in Q as [Q|[Q|[]]]; [apply (H t Ht); auto|discriminate].
Qed.
Lemma point_table c l ids i p id : rep_pp c l ids -> nth_error l i = Some p -> nth_error ids i = Some id ->
  exists row, pps_row fmt fmtn c i = Ok row /\ table_row row pps_names (named_pp fmt fmtn (q_time c) id p).
Proof.
  intros (A & B & C & D & _) Hp Hi. unfold pps_row. rewrite A, B, C, D, !(aget_map _ _ _ _ Hp). unfold aget. rewrite Hi. cbn [obind]. eexists. split; [reflexivity|].
  apply (row_of _ [fmt (q_time c); fmtn id; fmt (pp_mass p); fmt (x3 (pp_pos p)); fmt (y3 (pp_pos p)); fmt (z3 (pp_pos p)); fmt (x3 (pp_vel p)); fmt (y3 (pp_vel p))] (fmt (z3 (pp_vel p)))).
  - intros t Ht. simpl in Ht. repeat destruct Ht as [<-|Ht]; auto. destruct Ht.
  - auto.
  - unfold out_v3. cbn [map concat]. rewrite <- !app_assoc. cbn [app]. rewrite <- ?app_assoc. reflexivity.
  - reflexivity.
Qed.
Lemma size_table c l ids i p id : rep_sp c l ids -> nth_error l i = Some p -> nth_error ids i = Some id ->
  exists row, sps_row fmt fmtn c i = Ok row /\ table_row row sps_names (named_sp fmt fmtn (z_time c) id p).
Proof.
  intros (A & B & C & A1 & D & _) Hp Hi. unfold sps_row. rewrite A, B, C, A1, D, !(aget_map _ _ _ _ Hp). unfold aget. rewrite Hi. cbn [obind]. eexists. split; [reflexivity|].
  apply (row_of _ [fmt (z_time c); fmtn id; fmt (sp_mass p); fmt (sp_rad p); fmt (x3 (sp_pos p)); fmt (y3 (sp_pos p)); fmt (z3 (sp_pos p)); fmt (x3 (sp_vel p)); fmt (y3 (sp_vel p))] (fmt (z3 (sp_vel p)))).
  - intros t Ht. simpl in Ht. repeat destruct Ht as [<-|Ht]; auto. destruct Ht.
  - auto.
  - unfold out_v3. cbn [map concat]. rewrite <- !app_assoc. cbn [app]. rewrite <- ?app_assoc. reflexivity.
  - reflexivity.
Qed.
Lemma drag_table c l ids i p id : rep_dp c l ids -> nth_error l i = Some p -> nth_error ids i = Some id ->
  exists row, dps_row fmt fmtn c i = Ok row /\ table_row row dps_names (named_dp fmt fmtn (d_time c) id p).
Proof.
  intros (A & B & C & A1 & A2 & D & _) Hp Hi. unfold dps_row. rewrite A, B, C, A1, A2, D, !(aget_map _ _ _ _ Hp). unfold aget. rewrite Hi. cbn [obind]. eexists. split; [reflexivity|].
  apply (row_of _ [fmt (d_time c); fmtn id; fmt (dp_mass p); fmt (x3 (dp_pos p)); fmt (y3 (dp_pos p)); fmt (z3 (dp_pos p)); fmt (x3 (dp_vel p)); fmt (y3 (dp_vel p)); fmt (z3 (dp_vel p)); fmt (dp_sub p)] (fmt (dp_cs p))).
  - intros t Ht. simpl in Ht. repeat destruct Ht as [<-|Ht]; auto. destruct Ht.
  - auto.
  - unfold out_v3. cbn [map concat]. rewrite <- !app_assoc. cbn [app]. rewrite <- ?app_assoc. reflexivity.
  - reflexivity.
Qed.
Lemma tide_table c l ids i p id : rep_tp c l ids -> nth_error l i = Some p -> nth_error ids i = Some id ->
  exists row, tps_row fmt fmtn c i = Ok row /\ table_row row tps_names (named_tp fmt fmtn (t_time c) id p).
Proof.
  intros (A & B & C & A1 & A2 & A3 & D & _) Hp Hi. unfold tps_row. rewrite A, B, C, A1, A2, A3, D, !(aget_map _ _ _ _ Hp). unfold aget. rewrite Hi. cbn [obind]. eexists. split; [reflexivity|].
  apply (row_of _ [fmt (t_time c); fmtn id; fmt (tp_mass p); fmt (tp_rad p); fmt (tp_k p); fmt (tp_tau p); fmt (x3 (tp_pos p)); fmt (y3 (tp_pos p)); fmt (z3 (tp_pos p)); fmt (x3 (tp_vel p)); fmt (y3 (tp_vel p))] (fmt (z3 (tp_vel p)))).
  - intros t Ht. simpl in Ht. repeat destruct Ht as [<-|Ht]; auto. destruct Ht.
  - auto.
  - unfold out_v3. cbn [map concat]. rewrite <- !app_assoc. cbn [app]. rewrite <- ?app_assoc. reflexivity.
  - reflexivity.
Qed.
(** All rows: one line per particle. *)
Lemma collect_exists {A} (f : nat -> outcome A) (Q : nat -> A -> Prop) n : (forall i, i < n -> exists x, f i = Ok x /\ Q i x) ->
  exists l, collect_upto f n = Ok l /\ length l = n /\ forall i x, nth_error l i = Some x -> Q i x.
Proof.
  induction n as [|n IH]; intros H.
  - exists []. split; auto. split; auto. intros [|i] x E; discriminate.
  - destruct IH as (l & E & L & K); [intros; apply H; lia|]. destruct (H n ltac:(lia)) as (x & F & Qx). exists (l ++ [x]). cbn [collect_upto]. rewrite E. simpl. rewrite F. simpl.
    split; auto. split; [rewrite app_length; simpl; lia|]. intros i y Hy. destruct (Nat.lt_ge_cases i (length l)).
    + rewrite nth_error_app1 in Hy by auto. auto.
    + rewrite nth_error_app2 in Hy by auto. destruct (i - length l) as [|k] eqn:Z; simpl in Hy; [|destruct k; discriminate]. injection Hy as <-. replace i with n by lia. auto.
Qed.
Lemma rows_lines (rows bodies : list text) : Forall2 (fun r b => r = b ++ [newline] /\ ~ In newline b) rows bodies -> getlines (concat rows) = bodies.
Proof.
  induction 1 as [|r b rs bs (-> & N) _ IH]; auto. simpl. rewrite <- app_assoc. simpl. rewrite getlines_app by auto. rewrite IH. auto.
Qed.
Lemma rows_split (rows : list text) (Q : nat -> text -> Prop) : (forall i r, nth_error rows i = Some r -> exists b, r = b ++ [newline] /\ ~ In newline b /\ Q i b) ->
  exists bodies, Forall2 (fun r b => r = b ++ [newline] /\ ~ In newline b) rows bodies /\ forall i b, nth_error bodies i = Some b -> Q i b.
Proof.
  revert Q. induction rows as [|r rows IH]; intros Q H.
  - exists []. split; auto. intros [|i] b E; discriminate.
  - destruct (H 0 r eq_refl) as (b & E & N & K). destruct (IH (fun i => Q (S i))) as (bs & F & G); [intros i x Hx; apply (H (S i)); auto|].
    exists (b :: bs). split; [constructor; auto|]. intros [|i] y Hy; simpl in Hy; [congruence|auto].
Qed.
(** The text consists of one line per particle, line i holding under each column name the value of particle i. *)
Definition csv_of (names : text) (vals : nat -> list (string * text) -> Prop) (n : nat) (out : text) : Prop :=
  length (getlines out) = n /\
  forall i line, nth_error (getlines out) i = Some line -> exists v, vals i v /\ map Some (split_on comma line) = map (cell v) (split_on comma names).
Lemma print_csv_of (row : nat -> outcome text) names (vals : nat -> list (string * text) -> Prop) n :
  (forall i, i < n -> exists r v, row i = Ok r /\ vals i v /\ table_row r names v) -> exists out, print_rows row n = Ok out /\ csv_of names vals n out.
Proof.
  intros H. destruct (collect_exists row (fun i r => exists v, vals i v /\ table_row r names v) n) as (rows & E & L & K).
  { intros i Hi. destruct (H i Hi) as (r & v & A & B & C). eauto. }
  destruct (rows_split rows (fun i b => exists v, vals i v /\ map Some (split_on comma b) = map (cell v) (split_on comma names))) as (bs & F & G).
  { intros i r Hr. destruct (K i r Hr) as (v & V & b & -> & N & M). exists b. eauto. }
  exists (concat rows). unfold print_rows. rewrite E. split; auto. unfold csv_of. rewrite (rows_lines _ _ F). split.
  - rewrite <- L. clear - F. induction F; simpl; auto.
  - intros i line Hl. apply G; auto.
Qed.
Lemma nth_some {A} (l : list A) i : i < length l -> exists x, nth_error l i = Some x.
Proof. intros H. destruct (nth_error l i) eqn:E; eauto. apply nth_error_None in E. lia. Qed.
(** Printing a container of point particles after any history. *)
Theorem C67_point_csv t set ops : let c := fold_left (pps_op zero) ops (pps_new t set) in
  exists out, print_rows (pps_row fmt fmtn c) (q_num c) = Ok out /\
    csv_of pps_names (fun i v => exists p id, (exists l, pps_aos c = Ok l /\ nth_error l i = Some p) /\ nth_error (q_idn c) i = Some id /\ v = named_pp fmt fmtn t id p) (q_num c) out.
Proof.
  intros c. destruct (C47_point_history zero t set ops) as (AOS & _ & _ & TM & _). fold c in AOS, TM.
  assert (R : rep_pp c (fold_left (seq_op (PP zero (v3_0 zero) (v3_0 zero))) ops set) (ids_after (length set) ops)).
  { apply (run_rep rep_pp (pps_op zero) _ (pp_step zero) ops). unfold rep_pp; simpl; rewrite seq_length; auto 12. }
  apply print_csv_of. intros i Hi.
  assert (N : q_num c = length (fold_left (seq_op (PP zero (v3_0 zero) (v3_0 zero))) ops set) /\ length (ids_after (length set) ops) = q_num c /\ q_idn c = ids_after (length set) ops).
  { unfold rep_pp in R. repeat match goal with H : _ /\ _ |- _ => destruct H end. repeat split; congruence. }
  destruct N as (N1 & N2 & N3).
  destruct (nth_some (fold_left (seq_op (PP zero (v3_0 zero) (v3_0 zero))) ops set) i) as (p & Hp); [lia|]. destruct (nth_some (ids_after (length set) ops) i) as (id & Hid); [lia|].
  destruct (point_table c _ _ i p id R Hp Hid) as (row & E & TR). exists row, (named_pp fmt fmtn t id p). split; auto. rewrite TM in TR. split; auto.
  exists p, id. rewrite N3. split; [|auto]. eexists. split; [exact AOS|exact Hp].
Qed.
(** Printing a container of size particles after any history. *)
Theorem C67_size_csv t set ops : let c := fold_left (sps_op zero) ops (sps_new t set) in
  exists out, print_rows (sps_row fmt fmtn c) (z_num c) = Ok out /\
    csv_of sps_names (fun i v => exists p id, (exists l, sps_aos c = Ok l /\ nth_error l i = Some p) /\ nth_error (z_idn c) i = Some id /\ v = named_sp fmt fmtn t id p) (z_num c) out.
Proof.
  intros c. destruct (C47_size_history zero t set ops) as (AOS & _ & _ & TM & _). fold c in AOS, TM.
  assert (R : rep_sp c (fold_left (seq_op (SP zero zero (v3_0 zero) (v3_0 zero))) ops set) (ids_after (length set) ops)).
  { apply (run_rep rep_sp (sps_op zero) _ (sp_step zero) ops). unfold rep_sp; simpl; rewrite seq_length; auto 12. }
  apply print_csv_of. intros i Hi.
  assert (N : z_num c = length (fold_left (seq_op (SP zero zero (v3_0 zero) (v3_0 zero))) ops set) /\ length (ids_after (length set) ops) = z_num c /\ z_idn c = ids_after (length set) ops).
  { unfold rep_sp in R. repeat match goal with H : _ /\ _ |- _ => destruct H end. repeat split; congruence. }
  destruct N as (N1 & N2 & N3).
  destruct (nth_some (fold_left (seq_op (SP zero zero (v3_0 zero) (v3_0 zero))) ops set) i) as (p & Hp); [lia|]. destruct (nth_some (ids_after (length set) ops) i) as (id & Hid); [lia|].
  destruct (size_table c _ _ i p id R Hp Hid) as (row & E & TR). exists row, (named_sp fmt fmtn t id p). split; auto. rewrite TM in TR. split; auto.
  exists p, id. rewrite N3. split; [|auto]. eexists. split; [exact AOS|exact Hp].
Qed.
(** Printing a container of drag particles after any history. *)
Theorem C67_drag_csv t set ops : let c := fold_left (dps_op zero) ops (dps_new t set) in
  exists out, print_rows (dps_row fmt fmtn c) (d_num c) = Ok out /\
    csv_of dps_names (fun i v => exists p id, (exists l, dps_aos c = Ok l /\ nth_error l i = Some p) /\ nth_error (d_idn c) i = Some id /\ v = named_dp fmt fmtn t id p) (d_num c) out.
Proof.
  intros c. destruct (C47_drag_history zero t set ops) as (AOS & _ & _ & TM & _). fold c in AOS, TM.
  assert (R : rep_dp c (fold_left (seq_op (DP zero zero zero (v3_0 zero) (v3_0 zero))) ops set) (ids_after (length set) ops)).
  { apply (run_rep rep_dp (dps_op zero) _ (dp_step zero) ops). unfold rep_dp; simpl; rewrite seq_length; auto 12. }
  apply print_csv_of. intros i Hi.
  assert (N : d_num c = length (fold_left (seq_op (DP zero zero zero (v3_0 zero) (v3_0 zero))) ops set) /\ length (ids_after (length set) ops) = d_num c /\ d_idn c = ids_after (length set) ops).
  { unfold rep_dp in R. repeat match goal with H : _ /\ _ |- _ => destruct H end. repeat split; congruence. }
  destruct N as (N1 & N2 & N3).
  destruct (nth_some (fold_left (seq_op (DP zero zero zero (v3_0 zero) (v3_0 zero))) ops set) i) as (p & Hp); [lia|]. destruct (nth_some (ids_after (length set) ops) i) as (id & Hid); [lia|].
  destruct (drag_table c _ _ i p id R Hp Hid) as (row & E & TR). exists row, (named_dp fmt fmtn t id p). split; auto. rewrite TM in TR. split; auto.
  exists p, id. rewrite N3. split; [|auto]. eexists. split; [exact AOS|exact Hp].
Qed.
(** Printing a container of tide particles after any history. *)
Theorem C67_tide_csv t set ops : let c := fold_left (tps_op zero) ops (tps_new t set) in
  exists out, print_rows (tps_row fmt fmtn c) (t_num c) = Ok out /\
    csv_of tps_names (fun i v => exists p id, (exists l, tps_aos c = Ok l /\ nth_error l i = Some p) /\ nth_error (t_idn c) i = Some id /\ v = named_tp fmt fmtn t id p) (t_num c) out.
Proof.
  intros c. destruct (C47_tide_history zero t set ops) as (AOS & _ & _ & TM & _). fold c in AOS, TM.
  assert (R : rep_tp c (fold_left (seq_op (TP zero zero zero zero (v3_0 zero) (v3_0 zero))) ops set) (ids_after (length set) ops)).
  { apply (run_rep rep_tp (tps_op zero) _ (tp_step zero) ops). unfold rep_tp; simpl; rewrite seq_length; auto 12. }
  apply print_csv_of. intros i Hi.
  assert (N : t_num c = length (fold_left (seq_op (TP zero zero zero zero (v3_0 zero) (v3_0 zero))) ops set) /\ length (ids_after (length set) ops) = t_num c /\ t_idn c = ids_after (length set) ops).
  { unfold rep_tp in R. repeat match goal with H : _ /\ _ |- _ => destruct H end. repeat split; congruence. }
  destruct N as (N1 & N2 & N3).
  destruct (nth_some (fold_left (seq_op (TP zero zero zero zero (v3_0 zero) (v3_0 zero))) ops set) i) as (p & Hp); [lia|]. destruct (nth_some (ids_after (length set) ops) i) as (id & Hid); [lia|].
  destruct (tide_table c _ _ i p id R Hp Hid) as (row & E & TR). exists row, (named_tp fmt fmtn t id p). split; auto. rewrite TM in TR. split; auto.
  exists p, id. rewrite N3. split; [|auto]. eexists. split; [exact AOS|exact Hp].
Qed.
End C67.

(** ** Reading back *)
Section Reading.
Context {T : Type} (zero : T) (fmt : T -> text) (numchar : ascii -> bool) (parse : text -> option T).
(** The numbers are printed losslessly with number characters, among which there is no comma and no white space. *)
Hypothesis fmt_chars : forall x, forallb numchar (fmt x) = true /\ fmt x <> [].
Hypothesis fmt_parse : forall x, parse (fmt x) = Some x.
Hypothesis no_number : parse [] = None.
Hypothesis not_comma : numchar comma = false.
Hypothesis not_space : forall c, isspace c = true -> numchar c = false.
Lemma skip_fmt x r : skip isspace (fmt x ++ r) = fmt x ++ r.
Proof.
  destruct (fmt_chars x) as (F & N). destruct (fmt x) as [|c t]; [congruence|]. simpl in F. apply andb_prop in F as (F & _). simpl.
  destruct (isspace c) eqn:E; auto. rewrite (not_space c E) in F. discriminate.
Qed.
Lemma in_num_fmt x c r old : numchar c = false -> in_num zero numchar parse (IS (fmt x ++ c :: r) false) old = (IS (c :: r) false, x).
Proof.
  intros H. unfold in_num. cbn [i_fail i_rest]. rewrite skip_fmt. destruct (fmt_chars x) as (F & N). destruct (fmt x ++ c :: r) eqn:E; [destruct (fmt x); discriminate|].
  rewrite <- E, take_app by auto. rewrite fmt_parse. auto.
Qed.
Lemma in_num_last x old : in_num zero numchar parse (IS (fmt x) false) old = (IS [] false, x).
Proof.
  unfold in_num. cbn [i_fail i_rest]. pose proof (skip_fmt x []) as S. rewrite !app_nil_r in S. rewrite S. destruct (fmt_chars x) as (F & N). destruct (fmt x) eqn:E; [congruence|].
  rewrite <- E in *. rewrite take_all by auto. rewrite fmt_parse. auto.
Qed.
Lemma in_num_comma r old : in_num zero numchar parse (IS (comma :: r) false) old = (IS (comma :: r) true, zero).
Proof. unfold in_num. cbn [i_fail i_rest skip]. change (isspace comma) with false. cbn [take]. rewrite not_comma, no_number. auto. Qed.
Lemma in_num_failed r old : in_num zero numchar parse (IS r true) old = (IS r true, old).
Proof. reflexivity. Qed.
Lemma in_num_blank r old : in_num zero numchar parse (IS (blank :: r) false) old = in_num zero numchar parse (IS r false) old.
Proof. reflexivity. Qed.
Lemma blank_not_num : numchar blank = false. Proof. apply not_space. reflexivity. Qed.
(** What operator<< writes cannot be read back by operator>>: the reading fails at the first comma, whatever the
    particle; only the mass arrives, the next number becomes zero and the others keep their old values. *)
Theorem C67_point_round_trip_refuted p q : exists r, pp_in zero numchar parse (IS (pp_out fmt p) false) q =
  (IS r true, PP (pp_mass p) (V3 zero (y3 (pp_pos q)) (z3 (pp_pos q))) (pp_vel q)).
Proof.
  eexists. unfold pp_in, in_v3, pp_out, out_v3. cbn [app]. rewrite in_num_fmt, in_num_comma, !in_num_failed by auto. destruct (pp_vel q). reflexivity.
Qed.
Theorem C67_size_round_trip_refuted p q : exists r, sp_in zero numchar parse (IS (sp_out fmt p) false) q = (IS r true, SP (sp_mass p) zero (sp_pos q) (sp_vel q)).
Proof.
  eexists. unfold sp_in, in_v3, sp_out, out_v3. cbn [app]. rewrite in_num_fmt, in_num_comma, !in_num_failed by auto. destruct (sp_vel q), (sp_pos q). reflexivity.
Qed.
Theorem C67_drag_round_trip_refuted p q : exists r, dp_in zero numchar parse (IS (dp_out fmt p) false) q =
  (IS r true, DP (dp_mass p) (dp_sub q) (dp_cs q) (V3 zero (y3 (dp_pos q)) (z3 (dp_pos q))) (dp_vel q)).
Proof.
  eexists. unfold dp_in, in_v3, dp_out, out_v3. cbn [app]. rewrite in_num_fmt, in_num_comma, !in_num_failed by auto. destruct (dp_vel q). reflexivity.
Qed.
Theorem C67_tide_round_trip_refuted p q : exists r, tp_in zero numchar parse (IS (tp_out fmt p) false) q =
  (IS r true, TP (tp_mass p) zero (tp_k q) (tp_tau q) (tp_pos q) (tp_vel q)).
Proof.
  eexists. unfold tp_in, in_v3, tp_out, out_v3. cbn [app]. rewrite in_num_fmt, in_num_comma, !in_num_failed by auto. destruct (tp_vel q), (tp_pos q). reflexivity.
Qed.
(** The same numbers separated by blanks are read back exactly. *)
Fixpoint blanks (l : list T) : text := match l with [] => [] | [x] => fmt x | x :: r => fmt x ++ blank :: blanks r end.
Ltac rd := cbn [blanks]; repeat first [rewrite in_num_fmt by apply blank_not_num | rewrite in_num_blank | rewrite in_num_last].
Theorem C67_reads_blank_separated m r k u p v :
  (forall q, pp_in zero numchar parse (IS (blanks [m; x3 p; y3 p; z3 p; x3 v; y3 v; z3 v]) false) q = (IS [] false, PP m p v)) /\
  (forall q, sp_in zero numchar parse (IS (blanks [m; r; x3 p; y3 p; z3 p; x3 v; y3 v; z3 v]) false) q = (IS [] false, SP m r p v)) /\
  (forall q, dp_in zero numchar parse (IS (blanks [m; x3 p; y3 p; z3 p; x3 v; y3 v; z3 v; k; u]) false) q = (IS [] false, DP m k u p v)) /\
  (forall q, tp_in zero numchar parse (IS (blanks [m; r; x3 p; y3 p; z3 p; x3 v; y3 v; z3 v; k; u]) false) q = (IS [] false, TP m r k u p v)).
Proof. unfold pp_in, sp_in, dp_in, tp_in, in_v3. destruct p as [px py pz], v as [vx vy vz]. cbn [Part_Model.x3 Part_Model.y3 Part_Model.z3]. repeat split; intros q; rd; reflexivity. Qed.
End Reading.
(** Non-vacuity: numbers written in unary satisfy all hypotheses. *)
Definition ufmt (n : nat) : text := repeat "1"%char (S n).
Definition unumchar (c : ascii) : bool := Ascii.eqb c "1"%char.
Definition uparse (t : text) : option nat := match t with [] => None | _ => if forallb unumchar t then Some (length t - 1) else None end.
Example C67_case : (forall n, plain (ufmt n)) /\ (forall x, forallb unumchar (ufmt x) = true /\ ufmt x <> []) /\ (forall x, uparse (ufmt x) = Some x) /\
  uparse [] = None /\ unumchar comma = false /\ (forall c, isspace c = true -> unumchar c = false).
Proof.
  assert (A : forall n c, In c (ufmt n) -> c = "1"%char) by (intros n c H; apply repeat_spec in H; auto).
  assert (F : forall n, forallb unumchar (ufmt n) = true) by (intros n; apply forallb_forall; intros c H; rewrite (A n c H); reflexivity).
  split; [intros n; split; intros H; apply A in H; discriminate|]. split; [intros n; split; [apply F|discriminate]|].
  split; [intros x; unfold uparse; rewrite F; unfold ufmt; cbn [repeat length]; rewrite repeat_length; f_equal; lia|].
  split; auto. split; auto. intros c H. unfold unumchar. destruct (Ascii.eqb_spec c "1"%char) as [->|]; auto.
Qed.
Print Assumptions C67_point_csv. Print Assumptions C67_size_csv. Print Assumptions C67_drag_csv. Print Assumptions C67_tide_csv.
Print Assumptions C67_point_round_trip_refuted. Print Assumptions C67_size_round_trip_refuted. Print Assumptions C67_drag_round_trip_refuted. Print Assumptions C67_tide_round_trip_refuted.
Print Assumptions C67_reads_blank_separated.
