From Verif Require Import Base Loop_Model.

(** The indices a worker processes: [for (i = begin; i < end; ++i)]. *)
Definition indices (r : nat * nat) : list nat := seq (fst r) (snd r - fst r).

Lemma flat_blocks (len n : nat) :
  flat_map (fun th => seq (th * len) len) (seq 0 n) = seq 0 (n * len).
Proof.
  induction n as [|n IH]; [reflexivity|].
  rewrite seq_S, flat_map_app, IH; simpl.
  rewrite app_nil_r. replace (len + n * len) with (n * len + len) by lia.
  rewrite (seq_app (n * len) len). reflexivity.
Qed.

Lemma flat_map_ext_in {A B} (f g : A -> list B) l :
  (forall x, In x l -> f x = g x) -> flat_map f l = flat_map g l.
Proof.
  induction l as [|a l IH]; intros H; simpl; [reflexivity|].
  rewrite H by (left; auto). rewrite IH; auto. intros; apply H; right; auto.
Qed.

Lemma div_facts total T : 0 < T ->
  total = T * (total / T) + total mod T /\ total mod T < T.
Proof.
  intros H. split; [apply Nat.div_mod; lia | apply Nat.mod_upper_bound; lia].
Qed.

(** All workers but the last always get an exact block. *)
Lemma inner_block total T th : S th < T ->
  indices (worker_range total (total / T) th) = seq (th * (total / T)) (total / T).
Proof.
  intros H. destruct (div_facts total T) as [Hd Hm]; [lia|].
  unfold worker_range, indices.
  destruct (Nat.ltb_spec total (th * (total/T) + total/T + total/T)) as [Hl|Hl]; simpl.
  - (* then total < (th+2)*len <= T*len <= total: contradiction unless *) nia.
  - f_equal; lia.
Qed.

Lemma loop_indices total T rs :
  multi_threads_loop total T = Ok rs ->
  flat_map indices rs =
  if (total mod T =? 0) || (total mod T <? total / T) then seq 0 total
  else seq 0 (total - total mod T).
Proof.
  destruct T as [|n]; [discriminate|]. unfold multi_threads_loop.
  intros H. assert (Hrs : rs = map (worker_range total (total / S n)) (seq 0 (S n))) by congruence. subst rs. clear H.
  set (len := total / S n). 
  destruct (div_facts total (S n)) as [Hd Hm]; [lia|].
  fold len in Hd.
  replace (flat_map indices (map (worker_range total len) (seq 0 (S n))))
    with (flat_map (fun th => indices (worker_range total len th)) (seq 0 (S n)))
    by (rewrite !flat_map_concat_map, map_map; reflexivity).
  rewrite seq_S, flat_map_app; cbn [flat_map].
  rewrite (flat_map_ext_in _ (fun th => seq (th * len) len)).
  2:{ intros th Hin; apply in_seq in Hin. apply inner_block; lia. }
  rewrite flat_blocks, app_nil_r. simpl Nat.add.
  set (r := total mod S n) in *.
  unfold worker_range, indices.
  destruct (Nat.ltb_spec total (n * len + len + len)) as [Hl|Hl]; cbn [fst snd].
  - replace ((r =? 0) || (r <? len)) with true.
    2:{ symmetry. destruct (Nat.ltb_spec r len); [rewrite orb_true_r; auto|nia]. }
    rewrite <- seq_app. f_equal. nia.
  - destruct (Nat.eqb_spec r 0) as [Hr|Hr]; cbn [orb].
    + rewrite <- seq_app. f_equal. nia.
    + destruct (Nat.ltb_spec r len) as [Hb|Hb]; [nia|].
      rewrite <- seq_app. f_equal. nia.
Qed.

Lemma loop_workers total T rs :
  multi_threads_loop total T = Ok rs ->
  length rs = T /\ (forall r, In r rs -> fst r <= snd r <= total).
Proof.
  destruct T as [|n]; [discriminate|]. unfold multi_threads_loop.
  intros H. assert (Hrs : rs = map (worker_range total (total / S n)) (seq 0 (S n))) by congruence. subst rs. clear H.
  split; [rewrite map_length, seq_length; auto|].
  intros r Hin. apply in_map_iff in Hin as (th & <- & Hin). apply in_seq in Hin.
  destruct (div_facts total (S n)) as [Hd Hm]; [lia|].
  unfold worker_range.
  destruct (Nat.ltb_spec total (th * (total/S n) + total/S n + total/S n)); cbn [fst snd].
  - split; [|lia]. nia.
  - split; [lia|]. lia.
Qed.

Lemma multi_thread_args_spec {A} (moved : A -> A) rv n (v : A) :
  multi_thread_args moved rv n v =
  if rv then map (fun k => Nat.iter k moved v) (seq 0 n) else repeat v n.
Proof.
  destruct rv.
  - revert v; induction n as [|n IH]; intros v; simpl; [reflexivity|].
    f_equal. rewrite IH. rewrite <- seq_shift, map_map.
    apply map_ext. intros k. cbn [Nat.iter]. 
    clear. induction k as [|k IHk]; cbn [Nat.iter nat_rect]; [reflexivity|f_equal; exact IHk].
  - induction n; simpl; congruence.
Qed.

Lemma loop_all total T rs :
  multi_threads_loop total T = Ok rs ->
  length rs = T /\
  (forall r, In r rs -> fst r <= snd r <= total) /\
  flat_map indices rs =
    (if (total mod T =? 0) || (total mod T <? total / T) then seq 0 total
     else seq 0 (total - total mod T)).
Proof.
  intros H. destruct (loop_workers total T rs H) as [H1 H2].
  split; [exact H1|split; [exact H2|exact (loop_indices total T rs H)]].
Qed.

Lemma loop_defined total T : (exists rs, multi_threads_loop total T = Ok rs) <-> 0 < T.
Proof.
  destruct T as [|n]; simpl.
  - split; [intros [rs H]; discriminate | lia].
  - split; [lia|intros _; eexists; reflexivity].
Qed.

Lemma loop_refuted :
  exists total T rs, 0 < T /\ multi_threads_loop total T = Ok rs /\
    ~ (forall i, i < total -> In i (flat_map indices rs)).
Proof.
  exists 3, 2, [(0,1);(1,2)]. split; [lia|split; [reflexivity|]].
  intros H. specialize (H 2 ltac:(lia)). cbv in H. intuition discriminate.
Qed.

Lemma loop_small total T rs :
  total < T -> multi_threads_loop total T = Ok rs -> flat_map indices rs = [].
Proof.
  intros Hlt H. rewrite (loop_indices total T rs H).
  rewrite Nat.mod_small, Nat.div_small by assumption.
  destruct total; cbn; [reflexivity|]. rewrite Nat.sub_diag. reflexivity.
Qed.
