(** C15-C18: chain index and chain coordinates. *)
From Verif Require Import Chain_Model Chain_Spec Chain_Proofs.

(** C15.  For every set of at least two positions and every outcome of the (unstable) sort,
    calc_chain_index returns (within a bound on iterations depending only on the input, and
    without out-of-bounds access) an array containing each of 0..n-1 exactly once. *)
Theorem C15_chain_index_permutation : forall pos, (2 <= length pos)%nat ->
  exists N, forall fuel r, (N <= fuel)%nat -> calc_chain_index fuel pos r ->
  exists idx, r = Ok (Some idx) /\ Permutation idx (seq 0 (length pos)).
Proof. exact calc_chain_index_perm. Qed.
Print Assumptions C15_chain_index_permutation.

(** C15.  With fewer than two particles the first access is out of bounds. *)
Theorem C15_too_few_undefined : forall pos fuel r, (length pos < 2)%nat -> calc_chain_index fuel pos r -> r = UB.
Proof.
  intros pos fuel r Hn (d & [Hp _] & ->). destruct pos as [|a [|b pos]]; simpl in Hn; try lia;
  unfold create_distances_array in Hp; simpl in Hp; apply Permutation_nil in Hp; subst; reflexivity.
Qed.
Print Assumptions C15_too_few_undefined.

(** C15.  There always is such a result (the hypotheses above and in C16 are never vacuous). *)
Theorem C15_returns : forall pos, (2 <= length pos)%nat ->
  exists fuel idx, calc_chain_index fuel pos (Ok (Some idx)).
Proof. exact calc_chain_index_returns. Qed.
Print Assumptions C15_returns.

(** Coincident particles. *)
Example C15_case : exists r, calc_chain_index 100 [mkV 1 1 1; mkV 1 1 1] r.
Proof.
  eexists. exists (create_distances_array [mkV 1 1 1; mkV 1 1 1]). split; [|reflexivity].
  split; [apply Permutation_refl|]. repeat constructor.
Qed.

(** C16.  In every chain index returned, some pair at minimal distance is adjacent. *)
Theorem C16_closest_pair_adjacent : forall pos fuel idx, (2 <= length pos)%nat ->
  calc_chain_index fuel pos (Ok (Some idx)) ->
  exists a b, (a < length pos)%nat /\ (b < length pos)%nat /\ a <> b /\ adjacent a b idx /\
    forall i j, (i < length pos)%nat -> (j < length pos)%nat -> i <> j -> dist2 pos a b <= dist2 pos i j.
Proof. exact closest_adjacent. Qed.
Print Assumptions C16_closest_pair_adjacent.

(** C16.  The index is exactly what the greedy construction over the sorted pairs gives when
    ranks below 1 (first scan) respectively 2 (all later scans) are never looked at. *)
Theorem C16_greedy_from_rank_two : forall pos fuel idx, (2 <= length pos)%nat ->
  calc_chain_index fuel pos (Ok (Some idx)) ->
  exists d n0, is_sorted_version (create_distances_array pos) d /\ nth_error d 0 = Some n0 /\
               greedy d 1 [nd_i n0; nd_j n0] idx.
Proof. intros pos fuel idx Hn H. exact (proj2 (calc_chain_index_any pos fuel idx Hn H)). Qed.
Print Assumptions C16_greedy_from_rank_two.

(** C16.  The chain is not the nearest-neighbour chain: for particles at 0, 10, 30, 41 on a
    line the chain is 3-0-1-2, which links 3 to 0 (distance 41) although, when 3 was attached,
    the free particle 3 was at distance 11 from the chain's other end 2. *)
Theorem C16_nearest_neighbour_refuted :
  calc_chain_index 43 line4 (Ok (Some [3; 0; 1; 2]%nat)) /\
  dist2 line4 2 3 = 11 * 11 /\ dist2 line4 0 3 = 41 * 41 /\
  line4 = [mkV 0 0 0; mkV 10 0 0; mkV 30 0 0; mkV 41 0 0].
Proof.
  split; [exact line4_chain|]. unfold dist2, line4; simpl. vunf. repeat split; ring.
Qed.
Print Assumptions C16_nearest_neighbour_refuted.

(** C17.  Cartesian -> chain -> Cartesian is the identity for every index permutation, whatever
    the preallocated output arrays contained. *)
Theorem C17_cartesian_round_trip : forall n idx cart chain_out cart_out,
  (1 <= n)%nat -> Permutation idx (seq 0 n) ->
  length cart = n -> length chain_out = n -> length cart_out = n ->
  exists ch, to_chain cart chain_out idx = Ok ch /\ to_cartesian ch cart_out idx = Ok cart.
Proof. exact round_trip. Qed.
Print Assumptions C17_cartesian_round_trip.

(** C17.  Chain -> Cartesian -> chain is the identity. *)
Theorem C17_chain_round_trip : forall n idx ch chain_out cart_out,
  (1 <= n)%nat -> Permutation idx (seq 0 n) ->
  length ch = n -> length chain_out = n -> length cart_out = n ->
  exists cart, to_cartesian ch cart_out idx = Ok cart /\ to_chain cart chain_out idx = Ok ch.
Proof. exact round_trip_back. Qed.
Print Assumptions C17_chain_round_trip.

(** C17.  What the chain coordinates are: differences of consecutive members, last entry the
    position of the first member. *)
Theorem C17_chain_entries : forall n idx cart chain_out ch,
  (1 <= n)%nat -> Permutation idx (seq 0 n) -> length cart = n -> length chain_out = n ->
  to_chain cart chain_out idx = Ok ch -> length ch = n /\
  nth (n - 1) ch vzero = nth (nth 0 idx 0%nat) cart vzero /\
  forall i, (i + 1 < n)%nat -> nth i ch vzero =
     vsub (nth (nth (i + 1) idx 0%nat) cart vzero) (nth (nth i idx 0%nat) cart vzero).
Proof.
  intros n idx cart co ch Hn Hi Hc Ho E.
  destruct (to_chain_ok n idx cart co Hn Hi Hc Ho) as (ch' & E' & L & V). rewrite E in E'. injection E' as <-.
  split; auto. split.
  - rewrite V by lia. unfold chain_at. rewrite Nat.eqb_refl. auto.
  - intros i Hl. rewrite V by lia. unfold chain_at. destruct (Nat.eqb_spec i (n - 1)); [lia|]. auto.
Qed.
Print Assumptions C17_chain_entries.

Example C17_case : to_chain [mkV 1 0 0; mkV 5 0 0; mkV 2 0 0] [vzero; vzero; vzero] [0; 2; 1]%nat =
  Ok [vsub (mkV 2 0 0) (mkV 1 0 0); vsub (mkV 5 0 0) (mkV 2 0 0); mkV 1 0 0].
Proof. reflexivity. Qed.

(** C18.  For all old and new index permutations: re-indexing the chain coordinates of a
    configuration gives exactly its chain coordinates under the new index. *)
Theorem C18_update_chain : forall n idx new_idx cart ch out1 out2,
  (1 <= n)%nat -> Permutation idx (seq 0 n) -> Permutation new_idx (seq 0 n) ->
  length cart = n -> length out1 = n -> length out2 = n ->
  to_chain cart out1 idx = Ok ch ->
  update_chain ch cart idx new_idx = to_chain cart out2 new_idx.
Proof. exact update_chain_ok. Qed.
Print Assumptions C18_update_chain.

(** C18.  Hence the Cartesian coordinates recovered afterwards are unchanged. *)
Theorem C18_physical_state_unchanged : forall n idx new_idx cart ch out1 out2,
  (1 <= n)%nat -> Permutation idx (seq 0 n) -> Permutation new_idx (seq 0 n) ->
  length cart = n -> length out1 = n -> length out2 = n ->
  to_chain cart out1 idx = Ok ch ->
  exists ch', update_chain ch cart idx new_idx = Ok ch' /\ to_cartesian ch' out2 new_idx = Ok cart.
Proof. exact update_chain_physical. Qed.
Print Assumptions C18_physical_state_unchanged.

Example C18_case : exists ch, to_chain [mkV 1 0 0; mkV 5 0 0; mkV 2 0 0] [vzero; vzero; vzero] [0; 2; 1]%nat = Ok ch /\
  exists ch', update_chain ch [mkV 1 0 0; mkV 5 0 0; mkV 2 0 0] [0; 2; 1]%nat [2; 1; 0]%nat = Ok ch'.
Proof. eexists. split; [reflexivity|]. eexists. reflexivity. Qed.
