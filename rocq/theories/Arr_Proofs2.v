From Verif Require Export Arr_Proofs.
From Verif Require System_Model Radau_Model.
Open Scope nat_scope.

(** ** zip_into *)
Lemma zip_from {D S} (f : D -> S -> D) (src : list S) : forall c lo dst, lo + c = length dst -> length dst <= length src ->
  exists r, for_up lo c (fun i dst => obind (aget dst i) (fun x => obind (aget src i) (fun y => aset dst i (f x y)))) dst = Ok r /\
    length r = length dst /\
    (forall i, i < lo -> nth_error r i = nth_error dst i) /\
    (forall i x y, lo <= i -> nth_error dst i = Some x -> nth_error src i = Some y -> nth_error r i = Some (f x y)).
Proof.
  induction c as [|c IH]; intros lo dst E L.
  - exists dst. cbn. repeat split; auto. intros i x y Hi Hx _. exfalso. assert (i < length dst) by (apply nth_error_Some; congruence). lia.
  - destruct (aget_ok dst lo) as (x & Ex & Nx); [lia|]. destruct (aget_ok src lo) as (y & Ey & Ny); [lia|].
    cbn [for_up]. rewrite Ex. cbn [obind]. rewrite Ey. cbn [obind]. rewrite aset_ok by lia. cbn [obind].
    destruct (IH (Datatypes.S lo) (list_set dst lo (f x y))) as (r & R1 & R2 & R3 & R4).
    { rewrite list_set_length. lia. } { rewrite list_set_length. lia. }
    rewrite list_set_length in R2. exists r. split; [exact R1|]. split; [exact R2|]. split.
    + intros i Hi. rewrite R3 by lia. apply nth_error_list_set_neq. lia.
    + intros i x' y' Hi Hx Hy. destruct (Nat.eq_dec i lo) as [->|N].
      * rewrite R3 by lia. rewrite nth_error_list_set_eq by lia. congruence.
      * apply R4; [lia| |exact Hy]. rewrite nth_error_list_set_neq by lia. exact Hx.
Qed.

Lemma nth_ext_eq {A} : forall l1 l2 : list A, (forall i, nth_error l1 i = nth_error l2 i) -> l1 = l2.
Proof.
  induction l1 as [|a l1 IHl]; intros [|b l2] E; auto.
  - specialize (E 0). discriminate.
  - specialize (E 0). discriminate.
  - f_equal; [specialize (E 0); cbn in E; congruence|]. apply IHl. intros i. apply (E (S i)).
Qed.

Lemma nth_error_combine {A B} : forall (l : list A) (m : list B) i,
  nth_error (combine l m) i = match nth_error l i, nth_error m i with Some x, Some y => Some (x, y) | _, _ => None end.
Proof.
  induction l as [|a l IH]; intros [|b m] [|i]; cbn; auto.
  - destruct (nth_error l i); auto.
Qed.

Lemma zip_into_ok {D S} (f : D -> S -> D) dst src : length dst <= length src ->
  zip_into f dst src = Ok (map (fun p => f (fst p) (snd p)) (combine dst src)).
Proof.
  intros L. destruct (zip_from f src (length dst) 0 dst eq_refl L) as (r & R1 & R2 & _ & R4).
  unfold zip_into. rewrite R1. f_equal. apply nth_ext_eq. intros i.
  rewrite nth_error_map, nth_error_combine. destruct (Nat.lt_ge_cases i (length dst)) as [Hi|Hi].
  - destruct (aget_ok dst i Hi) as (x & _ & Nx). destruct (aget_ok src i ltac:(lia)) as (y & _ & Ny).
    rewrite (R4 i x y) by (auto; lia). rewrite Nx, Ny. reflexivity.
  - replace (nth_error r i) with (@None D) by (symmetry; apply nth_error_None; lia).
    replace (nth_error dst i) with (@None D) by (symmetry; apply nth_error_None; lia). reflexivity.
Qed.

(** ** Reductions *)
Lemma for_up_fold {A S} (g : nat -> outcome A) (op : S -> A -> S) : forall c lo s (vals : list A),
  length vals = c -> (forall k v, nth_error vals k = Some v -> g (lo + k) = Ok v) ->
  for_up lo c (fun i s => obind (g i) (fun p => Ok (op s p))) s = Ok (fold_left op vals s).
Proof.
  induction c as [|c IH]; intros lo s vals Lv G.
  - destruct vals; [reflexivity|discriminate].
  - destruct vals as [|v vals]; [discriminate|]. cbn [for_up fold_left].
    rewrite <- (Nat.add_0_r lo) at 1. rewrite (G 0 v eq_refl). cbn [obind]. apply IH; [cbn in Lv; lia|].
    intros k w Hk. replace (Datatypes.S lo + k) with (lo + Datatypes.S k) by lia. apply G. exact Hk.
Qed.

Lemma for_up_ext {S} (f g : nat -> S -> outcome S) : (forall i s, f i s = g i s) -> forall c lo s, for_up lo c f s = for_up lo c g s.
Proof.
  intros E. induction c as [|c IH]; intros lo s; cbn; auto. rewrite E. destruct (g lo s); cbn; auto.
Qed.

(** ** Element-wise results as lists *)
Lemma writes2_list {A} (f : A -> A -> A) (h h' : heap A) d a b :
  length (h a) = length (h d) -> length (h b) = length (h d) ->
  writes h h' d (length (h d)) (fun i v => exists x y, at_is h a i x /\ at_is h b i y /\ v = f x y) ->
  h' d = map (fun p => f (fst p) (snd p)) (combine (h a) (h b)).
Proof.
  intros La Lb (_ & Ld & Beyond & In0). apply nth_ext_eq. intros i. rewrite nth_error_map, nth_error_combine.
  destruct (Nat.lt_ge_cases i (length (h d))) as [Hi|Hi].
  - destruct (In0 i Hi) as (v & V & x & y & X & Y & ->). unfold at_is in *. rewrite V, X, Y. reflexivity.
  - rewrite Beyond by auto.
    replace (nth_error (h d) i) with (@None A) by (symmetry; apply nth_error_None; lia).
    replace (nth_error (h a) i) with (@None A) by (symmetry; apply nth_error_None; lia). reflexivity.
Qed.
