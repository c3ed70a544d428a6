(** C95: the compensated numbers (Kahan, Neumaier, Klein) on IEEE 754 numbers: aliasing, overflow, infinities, NaN, and every finite bit pattern. *)
From Verif Require Import Ikah_Model Ikah_Spec Ikah_Proofs Ikah_Proofs2 Ikah_Proofs3 Ieee_Proofs Ieee_Proofs2 Ieee_Proofs3 Kahan_Proofs Kahan_Proofs2 Kahan_Props Islice_Proofs2.
From Coq Require Import Lra Lia Bool Arith.
Open Scope R_scope.
Section Any.
Context {prec emax : Z} { prec_gt_0_ : Prec_gt_0 prec } { prec_lt_emax_ : Prec_lt_emax prec emax }.
Notation fl := (binary_float prec emax).
Notation heap := (heap prec emax).
Notation L := (least prec emax).
Notation fin a := (is_finite a = true).

(** l += r and l -= r depend on the members of l and on the plain value of r only, whether or not l and r are the same object, and change no other object. *)
Theorem C95_operands c g (h h' : heap) l r l' r' : h' l' = h l -> kr (h' r') = kr (h r) -> assign c g l' r' h' l' = assign c g l r h l.
Proof. intros A B. rewrite !assign_at, A, B. reflexivity. Qed.
Theorem C95_other_objects c g (h : heap) l r o : o <> l -> assign c g l r h o = h o /\ times l r h o = h o /\ over l r h o = h o /\ zero_err l h o = h o.
Proof. intros N. split; [apply assign_other; auto|]. unfold times, over, zero_err, put_r, put_e, put_o. rewrite !put_other by auto. repeat split. Qed.
(** The result is the object as such a statement leaves it: x += x adds the plain value x had before. *)
Theorem C95_self c g (h : heap) l z : kr (h z) = kr (h l) -> z <> l -> assign c g l l h l = assign c g l z h l.
Proof. intros A _. apply C95_operands; auto. Qed.

(** *= and /= act on the plain value alone, the stored compensation is kept as it is; unary minus forgets it; zero_err clears it. *)
Theorem C95_scale (h : heap) l r :
  times l r h l = mkN (imul (kr (h l)) (kr (h r))) (ke (h l)) (ko (h l)) /\
  over l r h l = mkN (idiv (kr (h l)) (kr (h r))) (ke (h l)) (ko (h l)) /\
  opposite (h l) = mkN (ineg (kr (h l))) izero izero /\ zero_err l h l = mkN (kr (h l)) izero izero.
Proof. unfold times, over, zero_err, put_r, put_e, put_o. rewrite !put_same. repeat split. Qed.

(** Adding to a number without compensation is the plain addition, for every pair of bit patterns (the sign of a zero aside). *)
Theorem C95_fresh c (h : heap) l r x : h l = of_scalar x -> same (kr (assign c Plus l r h l)) (iadd x (kr (h r))) /\ same (kr (assign c Minus l r h l)) (isub x (kr (h r))).
Proof.
  intros E. rewrite !assign_at, E, isub_iadd. destruct c; cbn [val]; unfold k_val, n_val, e_val, of_scalar; cbn [kr ke ko].
  - rewrite !sub_zero. split; left; reflexivity.
  - split; apply same_add, add_zero.
  - replace (iadd izero izero) with (izero : fl) by reflexivity. split; apply same_add, add_zero.
Qed.

(** Neumaier and Klein: whenever the plain value of the result is finite, so are the operands and every stored compensation - nothing overflowed on the way -
    and the statement did what C38 says of it over the reals. *)
Theorem C95_neumaier_no_overflow g (h : heap) l r : let h' := assign TNeumaier g l r h in fin (kr (h' l)) ->
  fin (kr (h l)) /\ fin (ke (h l)) /\ fin (kr (h r)) /\ fin (ke (h' l)) /\
  pair_of (h' l) = n_add L prec even_choice (pair_of (h l)) (signed g (B2R (kr (h r)))).
Proof.
  cbv zeta. rewrite assign_at. destruct g; cbn [val signed]; intros F; destruct (n_link _ _ F) as (A & B & D & E & G); unfold ineg in *; rewrite ?is_finite_Bopp, ?B2R_Bopp in *; auto.
Qed.
Theorem C95_klein_no_overflow g (h : heap) l r : let h' := assign TKlein g l r h in fin (kr (h' l)) ->
  fin (kr (h l)) /\ fin (ke (h l)) /\ fin (ko (h l)) /\ fin (kr (h r)) /\ fin (ke (h' l)) /\ fin (ko (h' l)) /\
  triple_of (h' l) = e_add L prec even_choice (triple_of (h l)) (signed g (B2R (kr (h r)))).
Proof.
  cbv zeta. rewrite assign_at. destruct g; intros F.
  - cbn [val signed] in *. destruct (e_link _ _ F) as (A & B & D & E & G & I1 & J); repeat split; auto.
  - rewrite (e_minus_link _ _ F) in *. cbn [val signed] in *. destruct (e_link _ _ F) as (A & B & D & E & G & I1 & J). unfold ineg in *; rewrite ?is_finite_Bopp, ?B2R_Bopp in *; repeat split; auto.
Qed.
(** Kahan: the same if the compensation is finite too. *)
Theorem C95_kahan_no_overflow g (h : heap) l r : let h' := assign TKahan g l r h in fin (kr (h' l)) ->
  fin (kr (h l)) /\ fin (ke (h l)) /\ fin (kr (h r)) /\
  (fin (ke (h' l)) -> pair_of (h' l) = k_add L prec even_choice (pair_of (h l)) (signed g (B2R (kr (h r))))).
Proof.
  cbv zeta. rewrite assign_at. destruct g; cbn [val signed]; intros F; destruct (k_link _ _ F) as (A & B & D & E); unfold ineg in *; rewrite ?is_finite_Bopp, ?B2R_Bopp in *; auto.
Qed.
(** So a Neumaier addition with a finite result loses nothing but the rounding of the compensated operand, and a Klein one nothing but that of the two compensations. *)
Theorem C95_neumaier_exact g (h : heap) l r : let h' := assign TNeumaier g l r h in fin (kr (h' l)) ->
  B2R (kr (h' l)) + B2R (ke (h' l)) = B2R (kr (h l)) + rne prec emax (signed g (B2R (kr (h r))) + B2R (ke (h l))) /\
  Rabs (B2R (ke (h' l))) <= bpow radix2 (- prec) * Rabs (B2R (kr (h' l))).
Proof.
  intros h' F. destruct (C95_neumaier_no_overflow g h l r F) as (_ & _ & _ & _ & E). fold h' in E. clearbody h'.
  pose proof (C38_neumaier_add_exact L prec even_choice prec_gt_0_ (pair_of (h l)) (signed g (B2R (kr (h r)))) (B2R_fmt _)) as (X & _).
  pose proof (n_err_small L prec even_choice (pair_of (h l)) (signed g (B2R (kr (h r)))) (B2R_fmt _)) as Y. rewrite <- E in X, Y. rewrite u_eq in Y. split; [exact X|exact Y].
Qed.
Theorem C95_klein_exact g (h : heap) l r : let h' := assign TKlein g l r h in fin (kr (h' l)) ->
  B2R (kr (h' l)) + B2R (ke (h' l)) + B2R (ko (h' l)) = B2R (kr (h l)) + signed g (B2R (kr (h r))) + rne prec emax (B2R (ke (h l)) + B2R (ko (h l))) /\
  Rabs (B2R (ke (h' l))) <= bpow radix2 (- prec) * Rabs (B2R (kr (h' l))).
Proof.
  intros h' F. destruct (C95_klein_no_overflow g h l r F) as (_ & _ & _ & _ & _ & _ & E). fold h' in E. clearbody h'.
  assert (Fs : fmt L prec (signed g (B2R (kr (h r))))) by (destruct g; cbn [signed]; [|apply (fmt_opp L prec)]; apply B2R_fmt).
  pose proof (C38_klein_add_exact L prec even_choice prec_gt_0_ (triple_of (h l)) (signed g (B2R (kr (h r)))) (B2R_fmt _) (B2R_fmt _) (B2R_fmt _) Fs) as (X & Y & _).
  rewrite <- E in X, Y. split; [exact X|exact Y].
Qed.

(** A whole list of += : if the number read off at the end is finite, then the start and every addend were finite, no addition on the way overflowed,
    and the sum has the error bound of C38. *)
Theorem C95_neumaier_list (h : heap) l rs x : h l = of_scalar x -> ~ In l rs -> let k := sum_into TNeumaier l rs h l in fin (kr k) ->
  let xs := map (fun r => B2R (kr (h r))) rs in let u := bpow radix2 (- prec) in
  fin x /\ Forall (fun r => fin (kr (h r))) rs /\
  Rabs (B2R (kr k) - (B2R x + exact_sum xs)) <= u * Rabs (B2R (kr k)) + u * abs_sum xs + u * u * n_partial L prec even_choice (k_of (B2R x)) xs.
Proof.
  intros E N k F xs u. destruct (sum_fin _ _ _ _ N F) as (A & B). rewrite E in A. cbn [of_scalar kr] in A. split; [exact A|]. split; [exact B|].
  pose proof (n_sum_link rs l h N F) as P. fold k in P. rewrite E in P.
  replace (pair_of (of_scalar x)) with (k_of (B2R x)) in P by reflexivity.
  assert (Fx : Forall (fmt L prec) xs). { apply Forall_forall. intros y Hy. apply in_map_iff in Hy. destruct Hy as (r & <- & _). apply B2R_fmt. }
  pose proof (C38_neumaier_sum_error L prec even_choice prec_gt_0_ (B2R x) xs (B2R_fmt x) Fx) as (_ & Z1). cbv zeta in Z1. fold xs in P. rewrite <- P in Z1. exact Z1.
Qed.
Theorem C95_klein_list (h : heap) l rs : ~ In l rs -> let k := sum_into TKlein l rs h l in fin (kr k) -> fin (ke (h l)) -> fin (ko (h l)) ->
  let xs := map (fun r => B2R (kr (h r))) rs in
  fin (kr (h l)) /\ Forall (fun r => fin (kr (h r))) rs /\
  Rabs (B2R (kr k) + B2R (ke k) + B2R (ko k) - (B2R (kr (h l)) + B2R (ke (h l)) + B2R (ko (h l)) + exact_sum xs)) <= e_losses L prec even_choice (triple_of (h l)) xs.
Proof.
  intros N k F Fe Fo xs. destruct (sum_fin _ _ _ _ N F) as (A & B). split; [exact A|]. split; [exact B|].
  pose proof (e_sum_link rs l h N F) as P. fold k in P.
  assert (Fx : Forall (fmt L prec) xs). { apply Forall_forall. intros y Hy. apply in_map_iff in Hy. destruct Hy as (r & <- & _). apply B2R_fmt. }
  pose proof (C38_klein_sum_error L prec even_choice prec_gt_0_ (triple_of (h l)) xs (B2R_fmt _) (B2R_fmt _) (B2R_fmt _) Fx) as Z1. cbv zeta in Z1. fold xs in P. rewrite <- P in Z1. exact Z1.
Qed.

(** Overflow is not recoverable and does not even keep the infinity: for all three types, both operators, every state (any bit patterns) and any operand, once a statement has
    left a plain value that is not finite, the next statement on that object makes it NaN, and it stays NaN for ever. *)
Theorem C95_infinite_then_nan c (h : heap) l g r g' r' os : is_finite (kr (assign c g l r h l)) = false ->
  kr (statements c os (assign c g' l r' (assign c g l r h)) l) = B754_nan.
Proof.
  intros N. apply statements_nan. rewrite (assign_at c g' l r'). rewrite assign_at in N |- *. apply after_nonfinite. exact N.
Qed.
(** In any history of statements, an object that is finite at the end was finite at every point before. *)
Theorem C95_finite_history c os os' (h : heap) o : fin (kr (statements c (os ++ os') h o)) -> fin (kr (statements c os h o)).
Proof.
  intros F. assert (E : statements c (os ++ os') h = statements c os' (statements c os h)).
  { clear. revert h. induction os as [|[[g l] r] os IH]; intros h; [reflexivity|]. cbn [app statements]. apply IH. }
  rewrite E in F. destruct (is_finite (kr (statements c os h o))) eqn:X; auto. apply (statements_nonfinite c os') in X. congruence.
Qed.
End Any.
Print Assumptions C95_operands.
Print Assumptions C95_other_objects.
Print Assumptions C95_self.
Print Assumptions C95_scale.
Print Assumptions C95_fresh.
Print Assumptions C95_neumaier_no_overflow.
Print Assumptions C95_klein_no_overflow.
Print Assumptions C95_kahan_no_overflow.
Print Assumptions C95_neumaier_exact.
Print Assumptions C95_klein_exact.
Print Assumptions C95_neumaier_list.
Print Assumptions C95_klein_list.
Print Assumptions C95_infinite_then_nan.
Print Assumptions C95_finite_history.

(** Doubles. *)
#[local] Instance p53 : Prec_gt_0 53 := eq_refl.
#[local] Instance e1024 : Prec_lt_emax 53 1024 := eq_refl.
Notation dbl := (binary_float 53 1024).
Definition d_max : dbl := @B754_finite 53 1024 false 9007199254740991 971 eq_refl.
Definition d_below : dbl := @B754_finite 53 1024 false 9007199254740990 971 eq_refl.
Definition d_small : dbl := @B754_finite 53 1024 true 6755399441055744 919 eq_refl.
Definition d_one : dbl := @B754_finite 53 1024 false 4503599627370496 (-52) eq_refl.
Definition d_2p53 : dbl := @B754_finite 53 1024 false 4503599627370496 1 eq_refl.
Ltac dcompute := apply B2SF_inj; vm_compute; reflexivity.
(** The objects of the examples. *)
Definition two (a b : dbl) : heap 53 1024 := fun o => match o with 0%nat => of_scalar a | _ => of_scalar b end.

(** Kahan: a finite result may carry an infinite compensation, and then the next addition of any finite number is minus infinity:
    -1.5 * 2^971 += max gives the finite max - 2^971. *)
Theorem C95_kahan_finite_refuted : let h := two d_small d_max in let h1 := assign TKahan Plus 0 1 h in
  kr (h1 0%nat) = d_below /\ ke (h1 0%nat) = B754_infinity false /\
  (forall r, is_finite (kr (h1 r)) = true -> kr (assign TKahan Plus 0 r h1 0%nat) = B754_infinity true).
Proof.
  intros h h1. assert (A : kr (h1 0%nat) = d_below) by dcompute. assert (B : ke (h1 0%nat) = B754_infinity false) by dcompute.
  split; [exact A|]. split; [exact B|]. intros r F. rewrite assign_at. cbn [val]. unfold k_val. cbn [kr]. rewrite A, B. destruct (kr (h1 r)); try discriminate F; reflexivity.
Qed.
Print Assumptions C95_kahan_finite_refuted.
(** x -= x is not zero, for any of the three types: after 2^53 += 1 it is 1, the compensation (only the plain value of the right operand is used). *)
Theorem C95_self_subtraction_refuted : forall c, let h := assign c Plus 0 1 (two d_2p53 d_one) in
  kr (h 0%nat) = d_2p53 /\ kr (assign c Minus 0 0 h 0%nat) = d_one.
Proof. intros c. destruct c; split; dcompute. Qed.
Print Assumptions C95_self_subtraction_refuted.
(** -(-x) is not x: the compensation 1 of 2^53 + 1 is gone, adding one again gives 2^53, not 2^53 + 2. *)
Definition d_2p53_2 : dbl := @B754_finite 53 1024 false 4503599627370497 1 eq_refl.
Theorem C95_negation_refuted : forall c, let h := assign c Plus 0 1 (two d_2p53 d_one) in
  kr (assign c Plus 0 1 h 0%nat) = d_2p53_2 /\ kr (assign c Plus 0 1 (put h 0 (opposite (opposite (h 0%nat)))) 0%nat) = d_2p53.
Proof. intros c. destruct c; split; dcompute. Qed.
Print Assumptions C95_negation_refuted.
(** The plain type keeps an infinity, the compensated ones do not. *)
Theorem C95_infinity_kept_refuted : forall c, let h := assign c Plus 0 1 (two d_max d_max) in
  kr (h 0%nat) = B754_infinity false /\ iadd (kr (h 0%nat)) d_one = B754_infinity false /\
  kr (assign c Plus 0 1 h 0%nat) = B754_nan.
Proof. intros c. destruct c; split; [dcompute|split; dcompute|dcompute|split; dcompute|dcompute|split; dcompute]. Qed.
Print Assumptions C95_infinity_kept_refuted.
(** A case of the exactness theorems. *)
Example C95_case : is_finite (kr (assign TNeumaier Plus 0 1 (two d_2p53 d_one) 0%nat)) = true /\
  is_finite (kr (sum_into TNeumaier 0 [1; 1; 1]%nat (two d_2p53 d_one) 0%nat)) = true /\
  is_finite (kr (assign TKlein Minus 0 1 (two d_2p53 d_one) 0%nat)) = true /\ is_finite (kr (assign TKahan Plus 0 1 (two d_max d_max) 0%nat)) = false.
Proof. repeat split; vm_compute; reflexivity. Qed.
