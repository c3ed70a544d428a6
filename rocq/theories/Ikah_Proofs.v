From Verif Require Import Ikah_Model Ikah_Spec Ieee_Proofs Ieee_Proofs2 Ieee_Proofs3.
From Coq Require Import Lra Lia Bool Arith.
Open Scope R_scope.
Section P.
Context {prec emax : Z} { prec_gt_0_ : Prec_gt_0 prec } { prec_lt_emax_ : Prec_lt_emax prec emax }.
Notation fl := (binary_float prec emax).
Notation knum := (knum prec emax).
Notation heap := (heap prec emax).
Notation inf s := (B754_infinity s : fl).

(** What one statement stores, from the members of the two operands. *)
Definition k_val (k : knum) (x : fl) : knum :=
  let add := isub x (ke k) in let sum := iadd (kr k) add in mkN sum (isub (isub sum (kr k)) add) (ko k).
Definition res (real sum add : fl) : fl := if ilt (mabs add) (mabs real) then iadd (isub real sum) add else iadd (isub add sum) real.
Definition n_val (k : knum) (x : fl) : knum :=
  let add := iadd x (ke k) in let sum := iadd (kr k) add in mkN sum (res (kr k) sum add) (ko k).
Definition e_val (k : knum) (x o : fl) : knum :=
  let sum := iadd x (iadd (ke k) (ko k)) in let sum2 := iadd (kr k) sum in mkN sum2 (res (kr k) sum2 sum) o.
Definition e_o (k : knum) (x : fl) : fl := let add := iadd (ke k) (ko k) in res x (iadd x add) add.
Definition e_om (k : knum) (x : fl) : fl :=
  let add := iadd (ke k) (ko k) in let sum := iadd (ineg x) add in if ilt (mabs add) (mabs x) then iadd (isub (ineg x) sum) add else isub (isub add sum) x.
Lemma put_same h l (k : knum) : put h l k l = k. Proof. unfold put. rewrite Nat.eqb_refl. reflexivity. Qed.
Lemma put_other h l o (k : knum) : o <> l -> put h l k o = h o. Proof. unfold put. intros H. destruct (Nat.eqb_spec o l); congruence. Qed.
Definition val (c : ctype) (g : csign) (k : knum) (x : fl) : knum :=
  match c, g with
  | TKahan, Plus => k_val k x | TKahan, Minus => k_val k (ineg x) | TNeumaier, Plus => n_val k x | TNeumaier, Minus => n_val k (ineg x)
  | TKlein, Plus => e_val k x (e_o k x) | TKlein, Minus => e_val k (ineg x) (e_om k x)
  end.
Lemma assign_at c g l r (h : heap) : assign c g l r h l = val c g (h l) (kr (h r)).
Proof. destruct c, g; unfold assign, k_plus, k_minus, n_plus, n_minus, e_plus, e_minus, put_r, put_e, put_o; rewrite !put_same; reflexivity. Qed.
Lemma assign_other c g l r (h : heap) o : o <> l -> assign c g l r h o = h o.
Proof. intros H. destruct c, g; unfold assign, k_plus, k_minus, n_plus, n_minus, e_plus, e_minus, put_r, put_e, put_o; rewrite !put_other by auto; reflexivity. Qed.

(** Special values. *)
Lemma fin_or (a b : fl) : is_finite a = true -> is_finite b = true -> is_finite (iadd a b) = false -> exists s, iadd a b = inf s.
Proof.
  intros Fa Fb N. destruct (cr_add a b Fa Fb) as (C1 & C2). destruct (Rlt_or_le (Rabs (rne prec emax (B2R a + B2R b))) (bpow radix2 emax)) as [L|L].
  - destruct (C1 L). congruence.
  - destruct (C2 L) as (P & Q). destruct (Rtotal_order (B2R a + B2R b) 0) as [X|[X|X]]; [exists true; auto| |exists false; auto].
    rewrite X, rne_0, Rabs_R0 in L. pose proof (bpow_gt_0 radix2 emax). lra.
Qed.
Lemma inf_add s (b : fl) : is_finite b = true -> iadd (inf s) b = inf s. Proof. destruct b; try discriminate; reflexivity. Qed.
Lemma inf_add_r s (b : fl) : is_finite b = true -> iadd b (inf s) = inf s. Proof. destruct b; try discriminate; reflexivity. Qed.
Lemma inf_sub s (b : fl) : is_finite b = true -> isub (inf s) b = inf s. Proof. destruct b; try discriminate; reflexivity. Qed.
Lemma sub_inf s (b : fl) : is_finite b = true -> isub b (inf s) = inf (negb s). Proof. destruct b; try discriminate; reflexivity. Qed.
Lemma inf_opp s : iadd (inf s) (inf (negb s)) = B754_nan. Proof. destruct s; reflexivity. Qed.
(** What is added to an infinity when the error member is of the opposite sign or not a number. *)
Definition against (s : bool) (a : fl) : Prop := a = B754_nan \/ a = inf (negb s).
Lemma against_add s (a y : fl) : against s a -> against s (iadd y a).
Proof. intros [-> | ->]; [left; apply iadd_nan_r|]. destruct y as [z|z| |z m e Hb]; try (right; reflexivity); try (left; reflexivity). destruct (Bool.eqb z (negb s)) eqn:E; unfold against, iadd; cbn; rewrite E; [right; f_equal; apply eqb_prop; exact E|left; reflexivity]. Qed.
Lemma against_nan s (a : fl) : against s a -> iadd (inf s) a = B754_nan.
Proof. intros [-> | ->]; [apply iadd_nan_r|apply inf_opp]. Qed.
Definition with_ (s : bool) (a : fl) : Prop := a = B754_nan \/ a = inf s.
Lemma with_sub s (a y : fl) : with_ s a -> against s (isub y a).
Proof. intros H. rewrite isub_iadd. apply against_add. destruct H as [-> | ->]; [left; reflexivity|right; reflexivity]. Qed.

(** The sum of a statement is not a number, or finite, or an infinity whose error member opposes the next addition. *)
Lemma nonfinite_sum (real add : fl) : is_finite (iadd real add) = false -> iadd real add = B754_nan \/
  exists s, iadd real add = inf s /\ with_ s (isub (isub (iadd real add) real) add) /\ against s (res real (iadd real add) add).
Proof.
  intros N. destruct (is_finite real) eqn:Fr, (is_finite add) eqn:Fa.
  - destruct (fin_or real add Fr Fa N) as (s & E). right. exists s. rewrite E. split; auto. split.
    + right. rewrite (inf_sub s real Fr). apply inf_sub; auto.
    + right. unfold res. destruct (ilt (mabs add) (mabs real)).
      * rewrite (sub_inf s real Fr). apply inf_add; auto.
      * rewrite (sub_inf s add Fa). apply inf_add; auto.
  - destruct add as [z|z| |z m e Hb]; try discriminate Fa.
    + right. exists z. rewrite (inf_add_r z real Fr). split; auto. split; left.
      * rewrite (inf_sub z real Fr). destruct z; reflexivity.
      * unfold res. assert (L : ilt (mabs (inf z)) (mabs real) = false).
        { assert (M : mabs (inf z) = inf false) by (destruct z; reflexivity). rewrite M. unfold ilt. destruct (Bcompare (inf false) (mabs real)) as [[]|] eqn:C; auto.
          exfalso. destruct real as [z'|z'| |z' m' e' Hb']; try discriminate Fr; unfold mabs in C; [destruct z'; discriminate C|]. destruct (Bcompare (B754_finite z' m' e' Hb') izero) as [[]|]; cbn in C; discriminate C. }
        rewrite L. assert (Q : isub (inf z) (inf z) = B754_nan) by (destruct z; reflexivity). rewrite Q. apply iadd_nan_l.
    + left. apply iadd_nan_r.
  - destruct real as [z|z| |z m e Hb]; try discriminate Fr.
    + right. exists z. rewrite (inf_add z add Fa). split; auto. assert (Q : isub (inf z) (inf z) = B754_nan) by (destruct z; reflexivity). split; left; [rewrite Q; apply isub_nan_l|].
      unfold res. rewrite Q. destruct (ilt (mabs add) (mabs (inf z))) eqn:L; [apply iadd_nan_l|]. exfalso.
      assert (M : mabs (inf z) = inf false) by (destruct z; reflexivity). rewrite M in L. unfold ilt in L.
      assert (Fm : is_finite (mabs add) = true). { unfold mabs. destruct (Bcompare add izero) as [[]|]; auto; unfold ineg; rewrite is_finite_Bopp; auto. }
      destruct (mabs add); try discriminate Fm; discriminate L.
    + left. apply iadd_nan_l.
  - destruct real as [z|z| |z m e Hb]; try discriminate Fr; destruct add as [z'|z'| |z' m' e' Hb']; try discriminate Fa; try (left; reflexivity).
    destruct (Bool.eqb z z') eqn:E.
    + apply eqb_prop in E. subst z'. right. exists z. assert (Q : iadd (inf z) (inf z) = inf z) by (destruct z; reflexivity). rewrite Q. split; auto.
      assert (Q2 : isub (inf z) (inf z) = B754_nan) by (destruct z; reflexivity). split; left; [rewrite Q2; apply isub_nan_l|]. unfold res. rewrite Q2. destruct (ilt _ _); apply iadd_nan_l.
    + left. unfold iadd. cbn. rewrite E. reflexivity.
Qed.
Lemma after_nonfinite c g g' (k : knum) (x y : fl) : is_finite (kr (val c g k x)) = false -> kr (val c g' (val c g k x) y) = B754_nan.
Proof.
  assert (KK : forall x y, is_finite (kr (k_val k x)) = false -> kr (k_val (k_val k x) y) = B754_nan).
  { clear. intros x y N. cbn [k_val kr ke] in *. destruct (nonfinite_sum _ _ N) as [E|(s & E & W & _)].
    - unfold k_val. cbn [kr ke]. rewrite E. apply iadd_nan_l.
    - unfold k_val. cbn [kr ke]. apply (with_sub s _ y) in W. rewrite E at 1. apply against_nan. exact W. }
  assert (NN : forall x y, is_finite (kr (n_val k x)) = false -> kr (n_val (n_val k x) y) = B754_nan).
  { clear. intros x y N. unfold n_val in *. cbn [kr ke] in *. destruct (nonfinite_sum _ _ N) as [E|(s & E & _ & W)].
    - rewrite E. apply iadd_nan_l.
    - apply (against_add s _ y) in W. rewrite E at 1. apply against_nan. exact W. }
  assert (EE : forall x y o o', is_finite (kr (e_val k x o)) = false -> kr (e_val (e_val k x o) y o') = B754_nan).
  { clear. intros x y o o' N. unfold e_val in *. cbn [kr ke ko] in *. destruct (nonfinite_sum _ _ N) as [E|(s & E & _ & W)].
    - rewrite E. apply iadd_nan_l.
    - apply (against_add s _ o) in W. rewrite iadd_comm in W. apply (against_add s _ y) in W. rewrite E at 1. apply against_nan. exact W. }
  destruct c, g, g'; cbn [val]; intros N; auto.
Qed.
Lemma nan_stays c g (k : knum) (x : fl) : kr k = B754_nan -> kr (val c g k x) = B754_nan.
Proof. intros H. destruct c, g; cbn [val]; unfold k_val, n_val, e_val; cbn [kr]; rewrite H; apply iadd_nan_l. Qed.
End P.
