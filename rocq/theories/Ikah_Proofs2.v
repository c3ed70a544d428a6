From Verif Require Import Ikah_Model Ikah_Spec Ikah_Proofs Ieee_Proofs Ieee_Proofs2 Ieee_Proofs3 Kahan_Proofs Islice_Proofs2.
From Coq Require Import Lra Lia Bool Arith.
Open Scope R_scope.
Section P.
Context {prec emax : Z} { prec_gt_0_ : Prec_gt_0 prec } { prec_lt_emax_ : Prec_lt_emax prec emax }.
Notation fl := (binary_float prec emax).
Notation knum := (knum prec emax).
Notation rne := (rne prec emax).
Notation L := (least prec emax).
Notation fadd := (fadd L prec even_choice).
Notation fsub := (fsub L prec even_choice).

Lemma mabs_fin (a : fl) : is_finite a = true -> is_finite (mabs a) = true /\ B2R (mabs a) = Rabs (B2R a).
Proof.
  intros F. unfold mabs. assert (C : Bcompare a izero = Some (Rcompare (B2R a) 0)) by (rewrite Bcompare_correct by auto; reflexivity). rewrite C.
  destruct (Rcompare_spec (B2R a) 0) as [X|X|X]; unfold ineg; rewrite ?is_finite_Bopp, ?B2R_Bopp; (split; [exact F|]);
  [rewrite Rabs_left by auto|rewrite X, Rabs_R0|rewrite Rabs_right by lra]; reflexivity.
Qed.
Lemma mabs_lt (a b : fl) : is_finite a = true -> is_finite b = true -> ilt (mabs a) (mabs b) = true <-> Rabs (B2R a) < Rabs (B2R b).
Proof.
  intros Fa Fb. destruct (mabs_fin a Fa) as (A & Av), (mabs_fin b Fb) as (B & Bv). rewrite ilt_key by (apply finite_not_nan; auto).
  rewrite (proj1 (key_fin _ A)), (proj1 (key_fin _ B)), Av, Bv. reflexivity.
Qed.
Lemma rne_id (a : fl) : rne (B2R a) = B2R a. Proof. apply (rnd_id L prec). apply B2R_fmt. Qed.
Lemma rne_abs x (c : fl) : is_finite c = true -> Rabs x <= Rabs (B2R c) -> Rabs (rne x) < bpow radix2 emax.
Proof.
  intros Fc H. pose proof (abs_B2R_lt_emax prec emax c) as B. apply Rabs_def2 in B. destruct (mabs_fin c Fc) as (_ & Mv).
  assert (U : rne (Rabs (B2R c)) = Rabs (B2R c)) by (rewrite <- Mv; apply rne_id).
  assert (U' : rne (- Rabs (B2R c)) = - Rabs (B2R c)). { rewrite <- Mv, <- B2R_Bopp. apply rne_id. }
  assert (H1 : - Rabs (B2R c) <= x <= Rabs (B2R c)) by (unfold Rabs in H at 1; destruct (Rcase_abs x); pose proof (Rabs_pos (B2R c)); lra).
  pose proof (rne_le (prec:=prec) (emax:=emax) _ _ (proj1 H1)) as P1. pose proof (rne_le (prec:=prec) (emax:=emax) _ _ (proj2 H1)) as P2. rewrite U' in P1. rewrite U in P2.
  apply Rabs_def1; unfold Rabs in *; destruct (Rcase_abs (B2R c)); lra.
Qed.
(** The two steps of the fast sum of a larger and a smaller number whose sum is finite. *)
Lemma fast_fin (a b : fl) : is_finite (iadd a b) = true -> Rabs (B2R b) <= Rabs (B2R a) ->
  is_finite (isub a (iadd a b)) = true /\ is_finite (iadd (isub a (iadd a b)) b) = true.
Proof.
  intros F H. destruct (iadd_finite a b F) as (Fa & Fb & V). set (s := iadd a b) in *.
  assert (D : Rabs (B2R a - B2R s) <= Rabs (B2R a) \/ Rabs (B2R a - B2R s) <= Rabs (B2R s)).
  { pose proof (rne_0 (prec:=prec) (emax:=emax)) as Z0. destruct (Rle_or_lt 0 (B2R a)) as [P|N].
    - rewrite (Rabs_right (B2R a)) in H by lra. assert (-B2R a <= B2R b <= B2R a) by (unfold Rabs in H; destruct (Rcase_abs _); lra).
      assert (S0 : 0 <= B2R s) by (rewrite V; apply rne_nonneg; lra).
      destruct (Rle_or_lt 0 (B2R b)) as [Q|Q].
      + right. assert (B2R a <= B2R s) by (pose proof (rne_le (prec:=prec) (emax:=emax) (B2R a) (B2R a + B2R b) ltac:(lra)) as W; rewrite rne_id in W; lra). rewrite Rabs_left1, Rabs_right by lra. lra.
      + left. assert (B2R s <= B2R a) by (pose proof (rne_le (prec:=prec) (emax:=emax) (B2R a + B2R b) (B2R a) ltac:(lra)) as W; rewrite rne_id in W; lra). rewrite !Rabs_right by lra. lra.
    - rewrite (Rabs_left (B2R a)) in H by lra. assert (B2R a <= B2R b <= - B2R a) by (unfold Rabs in H; destruct (Rcase_abs _); lra).
      assert (S0 : B2R s <= 0) by (rewrite V, <- Z0; apply rne_le; lra).
      destruct (Rle_or_lt (B2R b) 0) as [Q|Q].
      + right. assert (B2R s <= B2R a) by (pose proof (rne_le (prec:=prec) (emax:=emax) (B2R a + B2R b) (B2R a) ltac:(lra)) as W; rewrite rne_id in W; lra). rewrite Rabs_right, Rabs_left1 by lra. lra.
      + left. assert (B2R a <= B2R s) by (pose proof (rne_le (prec:=prec) (emax:=emax) (B2R a) (B2R a + B2R b) ltac:(lra)) as W; rewrite rne_id in W; lra). rewrite !Rabs_left1 by lra. lra. }
  assert (F1 : is_finite (isub a s) = true).
  { destruct (cr_sub a s Fa F) as (C1 & _). apply C1. destruct D as [D|D]; [exact (rne_abs _ a Fa D)|exact (rne_abs _ s F D)]. }
  split; auto. destruct (isub_finite a s F1) as (_ & _ & V1).
  assert (E : B2R (isub a s) = B2R a - B2R s).
  { rewrite V1. apply (rnd_id L prec). replace (B2R a - B2R s) with (- (B2R s - B2R a)) by ring. apply (fmt_opp L prec).
    rewrite V. apply (diff_repr L prec even_choice); auto; apply B2R_fmt. }
  destruct (cr_add (isub a s) b F1 Fb) as (C1 & _). apply C1. apply (rne_abs _ s F). rewrite E.
  pose proof (rnd_add_err' L prec even_choice (B2R a) (B2R b) (B2R_fmt a) (B2R_fmt b)) as R. fold (rne (B2R a + B2R b)) in R. change (rnd L prec even_choice (B2R a + B2R b)) with (rne (B2R a + B2R b)) in R.
  rewrite <- V in R. replace (B2R a - B2R s + B2R b) with (- (B2R s - (B2R a + B2R b))) by ring. rewrite Rabs_Ropp.
  assert (Kahan_Proofs.u prec <= 1). { rewrite u_eq. change 1 with (bpow radix2 0). apply bpow_le. pose proof (@prec_gt_0 prec _). lia. }
  pose proof (Rabs_pos (B2R s)). nra.
Qed.
Lemma res_link (real add : fl) : is_finite (iadd real add) = true ->
  is_finite (res real (iadd real add) add) = true /\
  B2R (res real (iadd real add) add) = (if Rlt_dec (Rabs (B2R add)) (Rabs (B2R real)) then fadd (fsub (B2R real) (fadd (B2R real) (B2R add))) (B2R add) else fadd (fsub (B2R add) (fadd (B2R real) (B2R add))) (B2R real)).
Proof.
  intros F. destruct (iadd_finite real add F) as (Fr & Fa & V). unfold res. destruct (Rlt_dec (Rabs (B2R add)) (Rabs (B2R real))) as [C|C].
  - rewrite (proj2 (mabs_lt add real Fa Fr) C). destruct (fast_fin real add F) as (G1 & G2); [lra|]. split; auto.
    destruct (iadd_finite _ _ G2) as (_ & _ & ->). destruct (isub_finite _ _ G1) as (_ & _ & ->). rewrite V. reflexivity.
  - assert (X : ilt (mabs add) (mabs real) = false). { destruct (ilt (mabs add) (mabs real)) eqn:X; auto. exfalso. apply C. apply (mabs_lt add real Fa Fr). exact X. }
    rewrite X. rewrite (iadd_comm real add) in F |- *. destruct (fast_fin add real F) as (G1 & G2); [lra|]. split; auto.
    destruct (iadd_finite _ _ G2) as (_ & _ & ->). destruct (isub_finite _ _ G1) as (_ & _ & ->). destruct (iadd_finite add real F) as (_ & _ & ->).
    unfold Kahan_Model.fadd, Kahan_Model.fsub. rewrite (Rplus_comm (B2R real) (B2R add)). reflexivity.
Qed.
End P.
