From Verif Require Import Islice_Model Islice_Spec Ieee_Proofs Ieee_Proofs2 Ieee_Proofs3 Ieee_Props2 Kahan_Proofs Fchain_Proofs2.
From Flocq Require Import Relative.
From Coq Require Import Lra Lia.
Open Scope R_scope.
Section P.
Context {prec emax : Z} { prec_gt_0_ : Prec_gt_0 prec } { prec_lt_emax_ : Prec_lt_emax prec emax }.
Notation fl := (binary_float prec emax).
Notation rne := (rne prec emax).

Lemma ile_leq (a b : fl) : ile a b = true <-> leq a b.
Proof. unfold ile, leq, ilt, ieq. destruct (Bcompare a b) as [[]|]; split; intros H; auto; try discriminate; destruct H; discriminate. Qed.
Lemma ige_leq (a b : fl) : ige a b = true <-> leq b a.
Proof. unfold ige, leq, ilt, ieq. rewrite (Bcompare_swap _ _ b a). destruct (Bcompare b a) as [[]|]; cbn; split; intros H; auto; try discriminate; destruct H; discriminate. Qed.
Lemma call_iff (s : islice prec emax) t : fst (it_call s t) = true <-> leq (it_next s) t /\ leq t (it_end s).
Proof. unfold it_call. rewrite <- ige_leq, <- ile_leq. destruct (ige t (it_next s)), (ile t (it_end s)); cbn; split; intros H; auto; try discriminate; destruct H; discriminate. Qed.
Lemma slot_shift st int k : slot (iadd st int) int k = slot st int (S k).
Proof. induction k as [|k IH]; cbn [slot]; auto. rewrite IH. reflexivity. Qed.
Lemma calls_spec ts : forall (s : islice prec emax) l s', it_calls s ts = (l, s') ->
  it_next s' = slot (it_next s) (it_int s) (length l) /\ it_end s' = it_end s /\ it_int s' = it_int s /\
  (forall i t, nth_error l i = Some t -> leq (slot (it_next s) (it_int s) i) t /\ leq t (it_end s) /\ In t ts).
Proof.
  induction ts as [|t ts IH]; intros s l s' H.
  - injection H as <- <-. cbn [length slot]. repeat split; auto; destruct i; discriminate.
  - cbn [it_calls] in H. destruct (it_call s t) as [b s1] eqn:E. destruct (it_calls s1 ts) as [l1 s2] eqn:E1. pose proof (call_iff s t) as CI. rewrite E in CI. cbn [fst] in CI.
    destruct (IH _ _ _ E1) as (A & B & C & D). unfold it_call in E. destruct (ige t (it_next s) && ile t (it_end s)).
    + injection E as <- <-. injection H as <- <-. cbn [it_next it_end it_int] in *. cbn [length]. rewrite slot_shift in A. split; auto. split; auto. split; auto.
      intros [|i] x Hx; [injection Hx as <-; cbn [slot]; destruct (proj1 CI eq_refl); cbn; tauto|]. cbn [nth_error] in Hx. destruct (D i x Hx) as (D1 & D2 & D3). rewrite slot_shift in D1. cbn. tauto.
    + injection E as <- <-. injection H as <- <-. split; auto. split; auto. split; auto. intros i x Hx. destruct (D i x Hx) as (D1 & D2 & D3). cbn; tauto.
Qed.
Lemma leq_fin (a b c : fl) : is_finite a = true -> is_finite c = true -> leq a b -> leq b c -> is_finite b = true /\ B2R a <= B2R b <= B2R c.
Proof.
  intros Fa Fc H1 H2. destruct (leq_nan _ _ H1) as (Na & Nb). destruct (leq_nan _ _ H2) as (_ & Nc). apply (leq_key a b Na Nb) in H1. apply (leq_key b c Nb Nc) in H2.
  destruct (key_fin a Fa) as (Ka & Ba). destruct (key_fin c Fc) as (Kc & Bc). rewrite Ka in H1. rewrite Kc in H2.
  destruct b as [z|z| |z m e Hb]; try discriminate.
  - cbn [key B2R is_finite] in *. split; auto.
  - exfalso. cbn [key] in *. destruct z; lra.
  - cbn [key is_finite] in *. split; auto.
Qed.
Lemma leq_iff (a b : fl) : is_finite a = true -> is_finite b = true -> leq a b <-> B2R a <= B2R b.
Proof.
  intros Fa Fb. rewrite (leq_key a b (finite_not_nan a Fa) (finite_not_nan b Fb)). rewrite (proj1 (key_fin a Fa)), (proj1 (key_fin b Fb)). tauto.
Qed.
Lemma of_nat_int n : (Z.of_nat n <= 2 ^ prec)%Z -> is_int (of_nat n : fl) (Z.of_nat n).
Proof.
  intros H. destruct (@int_rne prec emax _ _ (Z.of_nat n)) as (E & L); [lia|].
  pose proof (binary_normalize_correct prec emax _ _ mode_NE (Z.of_nat n) 0 false) as C. cbv zeta in C.
  replace (F2R (Float radix2 (Z.of_nat n) 0)) with (IZR (Z.of_nat n)) in C by (unfold F2R; cbn; ring). rewrite (rne_eq (IZR (Z.of_nat n))) in C.
  rewrite Rlt_bool_true in C by exact L. destruct C as (C1 & C2 & _). split; [exact C2|]. unfold of_nat. rewrite C1. exact E.
Qed.
End P.
