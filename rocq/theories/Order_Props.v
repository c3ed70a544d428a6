(** Property C57: order conditions of the symplectic coefficient tables. *)
From Verif Require Import System_Model System_Spec.
Open Scope R_scope.

(** The literals as integers in units of 1e-20 (true: kick coefficient); only used to let the kernel
    check the bounds by integer arithmetic. *)
Definition den : Z := 100000000000000000000.
Definition of_z (x : bool * Z) : op := if fst x then K (IZR (snd x) / IZR den) else D (IZR (snd x) / IZR den).
Definition z_symplectic4 : list (bool * Z) :=
  [(false, 67560359597983000000); (true, 135120719195966000000); (false, -17560359597983000000); (true, -170241438391932000000); (false, -17560359597983000000); (true, 135120719195966000000); (false, 67560359597983000000)]%Z.
Definition z_symplectic6 : list (bool * Z) :=
  [(false, 39225680523877998000); (true, 78451361047755996000); (false, 51004341191845848000); (true, 23557321335935699000); (false, -47105338540975655000); (true, -117767998417887010000); (false, 6875316825251809300); (true, 131518632068390630000); (false, 6875316825251809300); (true, -117767998417887010000); (false, -47105338540975655000); (true, 23557321335935699000); (false, 51004341191845848000); (true, 78451361047755996000); (false, 39225680523877998000)]%Z.
Definition z_symplectic8 : list (bool * Z) :=
  [(false, 52121310434995504800); (true, 104242620869991010000); (false, 143131625920352512000); (true, 182020630970713992000); (false, 98897311891537842400); (true, 15773992812361700700); (false, 129888362714548355000); (true, 244002732616735019000); (false, 121642871598513458000); (true, -716989419708119989); (false, -122708085895116059000); (true, -244699182370524015000); (false, -203140778260310517000); (true, -161582374150096997000); (false, -169832618404521085000); (true, -178082862658945151000); (false, -169832618404521085000); (true, -161582374150096997000); (false, -203140778260310517000); (true, -244699182370524015000); (false, -122708085895116059000); (true, -716989419708119989); (false, 121642871598513458000); (true, 244002732616735019000); (false, 129888362714548355000); (true, 15773992812361700700); (false, 98897311891537842400); (true, 182020630970713992000); (false, 143131625920352512000); (true, 104242620869991010000); (false, 52121310434995504800)]%Z.
Definition z_symplectic10 : list (bool * Z) :=
  [(false, 30610967201933609000); (true, 61221934403867218000); (false, -9401269895472469400); (true, -80024474194812156000); (false, -66002635995076209000); (true, -51980797795340250000); (false, -15240397828727220000); (true, 21500002137885812000); (false, -11750569210727700000); (true, -45001140559341213000); (false, 22250778443570857000); (true, 89502697446482926000); (false, 51288848042847668000); (true, 13074998639212410000); (false, 33095796002497074000); (true, 53116593365781739000); (false, -6005019111972198500); (true, -65126631589726136000); (false, -76956706144236287000); (true, -88786780698746448000); (false, -7687222941705601500); (true, 73412334815335245000); (false, 42477286784491525000); (true, 11542238753647800000); (false, 43160892192959932000); (true, 74779545632272060000); (false, 5543486275322567800); (true, -63692573081626924000); (false, -19288621063874828000); (true, 25115330953877268000); (false, 33904387248169282000); (true, 42693443542461296000); (false, 33904387248169282000); (true, 25115330953877268000); (false, -19288621063874828000); (true, -63692573081626924000); (false, 5543486275322567800); (true, 74779545632272060000); (false, 43160892192959932000); (true, 11542238753647800000); (false, 42477286784491525000); (true, 73412334815335245000); (false, -7687222941705601500); (true, -88786780698746448000); (false, -76956706144236287000); (true, -65126631589726136000); (false, -6005019111972198500); (true, 53116593365781739000); (false, 33095796002497074000); (true, 13074998639212410000); (false, 51288848042847668000); (true, 89502697446482926000); (false, 22250778443570857000); (true, -45001140559341213000); (false, -11750569210727700000); (true, 21500002137885812000); (false, -15240397828727220000); (true, -51980797795340250000); (false, -66002635995076209000); (true, -80024474194812156000); (false, -9401269895472469400); (true, 61221934403867218000); (false, 30610967201933609000)]%Z.
Ltac table := unfold of_z, den; cbn [map fst snd]; repeat (apply f_equal2; [apply f_equal; lra|]); reflexivity.
Lemma t4 : symplectic4 = map of_z z_symplectic4. Proof. unfold symplectic4, z_symplectic4. table. Qed.
Lemma t6 : symplectic6 = map of_z z_symplectic6. Proof. unfold symplectic6, z_symplectic6. table. Qed.
Lemma t8 : symplectic8 = map of_z z_symplectic8. Proof. unfold symplectic8, z_symplectic8. table. Qed.
Lemma t10 : symplectic10 = map of_z z_symplectic10. Proof. unfold symplectic10, z_symplectic10. table. Qed.

Fixpoint zkick_pow (k : nat) (l : list (bool * Z)) : Z :=
  match l with [] => 0%Z | (b, z) :: t => if b then (z ^ Z.of_nat k + zkick_pow k t)%Z else zkick_pow k t end.
Lemma den_pos : 0 < IZR den. Proof. apply IZR_lt. reflexivity. Qed.
Lemma kick_pow_z k l : kick_pow k (map of_z l) = IZR (zkick_pow k l) / IZR den ^ k.
Proof.
  assert (P := den_pos). assert (Q : IZR den ^ k <> 0) by (apply pow_nonzero; lra).
  induction l as [|[b z] l IH]; simpl; [field; auto|]. unfold of_z at 1; cbn [fst snd]. destruct b; auto.
  rewrite IH, plus_IZR, <- pow_IZR. unfold Rdiv. rewrite Rpow_mult_distr, <- Rinv_pow by lra. ring.
Qed.
Lemma bound_z k l e : (Z.abs (zkick_pow k l) * 10 ^ Z.of_nat e < den ^ Z.of_nat k)%Z -> Rabs (kick_pow k (map of_z l)) < / 10 ^ e.
Proof.
  intros H. apply IZR_lt in H. rewrite mult_IZR, <- !pow_IZR, <- Rabs_Zabs in H.
  rewrite kick_pow_z. assert (P := den_pos). assert (Q : 0 < IZR den ^ k) by (apply pow_lt; lra).
  assert (T : 0 < 10 ^ e) by (apply pow_lt; lra).
  unfold Rdiv. rewrite Rabs_mult, Rabs_inv. rewrite (Rabs_right (IZR den ^ k)) by lra.
  apply (Rmult_lt_reg_r (10 ^ e)); auto. rewrite Rinv_l by lra. apply (Rmult_lt_reg_r (IZR den ^ k)); auto.
  rewrite Rmult_1_l. replace (Rabs (IZR (zkick_pow k l)) * / IZR den ^ k * 10 ^ e * IZR den ^ k) with (Rabs (IZR (zkick_pow k l)) * 10 ^ e)
    by (field; lra). exact H.
Qed.
Fixpoint zhalf (eps prev : Z) (l : list (bool * Z)) : bool :=
  match l with
  | [] => true
  | (false, c) :: [] => (Z.abs (2 * c - prev) <=? 2 * eps)%Z
  | (false, c) :: (true, k) :: t => (Z.abs (2 * c - (prev + k)) <=? 2 * eps)%Z && zhalf eps k t
  | _ => false
  end.
Lemma half_one eps c u : (Z.abs (2 * c - u) <=? 2 * eps)%Z = true -> Rabs (IZR c / IZR den - IZR u / IZR den / 2) <= IZR eps / IZR den.
Proof.
  intros H. apply Z.leb_le, IZR_le in H. rewrite mult_IZR, <- Rabs_Zabs, minus_IZR, mult_IZR in H. assert (P := den_pos).
  replace (IZR c / IZR den - IZR u / IZR den / 2) with ((2 * IZR c - IZR u) * (/ (2 * IZR den))) by (field; lra).
  assert (Q : 0 < / (2 * IZR den)) by (apply Rinv_0_lt_compat; lra).
  rewrite Rabs_mult, (Rabs_right (/ _)) by lra.
  replace (IZR eps / IZR den) with (2 * IZR eps * / (2 * IZR den)) by (field; lra).
  apply Rmult_le_compat_r; [lra|exact H].
Qed.
Lemma half_z eps l : forall prev, zhalf eps prev l = true -> half_sums (IZR eps / IZR den) (IZR prev / IZR den) (map of_z l).
Proof.
  assert (forall n l, (length l <= n)%nat -> forall prev, zhalf eps prev l = true -> half_sums (IZR eps / IZR den) (IZR prev / IZR den) (map of_z l)) as G.
  { induction n as [|n IH]; intros m Hm prev H; destruct m as [|[b c] m]; simpl in *; auto; [lia|].
    destruct b; [discriminate|]. destruct m as [|[b k] m]; simpl in *.
    - apply half_one; auto.
    - destruct b; [|discriminate]. apply andb_prop in H. destruct H as [H1 H2]. split.
      + unfold of_z; cbn [fst snd]. replace (IZR prev / IZR den + IZR k / IZR den) with (IZR (prev + k) / IZR den) by (rewrite plus_IZR; field; pose proof den_pos; lra).
        apply half_one; auto.
      + apply IH; auto. lia. }
  intros. eapply G; eauto.
Qed.

(** * C57: order conditions of the composition schemes *)
(** Every drift coefficient is half the sum of its neighbouring kick coefficients, so each scheme is a
    composition of leapfrog steps with the kick coefficients as weights... *)
Theorem C57_compositions_of_leapfrog : half_sums 0 0 leapfrog_dkd /\ half_sums 0 0 symplectic4 /\
  half_sums 1e-15 0 symplectic6 /\ half_sums 1e-15 0 symplectic8 /\ half_sums 1e-15 0 symplectic10.
Proof.
  assert (Z0 : IZR 0 / IZR den = 0) by (unfold Rdiv; ring).
  assert (Ze : IZR 100000 / IZR den = 1e-15) by (unfold den; lra).
  split; [|split; [|split; [|split]]].
  - unfold leapfrog_dkd. cbn [half_sums]. split; apply Rabs_le; lra.
  - rewrite t4, <- Z0. apply half_z. vm_compute. reflexivity.
  - rewrite t6, <- Z0, <- Ze. apply half_z. vm_compute. reflexivity.
  - rewrite t8, <- Z0, <- Ze. apply half_z. vm_compute. reflexivity.
  - rewrite t10, <- Z0, <- Ze. apply half_z. vm_compute. reflexivity.
Qed.
(** ...whose weights satisfy the odd-power order conditions of their order. *)
Theorem C57_order_conditions :
  (Rabs (kick_pow 3 symplectic4) < / 10 ^ 13) /\
  (Rabs (kick_pow 3 symplectic6) < / 10 ^ 13 /\ Rabs (kick_pow 5 symplectic6) < / 10 ^ 12) /\
  (Rabs (kick_pow 3 symplectic8) < / 10 ^ 12 /\ Rabs (kick_pow 5 symplectic8) < / 10 ^ 12 /\ Rabs (kick_pow 7 symplectic8) < / 10 ^ 11) /\
  (Rabs (kick_pow 3 symplectic10) < / 10 ^ 13 /\ Rabs (kick_pow 5 symplectic10) < / 10 ^ 13 /\ Rabs (kick_pow 7 symplectic10) < / 10 ^ 13 /\
   Rabs (kick_pow 9 symplectic10) < / 10 ^ 13).
Proof.
  rewrite t4, t6, t8, t10. repeat split; apply bound_z; vm_compute; reflexivity.
Qed.

(** Non-vacuity / meaning: for the 2nd order scheme (one leapfrog) the first condition fails, so the
    conditions separate the orders. *)
Example C57_ex : kick_pow 3 leapfrog_dkd = 1.
Proof. unfold leapfrog_dkd. cbn [kick_pow pow]. lra. Qed.

Print Assumptions C57_compositions_of_leapfrog.
Print Assumptions C57_order_conditions.
