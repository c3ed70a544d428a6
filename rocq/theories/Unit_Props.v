(** Property C83: the system of units is coherent. *)
From Verif Require Import Unit_Model Unit_Proofs.
From Coq Require Import Lra List Psatz.
Import ListNotations.
Open Scope R_scope.

Lemma u_pi_pos : 0 < u_pi. Proof. unfold u_pi. lra. Qed.
(** All units (macros.hpp:46-76). *)
Definition all_units : list R := [u_AU; u_Ms; u_year; u_deg; u_kyr; u_Myr; u_Gyr; u_month; u_day; u_hr; u_min; u_second; u_hubble; u_kg; u_mp; u_km; u_m; u_cm; u_PC; u_Rs; u_Re; u_Rj; u_kms; u_cms; u_Me; u_Mj; u_Mmoon].
Ltac units := unfold u_hubble, u_deg, u_kyr, u_Myr, u_Gyr, u_month, u_mp, u_kg, u_kms, u_cms, u_cm, u_PC, u_Rs, u_Re, u_Rj, u_Mj, u_Mmoon, u_Me, u_second, u_min, u_hr, u_day, u_m, u_km, u_Ms, u_AU, u_year, literal in *.
Lemma pos_div a b : 0 < a -> 0 < b -> 0 < a / b. Proof. intros. apply Rdiv_lt_0_compat; auto. Qed.
(** Every unit is positive, so a number converted to any of them and back is unchanged and conversion keeps the order. *)
Theorem C83_conversion : forall u, In u all_units -> 0 < u /\ (forall x, literal x u / u = x) /\ (forall x y, literal x u < literal y u <-> x < y).
Proof.
  assert (P : forall u, In u all_units -> 0 < u).
  { assert (S : 0 < u_second) by (units; unfold u_pi; lra).
    intros u H. cbn in H. repeat destruct H as [<-|H]; try contradiction; try exact S; try (units; unfold u_pi; lra). }
  intros u H. specialize (P u H). split; [exact P|]. unfold literal. split; [intros x; field; lra|]. intros x y. split; intros L.
  - apply Rmult_lt_reg_r with u; auto.
  - apply Rmult_lt_compat_r; auto.
Qed.
(** Durations. *)
Theorem C83_durations : 60 * u_second = u_min /\ 60 * u_min = u_hr /\ 24 * u_hr = u_day /\ 365.25636042 * u_day = u_year /\ 12 * u_month = u_year /\
  u_kyr = 1000 * u_year /\ u_Myr = 1000 * u_kyr /\ u_Gyr = 1000 * u_Myr /\ u_hubble = 13.7 * u_Gyr /\ u_sec = u_second.
Proof. unfold u_sec. units. unfold u_pi. repeat split; lra. Qed.
(** Lengths: an astronomical unit in kilometres, metres and centimetres; at one parsec it spans one arc second; radii. *)
Theorem C83_lengths : u_AU = 149597870.7 * u_km /\ u_km = 1000 * u_m /\ u_m = 100 * u_cm /\ u_PC * (u_deg / 3600) = u_AU /\
  u_Rs = 695700 * u_km /\ u_Re = 6378 * u_km /\ u_Rj = 69911 * u_km.
Proof. pose proof u_pi_pos. repeat split; units; try lra. field. lra. Qed.
(** Masses: the solar mass is 1.98847e30 kg, the proton 1.67262192e-27 kg; the Earth, Jupiter and the Moon relative to the Sun and Earth. *)
Theorem C83_masses : u_Ms = 1.98847e30 * u_kg /\ u_mp = 1.67262192e-27 * u_kg /\ u_Me = 3.003e-6 * u_Ms /\ u_Mj = 317.8 * u_Me /\ u_Mmoon = 0.0123 * u_Me.
Proof. units. repeat split; lra. Qed.
(** Speeds: light travels 299792.458 kilometres in a second. *)
Theorem C83_speeds : u_kms * u_second = u_km /\ u_cms * u_second = u_cm /\ c_light * u_second = 299792.458 * u_km /\ u_C = c_light.
Proof.
  assert (S : u_second <> 0) by (assert (0 < u_second) by (units; unfold u_pi; lra); lra).
  assert (E : u_sec = u_second) by apply C83_durations. unfold c_light, u_C. rewrite E. unfold u_kms, u_cms. repeat split; field; exact S.
Qed.
(** The year is the period of the circular orbit at one astronomical unit about one solar mass with G = 1 (4 pi^2 a^3 = G M P^2), to
    twenty decimals; a right angle is 90 degrees likewise. *)
Theorem C83_year : forall P, 0 <= P -> P * P * (Gc * u_Ms) = 4 * (PI * PI) * (u_AU * u_AU * u_AU) -> Rabs (P - u_year) < 2e-20 /\ Rabs (90 * u_deg - PI / 2) < 1e-20.
Proof.
  intros P H0 H. destruct pi_near as (A & B). unfold Gc, u_Ms, u_AU in H.
  assert (E : P = 2 * PI). { assert (Q : (P - 2 * PI) * (P + 2 * PI) = 0) by nra. apply Rmult_integral in Q. destruct Q; [lra|]. pose proof PI_RGT_0. lra. }
  rewrite E. unfold u_year, u_deg. units. unfold u_pi. split; apply Rabs_def1; lra.
Qed.
(** G = 1 in these units is, in SI units, the measured 6.674e-11 m^3/(kg s^2) to four digits. *)
Theorem C83_gravitational_constant : 6.6738e-11 * (u_m * u_m * u_m) < Gc * (u_kg * (u_second * u_second)) < 6.6747e-11 * (u_m * u_m * u_m).
Proof. units. unfold Gc, u_pi. split; lra. Qed.
(** The Boltzmann constant over the proton mass given as a number is not the quotient of the two constants: it is 0.1 percent too small. *)
Theorem C83_boltzmann_over_proton_refuted : c_kB_on_mp < 0.9991 * (c_kB / u_mp) /\ 0.9988 * (c_kB / u_mp) < c_kB_on_mp.
Proof.
  assert (S : u_second * u_second > 0) by (units; unfold u_pi; nra).
  assert (E : c_kB / u_mp = 1.38064852e-23 / 1.67262192e-27 * ((u_m / u_second) * (u_m / u_second))).
  { unfold c_kB, u_mp, literal. field. assert (0 < u_second) by (units; unfold u_pi; lra). assert (0 < u_kg) by (units; lra). repeat split; lra. }
  rewrite E. assert (V : u_m / u_second = 365.25636042 * 24 * 60 * 60 / (149597870.7 * 1000 * (2 * u_pi))).
  { units. field. pose proof u_pi_pos. split; lra. }
  rewrite V. unfold c_kB_on_mp, u_pi. split; lra.
Qed.
Print Assumptions C83_conversion. Print Assumptions C83_durations. Print Assumptions C83_lengths. Print Assumptions C83_speeds. Print Assumptions C83_year.
Print Assumptions C83_gravitational_constant. Print Assumptions C83_boltzmann_over_proton_refuted. Print Assumptions C83_masses.
