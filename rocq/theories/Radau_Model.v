(** Model of /repo/src/integrator/Gauss-Radau.hpp and of the iterator /repo/src/ode-iterator/IAS15.hpp.
    Scalars are reals; the coefficient tables are the decimal numbers written in the source (their
    conversion to double is not modelled).  The tables rr_ and dy_tab_ are not read by any function and
    are not modelled. *)
From Verif Require Export System_Model Ctrl_Model.
Open Scope R_scope.

(** h_, Gauss-Radau.hpp 134-137 *)
Definition radau_h : list R :=
  [
   0.0562625605369221464656521910318; 0.180240691736892364987579942780; 0.352624717113169637373907769648;
   0.547153626330555383001448554766; 0.734210177215410531523210605558; 0.885320946839095768090359771030;
   0.977520613561287501891174488626; 1.000000000000000000000000000000].
(** est_b_, Gauss-Radau.hpp 138-140 *)
Definition radau_est_b : list R :=
  [
   1.0; 2.0; 1.0;
   3.0; 3.0; 1.0;
   4.0; 6.0; 4.0;
   1.0; 5.0; 10.0;
   10.0; 5.0; 1.0;
   6.0; 15.0; 20.0;
   15.0; 6.0; 1.0;
   7.0; 21.0; 35.0;
   35.0; 21.0; 7.0;
   1.0].
(** g2b_, Gauss-Radau.hpp 141-151 *)
Definition radau_g2b : list R :=
  [
   1.0000000000000000000000000000000; (- (0.0562625605369221464656521910318)); 1.0000000000000000000000000000000;
   0.0101408028300636299864818047860; (- (0.236503252273814511453232133812)); 1.0000000000000000000000000000000;
   (- (0.00357589772925161759493445889941)); 0.0935376952594620658957484611455; (- (0.589127969386984148827139903460));
   1.0000000000000000000000000000000; 0.00195656540994722107690056706032; (- (0.0547553868890686864408084294395));
   0.415881200082306861688621911192; (- (1.13628159571753953182858845823)); 1.0000000000000000000000000000000;
   (- (0.00143653023637089154244595529986)); 0.0421585277212687077072973470356; (- (0.360099596502056812289766461058));
   1.25015071184069102585054407511; (- (1.87049177293295006335179906379)); 1.0000000000000000000000000000000;
   0.00127179030902686774929431161484; (- (0.0387603579159067703699046248206)); 0.360962243452845983225339808035;
   (- (1.46688420840042696437015525831)); 2.90613625930842930142379130730; (- (2.75581271977204583144215883482));
   1.0000000000000000000000000000000].
(** b2g_, Gauss-Radau.hpp 153-166 *)
Definition radau_b2g : list R :=
  [
   1.0000000000000000000000000000000; 0.0562625605369221464656521910318; 1.0000000000000000000000000000000;
   0.00316547571817082924999048003940; 0.236503252273814511453232133812; 1.0000000000000000000000000000000;
   0.000178097769221743388112527921974; 0.0457929855060279188954538730112; 0.589127969386984148827139903460;
   1.0000000000000000000000000000000; 0.0000100202365223291272095672152244; 0.00843185715352570154449997416277;
   0.253534069054569266521461597106; 1.13628159571753953182858845823; 1.0000000000000000000000000000000;
   5.63764163931820761038385011543e-7; 0.00152978400250046581894900795889; 0.0978342365324440053653648396422;
   0.875254664684091091229724588371; 1.87049177293295006335179906379; 1.0000000000000000000000000000000;
   3.17188154017613664758548178792e-8; 0.000276293090982647659313022639369; 0.0360285539837364596003870741266;
   0.576733000277078731354459606135; 2.24858876076915979339268952601; 2.75581271977204583144215883482;
   1.0000000000000000000000000000000].
(** rs_, Gauss-Radau.hpp 180-190 *)
Definition radau_rs : list R :=
  [
   17.7738089140780008407526623988; 44.7509303845559921986046250353; 8.06593864838188668853712230228;
   55.5095216749226862607771099218; 19.5740293777069706783363904372; 5.80100155926406148232868035040;
   52.1625022561530373477792209295; 28.5409022679299111073474153873; 14.0104739330160380493901680907;
   5.14062410581093422863632030242; 50.8080910907447463230817180713; 37.3038175637124211672269545084;
   25.2900342103279709751944749769; 14.0099072392295085641729477931; 5.34597689987110751412148951162;
   70.9853803416487645973553313623; 62.8448441358018197140240262907; 52.1020450666394756209272428984;
   36.7361232269326597782946191852; 19.5691943377340508924875261834; 6.61766201370242448744713000122;
   230.858165231426653338394745299; 225.668615322657271889813588120; 207.899029180855701108223308386;
   165.753721732680276715639824926; 103.578820531755117818385634006; 44.5769049331641486107191459286;
   10.8460261902368446847064289379].

(** Access functions, 51-101: triangular tables, entry (n, j) at n (n + 1) / 2 + j. *)
Definition tri (t : list R) (n j : nat) : R := nth (n * (n + 1) / 2 + j) t 0.
(** Gauss-Radau.hpp:51 *)
Definition hs (i : nat) : R := nth i radau_h 0.
(** Gauss-Radau.hpp:82 *)
Definition est_b := tri radau_est_b.
(** Gauss-Radau.hpp:91 *)
Definition g2b := tri radau_g2b.
(** Gauss-Radau.hpp:100 *)
Definition b2g := tri radau_b2g.
(** Gauss-Radau.hpp:62 *)
Definition rs := tri radau_rs.

(** * State of GaussRadau, 272-283.  [g_b i] is the array b_[i] (i < 7), etc. *)
Record gr := mkG { g_n : nat; g_b : nat -> list R; g_g : nat -> list R; g_old : nat -> list R;
                   g_dy0 : list R; g_dyh : list R; g_dg : list R; g_in : list R }.
Definition gr_init : gr := mkG 0 (fun _ => []) (fun _ => []) (fun _ => []) [] [] [] [].     (* 314-324 *)
Definition tset {A} (t : nat -> A) (i : nat) (a : A) : nat -> A := fun j => if (j =? i)%nat then a else t j.
(** Indexing of a ScalarArray, e.g. Gauss-Radau.hpp:371; the indices are below var_num_, so the default is never used. *)
Definition at_ (a : list R) (x : nat) : R := nth x a 0.
(** A loop "for i < size: dst[i] = f(i)". *)
(** The loops Gauss-Radau.hpp:369-382, 413-417, 505-516 over i < var_num_. *)
Definition arr (n : nat) (f : nat -> R) : list R := tolist n f.
(** calc::array_scale and array_advance with a factor, core-computation.hpp:259-270, 364-372. *)
Definition array_scale (n : nat) (a : list R) (k : R) : list R := arr n (fun x => at_ a x * k).
(** core-computation.hpp:364-372 (dst[i] += a[i] * k). *)
Definition array_advance (v a : list R) (k : R) : list R := arr (length v) (fun x => at_ v x + at_ a x * k).
(** The loop "dst = T[6] * c(6, i); for (j = 6; j > i; --j) dst += T[j - 1] * c(j - 1, i)" of
    transform_g2b, transform_b2g and predict. *)
Fixpoint advance_down (j i : nat) (T : nat -> list R) (c : nat -> nat -> R) (dst : list R) : list R :=
  match j with
  | O => dst
  | S j' => if (i <? j)%nat then advance_down j' i T c (array_advance dst (T j') (c j' i)) else dst
  end.
(** Gauss-Radau.hpp:293-296, 303-306: one row of the transforms. *)
Definition combine_rows (n : nat) (T : nat -> list R) (c : nat -> nat -> R) (i : nat) : list R :=
  advance_down 6 i T c (array_scale n (T 6%nat) (c 6%nat i)).
Definition transform_g2b (n : nat) (G : nat -> list R) : nat -> list R := combine_rows n G g2b.        (* 290-298 *)
Definition transform_b2g (n : nat) (B : nat -> list R) : nat -> list R := combine_rows n B b2g.        (* 300-308 *)

(** check_particle_size, 326-345. *)
Definition check_size (n : nat) (G : gr) : gr :=
  if (g_n G =? n)%nat then G
  else let z := arr n (fun _ => 0) in mkG n (fun _ => z) (fun _ => z) (fun _ => z) z z z (g_in G).

(** integrate_to, 355-384: the state array handed to read_from_scalar_array. *)
Definition stage_value (b : nat -> R) (y dy0 h_n step : R) : R :=
  y + ((((((((b 6%nat * (7.0 * h_n / 8.0)) + b 5%nat) * (6.0 * h_n / 7.0) + b 4%nat) * (5.0 * h_n / 6.0) +
                     b 3%nat) * (4.0 * h_n / 5.0) + b 2%nat) * (3.0 * h_n / 4.0) + b 1%nat) * (2.0 * h_n / 3.0) +
                  b 0%nat) * (1.0 * h_n / 2.0) + dy0) * (h_n * step).
(** Gauss-Radau.hpp:355-384, the array tmp_state_. *)
Definition stage_state (G : gr) (step : R) (stage : nat) : list R :=
  arr (g_n G) (fun x => stage_value (fun i => at_ (g_b G i) x) (at_ (g_in G) x) (at_ (g_dy0 G) x) (hs stage) step).

(** evaluate, 386-395: the array handed over. *)
Fixpoint eval_loop (i : nat) (b : nat -> list R) (step : R) (y : list R) : list R :=
  match i with O => y | S i' => eval_loop i' b step (array_advance y (b i') (step / INR (i + 1))) end.
(** Gauss-Radau.hpp:386-395, the array tmp_state_. *)
Definition evaluate_state (G : gr) (step : R) : list R :=
  array_advance (eval_loop 7 (g_b G) step (g_in G)) (g_dy0 G) step.

(** update_b_table, 397-481: the cases of the switch differ in the number of terms only. *)
Definition new_g (g : nat -> R) (dy0 dyh : R) (stage : nat) : R :=
  fold_left (fun acc j => acc - g j * rs stage (j + 1)) (seq 0 stage) ((dyh - dy0) * rs stage 0).
(** Gauss-Radau.hpp:397-481. *)
Definition update_b (G : gr) (dyh : list R) (stage : nat) : gr :=
  let n := g_n G in
  let ng := arr n (fun x => new_g (fun j => at_ (g_g G j) x) (at_ (g_dy0 G) x) (at_ dyh x) stage) in
  let dg := arr n (fun x => at_ ng x - at_ (g_g G stage) x) in
  mkG n (fun i => if (i <=? stage)%nat then array_advance (g_b G i) dg (g2b stage i) else g_b G i)
      (tset (g_g G) stage ng) (g_old G) (g_dy0 G) dyh dg (g_in G).

(** predict, 498-519 *)
Definition predict_one (q : R) (i : nat) (G : gr) : gr :=
  let n := g_n G in
  let tmp := arr n (fun x => at_ (g_b G i) x - at_ (g_old G i) x) in
  let Q := nth i [q; q * q; q * q * q; q * q * (q * q); q * q * q * (q * q); q * q * q * (q * q * q); q * q * (q * q) * (q * q * q)] 0 in
  let o := array_scale n (combine_rows n (g_b G) est_b i) Q in
  mkG n (tset (g_b G) i (arr n (fun x => at_ o x + at_ tmp x))) (g_g G) (tset (g_old G) i o) (g_dy0 G) (g_dyh G) (g_dg G) (g_in G).
(** Gauss-Radau.hpp:498-519. *)
Definition predict (q : R) (G : gr) : gr :=
  let G1 := fold_left (fun G i => predict_one q i G) (seq 0 7) G in
  mkG (g_n G1) (g_b G1) (transform_b2g (g_n G1) (g_b G1)) (g_old G1) (g_dy0 G1) (g_dyh G1) (g_dg G1) (g_in G1).

Section GR.
  Context {P : Type}.
  Variable wr : P -> list R.                       (* write_to_scalar_array *)
  Variable rd : P -> list R -> outcome P.          (* read_from_scalar_array *)
  (** evaluate_general_derivative: the array and the system, whose memorised step scale it overwrites
      (regu-system.hpp:513, 529); the chain systems can fail. *)
  Variable deriv : P -> outcome (list R * P).
  (** The loop 490-495 over the stages, [k] stages left. *)
  Fixpoint stages (k : nat) (G : gr) (p : P) (step : R) : outcome (gr * P) :=
    match k with
    | O => Ok (G, p)
    | S k' =>
      let i := (7 - k)%nat in
      obind (rd p (stage_state G step i)) (fun p1 =>
      obind (deriv p1) (fun '(d, p2) =>
      let G1 := update_b G d i in
      obind (rd p2 (g_in G)) (fun p3 => stages k' G1 p3 step)))
    end.
  Definition correct (G : gr) (p : P) (step : R) : outcome (gr * P) :=          (* 483-496 *)
    let input := wr p in
    let G1 := check_size (length input) G in
    obind (deriv p) (fun '(d, p0) =>
    let G2 := mkG (g_n G1) (g_b G1) (g_g G1) (g_old G1) d (g_dyh G1) (g_dg G1) input in
    stages 7 G2 p0 step).
  (** Gauss-Radau.hpp:386-395. *)
  Definition evaluate (G : gr) (p : P) (step : R) : outcome P := rd p (evaluate_state G step).
  Definition gr_integrate (G : gr) (p : P) (step : R) : outcome (gr * P) :=     (* 347-353 *)
    obind (correct G p step) (fun '(G1, p1) => obind (evaluate G1 p1 step) (fun p2 => Ok (predict 1 G1, p2))).

  (** * IAS15::iterate, IAS15.hpp:86-115 *)
  Variable pcerr : list R -> list R -> ext.        (* PC_err_checker_.error *)
  Variable serr : list R -> list R -> P -> R -> outcome R. (* calc_step_error, 134-186; see Ias_Model *)
  Variable ratio_of : R -> R.                      (* step_ctrl_.next(7, .): C35 gives its value *)
  Variable lim : R -> R.                           (* step_ctrl_.limiter(.) *)
  Variable lmin : R.                               (* step_ctrl_.limiter_min() *)
  (** last_PC_error_ and warmed_up live between calls; [PInf] stands for max_value. *)
  (** IAS15.hpp:63-68, the members that change. *)
  Record ias := mkIas { i_gr : gr; i_last : ext; i_warm : bool }.
  Definition in_window (I : ias) : bool * ias :=                               (* 122-132 *)
    let e := pcerr (g_dyh (i_gr I)) (g_dg (i_gr I)) in
    if egt (Fin 1) e || ele (i_last I) e then (true, mkIas (i_gr I) PInf (i_warm I)) else (false, mkIas (i_gr I) e (i_warm I)).
  (** The loop has no bound of its own (line 107 resets the counter): [fuel] bounds the number of
      iterations looked at; None: still running. *)
  Fixpoint ias_loop (fuel k : nat) (I : ias) (p : P) (h : R) : option (outcome (ias * P * R)) :=
    match fuel with
    | O => None
    | S f =>
      if (k <? 30)%nat then
        match correct (i_gr I) p h with
        | Abort => Some Abort
        | UB => Some UB
        | Ok (G1, p1) =>
          let (conv, I1) := in_window (mkIas G1 (i_last I) (i_warm I)) in
          if conv then
            match serr (g_dyh G1) (g_b G1 6%nat) p1 h with
            | Abort => Some Abort
            | UB => Some UB
            | Ok e =>
            let r := ratio_of e in
            if rgtb r lmin then
              Some (obind (evaluate G1 p1 h) (fun p2 =>
                let r' := lim r in Ok (mkIas (predict r' G1) (i_last I1) true, p2, h * r')))
            else
              ias_loop f 1 (mkIas (if i_warm I1 then predict r G1 else G1) PInf (i_warm I1)) p1 (h * r)
            end
          else ias_loop f (k + 1) I1 p1 h
        end
      else Some Abort
    end.
  (** IAS15.hpp:86-115. *)
  Definition ias_iterate (fuel : nat) (I : ias) (p : P) (macro : R) := ias_loop fuel 0 I p macro.
End GR.

(** * The systems' derivative evaluations *)
(** SimpleSystem::evaluate_general_derivative, base-system.hpp:236-246: only scratch arrays change. *)
Definition simple_deriv (I : inter) (s : st) : outcome (list R * st) := Ok (derivative I s, s).
(** RegularizedSystem::evaluate_general_derivative, regu-system.hpp:311-340: eval_pos_phy_time and then
    eval_vel_phy_time (509-538) overwrite scale_. *)
Definition regu_deriv (I : inter) (r : regu) (s : st) : outcome (list R * st) := Ok (rderivative I r s, set_sc s (snd (vel_phy r s 1))).
(** The step controller of IAS15 as its constructor leaves it, IAS15.hpp:80-85. *)
Definition ias_ctrl : pid := configured [SetGuards 0.85 1; SetLimiter 0.02 4].
