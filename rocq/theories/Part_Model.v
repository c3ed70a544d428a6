(** Model of the particle containers and of their text forms:
    /repo/src/particles/{point-particles,finite-size,drag-particles,tide-particles}.hpp, dev-tools.hpp:46-58,
    IO.hpp:44-48,59-63,102-109, vector/vector3.hpp:212-221.
    A vector of StateVector is a list of triples; StateScalar and Scalar are one type [T] (conversions between
    them are not modelled); the printed form of a scalar is a parameter. *)
From Verif Require Export Text.

Section Particles.
Context {T : Type} (zero : T).
Record v3 := V3 { x3 : T; y3 : T; z3 : T }.                (* vector/vector3.hpp *)
Definition v3_0 := V3 zero zero zero.                      (* value-initialised Vec3 *)
(** std::vector::resize: truncate, or append value-initialised elements. *)
(** The standard library's vector::resize as called by SPACEHUB_STD_FUNC resize, dev-tools.hpp:46-58 via point-particles.hpp:222-225. *)
Definition vresize {A} (d : A) (n : nat) (l : list A) : list A := firstn n l ++ repeat d (n - length l).
(** for (i = 0; i < n; ++i) push f(i). *)
Fixpoint collect_upto {A} (f : nat -> outcome A) (n : nat) : outcome (list A) :=
  match n with O => Ok [] | S k => obind (collect_upto f k) (fun l => obind (f k) (fun x => Ok (l ++ [x]))) end.

(** ** PointParticles, point-particles.hpp *)
Record pp := PP { pp_mass : T; pp_pos : v3; pp_vel : v3 }.                                  (* PointParticle, 41-93 *)
Record pps := PPS { q_pos : list v3; q_vel : list v3; q_mass : list T; q_idn : list nat; q_time : T; q_num : nat }.   (* 105-171 *)
Definition pps_new (t : T) (set : list pp) : pps :=        (* point-particles.hpp:206-219; the loop appends to every array *)
  PPS (map pp_pos set) (map pp_vel set) (map pp_mass set) (seq 0 (length set)) t (length set).
Definition pps_emplace (c : pps) (p : pp) : pps :=         (* 239-245: the id is number() *)
  PPS (q_pos c ++ [pp_pos p]) (q_vel c ++ [pp_vel p]) (q_mass c ++ [pp_mass p]) (q_idn c ++ [q_num c]) (q_time c) (q_num c + 1).
Definition pps_resize (c : pps) (n : nat) : pps :=         (* 222-225 *)
  PPS (vresize v3_0 n (q_pos c)) (vresize v3_0 n (q_vel c)) (vresize zero n (q_mass c)) (vresize 0 n (q_idn c)) (q_time c) n.
Definition pps_clear (c : pps) : pps := PPS [] [] [] [] (q_time c) 0.                       (* 233-236 *)
Definition pps_aos (c : pps) : outcome (list pp) :=        (* to_AoS, 263-271 *)
  collect_upto (fun i => obind (aget (q_mass c) i) (fun m => obind (aget (q_pos c) i) (fun p => obind (aget (q_vel c) i) (fun v => Ok (PP m p v))))) (q_num c).
Definition pps_names : text := txt "time,id,mass,px,py,pz,vx,vy,vz"%string.                             (* 259 *)

(** ** SizeParticles, finite-size.hpp *)
(** finite-size.hpp:33-91: SizeParticle, a PointParticle (point-particles.hpp:41-93) with a radius. *)
Record sp := SP { sp_mass : T; sp_rad : T; sp_pos : v3; sp_vel : v3 }.                      (* SizeParticle *)
(** finite-size.hpp:102-179: the arrays of SizeParticles, in the order they are declared. *)
Record sps := SPS { z_pos : list v3; z_vel : list v3; z_mass : list T; z_rad : list T; z_idn : list nat; z_time : T; z_num : nat }.
Definition sps_new (t : T) (set : list sp) : sps :=        (* 188-201 *)
  SPS (map sp_pos set) (map sp_vel set) (map sp_mass set) (map sp_rad set) (seq 0 (length set)) t (length set).
Definition sps_emplace (c : sps) (p : sp) : sps :=         (* 231-238 *)
  SPS (z_pos c ++ [sp_pos p]) (z_vel c ++ [sp_vel p]) (z_mass c ++ [sp_mass p]) (z_rad c ++ [sp_rad p]) (z_idn c ++ [z_num c]) (z_time c) (z_num c + 1).
Definition sps_resize (c : sps) (n : nat) : sps :=         (* 225-228 *)
  SPS (vresize v3_0 n (z_pos c)) (vresize v3_0 n (z_vel c)) (vresize zero n (z_mass c)) (vresize zero n (z_rad c)) (vresize 0 n (z_idn c)) (z_time c) n.
Definition sps_clear (c : sps) : sps := SPS [] [] [] [] [] (z_time c) 0.                    (* 219-222 *)
Definition sps_aos (c : sps) : outcome (list sp) :=        (* 246-254 *)
  collect_upto (fun i => obind (aget (z_mass c) i) (fun m => obind (aget (z_rad c) i) (fun r =>
    obind (aget (z_pos c) i) (fun p => obind (aget (z_vel c) i) (fun v => Ok (SP m r p v)))))) (z_num c).
Definition sps_names : text := txt "time,id,mass,radius,px,py,pz,vx,vy,vz"%string.                      (* 242 *)

(** ** DragParticles, drag-particles.hpp *)
Record dp := DP { dp_mass : T; dp_sub : T; dp_cs : T; dp_pos : v3; dp_vel : v3 }.           (* DragParticle, 181-188 *)
Record dps := DPS { d_pos : list v3; d_vel : list v3; d_mass : list T; d_sub : list T; d_cs : list T; d_idn : list nat; d_time : T; d_num : nat }.
Definition dps_new (t : T) (set : list dp) : dps :=        (* 207-221 *)
  DPS (map dp_pos set) (map dp_vel set) (map dp_mass set) (map dp_sub set) (map dp_cs set) (seq 0 (length set)) t (length set).
Definition dps_emplace (c : dps) (p : dp) : dps :=         (* 241-249 *)
  DPS (d_pos c ++ [dp_pos p]) (d_vel c ++ [dp_vel p]) (d_mass c ++ [dp_mass p]) (d_sub c ++ [dp_sub p]) (d_cs c ++ [dp_cs p]) (d_idn c ++ [d_num c]) (d_time c) (d_num c + 1).
Definition dps_resize (c : dps) (n : nat) : dps :=         (* 224-227 *)
  DPS (vresize v3_0 n (d_pos c)) (vresize v3_0 n (d_vel c)) (vresize zero n (d_mass c)) (vresize zero n (d_sub c)) (vresize zero n (d_cs c)) (vresize 0 n (d_idn c)) (d_time c) n.
Definition dps_clear (c : dps) : dps := DPS [] [] [] [] [] [] (d_time c) 0.                 (* 235-238 *)
Definition dps_aos (c : dps) : outcome (list dp) :=        (* 267-275 *)
  collect_upto (fun i => obind (aget (d_mass c) i) (fun m => obind (aget (d_sub c) i) (fun u => obind (aget (d_cs c) i) (fun s =>
    obind (aget (d_pos c) i) (fun p => obind (aget (d_vel c) i) (fun v => Ok (DP m u s p v))))))) (d_num c).
Definition dps_names : text := txt "time,id,mass,px,py,pz,vx,vy,vz,sub_sonic_c,local_cs"%string.        (* 263 *)

(** ** TideParticles, tide-particles.hpp *)
Record tp := TP { tp_mass : T; tp_rad : T; tp_k : T; tp_tau : T; tp_pos : v3; tp_vel : v3 }. (* TideParticle, 192-210 *)
Record tps := TPS { t_pos : list v3; t_vel : list v3; t_mass : list T; t_rad : list T; t_k : list T; t_tau : list T; t_idn : list nat; t_time : T; t_num : nat }.
Definition tps_new (t : T) (set : list tp) : tps :=        (* 231-246 *)
  TPS (map tp_pos set) (map tp_vel set) (map tp_mass set) (map tp_rad set) (map tp_k set) (map tp_tau set) (seq 0 (length set)) t (length set).
Definition tps_emplace (c : tps) (p : tp) : tps :=         (* 266-275 *)
  TPS (t_pos c ++ [tp_pos p]) (t_vel c ++ [tp_vel p]) (t_mass c ++ [tp_mass p]) (t_rad c ++ [tp_rad p]) (t_k c ++ [tp_k p]) (t_tau c ++ [tp_tau p]) (t_idn c ++ [t_num c]) (t_time c) (t_num c + 1).
Definition tps_resize (c : tps) (n : nat) : tps :=         (* 249-252 *)
  TPS (vresize v3_0 n (t_pos c)) (vresize v3_0 n (t_vel c)) (vresize zero n (t_mass c)) (vresize zero n (t_rad c)) (vresize zero n (t_k c)) (vresize zero n (t_tau c)) (vresize 0 n (t_idn c)) (t_time c) n.
Definition tps_clear (c : tps) : tps := TPS [] [] [] [] [] [] [] (t_time c) 0.              (* 260-263 *)
Definition tps_aos (c : tps) : outcome (list tp) :=        (* 293-301 *)
  collect_upto (fun i => obind (aget (t_mass c) i) (fun m => obind (aget (t_rad c) i) (fun r => obind (aget (t_k c) i) (fun k => obind (aget (t_tau c) i) (fun u =>
    obind (aget (t_pos c) i) (fun p => obind (aget (t_vel c) i) (fun v => Ok (TP m r k u p v)))))))) (t_num c).
Definition tps_names : text := txt "time,id,mass,radius,k_AM,tau_lag,px,py,pz,vx,vy,vz"%string.         (* 289 *)

(** ** Histories: emplace_back, resize, reserve (changes the capacity only), clear, set time(). *)
(** The public mutators point-particles.hpp:222-245, finite-size.hpp:219-238, drag-particles.hpp:224-249, tide-particles.hpp:249-275. *)
Inductive cop (P : Type) := Emplace (p : P) | Resize (n : nat) | Reserve (n : nat) | Clear.
Arguments Emplace {P}. Arguments Resize {P}. Arguments Reserve {P}. Arguments Clear {P}.
(** point-particles.hpp:222-245, one call. *)
Definition pps_op (c : pps) (o : cop pp) : pps := match o with Emplace p => pps_emplace c p | Resize n => pps_resize c n | Reserve _ => c | Clear => pps_clear c end.
(** finite-size.hpp:219-238, one call. *)
Definition sps_op (c : sps) (o : cop sp) : sps := match o with Emplace p => sps_emplace c p | Resize n => sps_resize c n | Reserve _ => c | Clear => sps_clear c end.
(** drag-particles.hpp:224-249, one call. *)
Definition dps_op (c : dps) (o : cop dp) : dps := match o with Emplace p => dps_emplace c p | Resize n => dps_resize c n | Reserve _ => c | Clear => dps_clear c end.
(** tide-particles.hpp:249-275, one call. *)
Definition tps_op (c : tps) (o : cop tp) : tps := match o with Emplace p => tps_emplace c p | Resize n => tps_resize c n | Reserve _ => c | Clear => tps_clear c end.

(** ** Text output *)
Variable fmt : T -> text.                                  (* os << scalar *)
Variable fmtn : nat -> text.                               (* os << size_t *)
Definition out_v3 (v : v3) : text := fmt (x3 v) ++ [comma] ++ fmt (y3 v) ++ [comma] ++ fmt (z3 v).      (* vector3.hpp:212-215 *)
(** One line of operator<<(ostream, ...Particles): point-particles.hpp:274-280, finite-size.hpp:257-263,
    drag-particles.hpp:278-284, tide-particles.hpp:304-310. *)
Definition pps_row (c : pps) (i : nat) : outcome text :=
  obind (aget (q_idn c) i) (fun id => obind (aget (q_mass c) i) (fun m => obind (aget (q_pos c) i) (fun p => obind (aget (q_vel c) i) (fun v =>
  Ok (fmt (q_time c) ++ [comma] ++ fmtn id ++ [comma] ++ fmt m ++ [comma] ++ out_v3 p ++ [comma] ++ out_v3 v ++ [newline]))))).
(** finite-size.hpp:257-263, the body of the loop. *)
Definition sps_row (c : sps) (i : nat) : outcome text :=
  obind (aget (z_idn c) i) (fun id => obind (aget (z_mass c) i) (fun m => obind (aget (z_rad c) i) (fun r => obind (aget (z_pos c) i) (fun p => obind (aget (z_vel c) i) (fun v =>
  Ok (fmt (z_time c) ++ [comma] ++ fmtn id ++ [comma] ++ fmt m ++ [comma] ++ fmt r ++ [comma] ++ out_v3 p ++ [comma] ++ out_v3 v ++ [newline])))))).
(** drag-particles.hpp:278-284, the body of the loop. *)
Definition dps_row (c : dps) (i : nat) : outcome text :=
  obind (aget (d_idn c) i) (fun id => obind (aget (d_mass c) i) (fun m => obind (aget (d_pos c) i) (fun p => obind (aget (d_vel c) i) (fun v =>
  obind (aget (d_sub c) i) (fun u => obind (aget (d_cs c) i) (fun s =>
  Ok (fmt (d_time c) ++ [comma] ++ fmtn id ++ [comma] ++ fmt m ++ [comma] ++ out_v3 p ++ [comma] ++ out_v3 v ++ [comma] ++ fmt u ++ [comma] ++ fmt s ++ [newline]))))))).
(** tide-particles.hpp:304-310, the body of the loop. *)
Definition tps_row (c : tps) (i : nat) : outcome text :=
  obind (aget (t_idn c) i) (fun id => obind (aget (t_mass c) i) (fun m => obind (aget (t_rad c) i) (fun r => obind (aget (t_k c) i) (fun k => obind (aget (t_tau c) i) (fun u =>
  obind (aget (t_pos c) i) (fun p => obind (aget (t_vel c) i) (fun v =>
  Ok (fmt (t_time c) ++ [comma] ++ fmtn id ++ [comma] ++ fmt m ++ [comma] ++ fmt r ++ [comma] ++ fmt k ++ [comma] ++ fmt u ++ [comma] ++ out_v3 p ++ [comma] ++ out_v3 v ++ [newline])))))))).
(** The loop over [0, number) of point-particles.hpp:275-279 (and of the three other containers). *)
Definition print_rows (row : nat -> outcome text) (n : nat) : outcome text := obind (collect_upto row n) (fun l => Ok (concat l)).

(** Single particles: hub::print_csv, point-particles.hpp:191-194, finite-size.hpp:76-79, drag-particles.hpp:191-194, tide-particles.hpp:213-217. *)
Definition pp_out (p : pp) : text := fmt (pp_mass p) ++ [comma] ++ out_v3 (pp_pos p) ++ [comma] ++ out_v3 (pp_vel p).
(** finite-size.hpp:76-79. *)
Definition sp_out (p : sp) : text := fmt (sp_mass p) ++ [comma] ++ fmt (sp_rad p) ++ [comma] ++ out_v3 (sp_pos p) ++ [comma] ++ out_v3 (sp_vel p).
(** drag-particles.hpp:191-194. *)
Definition dp_out (p : dp) : text := fmt (dp_mass p) ++ [comma] ++ out_v3 (dp_pos p) ++ [comma] ++ out_v3 (dp_vel p) ++ [comma] ++ fmt (dp_sub p) ++ [comma] ++ fmt (dp_cs p).
(** tide-particles.hpp:213-217. *)
Definition tp_out (p : tp) : text :=
  fmt (tp_mass p) ++ [comma] ++ fmt (tp_rad p) ++ [comma] ++ out_v3 (tp_pos p) ++ [comma] ++ out_v3 (tp_vel p) ++ [comma] ++ fmt (tp_k p) ++ [comma] ++ fmt (tp_tau p).

(** ** Text input: operator>>(istream, scalar)
    skips white space, reads the longest run of characters that can belong to a number and converts it; when that
    fails the value becomes zero and the stream fails; on a failed stream nothing is read or written. *)
Variable numchar : ascii -> bool.
Variable parse : text -> option T.
(** std::istream as used by IO.hpp:59-63: the characters left and failbit (eofbit is not kept apart). *)
Record istr := IS { i_rest : text; i_fail : bool }.
(** One step of IO.hpp:61 (is >> arg): the standard's arithmetic extraction. *)
Definition in_num (s : istr) (old : T) : istr * T :=
  if i_fail s then (s, old) else
  let t := skip isspace (i_rest s) in
  match t with
  | [] => (IS [] true, old)                                (* end of file before a character: the sentry fails, the value is kept *)
  | _ => let (a, b) := take numchar t in
         match parse a with Some v => (IS b false, v) | None => (IS b true, zero) end
  end.
Definition in_v3 (s : istr) (v : v3) : istr * v3 :=        (* vector3.hpp:218-221 *)
  let (s, x) := in_num s (x3 v) in let (s, y) := in_num s (y3 v) in let (s, z) := in_num s (z3 v) in (s, V3 x y z).
Definition pp_in (s : istr) (p : pp) : istr * pp :=        (* point-particles.hpp:197-200 *)
  let (s, m) := in_num s (pp_mass p) in let (s, q) := in_v3 s (pp_pos p) in let (s, v) := in_v3 s (pp_vel p) in (s, PP m q v).
Definition sp_in (s : istr) (p : sp) : istr * sp :=        (* finite-size.hpp:81-84 *)
  let (s, m) := in_num s (sp_mass p) in let (s, r) := in_num s (sp_rad p) in let (s, q) := in_v3 s (sp_pos p) in let (s, v) := in_v3 s (sp_vel p) in (s, SP m r q v).
Definition dp_in (s : istr) (p : dp) : istr * dp :=        (* drag-particles.hpp:197-200 *)
  let (s, m) := in_num s (dp_mass p) in let (s, q) := in_v3 s (dp_pos p) in let (s, v) := in_v3 s (dp_vel p) in
  let (s, u) := in_num s (dp_sub p) in let (s, c) := in_num s (dp_cs p) in (s, DP m u c q v).
Definition tp_in (s : istr) (p : tp) : istr * tp :=        (* tide-particles.hpp:220-224 *)
  let (s, m) := in_num s (tp_mass p) in let (s, r) := in_num s (tp_rad p) in let (s, q) := in_v3 s (tp_pos p) in let (s, v) := in_v3 s (tp_vel p) in
  let (s, k) := in_num s (tp_k p) in let (s, u) := in_num s (tp_tau p) in (s, TP m r k u q v).
End Particles.
Arguments v3 T : clear implicits. Arguments pp T : clear implicits. Arguments sp T : clear implicits. Arguments dp T : clear implicits. Arguments tp T : clear implicits.
Arguments pps T : clear implicits. Arguments sps T : clear implicits. Arguments dps T : clear implicits. Arguments tps T : clear implicits.
Arguments cop P : clear implicits. Arguments Emplace {P}. Arguments Resize {P}. Arguments Reserve {P}. Arguments Clear {P}.
