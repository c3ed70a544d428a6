(** The post-Newtonian equations of motion of two point masses in harmonic coordinates as published
    (L. Blanchet, Living Reviews in Relativity 17 (2014) 2, eq. (203)), transcribed in the notation of
    that article: n12 = (x1-x2)/r12, v12 = v1-v2, (a b) a scalar product.  Nothing in this file refers to the
    code or to its model. *)
From Verif Require Import Vec.
Open Scope R_scope.

Section Blanchet.
  Variables (G c m1 m2 : R) (x1 x2 v1 v2 : vec).
  Let r := norm (vsub x1 x2).
  Let n12 := vscal (/ r) (vsub x1 x2).
  Let v12 := vsub v1 v2.
  Let nv1 := dot n12 v1.
  Let nv2 := dot n12 v2.
  Let nv12 := dot n12 v12.
  Let v1s := norm2 v1.
  Let v2s := norm2 v2.
  Let v1v2 := dot v1 v2.
  Let v12s := norm2 v12.

  (** Acceleration of body 1 due to body 2, order 1/c^2. *)
  Definition bl_1pn : vec := vscal (/ c ^ 2)
    (vadd (vscal (5 * G ^ 2 * m1 * m2 / r ^ 3 + 4 * G ^ 2 * m2 ^ 2 / r ^ 3
                  + G * m2 / r ^ 2 * (3 / 2 * nv2 ^ 2 - v1s + 4 * v1v2 - 2 * v2s)) n12)
          (vscal (G * m2 / r ^ 2 * (4 * nv1 - 3 * nv2)) v12)).

  (** Order 1/c^4. *)
  Definition bl_2pn : vec := vscal (/ c ^ 4)
    (vadd (vscal
      (- 57 / 4 * G ^ 3 * m1 ^ 2 * m2 / r ^ 4 - 69 / 2 * G ^ 3 * m1 * m2 ^ 2 / r ^ 4 - 9 * G ^ 3 * m2 ^ 3 / r ^ 4
       + G * m2 / r ^ 2 * (- 15 / 8 * nv2 ^ 4 + 3 / 2 * nv2 ^ 2 * v1s - 6 * nv2 ^ 2 * v1v2 - 2 * v1v2 ^ 2
                           + 9 / 2 * nv2 ^ 2 * v2s + 4 * v1v2 * v2s - 2 * v2s ^ 2)
       + G ^ 2 * m1 * m2 / r ^ 3 * (39 / 2 * nv1 ^ 2 - 39 * nv1 * nv2 + 17 / 2 * nv2 ^ 2
                                    - 15 / 4 * v1s - 5 / 2 * v1v2 + 5 / 4 * v2s)
       + G ^ 2 * m2 ^ 2 / r ^ 3 * (2 * nv1 ^ 2 - 4 * nv1 * nv2 - 6 * nv2 ^ 2 - 8 * v1v2 + 4 * v2s)) n12)
      (vscal
      (G ^ 2 * m2 ^ 2 / r ^ 3 * (- 2 * nv1 - 2 * nv2)
       + G ^ 2 * m1 * m2 / r ^ 3 * (- 63 / 4 * nv1 + 55 / 4 * nv2)
       + G * m2 / r ^ 2 * (- 6 * nv1 * nv2 ^ 2 + 9 / 2 * nv2 ^ 3 + nv2 * v1s - 4 * nv1 * v1v2 + 4 * nv2 * v1v2
                           + 4 * nv1 * v2s - 5 * nv2 * v2s)) v12)).

  (** Order 1/c^5. *)
  Definition bl_25pn : vec := vscal (/ c ^ 5)
    (vadd (vscal (208 * G ^ 3 * m1 * m2 ^ 2 / (15 * r ^ 4) * nv12 - 24 * G ^ 3 * m1 ^ 2 * m2 / (5 * r ^ 4) * nv12
                  + 12 * G ^ 2 * m1 * m2 / (5 * r ^ 3) * nv12 * v12s) n12)
          (vscal (8 * G ^ 3 * m1 ^ 2 * m2 / (5 * r ^ 4) - 32 * G ^ 3 * m1 * m2 ^ 2 / (5 * r ^ 4)
                  - 4 * G ^ 2 * m1 * m2 / (5 * r ^ 3) * v12s) v12)).
End Blanchet.
