(** Coordinate transforms in binary floating point (C135).  Rounding as in Model_Float; [ct], [st] and [at2] are the library's cosine,
    sine and arctan2, arguments of the model. *)
From Coq Require Import Reals.
From Verif Require Import Vec3 Model_Float.
Open Scope R_scope.

Section Lib.
  Variables (ct st : R -> R) (at2 : R -> R -> R).
  (** spatial.py l.118-124, 135 for a row of width 3 *)
  Definition fcyl_to_cart (g : vec3) : vec3 := V3 (fl (vx g * ct (vy g))) (fl (vx g * st (vy g))) (vz g).
  (** l.125-135 *)
  Definition fcyl_to_cart_vec (g v : vec3) : vec3 :=
    V3 (fl (fl (vx v * ct (vy g)) - fl (vy v * st (vy g)))) (fl (fl (vx v * st (vy g)) + fl (vy v * ct (vy g)))) (vz v).
  (** l.201-210, 222; [x**2] of an array is x times x *)
  Definition fcart_to_cyl (g : vec3) : vec3 := V3 (fl (sqrt (fl (fsq (vx g) + fsq (vy g))))) (at2 (vy g) (vx g)) (vz g).
  (** l.211-222 *)
  Definition fcart_to_cyl_vec (g v : vec3) : vec3 :=
    let theta := at2 (vy g) (vx g) in
    V3 (fl (fl (ct theta * vx v) + fl (st theta * vy v))) (fl (fl (- st theta * vx v) + fl (ct theta * vy v))) (vz v).
  (** l.286-291 *)
  Definition fsph_to_cart (g : vec3) : vec3 :=
    let z := fl (vx g * ct (vz g)) in
    let rho := fl (vx g * st (vz g)) in
    V3 (fl (rho * ct (vy g))) (fl (rho * st (vy g))) z.
  (** l.385-392 *)
  Definition fcart_to_sph (g : vec3) : vec3 :=
    let rho := fl (sqrt (fl (fl (vx g * vx g) + fl (vy g * vy g)))) in
    let phi := at2 (vy g) (vx g) in
    let theta := at2 rho (vz g) in
    V3 (fnorm g) phi theta.
End Lib.
