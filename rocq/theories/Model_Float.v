(** Binary floating point versions of some formulas (C107, C108).

    [fl] is rounding to the nearest number with a 53-bit significand, ties to even, as the
    operations + - * / sqrt of IEEE 754 binary64 round.  Simplification: the exponent is
    unbounded, so neither overflow nor underflow is modelled; fused multiply-adds are not modelled. *)
From Coq Require Import ZArith Reals.
From Flocq Require Import Core.
From Verif Require Import Vec3 Model_Gravity.
Open Scope R_scope.

Definition fexp53 : Z -> Z := FLX_exp 53.
Definition float (x : R) : Prop := generic_format radix2 fexp53 x.
Definition fl (x : R) : R := round radix2 fexp53 ZnearestE x.
(** np.pi *)
Definition fpi : R := fl PI.

(** np.linalg.norm(v, axis=-1) of three components: sqrt of the sum of products, left to right *)
Definition fnorm (v : vec3) : R :=
  fl (sqrt (fl (fl (fl (vx v * vx v) + fl (vy v * vy v)) + fl (vz v * vz v)))).
(** xyz - location *)
Definition fdiff (p q : vec3) : vec3 := V3 (fl (vx p - vx q)) (fl (vy p - vy q)) (fl (vz p - vz q)).
(** v / r and k * v *)
Definition fvdiv (v : vec3) (r : R) : vec3 := V3 (fl (vx v / r)) (fl (vy v / r)) (fl (vz v / r)).
Definition fvscal (k : R) (v : vec3) : vec3 := V3 (fl (k * vx v)) (fl (k * vy v)) (fl (k * vz v)).
(** r ** 2 of an array: numpy squares *)
Definition fsq (r : R) : R := fl (r * r).

(** spatial.py l.411-424, 452-470, 497-498; em/base.py l.251-274 *)
Definition fdistance (p q : vec3) : R := fnorm (fdiff p q).

(** gravity.py l.21 (scipy.constants.G), 154-158 *)
Definition fG : R := fl G_newton.
Definition fpm_potential (mass : R) (loc p : vec3) : R :=
  fl (fl (fG * mass) / fnorm (fdiff p loc)).
(** gravity.py l.211-216 *)
Definition fpm_field (mass : R) (loc p : vec3) : vec3 :=
  let r_vec := fdiff p loc in let r := fnorm r_vec in
  let g := fvscal (fl (- fG * mass)) (fvdiv r_vec r) in
  fvdiv g (fsq r).

(** the power of the C library: an argument of the model.
    gravity.py l.349: [4 / 3 * np.pi * self.radius ** 3 * self.rho] *)
Definition fgs_mass (pow : R -> nat -> R) (radius rho : R) : R :=
  fl (fl (fl (fl (4 / 3) * fpi) * pow radius 3%nat) * rho).
(** gravity.py l.421-428 at one point *)
Definition fgs_potential (pow : R -> nat -> R) (radius rho : R) (loc p : vec3) : R :=
  let r := fnorm (fdiff p loc) in
  if Rlt_dec radius r then fpm_potential (fgs_mass pow radius rho) loc p
  else fl (fl (fl (fl (fl (fG * 2) / 3) * fpi) * rho) * fl (fl (3 * pow radius 2%nat) - fsq r)).
(** gravity.py l.487-494 at one point *)
Definition fgs_field (pow : R -> nat -> R) (radius rho : R) (loc p : vec3) : vec3 :=
  let r := fnorm (fdiff p loc) in
  if Rlt_dec radius r then fpm_field (fgs_mass pow radius rho) loc p
  else fvscal (fl (fl (fl (fl (- fG * 4) / 3) * fpi) * rho)) (fdiff p loc).

(** em/static/wholespace.py l.353-357: the magnetic pole *)
Definition fmp_B (moment mu : R) (loc p : vec3) : vec3 :=
  let r_vec := fdiff p loc in let r := fnorm r_vec in
  fvscal (fl (fl (moment * mu) / fl (fl (4 * fpi) * fsq r))) (fvdiv r_vec r).

(** em/static/wholespace.py l.1097-1100 (sigma = 1/rho), 846-848: the potential of a point current *)
Definition fpc_potential (rho current : R) (loc p : vec3) : R :=
  fl (current / fl (fl (fl (4 * fpi) * fl (1 / rho)) * fnorm (fdiff p loc))).
(** l.1044-1048: its electric field; [r ** 3] of an array is the library's power *)
Definition fpc_E (pow : R -> nat -> R) (rho current : R) (loc p : vec3) : vec3 :=
  let r_vec := fdiff p loc in let r := fnorm r_vec in
  fvscal (fl (current / fl (fl (4 * fpi) * fl (1 / rho)))) (fvdiv r_vec (pow r 3%nat)).
(** em/static/halfspace.py l.29-40, 191: primary and image *)
Definition fhs_potential (rho current : R) (loc p : vec3) : R :=
  fl (fpc_potential rho current loc p + fpc_potential rho current (V3 (vx loc) (vy loc) (vz loc * -1)) p).

(** kernels/_extensions/potential_field_prism.pyx l.113-143 and kernels/potential_field_prism.py l.139-149 ([log]: an
    argument): both add y and r, test the sum against 0, and use -2 y when it is 0 and y negative *)
Definition fradius (x y z : R) : R := fl (sqrt (fl (fl (fl (x * x) + fl (y * y)) + fl (z * z)))).
Definition fprism_fzx (log : R -> R) (x y z : R) : R :=
  let v := fl (y + fradius x y z) in
  if Req_EM_T v 0 then if Rlt_dec y 0 then log (fl (-2 * y)) else 0 else - log v.
(** potential_field_prism.pyx l.146-176, potential_field_prism.py l.171-181 *)
Definition fprism_fzy (log : R -> R) (x y z : R) : R :=
  let v := fl (x + fradius x y z) in
  if Req_EM_T v 0 then if Rlt_dec x 0 then log (fl (-2 * x)) else 0 else - log v.
