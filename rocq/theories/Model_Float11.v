(** Static magnetic dipole and gravity gradient of a point mass in binary floating point (C145).  Rounding as in Model_Float; the library's
    power [pow] and dot product [dot] are arguments of the model. *)
From Coq Require Import Reals.
From Verif Require Import Vec3 Model_Static Model_Float Model_Float9.
Open Scope R_scope.

(** em/static/wholespace.py l.209-215 *)
Definition fmd_B (pow : R -> nat -> R) (dot : vec3 -> vec3 -> R) (s : mdipole) (p : vec3) : vec3 :=
  let r_vec := fdiff p (md_loc s) in
  let r := fnorm r_vec in
  let r_hat := fvdiv r_vec r in
  let d := fl (3 * dot r_hat (md_orient s)) in
  fvscal (fl (fl (md_moment s * md_mu s) / fl (fl (4 * fpi) * pow r 3%nat)))
    (V3 (fl (fl (d * vx r_hat) - vx (md_orient s))) (fl (fl (d * vy r_hat) - vy (md_orient s))) (fl (fl (d * vz r_hat) - vz (md_orient s)))).
(** l.112-116; [r**2] of an array is r times r *)
Definition fmd_A (s : mdipole) (p : vec3) : vec3 :=
  let r_vec := fdiff p (md_loc s) in
  let r := fnorm r_vec in
  fvscal (fl (fl (md_moment s * md_mu s) / fl (fl (4 * fpi) * fsq r))) (fcross (md_orient s) (fvdiv r_vec r)).
(** gravity.py l.273-280 *)
Definition fpm_gradient (pow : R -> nat -> R) (mass : R) (loc p : vec3) : mat3 :=
  let r_vec := fdiff p loc in
  let r := fnorm r_vec in
  let r_hat := fvdiv r_vec r in
  let c := fl (- fG * mass) in
  let e (d a b : R) := fl (fl (c * fl (d - fl (fl (3 * a) * b))) / pow r 3%nat) in
  M3 (V3 (e 1 (vx r_hat) (vx r_hat)) (e 0 (vx r_hat) (vy r_hat)) (e 0 (vx r_hat) (vz r_hat)))
     (V3 (e 0 (vy r_hat) (vx r_hat)) (e 1 (vy r_hat) (vy r_hat)) (e 0 (vy r_hat) (vz r_hat)))
     (V3 (e 0 (vz r_hat) (vx r_hat)) (e 0 (vz r_hat) (vy r_hat)) (e 1 (vz r_hat) (vz r_hat))).
