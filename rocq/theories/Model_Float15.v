(** The field of the conducting or permeable sphere in binary floating point (C149), at one station.  Rounding as in Model_Float; the
    library's power [pow] and the product [dot] of a row with a vector are arguments of the model. *)
From Coq Require Import Reals List String.
From Verif Require Import Vec3 Numpy Model_Static Model_Float Model_Float12.
Import ListNotations.
Open Scope R_scope.

(** em/static/sphere.py l.325-341 / l.825-841 *)
Definition fsp_total_field (pow : R -> nat -> R) (dot : vec3 -> vec3 -> R) (s : sph) (p : vec3) : vec3 :=
  let r_vec := fdiff p (sp_loc s) in
  let r := fnorm r_vec in
  let f := fl (1 - fl (fl (fsp_cur s * pow (sp_radius s) 3%nat) / pow r 3%nat)) in
  let g := fl (fl (fl (3 * dot r_vec (sp_F0 s)) * fsp_cur s) * sp_radius s) in
  let e (F x : R) := fl (fl (F * f) + fl (fl (g * x) / pow r 4%nat)) in
  if Rltb (sp_radius s) r then V3 (e (vx (sp_F0 s)) (vx r_vec)) (e (vy (sp_F0 s)) (vy r_vec)) (e (vz (sp_F0 s)) (vz r_vec))
  else fvscal (fl (fl (3 * sp_c0 s) / fl (sp_c1 s + fl (2 * sp_c0 s)))) (sp_F0 s).
(** l.349-350 / l.847-848 *)
Definition fsp_primary_field (s : sph) : vec3 := V3 (fl (0 + vx (sp_F0 s))) (fl (0 + vy (sp_F0 s))) (fl (0 + vz (sp_F0 s))).
(** l.343-359 / l.843-857 *)
Definition fsphere_field (pow : R -> nat -> R) (dot : vec3 -> vec3 -> R) (s : sph) (p : vec3) (field : string) : fields vec3 :=
  dispatch fdiff field [fsp_total_field pow dot s p] [fsp_primary_field s].
