(** The potential of the conducting or permeable sphere in binary floating point (C146), at one station.  Rounding as in Model_Float; the
    library's power [pow] and the product [dot] of a row with a vector are arguments of the model. *)
From Coq Require Import Reals List String.
From Verif Require Import Vec3 Numpy Model_Static Model_Float.
Import ListNotations.
Open Scope R_scope.

(** em/static/sphere.py l.227 / l.726 *)
Definition fsp_cur (s : sph) : R := fl (fl (sp_c1 s - sp_c0 s) / fl (sp_c1 s + fl (2 * sp_c0 s))).
(** l.223-238 / l.722-737; the products with [-E0] of the whole array and of the selected rows are the same function of a row *)
Definition fsp_total (pow : R -> nat -> R) (dot : vec3 -> vec3 -> R) (s : sph) (p : vec3) : R :=
  let r_vec := fdiff p (sp_loc s) in
  let r := fnorm r_vec in
  let d := dot r_vec (vopp (sp_F0 s)) in
  if Rltb (sp_radius s) r then fl (d * fl (1 - fl (fl (fsp_cur s * pow (sp_radius s) 3%nat) / pow r 3%nat)))
  else fl (fl (fl (d * 3) * sp_c0 s) / fl (sp_c1 s + fl (2 * sp_c0 s))).
(** l.246 / l.745 *)
Definition fsp_primary (dot : vec3 -> vec3 -> R) (s : sph) (p : vec3) : R := dot (fdiff p (sp_loc s)) (vopp (sp_F0 s)).
(** l.240-255 / l.739-754 *)
Definition fsphere_potential (pow : R -> nat -> R) (dot : vec3 -> vec3 -> R) (s : sph) (p : vec3) (field : string) : fields R :=
  dispatch (fun a b => fl (a - b)) field [fsp_total pow dot s p] [fsp_primary dot s p].
