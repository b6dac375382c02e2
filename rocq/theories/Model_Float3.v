(** Properties of the medium and of sources in binary floating point (C132).  Rounding as in Model_Float. *)
From Coq Require Import Reals.
From Verif Require Import Vec3 Numpy Model_Float.
Open Scope R_scope.

(** em/base.py l.54-65: the stored conductivity after [obj.sigma = value], value a float *)
Definition fset_sigma (value : R) : result R := if Rle_dec value 0 then Raise ValueError else Ok value.
(** l.76 *)
Definition fget_rho (sigma : R) : R := fl (1 / sigma).
(** l.78-85: the stored conductivity after [obj.rho = value]; float division by zero raises *)
Definition fset_rho (value : R) : result R := if Req_EM_T value 0 then Raise ZeroDivisionError else fset_sigma (fl (1 / value)).

(** em/base.py l.222: [var /= np.linalg.norm(var)] *)
Definition forient (v : vec3) : vec3 := fvdiv v (fnorm v).

(** gravity.py l.359: the density after [sphere.mass = value] *)
Definition fset_mass (pow : R -> nat -> R) (radius value : R) : R :=
  fl (fl (value * 3) / fl (fl (4 * fpi) * pow radius 3%nat)).

(** em/fdem/base.py l.39 *)
Definition fomega (frequency : R) : R := fl (fl (2 * fpi) * frequency).
(** l.128-129 *)
Definition fskin_qs (frequency sigma mu : R) : R := fl (sqrt (fl (2 / fl (fl (fomega frequency * sigma) * mu)))).
(** l.130 *)
Definition fskin (pow : R -> nat -> R) (frequency sigma mu epsilon : R) : R :=
  let w := fomega frequency in
  let q := fl (pow sigma 2%nat / pow (fl (w * epsilon)) 2%nat) in
  fl (fl (sqrt (fl (fl (fl (mu * epsilon) / 2) * fl (fl (sqrt (fl (1 + q))) - 1)))) / w).
(** em/tdem/base.py l.59 *)
Definition fpeak_time (pow : R -> nat -> R) (z sigma mu : R) : R := fl (fl (fl (mu * sigma) * pow z 2%nat) / 6).
(** l.102 *)
Definition fdiffusion_distance (time sigma mu : R) : R := fl (sqrt (fl (fl (2 * time) / fl (mu * sigma)))).
