(** The potential of a pair of current electrodes in a half-space in binary floating point (C147).  Rounding as in Model_Float. *)
From Coq Require Import Reals.
From Verif Require Import Vec3 Model_Static Model_Float.
Open Scope R_scope.

(** em/static/halfspace.py l.551 and l.554: the difference of the two electrodes' potentials at one station *)
Definition fdh_pair (s : dhsp) (p : vec3) : R :=
  fl (fhs_potential (dh_rho s) (dh_current s) (dh_a s) p - fhs_potential (dh_rho s) (dh_current s) (dh_b s) p).
(** l.551-558, after the checks of l.537-549, which do not round *)
Definition fdh_potential (s : dhsp) (m : vec3) (n : option vec3) : R :=
  match n with Some n => fl (fdh_pair s m - fdh_pair s n) | None => fdh_pair s m end.
