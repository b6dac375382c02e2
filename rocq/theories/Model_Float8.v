(** The vertical field of a vertical dipole on a half-space in binary floating point (C142).  Rounding as in Model_Float and
    complex arithmetic as in Model_Float6; the library's square root, exponential, powers and cube of a complex number are
    arguments of the model. *)
From Coq Require Import Reals.
From Coquelicot Require Import Coquelicot.
From Verif Require Import Vec3 Model_FDEM Model_Float Model_Float6.
Open Scope R_scope.

(** em/fdem/halfspace.py l.92-93: the horizontal offset of [xy] from the source, np.linalg.norm of a pair *)
Definition fmh_r (s : mhalf) (xy : vec3) : R :=
  let x := fl (vx xy - vx (mh_loc s)) in let y := fl (vy xy - vy (mh_loc s)) in
  fl (sqrt (fl (fl (x * x) + fl (y * y)))).
(** em/fdem/halfspace.py l.88-90, quasistatic: sigma_hat is the real sigma (fdem/base.py l.256-262) *)
Definition fmh_k (csq : C -> C) (mu_0 : R) (s : mhalf) : C :=
  let w := fl (fl (2 * fpi) * fd_freq (mh_med s)) in
  csq (cfmul (cfmul (cfmul (0, - (1)) (creal w)) (creal mu_0)) (creal (fd_sigma (mh_med s)))).
(** em/fdem/halfspace.py l.109 and l.130-138, third component, for a source with src_x = src_y = 0, one frequency and one point *)
Definition fmh_hz (csq cex cube : C -> C) (pow : R -> nat -> R) (mu_0 : R) (s : mhalf) (secondary : bool) (xy : vec3) : C :=
  let k := fmh_k csq mu_0 s in
  let r := fmh_r s xy in
  let src_z := vz (mh_orient s) in
  let em_z :=
    cfadd (creal 0)
      (cfmul (cfdiv (creal (fl (src_z * 2))) (cfmul (cfmul k k) (creal (pow r 5%nat))))
         (cfsub (creal 9)
            (cfmul (cfsub (cfsub (cfadd (creal 9) (cfmul (cfmul (0, 9) k) (creal r)))
                                 (cfmul (cfmul (creal 4) (cfmul k k)) (creal (pow r 2%nat))))
                          (cfmul (cfmul (0, 1) (cube k)) (creal (pow r 3%nat))))
                   (cex (cfmul (cfmul (0, - (1)) k) (creal r)))))) in
  let em_z := if secondary then cfsub em_z (creal (fl (- src_z / pow r 3%nat))) else em_z in
  cfmul (creal (fl (mh_moment s / fl (4 * fpi)))) em_z.
