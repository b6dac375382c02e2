(** The vertical component of the transient of a vertical magnetic dipole on a half-space in binary floating point (C138).
    Rounding as in Model_Float; the library's power, erf and exp are arguments of the model. *)
From Coq Require Import Reals.
From Verif Require Import Model_Float Model_Float2.
Open Scope R_scope.

(** em/tdem/simple_functions.py l.320 and 418: np.linalg.norm(xy, axis=-1) of two components *)
Definition foffset (x y : R) : R := fl (sqrt (fl (fl (x * x) + fl (y * y)))).
(** l.325-330 and 340: the third component of the field, one time and one point *)
Definition fvmd_hz (pow : R -> nat -> R) (ferf fexp : R -> R) (t sigma mu moment x y : R) : R :=
  let r := foffset x y in
  let thr := fl (ftheta t sigma mu * r) in
  let t1 := fl (fl (fl (9 / fl (2 * fsq thr)) - 1) * ferf thr) in
  let t2 := fl (fl (fl (fl (9 / thr) + fl (4 * thr)) / fsqrtpi) * fexp (- fsq thr)) in
  let h_z := fl (fl (1 / pow r 3%nat) * fl (t1 - t2)) in
  fl (fl (moment / fl (4 * fpi)) * h_z).
(** l.422-427 and 437: the third component of its time derivative *)
Definition fvmd_dhz (pow : R -> nat -> R) (ferf fexp : R -> R) (t sigma mu moment x y : R) : R :=
  let r := foffset x y in
  let tr := fl (ftheta t sigma mu * r) in
  let t1 := fl (fl (9 / fl (2 * fsq tr)) * ferf tr) in
  let t2 := fl (fl (fl (fl (fl (4 * pow tr 3%nat) + fl (6 * tr)) + fl (9 / tr)) / fsqrtpi) * fexp (- fsq tr)) in
  let dhz_dt := fl (fl (1 / fl (pow r 3%nat * t)) * fl (t1 - t2)) in
  fl (fl (moment / fl (4 * fpi)) * dhz_dt).
