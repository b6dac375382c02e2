(** The central-loop transients in binary floating point (C131).  Rounding as in Model_Float; the library's erf, exp and
    power are arguments of the model. *)
From Coq Require Import Reals.
From Verif Require Import Model_Float.
Open Scope R_scope.

(** em/tdem/base.py l.129: [np.sqrt(mu*sigma/(4.*time))] *)
Definition ftheta (t sigma mu : R) : R := fl (sqrt (fl (fl (mu * sigma) / fl (4 * t)))).
(** np.sqrt(np.pi) *)
Definition fsqrtpi : R := fl (sqrt fpi).
(** em/tdem/simple_functions.py l.79-83, one time *)
Definition ftloop_hz (ferf fexp : R -> R) (t sigma mu radius current turns : R) : R :=
  let ta := fl (ftheta t sigma mu * radius) in
  let t1 := fl (fl (3 / fl (fsqrtpi * ta)) * fexp (- fsq ta)) in
  let t2 := fl (fl (1 - fl (3 / fl (2 * fsq ta))) * ferf ta) in
  let hz := fl (fl (t1 + t2) / fl (2 * radius)) in
  fl (fl (turns * current) * hz).
(** l.241-244, one time *)
Definition ftloop_dbz (pow : R -> nat -> R) (ferf fexp : R -> R) (t sigma mu radius current turns : R) : R :=
  let a := radius in
  let ta := fl (ftheta t sigma mu * a) in
  let term := fl (fl (3 * ferf ta) - fl (fl (fl (fl (2 * ta) / fsqrtpi) * fl (3 + fl (2 * fsq ta))) * fexp (- fsq ta))) in
  fl (fl (fl (- turns * current) / fl (sigma * pow a 3%nat)) * term).
