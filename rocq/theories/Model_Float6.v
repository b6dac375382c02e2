(** The harmonic central loop in binary floating point (C137).  Rounding as in Model_Float; a complex number is the
    pair of its parts; the library's complex square root, complex exponential and power are arguments of the model. *)
From Coq Require Import Reals.
From Coquelicot Require Import Coquelicot.
From Verif Require Import Model_Float.
Open Scope R_scope.

(** numpy's complex operations (umath loops.c.src): sums and products by parts; a real operand is converted
    to a complex one with imaginary part 0.  Signed zeros are not modelled. *)
Definition creal (x : R) : C := (x, 0).
Definition cfadd (a b : C) : C := (fl (fst a + fst b), fl (snd a + snd b)).
Definition cfsub (a b : C) : C := (fl (fst a - fst b), fl (snd a - snd b)).
Definition cfmul (a b : C) : C :=
  (fl (fl (fst a * fst b) - fl (snd a * snd b)), fl (fl (fst a * snd b) + fl (snd a * fst b))).
(** Smith's division; a zero denominator is excluded by the theorems *)
Definition cfdiv (a b : C) : C :=
  if Rle_dec (Rabs (snd b)) (Rabs (fst b)) then
    let rat := fl (snd b / fst b) in
    let scl := fl (1 / fl (fst b + fl (snd b * rat))) in
    (fl (fl (fst a + fl (snd a * rat)) * scl), fl (fl (snd a - fl (fst a * rat)) * scl))
  else
    let rat := fl (fst b / snd b) in
    let scl := fl (1 / fl (snd b + fl (fst b * rat))) in
    (fl (fl (fl (fst a * rat) + snd a) * scl), fl (fl (fl (snd a * rat) - fst a) * scl)).

(** em/fdem/simple_functions.py l.81-95, real conductivity and permeability, one frequency *)
Definition floop_hz (csq cex : C -> C) (pow : R -> nat -> R) (frequency sigma mu radius current turns : R) (secondary : bool) : C :=
  let w := fl (fl (2 * fpi) * frequency) in
  let k := csq (cfmul (cfmul (cfmul (0, - (1)) (creal w)) (creal mu)) (creal sigma)) in
  let a := radius in
  let Hz :=
    cfmul (cfdiv (creal (- current)) (cfmul (cfmul k k) (creal (pow a 3%nat))))
      (cfsub (creal 3)
         (cfmul (cfsub (cfadd (creal 3) (cfmul (cfmul (0, 3) k) (creal a))) (cfmul (cfmul k k) (creal (pow a 2%nat))))
                (cex (cfmul (cfmul (0, - (1)) k) (creal a))))) in
  let Hz :=
    if secondary then cfsub Hz (creal (fl (fl (current / 2) / a))) else Hz in
  cfmul (creal turns) Hz.
