(** Vocabulary of C139: far from the source, in skin depths. *)
From Coq Require Import Reals.
Open Scope R_scope.

(** the distance [r] counted in skin depths 1/sqrt(pi f mu sigma) *)
Definition skin_depths (f mu sg r : R) : R := r * sqrt (PI * f * mu * sg).
(** what is left, per unit moment over 4 pi r^3, of a wave that crossed [x] skin depths of ground: for the transverse, the
    vertical and the radial component *)
Definition through_transverse (x : R) : R := (3 / x ^ 2 + 5 / x + 2) * exp (- x).
Definition through_vertical (x : R) : R := (9 / x ^ 2 + 13 / x + 8 + 3 * x) * exp (- x).
Definition through_radial (x : R) : R := (12 / x ^ 2 + 17 / x + 10 + 3 * x) * exp (- x).
