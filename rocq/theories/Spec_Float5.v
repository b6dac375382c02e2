(** Vocabulary of C137: complex library functions. *)
From Coq Require Import Reals.
From Coquelicot Require Import Coquelicot.
From Verif Require Import Spec_Float.
Open Scope R_scope.

(** the library's square root of a negative imaginary number -iy is h - ih with h = sqrt(y/2) accurate to 4 units in the last place *)
Definition good_csqrt (csq : C -> C) : Prop := forall y, 0 < y -> exists h, csq (0, - y) = (h, - h) /\ within 8 h (sqrt (y / 2)).
(** both parts of the library's complex exponential are accurate to 8 units in the last place *)
Definition good_cexp (cex : C -> C) : Prop :=
  forall x y, within 16 (fst (cex (x, y))) (exp x * cos y) /\ within 16 (snd (cex (x, y))) (exp x * sin y).
