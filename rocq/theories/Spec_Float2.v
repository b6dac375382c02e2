(** Vocabulary of C131: library functions. *)
From Coq Require Import Reals.
From Verif Require Import Model_TDEM Spec_Float.
Open Scope R_scope.

(** the library's error function and exponential ([erf] of Model_TDEM is 2 over sqrt pi times the integral of exp(-t^2) from 0) are accurate to 4 units in the last place *)
Definition good_erf (ferf : R -> R) : Prop := forall x, 0 < x -> within 8 (ferf x) (erf x).
Definition good_exp (fexp : R -> R) : Prop := forall x, within 8 (fexp x) (exp x).
(** a computed value that is useless: 0 although the exact value is not, or more than [k] times too large *)
Definition useless (k computed exact : R) : Prop := exact <> 0 /\ (computed = 0 \/ k * Rabs exact < Rabs computed).
