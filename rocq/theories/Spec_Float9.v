(** Vocabulary of C148: what scipy's complete elliptic integrals return. *)
From Coq Require Import Reals.
From Verif Require Import Model_Special.
Open Scope R_scope.

(** numbers for parameters from 0 up to 1, the first kind infinite and the second kind one at 1 *)
Definition elliptic_library (ek kk : R -> flt) : Prop :=
  (forall m, 0 <= m < 1 -> exists x y, ek m = Fin x /\ kk m = Fin y) /\ ek 1 = Fin 1 /\ kk 1 = Inf false.
