(** Vocabulary of C107 and C108: accuracy of floating point results. *)
From Coq Require Import Reals.
From Verif Require Import Vec3.
Open Scope R_scope.

(** [within n computed exact]: the relative error is at most n times the unit roundoff 2^-53 *)
Definition within (n : R) (computed exact : R) : Prop := Rabs (computed - exact) <= n * / 2 ^ 53 * Rabs exact.

(** the library's power is accurate to 4 units in the last place *)
Definition good_pow (pow : R -> nat -> R) : Prop := forall x k, within 8 (pow x k) (x ^ k).

(** so is its logarithm *)
Definition good_log (log : R -> R) : Prop := forall t, 0 < t -> within 8 (log t) (ln t).

(** every component of a vector *)
Definition each (P : R -> R -> Prop) (a b : vec3) : Prop := P (vx a) (vx b) /\ P (vy a) (vy b) /\ P (vz a) (vz b).
