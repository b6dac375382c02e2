(** Vocabulary of C135. *)
From Coq Require Import Reals.
From Verif Require Import Vec3 Model_Float Model_Spatial Spec_Float.
Open Scope R_scope.

(** the library's functions are accurate to 4 units in the last place ([atan2] of Model_Spatial: the angle of (x, y) in (-PI, PI]) *)
Definition good_cos (ct : R -> R) : Prop := forall t, within 8 (ct t) (cos t).
Definition good_sin (st : R -> R) : Prop := forall t, within 8 (st t) (sin t).
Definition good_atan2 (at2 : R -> R -> R) : Prop := forall y x, float (at2 y x) /\ within 8 (at2 y x) (atan2 y x).
