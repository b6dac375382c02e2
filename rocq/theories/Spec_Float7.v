(** Vocabulary of C143: the library's norm and dot product of three components. *)
From Coq Require Import ZArith Reals.
From Verif Require Import Vec3 Model_Float Spec_Float.
Open Scope R_scope.

(** the norm is accurate to 4 units in the last place *)
Definition good_norm (nrm : vec3 -> R) : Prop := forall v, within 8 (nrm v) (vnorm v).
(** the dot product has an error of 4 units in the last place of the sum of the absolute products, in whatever order it is summed *)
Definition good_dot (dot : vec3 -> vec3 -> R) : Prop :=
  forall a b, Rabs (dot a b - vdot a b) <= 8 * / 2 ^ 53 * (Rabs (vx a * vx b) + Rabs (vy a * vy b) + Rabs (vz a * vz b)).
(** on small integers the squares and their sum are exact, in whatever order, so the norm is the correctly rounded square root *)
Definition rounds_small_integers (nrm : vec3 -> R) : Prop :=
  forall x y z : Z, (Z.abs x <= 1000)%Z -> (Z.abs y <= 1000)%Z -> (Z.abs z <= 1000)%Z ->
  nrm (V3 (IZR x) (IZR y) (IZR z)) = fl (sqrt (IZR (x * x + y * y + z * z))).
(** a component that dominates the others by a factor 2^27.5 absorbs them: their squares vanish in the sum, in whatever order *)
Definition absorbs (nrm : vec3 -> R) : Prop :=
  forall x y z, float x -> float y -> float z ->
  (x ^ 2 + y ^ 2 <= z ^ 2 / 2 ^ 55 -> nrm (V3 x y z) = Rabs z) /\ (y ^ 2 + z ^ 2 <= x ^ 2 / 2 ^ 55 -> nrm (V3 x y z) = Rabs x).
(** products with 0 and 1 are exact, and so is adding zeros *)
Definition exact_on_axes (dot : vec3 -> vec3 -> R) : Prop :=
  forall a, float (vx a) -> float (vz a) -> dot a (V3 0 0 1) = vz a /\ dot a (V3 1 0 0) = vx a.
