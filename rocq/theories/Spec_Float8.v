(** Vocabulary of C144. *)
From Coq Require Import Reals List.
From Verif Require Import Vec3 Model_Static Model_Float.
Import ListNotations.
Open Scope R_scope.

(** the rotation by nothing returns the vectors of floats it is applied to *)
Definition keeps_identity (f : mat3 -> vec3 -> vec3) : Prop :=
  forall v, float (vx v) -> float (vy v) -> float (vz v) -> f mid v = v.
(** a wire of length [L] from the origin along the x axis *)
Definition x_wire (L current sigma mu : R) : lcur := LC [V3 0 0 0; V3 L 0 0] current sigma mu.
(** the distance from the x axis *)
Definition rho (p : vec3) : R := sqrt (vy p ^ 2 + vz p ^ 2).
