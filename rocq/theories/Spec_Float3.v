(** Vocabulary of C134. *)
From Coq Require Import Reals.
From Verif Require Import Vec3 Model_Prism Model_Float Spec_Float.
Open Scope R_scope.

(** the library's arctangent and logarithm return floating point numbers and are accurate to 4 units in the last place *)
Definition good_atan (arctan : R -> R) : Prop := forall t, float (arctan t) /\ within 8 (arctan t) (atan t).
Definition float_log (log : R -> R) : Prop := forall t, 0 < t -> float (log t) /\ within 8 (log t) (ln t).

(** every point of the box is between [d] and [2 d] from [p] along each axis *)
Definition beyond (d : R) (b : box) (p : vec3) : Prop :=
  vx p + d <= vx (b_min b) /\ vy p + d <= vy (b_min b) /\ vz p + d <= vz (b_min b) /\
  vx (b_max b) <= vx p + 2 * d /\ vy (b_max b) <= vy p + 2 * d /\ vz (b_max b) <= vz p + 2 * d.
