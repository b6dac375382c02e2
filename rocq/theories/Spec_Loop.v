(** Specification vocabulary for the circular loop; it knows nothing about the model. *)
From Coq Require Import Reals.
From Coquelicot Require Import Coquelicot.
From Verif Require Import Vec3 Calculus.
Open Scope R_scope.

(** position of [p] relative to the axis through [c] along the unit vector [n] *)
Definition axis_height (n c p : vec3) : R := vdot n (vsub p c).
Definition axis_distance (n c p : vec3) : R := vnorm (vcross n (vsub p c)).

(** [n] is a unit vector which is not within 1e-20 of the z axis without lying on it
    (the code then treats it as lying on it) *)
Definition proper_axis (n : vec3) : Prop :=
  vnorm n = 1 /\ (/ 10 ^ 20 <= vnorm (vcross n (V3 0 0 1)) \/ vcross n (V3 0 0 1) = vzero).

(** [u], [v] is an orthonormal pair; the circle of radius [a] about [c] in their plane,
    and the derivative of that parametrization *)
Definition orthonormal (u v : vec3) : Prop := vdot u u = 1 /\ vdot v v = 1 /\ vdot u v = 0.
Definition circle (c u v : vec3) (a t : R) : vec3 := vadd c (vadd (vscal (a * cos t) u) (vscal (a * sin t) v)).
Definition circle_dl (u v : vec3) (a t : R) : vec3 := vadd (vscal (- (a * sin t)) u) (vscal (a * cos t) v).

(** [V] is the integral of [K dl q] once around that circle *)
Definition is_circle_integral (K : vec3 -> vec3 -> vec3) (c u v : vec3) (a : R) (V : vec3) : Prop :=
  is_RInt (fun t => vx (K (circle_dl u v a t) (circle c u v a t))) 0 (2 * PI) (vx V) /\
  is_RInt (fun t => vy (K (circle_dl u v a t) (circle c u v a t))) 0 (2 * PI) (vy V) /\
  is_RInt (fun t => vz (K (circle_dl u v a t) (circle c u v a t))) 0 (2 * PI) (vz V).
