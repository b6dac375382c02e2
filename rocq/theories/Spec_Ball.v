(** Specification vocabulary: integrals over a sphere and over a ball, in spherical coordinates
    about any polar axis.  It knows nothing about the model. *)
From Coq Require Import Reals.
From Coquelicot Require Import Coquelicot.
From Verif Require Import Vec3 Spec_Flux.
Open Scope R_scope.

(** [I] is the integral of the numbers [f y] over the sphere of radius [s] about [c], with the area element
    s^2 sin theta dphi dtheta.  The values on the polar axis itself do not matter. *)
Definition sphere_integral (e1 e2 e3 c : vec3) (s : R) (f : vec3 -> R) (I : R) : Prop :=
  exists ring : R -> R,
    (forall theta, 0 < theta < PI ->
       is_RInt (fun phi => f (vadd c (vscal s (direction e1 e2 e3 theta phi))) * (s ^ 2 * sin theta)) 0 (2 * PI) (ring theta)) /\
    is_RInt ring 0 PI I.

(** [I] is the integral of [f] over the ball of radius [rad] about [c], shell by shell *)
Definition ball_integral (e1 e2 e3 c : vec3) (rad : R) (f : vec3 -> R) (I : R) : Prop :=
  exists shell : R -> R,
    (forall s, 0 < s < rad -> sphere_integral e1 e2 e3 c s f (shell s)) /\ is_RInt shell 0 rad I.

(** the same for vectors and matrices, component by component *)
Definition ball_vintegral (e1 e2 e3 c : vec3) (rad : R) (f : vec3 -> vec3) (I : vec3) : Prop :=
  ball_integral e1 e2 e3 c rad (fun y => vx (f y)) (vx I) /\ ball_integral e1 e2 e3 c rad (fun y => vy (f y)) (vy I) /\
  ball_integral e1 e2 e3 c rad (fun y => vz (f y)) (vz I).
Definition ball_mintegral (e1 e2 e3 c : vec3) (rad : R) (f : vec3 -> mat3) (I : mat3) : Prop :=
  ball_vintegral e1 e2 e3 c rad (fun y => m0 (f y)) (m0 I) /\ ball_vintegral e1 e2 e3 c rad (fun y => m1 (f y)) (m1 I) /\
  ball_vintegral e1 e2 e3 c rad (fun y => m2 (f y)) (m2 I).
