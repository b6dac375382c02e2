(** Specification vocabulary for the integral laws: fluxes through spheres and parts of
    spheres, in spherical coordinates about any polar axis.  It knows nothing about the
    model. *)
From Coq Require Import Reals.
From Coquelicot Require Import Coquelicot.
From Verif Require Import Vec3.
Open Scope R_scope.

(** three unit vectors at right angles *)
Definition frame (e1 e2 e3 : vec3) : Prop :=
  vdot e1 e1 = 1 /\ vdot e2 e2 = 1 /\ vdot e3 e3 = 1 /\ vdot e1 e2 = 0 /\ vdot e2 e3 = 0 /\ vdot e3 e1 = 0.

(** the unit vector at polar angle [theta] from [e3] and azimuth [phi] about it *)
Definition direction (e1 e2 e3 : vec3) (theta phi : R) : vec3 :=
  vadd (vadd (vscal (sin theta * cos phi) e1) (vscal (sin theta * sin phi) e2)) (vscal (cos theta) e3).

(** [I] is the flux of [J], along the outward normal, through the part [t0 <= theta <= t1],
    [p0 <= phi <= p1] of the sphere of radius [rad] about [c]: the integral of J.n over the
    area element rad^2 sin theta dphi dtheta *)
Definition patch_flux (e1 e2 e3 : vec3) (c : vec3) (rad t0 t1 p0 p1 : R) (J : vec3 -> vec3) (I : R) : Prop :=
  exists ring : R -> R,
    (forall theta, t0 <= theta <= t1 ->
       is_RInt (fun phi => let n := direction e1 e2 e3 theta phi in
                           vdot (J (vadd c (vscal rad n))) n * (rad ^ 2 * sin theta)) p0 p1 (ring theta)) /\
    is_RInt ring t0 t1 I.

(** the flux out of the whole sphere *)
Definition flux_out (e1 e2 e3 : vec3) (c : vec3) (rad : R) (J : vec3 -> vec3) (I : R) : Prop :=
  patch_flux e1 e2 e3 c rad 0 PI 0 (2 * PI) J I.

(** the flux through the half of the sphere on the far side of [e3] (the lower half when
    [e3] points up) *)
Definition flux_below (e1 e2 e3 : vec3) (c : vec3) (rad : R) (J : vec3 -> vec3) (I : R) : Prop :=
  patch_flux e1 e2 e3 c rad (PI / 2) PI 0 (2 * PI) J I.

(** the flux through the half of the sphere on the far side of [e2] *)
Definition flux_beyond (e1 e2 e3 : vec3) (c : vec3) (rad : R) (J : vec3 -> vec3) (I : R) : Prop :=
  patch_flux e1 e2 e3 c rad 0 PI PI (2 * PI) J I.

(** what a sphere of radius [rad] encloses of an amount [I] at distance [d] from its centre *)
Definition enclosed (rad d I : R) : R := if Rlt_dec (Rabs d) rad then I else 0.

(** a unit direction for which the code's rotation to the x axis is exact: parallel to
    the x axis or at least 1e-20 away from it *)
Definition proper_direction (u : vec3) : Prop :=
  vdot u u = 1 /\ (/ 10 ^ 20 <= vnorm (vcross u (V3 1 0 0)) \/ vcross u (V3 1 0 0) = vzero).

(** the point at the signed distance [d] from [c] along the polar axis *)
Definition along (c : vec3) (d : R) (e3 : vec3) : vec3 := vadd c (vscal d e3).
