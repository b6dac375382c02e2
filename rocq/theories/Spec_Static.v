(** Specification vocabulary for the static electromagnetics properties; it knows
    nothing about the model. *)
From Coq Require Import Reals List.
From Coquelicot Require Import Coquelicot.
From Verif Require Import Vec3 Calculus.
Import ListNotations.
Open Scope R_scope.

(** components of [v] in the local cylindrical basis at azimuth [phi] *)
Definition cyl_components (phi : R) (v : vec3) : vec3 :=
  V3 (vdot v (V3 (cos phi) (sin phi) 0)) (vdot v (V3 (- sin phi) (cos phi) 0)) (vdot v (V3 0 0 1)).

(** the unit vector with azimuth [phi] and polar angle [theta] *)
Definition unit_dir (phi theta : R) : vec3 := V3 (sin theta * cos phi) (sin theta * sin phi) (cos theta).

(** [I] is the flux of [J] out of the sphere of radius [rad] about [c]: the surface
    integral of J.n in spherical coordinates *)
Definition sphere_flux_is (J : vec3 -> vec3) (c : vec3) (rad I : R) : Prop :=
  exists inner : R -> R,
    (forall phi, is_RInt (fun theta => vdot (J (vadd c (vscal rad (unit_dir phi theta)))) (unit_dir phi theta) * rad ^ 2 * sin theta) 0 PI (inner phi)) /\
    is_RInt inner 0 (2 * PI) I.

(** ** Polygonal wires *)
(** [v] is the integral of the vector function [F] over [0, 1] *)
Definition is_vec_RInt (F : R -> vec3) (v : vec3) : Prop :=
  is_RInt (fun s => vx (F s)) 0 1 (vx v) /\ is_RInt (fun s => vy (F s)) 0 1 (vy v) /\ is_RInt (fun s => vz (F s)) 0 1 (vz v).

(** the point a fraction [s] of the way from [a] to [b] *)
Definition on_seg (a b : vec3) (s : R) : vec3 := vadd a (vscal s (vsub b a)).

(** [V] is the integral of [K dl q] along the polyline: [q] runs over the wire and
    [dl] is the element along it *)
Fixpoint is_wire_integral (K : vec3 -> vec3 -> vec3) (nodes : list vec3) (V : vec3) : Prop :=
  match nodes with
  | a :: ((b :: _) as rest) =>
      exists v w, is_vec_RInt (fun s => K (vsub b a) (on_seg a b s)) v /\ is_wire_integral K rest w /\ V = vadd v w
  | _ => V = vzero
  end.

(** Biot-Savart: dl x (p - q) / |p - q|^3; vector potential: dl / |p - q| *)
Definition biot_savart (p dl q : vec3) : vec3 := vscal (/ vnorm (vsub p q) ^ 3) (vcross dl (vsub p q)).
Definition dl_over_r (p dl q : vec3) : vec3 := vscal (/ vnorm (vsub p q)) dl.

(** a property of every segment of the polyline *)
Fixpoint every_segment (P : vec3 -> vec3 -> Prop) (nodes : list vec3) : Prop :=
  match nodes with
  | a :: ((b :: _) as rest) => P a b /\ every_segment P rest
  | _ => True
  end.

(** the end points differ, and the direction of the segment is not within 1e-20 of
    the x axis without lying on it (the code then treats it as lying on it) *)
Definition proper_segment (a b : vec3) : Prop :=
  a <> b /\
  (let u := vscal (/ vnorm (vsub b a)) (vsub b a) in
   / 10 ^ 20 <= vnorm (vcross u (V3 1 0 0)) \/ vcross u (V3 1 0 0) = vzero).

(** [p] is not on the (infinite) line through the segment / not on the segment *)
Definition off_line (p a b : vec3) : Prop := vcross (vsub b a) (vsub p a) <> vzero.
Definition off_segment (p a b : vec3) : Prop := forall s, 0 <= s <= 1 -> p <> on_seg a b s.
