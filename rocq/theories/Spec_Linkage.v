(** Specification vocabulary for the flux linking two sources; it knows nothing about the model. *)
From Coq Require Import Reals List.
From Coquelicot Require Import Coquelicot.
From Verif Require Import Vec3 Spec_Static Spec_Loop.
Import ListNotations.
Open Scope R_scope.

(** [J] is the line integral of [F . dl] along the polyline *)
Fixpoint is_circulation (F : vec3 -> vec3) (nodes : list vec3) (J : R) : Prop :=
  match nodes with
  | a :: ((b :: _) as rest) =>
      exists j k, is_RInt (fun s => vdot (F (on_seg a b s)) (vsub b a)) 0 1 j /\ is_circulation F rest k /\ J = j + k
  | _ => J = 0
  end.

(** [J] is the line integral of [F . dl] once around the circle *)
Definition is_circle_circulation (F : vec3 -> vec3) (c u v : vec3) (a J : R) : Prop :=
  is_RInt (fun t => vdot (F (circle c u v a t)) (circle_dl u v a t)) 0 (2 * PI) J.

(** two segments have no common point; two polylines *)
Definition segments_apart (a b x y : vec3) : Prop := forall s t, 0 <= s <= 1 -> 0 <= t <= 1 -> on_seg a b s <> on_seg x y t.
Definition wires_apart (w1 w2 : list vec3) : Prop := every_segment (fun a b => every_segment (fun x y => segments_apart a b x y) w2) w1.

(** a property of every point of a polyline *)
Definition along (P : vec3 -> Prop) (nodes : list vec3) : Prop := every_segment (fun a b => forall s, 0 <= s <= 1 -> P (on_seg a b s)) nodes.

(** [p] is off the circle of radius [a] about [c] around the axis [n], and outside the double cone about the axis
    which the code treats as the axis *)
Definition off_ring (n c : vec3) (a : R) (p : vec3) : Prop :=
  1 / 10 ^ 6 <= axis_distance n c p ^ 2 / (a ^ 2 + axis_height n c p ^ 2) /\ ~ (axis_distance n c p = a /\ axis_height n c p = 0).
