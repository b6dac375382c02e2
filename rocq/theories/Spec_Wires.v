(** Specification vocabulary for wires compared with the other sources; it knows nothing about the model. *)
From Coq Require Import Reals List.
From Coquelicot Require Import Coquelicot.
From Verif Require Import Vec3 Spec_Loop.
Import ListNotations.
Open Scope R_scope.

(** the length of a polyline *)
Fixpoint wire_length (nodes : list vec3) : R :=
  match nodes with a :: ((b :: _) as rest) => vnorm (vsub b a) + wire_length rest | _ => 0 end.

(** its vector area seen from [c]: half the sum of (a - c) x (b - c) over the segments *)
Fixpoint wire_area (c : vec3) (nodes : list vec3) : vec3 :=
  match nodes with
  | a :: ((b :: _) as rest) => vadd (vscal (1 / 2) (vcross (vsub a c) (vsub b c))) (wire_area c rest)
  | _ => vzero
  end.

(** the wire ends where it starts *)
Definition closed_wire (nodes : list vec3) : Prop := hd vzero nodes = last nodes vzero.

(** every node is within [a] of [c] *)
Definition within (a : R) (c : vec3) (nodes : list vec3) : Prop := List.Forall (fun q => vnorm (vsub q c) <= a) nodes.

(** the straight wire of length [L] along [u] centred at [c] *)
Definition straight (c u : vec3) (L : R) : list vec3 := [vsub c (vscal (L / 2) u); vadd c (vscal (L / 2) u)].

(** the regular polygon with [n] sides inscribed in the circle of [Spec_Loop], closed *)
Definition polygon (c u v : vec3) (a : R) (n : nat) : list vec3 :=
  map (fun k => circle c u v a (2 * PI * (INR k / INR n))) (seq 0 (S n)).

(** the distance from [p] to the circle of radius [a] about [c] around the axis [n] *)
Definition ring_distance (n c : vec3) (a : R) (p : vec3) : R := sqrt ((axis_distance n c p - a) ^ 2 + axis_height n c p ^ 2).
