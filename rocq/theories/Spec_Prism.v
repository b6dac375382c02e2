(** Specification vocabulary for axis-aligned prisms: where a point lies, and
    cutting a prism by a coordinate plane.  Only the record [box] (the two
    opposite corners) is taken from the model. *)
From Coq Require Import Reals.
From Verif Require Import Vec3 Model_Prism.
Open Scope R_scope.

(** the second corner is beyond the first in every coordinate *)
Definition ordered (b : box) : Prop :=
  vx (b_min b) < vx (b_max b) /\ vy (b_min b) < vy (b_max b) /\ vz (b_min b) < vz (b_max b).

(** observation point off the (infinite) planes containing the faces *)
Definition off_faces (b : box) (p : vec3) : Prop :=
  vx p <> vx (b_min b) /\ vx p <> vx (b_max b) /\ vy p <> vy (b_min b) /\ vy p <> vy (b_max b) /\
  vz p <> vz (b_min b) /\ vz p <> vz (b_max b).

(** in the open prism; off the closed prism *)
Definition inside (b : box) (p : vec3) : Prop :=
  vx (b_min b) < vx p < vx (b_max b) /\ vy (b_min b) < vy p < vy (b_max b) /\ vz (b_min b) < vz p < vz (b_max b).
Definition outside (b : box) (p : vec3) : Prop :=
  (vx p < vx (b_min b) \/ vx (b_max b) < vx p) \/ (vy p < vy (b_min b) \/ vy (b_max b) < vy p) \/ (vz p < vz (b_min b) \/ vz (b_max b) < vz p).

(** [cut_into b l r]: a plane x = t, y = t or z = t cuts [b] into [l] and [r] *)
Inductive cut_into : box -> box -> box -> Prop :=
| cut_x x0 y0 z0 x1 y1 z1 t : cut_into (Box (V3 x0 y0 z0) (V3 x1 y1 z1)) (Box (V3 x0 y0 z0) (V3 t y1 z1)) (Box (V3 t y0 z0) (V3 x1 y1 z1))
| cut_y x0 y0 z0 x1 y1 z1 t : cut_into (Box (V3 x0 y0 z0) (V3 x1 y1 z1)) (Box (V3 x0 y0 z0) (V3 x1 t z1)) (Box (V3 x0 t z0) (V3 x1 y1 z1))
| cut_z x0 y0 z0 x1 y1 z1 t : cut_into (Box (V3 x0 y0 z0) (V3 x1 y1 z1)) (Box (V3 x0 y0 z0) (V3 x1 y1 t)) (Box (V3 x0 y0 t) (V3 x1 y1 z1)).

(** the point of R^3 has no zero coordinate *)
Definition off_planes (x y z : R) : Prop := x <> 0 /\ y <> 0 /\ z <> 0.
