(** Vocabulary of C123: integrals over a prism with a small cube around a point left out. *)
From Coq Require Import Reals List.
From Verif Require Import Vec3 Model_Prism Spec_Super.
Import ListNotations.
Open Scope R_scope.

(** the cube of half edge [d] about [p] *)
Definition cube (p : vec3) (d : R) : box := Box (V3 (vx p - d) (vy p - d) (vz p - d)) (V3 (vx p + d) (vy p + d) (vz p + d)).

(** the cube lies in the interior of [b] *)
Definition cube_within (b : box) (p : vec3) (d : R) : Prop :=
  0 < d /\ vx (b_min b) < vx p - d /\ vx p + d < vx (b_max b) /\ vy (b_min b) < vy p - d /\ vy p + d < vy (b_max b) /\
  vz (b_min b) < vz p - d /\ vz p + d < vz (b_max b).

(** six boxes that make up [b] without the cube: two slabs across x, two across y between those, two across z between those *)
Definition shell (b : box) (p : vec3) (d : R) : list box :=
  let (x0, y0, z0) := b_min b in let (x1, y1, z1) := b_max b in let (x, y, z) := p in
  [Box (V3 x0 y0 z0) (V3 (x - d) y1 z1); Box (V3 (x + d) y0 z0) (V3 x1 y1 z1);
   Box (V3 (x - d) y0 z0) (V3 (x + d) (y - d) z1); Box (V3 (x - d) (y + d) z0) (V3 (x + d) y1 z1);
   Box (V3 (x - d) (y - d) z0) (V3 (x + d) (y + d) (z - d)); Box (V3 (x - d) (y - d) (z + d)) (V3 (x + d) (y + d) z1)].

(** the point belongs to the closed box *)
Definition in_box (b : box) (q : vec3) : Prop :=
  vx (b_min b) <= vx q <= vx (b_max b) /\ vy (b_min b) <= vy q <= vy (b_max b) /\ vz (b_min b) <= vz q <= vz (b_max b).

(** [I] is the sum of the integrals of [f] over the boxes of [l] *)
Fixpoint boxes_integral (f : vec3 -> R) (l : list box) (I : R) : Prop :=
  match l with [] => I = 0 | b :: r => exists J K, box_integral f b J /\ boxes_integral f r K /\ I = J + K end.
Definition boxes_vintegral (f : vec3 -> vec3) (l : list box) (I : vec3) : Prop :=
  boxes_integral (fun q => vx (f q)) l (vx I) /\ boxes_integral (fun q => vy (f q)) l (vy I) /\ boxes_integral (fun q => vz (f q)) l (vz I).
Definition boxes_mintegral (f : vec3 -> mat3) (l : list box) (I : mat3) : Prop :=
  boxes_vintegral (fun q => m0 (f q)) l (m0 I) /\ boxes_vintegral (fun q => m1 (f q)) l (m1 I) /\ boxes_vintegral (fun q => m2 (f q)) l (m2 I).
