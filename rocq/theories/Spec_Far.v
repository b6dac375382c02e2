(** Vocabulary of C109. *)
From Coq Require Import Reals.
From Verif Require Import Vec3 Model_Prism.
Open Scope R_scope.

(** half the diagonal of a box: the radius of its circumscribed sphere *)
Definition half_diagonal (b : box) : R := vnorm (vsub (b_max b) (b_min b)) / 2.

(** mirror images in the planes x = m, y = m and z = m *)
Definition mirror_x (m : R) (p : vec3) : vec3 := V3 (2 * m - vx p) (vy p) (vz p).
Definition mirror_y (m : R) (p : vec3) : vec3 := V3 (vx p) (2 * m - vy p) (vz p).
Definition mirror_z (m : R) (p : vec3) : vec3 := V3 (vx p) (vy p) (2 * m - vz p).
Definition mirror_box_x (m : R) (b : box) : box :=
  Box (V3 (2 * m - vx (b_max b)) (vy (b_min b)) (vz (b_min b))) (V3 (2 * m - vx (b_min b)) (vy (b_max b)) (vz (b_max b))).
Definition mirror_box_y (m : R) (b : box) : box :=
  Box (V3 (vx (b_min b)) (2 * m - vy (b_max b)) (vz (b_min b))) (V3 (vx (b_max b)) (2 * m - vy (b_min b)) (vz (b_max b))).
Definition mirror_box_z (m : R) (b : box) : box :=
  Box (V3 (vx (b_min b)) (vy (b_min b)) (2 * m - vz (b_max b))) (V3 (vx (b_max b)) (vy (b_max b)) (2 * m - vz (b_min b))).
(** the point opposite to p, seen from c *)
Definition opposite (c p : vec3) : vec3 := vsub (vscal 2 c) p.
