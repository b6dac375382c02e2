(** rotation_matrix_from_normals in binary floating point (C143).  Rounding as in Model_Float; the library's norm and dot product are
    arguments of the model, because BLAS may add in any order and fuse multiplications.  Simplification: the conversion of the
    quaternion to a matrix by scipy is exact. *)
From Coq Require Import Reals.
From Verif Require Import Vec3 Numpy Model_Spatial Model_Float.
Open Scope R_scope.

(** spatial.py l.600-601: v /= np.linalg.norm(v) *)
Definition fnormalised (nrm : vec3 -> R) (v : vec3) : vec3 :=
  V3 (fl (vx v / nrm v)) (fl (vy v / nrm v)) (fl (vz v / nrm v)).
(** np.cross of two (3,) arrays: two products and a difference per component *)
Definition fcross (a b : vec3) : vec3 :=
  V3 (fl (fl (vy a * vz b) - fl (vz a * vy b))) (fl (fl (vz a * vx b) - fl (vx a * vz b))) (fl (fl (vx a * vy b) - fl (vy a * vx b))).
(** spatial.py l.599-633 on (3,) vectors, [as_matrix=True] *)
Definition frotation_matrix (nrm : vec3 -> R) (dot : vec3 -> vec3 -> R) (v0 v1 : vec3) (tol : R) : result mat3 :=
  let v0 := fnormalised nrm v0 in
  let v1 := fnormalised nrm v1 in
  let v0dotv1 := dot v0 v1 in
  let rotation_axis := fcross v0 v1 in
  if Rltb (nrm rotation_axis) tol then
    if Rltb v0dotv1 0 then
      let trial := fcross v0 (V3 0 0 1) in
      let rotation_axis := if Rltb tol (nrm trial) then trial else fcross v0 (V3 0 1 0) in
      quat_matrix rotation_axis (fl (1 + v0dotv1))
    else Ok mid
  else quat_matrix rotation_axis (fl (1 + v0dotv1)).
