(** Properties C01-C07 and C13 (geoana/spatial.py). *)
From Coq Require Import Reals Lra List Bool Arith.
From Verif Require Import Vec3 Numpy Model_Spatial Proof_Spatial.
Import ListNotations.
Open Scope R_scope.

(** C01 *)
Theorem C01_cartesian_cylindrical_cartesian :
  forall x y z : R,
    (exists q, cartesian_to_cylindrical [x; y; z] = Ok q /\ cylindrical_to_cartesian q = Ok [x; y; z]) /\
    (exists q, cartesian_to_cylindrical [x; y] = Ok q /\ cylindrical_to_cartesian q = Ok [x; y]).
Proof. intros x y z. split; [exact (cyl_round_trip_3 x y z)|exact (cyl_round_trip_2 x y)]. Qed.

Theorem C01_cylindrical_cartesian_cylindrical :
  forall r phi z : R, 0 < r -> - PI < phi <= PI ->
    (exists p, cylindrical_to_cartesian [r; phi; z] = Ok p /\ cartesian_to_cylindrical p = Ok [r; phi; z]) /\
    (exists p, cylindrical_to_cartesian [r; phi] = Ok p /\ cartesian_to_cylindrical p = Ok [r; phi]).
Proof. intros r phi z H P. split; [exact (cyl_back_3 r phi z H P)|exact (cyl_back_2 r phi H P)]. Qed.

Theorem C01_cylindrical_range :
  forall x y z : R, exists r phi,
    cartesian_to_cylindrical [x; y; z] = Ok [r; phi; z] /\ 0 <= r /\ r * r = x * x + y * y /\ - PI < phi <= PI.
Proof. exact cyl_range. Qed.

Example C01_witness : 0 < 2 /\ - PI < - PI / 2 <= PI.
Proof. pose proof PI_RGT_0. lra. Qed.

(** C02 *)
Theorem C02_vector_round_trip :
  forall x y z v0 v1 v2 : R, exists q u,
    cartesian_to_cylindrical [x; y; z] = Ok q /\
    cartesian_to_cylindrical_vec [x; y; z] [v0; v1; v2] = Ok u /\
    cylindrical_to_cartesian_vec q u = Ok [v0; v1; v2].
Proof. exact cyl_vec_inverse. Qed.

Theorem C02_vector_round_trip_back :
  forall r phi z v0 v1 v2 : R, 0 < r -> - PI < phi <= PI -> exists p u,
    cylindrical_to_cartesian [r; phi; z] = Ok p /\
    cylindrical_to_cartesian_vec [r; phi; z] [v0; v1; v2] = Ok u /\
    cartesian_to_cylindrical_vec p u = Ok [v0; v1; v2].
Proof. exact cyl_vec_inverse_back. Qed.

Theorem C02_vector_isometry :
  forall x y z a0 a1 a2 b0 b1 b2 : R,
  (exists u0 u1 u2 v0 v1 v2,
    cartesian_to_cylindrical_vec [x; y; z] [a0; a1; a2] = Ok [u0; u1; u2] /\
    cartesian_to_cylindrical_vec [x; y; z] [b0; b1; b2] = Ok [v0; v1; v2] /\
    u0 * v0 + u1 * v1 + u2 * v2 = a0 * b0 + a1 * b1 + a2 * b2) /\
  (exists u0 u1 u2 v0 v1 v2,
    cylindrical_to_cartesian_vec [x; y; z] [a0; a1; a2] = Ok [u0; u1; u2] /\
    cylindrical_to_cartesian_vec [x; y; z] [b0; b1; b2] = Ok [v0; v1; v2] /\
    u0 * v0 + u1 * v1 + u2 * v2 = a0 * b0 + a1 * b1 + a2 * b2).
Proof. exact cyl_vec_isometry. Qed.

Theorem C02_radial_direction :
  forall x y z : R, 0 < x ^ 2 + y ^ 2 ->
  exists q, cartesian_to_cylindrical [x; y; z] = Ok q /\
    cylindrical_to_cartesian_vec q [1; 0; 0] = Ok [x / sqrt (x ^ 2 + y ^ 2); y / sqrt (x ^ 2 + y ^ 2); 0] /\
    cylindrical_to_cartesian_vec q [0; 1; 0] = Ok [- (y / sqrt (x ^ 2 + y ^ 2)); x / sqrt (x ^ 2 + y ^ 2); 0].
Proof. exact cyl_radial_direction. Qed.

Example C02_witness : 0 < 3 ^ 2 + (-4) ^ 2.
Proof. lra. Qed.

(** C03 *)
Theorem C03_cartesian_spherical_cartesian :
  forall p : vec3, spherical_to_cartesian (cartesian_to_spherical p) = p.
Proof. exact sph_round_trip. Qed.

Theorem C03_spherical_cartesian_spherical :
  forall r phi theta : R, 0 < r -> - PI < phi <= PI -> 0 < theta < PI ->
    cartesian_to_spherical (spherical_to_cartesian (V3 r phi theta)) = V3 r phi theta.
Proof. exact sph_back. Qed.

Theorem C03_spherical_range :
  forall p : vec3, let q := cartesian_to_spherical p in
    vx q = vnorm p /\ - PI < vy q <= PI /\ 0 <= vz q <= PI.
Proof. exact sph_ranges. Qed.

Example C03_witness : 0 < 1 /\ - PI < PI <= PI /\ 0 < PI / 3 < PI.
Proof. pose proof PI_RGT_0. lra. Qed.

(** C04 (false of the code). [e_r, e_phi, e_theta] is the usual orthonormal frame. *)
Theorem C04_spherical_to_cartesian_vec_refuted :
  exists g vec : vec3, vnorm vec = 1 /\ spherical_to_cartesian_vec g vec = vzero.
Proof. exact s2c_vec_refuted. Qed.

Theorem C04_spherical_to_cartesian_vec_exact_domain :
  forall g vec : vec3,
    spherical_to_cartesian_vec g vec
    = vadd (vadd (vscal (vx vec) (e_r (vy g) (vz g))) (vscal (vy vec) (e_phi (vy g) (vz g)))) (vscal (vz vec) (e_theta (vy g) (vz g)))
    <-> vy vec = 0 \/ cos (vz g) = cos (vy g).
Proof. exact s2c_vec_correct_iff. Qed.

Theorem C04_cartesian_to_spherical_vec_refuted :
  exists g vec : vec3, g <> vzero /\
    let q := cartesian_to_spherical g in
    vz (cartesian_to_spherical_vec g vec) <> vdot vec (e_theta (vy q) (vz q)) /\
    vnorm (cartesian_to_spherical_vec g vec) <> vnorm vec.
Proof. exact c2s_vec_refuted. Qed.

(** exactly what holds: the radial and azimuthal components are right; the polar one is right
    just when its point lies on the plane theta = pi/2 or the vector's horizontal part has the same
    component along the azimuth and along the azimuthal component taken as an angle *)
Theorem C04_cartesian_to_spherical_vec_exact_domain :
  forall g vec : vec3, let q := cartesian_to_spherical g in
    let a := vdot vec (e_phi (vy q) (vz q)) in
    vx (cartesian_to_spherical_vec g vec) = vdot vec (e_r (vy q) (vz q)) /\
    vy (cartesian_to_spherical_vec g vec) = a /\
    (vz (cartesian_to_spherical_vec g vec) = vdot vec (e_theta (vy q) (vz q)) <->
     cos (vz q) = 0 \/ vx vec * cos a + vy vec * sin a = vx vec * cos (vy q) + vy vec * sin (vy q)).
Proof. exact c2s_vec_exact. Qed.

Theorem C04_frame_is_orthonormal :
  forall phi theta : R,
    vdot (e_r phi theta) (e_r phi theta) = 1 /\ vdot (e_phi phi theta) (e_phi phi theta) = 1 /\
    vdot (e_theta phi theta) (e_theta phi theta) = 1 /\ vdot (e_r phi theta) (e_phi phi theta) = 0 /\
    vdot (e_r phi theta) (e_theta phi theta) = 0 /\ vdot (e_phi phi theta) (e_theta phi theta) = 0 /\
    (forall r, vscal r (e_r phi theta) = spherical_to_cartesian (V3 r phi theta)).
Proof. exact frame_orthonormal. Qed.

(** C05 *)
Theorem C05_rotation_matrix_from_normals :
  forall (v0 v1 : arrlike) (tol : R),
  squeeze (a_shape v0) = [3%nat] -> squeeze (a_shape v1) = [3%nat] ->
  as_vec3 (a_data v0) <> vzero -> as_vec3 (a_data v1) <> vzero -> 0 < tol <= 1 / 2 ->
  let unit v := V3 (vx v / vnorm v) (vy v / vnorm v) (vz v / vnorm v) in
  let u0 := unit (as_vec3 (a_data v0)) in
  let u1 := unit (as_vec3 (a_data v1)) in
  exists M, rotation_matrix_from_normals v0 v1 tol = Ok M /\ is_rotation M /\
    vnorm (vsub (mvec M u0) u1) <= 4 * tol /\
    (tol <= vnorm (vcross u0 u1) \/ vcross u0 u1 = vzero -> mvec M u0 = u1).
Proof. exact rotation_matrix_from_normals_ok. Qed.

Theorem C05_rotation_matrix_rejects_bad_shapes :
  forall (v0 v1 : arrlike) (tol : R),
  squeeze (a_shape v0) <> [3%nat] \/ squeeze (a_shape v1) <> [3%nat] ->
  rotation_matrix_from_normals v0 v1 tol = Raise ValueError.
Proof. exact rotation_matrix_rejects. Qed.

(** the anti-parallel case is covered *)
Example C05_witness :
  let n0 := Arr [3%nat] [0; 0; 1] in let n1 := Arr [1%nat; 3%nat] [0; 0; -2] in
  squeeze (a_shape n0) = [3%nat] /\ squeeze (a_shape n1) = [3%nat] /\
  as_vec3 (a_data n0) <> vzero /\ as_vec3 (a_data n1) <> vzero /\
  vcross (vunit (as_vec3 (a_data n0))) (vunit (as_vec3 (a_data n1))) = vzero.
Proof. exact rot_witness_ok. Qed.

(** C06 *)
Theorem C06_rotate_points_is_rigid :
  forall (xyz : grid2) (n0 n1 : arrlike) (x0 : vec3),
  g_cols xyz = 3%nat ->
  squeeze (a_shape n0) = [3%nat] -> squeeze (a_shape n1) = [3%nat] ->
  as_vec3 (a_data n0) <> vzero -> as_vec3 (a_data n1) <> vzero ->
  let unit v := V3 (vx v / vnorm v) (vy v / vnorm v) (vz v / vnorm v) in
  exists pts, rotate_points_from_normals xyz n0 n1 x0 = Ok pts /\
    length pts = length (g_rows xyz) /\
    (forall i j, (i < length pts)%nat -> (j < length pts)%nat ->
       vnorm (vsub (nth i pts vzero) (nth j pts vzero)) =
       vnorm (vsub (as_vec3 (nth i (g_rows xyz) [])) (as_vec3 (nth j (g_rows xyz) [])))) /\
    (forall i, (i < length pts)%nat ->
       vnorm (vsub (nth i pts vzero) x0) = vnorm (vsub (as_vec3 (nth i (g_rows xyz) [])) x0)) /\
    (forall i, (i < length pts)%nat -> as_vec3 (nth i (g_rows xyz) []) = x0 -> nth i pts vzero = x0) /\
    (forall i, (i < length pts)%nat ->
       as_vec3 (nth i (g_rows xyz) []) = vadd x0 (unit (as_vec3 (a_data n0))) ->
       vnorm (vsub (nth i pts vzero) (vadd x0 (unit (as_vec3 (a_data n1))))) <= 4 * / 10 ^ 20).
Proof. exact rotate_points_ok. Qed.

Theorem C06_rotate_points_rejects :
  forall (xyz : grid2) (n0 n1 : arrlike) (x0 : vec3) (M : mat3),
  g_cols xyz <> 3%nat -> rotation_matrix_from_normals n0 n1 (/ 10 ^ 20) = Ok M ->
  rotate_points_from_normals xyz n0 n1 x0 = Raise AssertionError.
Proof. exact rotate_points_reject. Qed.

(** C07 *)
Theorem C07_vector_distance :
  forall (xyz : grid2) (origin : list R), g_cols xyz = 3%nat -> length origin = 3%nat ->
  exists d, vector_distance xyz origin = Ok d /\ g_cols d = 3%nat /\
    map as_vec3 (g_rows d) = map (fun row => vsub (as_vec3 row) (as_vec3 origin)) (g_rows xyz).
Proof. exact vector_distance_ok. Qed.

Theorem C07_distance :
  forall (xyz : grid2) (origin : list R), g_cols xyz = 3%nat -> length origin = 3%nat ->
  distance xyz origin = Ok (map (fun row => vnorm (vsub (as_vec3 row) (as_vec3 origin))) (g_rows xyz)).
Proof. exact distance_ok. Qed.

Theorem C07_distance_is_a_metric :
  forall a b c : vec3,
  0 <= vnorm (vsub a b) /\ (vnorm (vsub a b) = 0 <-> a = b) /\ vnorm (vsub a b) = vnorm (vsub b a) /\
  vnorm (vsub a c) <= vnorm (vsub a b) + vnorm (vsub b c) /\
  (forall t, vnorm (vsub (vadd a t) (vadd b t)) = vnorm (vsub a b)).
Proof. exact metric_laws. Qed.

Theorem C07_distance_rejects :
  forall (xyz : grid2) (origin : list R),
  (g_cols xyz <> 3%nat -> vector_distance xyz origin = Raise AssertionError /\ distance xyz origin = Raise AssertionError) /\
  (g_cols xyz = 3%nat -> length origin <> 3%nat ->
     vector_distance xyz origin = Raise OtherError /\ distance xyz origin = Raise OtherError).
Proof. exact vector_distance_rejects. Qed.

Theorem C07_vector_dot :
  forall (xyz : grid2) (v : list R), (3 <= g_cols xyz)%nat -> length v = 3%nat ->
  vector_dot xyz v = Ok (map (fun row => vdot (as_vec3 row) (as_vec3 v)) (g_rows xyz)) /\
  Forall (fun row => Rabs (vdot (as_vec3 row) (as_vec3 v)) <= vnorm (as_vec3 row) * vnorm (as_vec3 v)) (g_rows xyz).
Proof. exact vector_dot_all. Qed.

Example C07_witness : distance (Grid 3 [[3; 4; 0]]) [0; 0; 0] = Ok [5].
Proof. exact distance_witness. Qed.

(** C13 *)
Theorem C13_repeat_scalar :
  forall (s : list R) (dim : nat),
  length (repeat_scalar s dim) = length s /\
  forall i, (i < length s)%nat -> nth i (repeat_scalar s dim) [] = repeat (nth i s 0) dim.
Proof. exact repeat_scalar_ok. Qed.

Print Assumptions C01_cartesian_cylindrical_cartesian.
Print Assumptions C01_cylindrical_cartesian_cylindrical.
Print Assumptions C02_vector_isometry.
Print Assumptions C03_cartesian_spherical_cartesian.
Print Assumptions C03_spherical_cartesian_spherical.
Print Assumptions C04_spherical_to_cartesian_vec_refuted.
Print Assumptions C04_spherical_to_cartesian_vec_exact_domain.
Print Assumptions C04_cartesian_to_spherical_vec_refuted.
Print Assumptions C05_rotation_matrix_from_normals.
Print Assumptions C06_rotate_points_is_rigid.
Print Assumptions C07_distance.
Print Assumptions C13_repeat_scalar.
Print Assumptions C01_cylindrical_range.
Print Assumptions C02_vector_round_trip.
Print Assumptions C02_vector_round_trip_back.
Print Assumptions C02_radial_direction.
Print Assumptions C03_spherical_range.
Print Assumptions C04_frame_is_orthonormal.
Print Assumptions C05_rotation_matrix_rejects_bad_shapes.
Print Assumptions C06_rotate_points_rejects.
Print Assumptions C07_vector_distance.
Print Assumptions C07_distance_is_a_metric.
Print Assumptions C07_distance_rejects.
Print Assumptions C07_vector_dot.
Print Assumptions C04_cartesian_to_spherical_vec_exact_domain.
