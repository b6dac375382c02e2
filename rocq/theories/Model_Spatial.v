(** Model of geoana/spatial.py. *)
From Coq Require Import Reals List Bool Arith.
From Verif Require Import Vec3 Numpy.
Import ListNotations.
Open Scope R_scope.

(** numpy.arctan2 on exact reals (signed zeros are not modelled: atan2 0 x = PI for x<0) *)
Definition atan2 (y x : R) : R :=
  if Rlt_dec 0 x then atan (y / x)
  else if Rlt_dec x 0 then (if Rle_dec 0 y then atan (y / x) + PI else atan (y / x) - PI)
  else if Rlt_dec 0 y then PI / 2
  else if Rlt_dec y 0 then - (PI / 2)
  else 0.

(** A point or vector is a row (list of floats) whose length is [shape[-1]];
    leading axes are evaluated elementwise. *)

(** spatial.py l.115-123 and 133 ([vec is None]).  A row of width 3 keeps its last
    entry; any other width >= 2 returns two columns; width < 2 is an IndexError. *)
Definition cylindrical_to_cartesian (row : list R) : result (list R) :=
  match row with
  | [r; phi; z] => Ok [r * cos phi; r * sin phi; z]
  | r :: phi :: _ => Ok [r * cos phi; r * sin phi]
  | _ => Raise IndexError
  end.

(** spatial.py l.125-133 (a vector is given) *)
Definition cylindrical_to_cartesian_vec (row vec : list R) : result (list R) :=
  match row, vec with
  | _ :: phi :: tl, v0 :: v1 :: vtl =>
      let out := [v0 * cos phi - v1 * sin phi; v0 * sin phi + v1 * cos phi] in
      if Nat.eqb (length tl) 1 then
        match vtl with v2 :: _ => Ok (out ++ [v2]) | [] => Raise IndexError end
      else Ok out
  | _, _ => Raise IndexError
  end.

(** spatial.py l.199-209 and 220 *)
Definition cartesian_to_cylindrical (row : list R) : result (list R) :=
  match row with
  | [x; y; z] => Ok [sqrt (x ^ 2 + y ^ 2); atan2 y x; z]
  | x :: y :: _ => Ok [sqrt (x ^ 2 + y ^ 2); atan2 y x]
  | _ => Raise IndexError
  end.

(** spatial.py l.211-220 *)
Definition cartesian_to_cylindrical_vec (row vec : list R) : result (list R) :=
  match row, vec with
  | x :: y :: tl, v0 :: v1 :: vtl =>
      let theta := atan2 y x in
      let out := [cos theta * v0 + sin theta * v1; - sin theta * v0 + cos theta * v1] in
      if Nat.eqb (length tl) 1 then
        match vtl with v2 :: _ => Ok (out ++ [v2]) | [] => Raise IndexError end
      else Ok out
  | _, _ => Raise IndexError
  end.

(** spatial.py l.286-291; columns are (r, phi azimuth, theta polar) *)
Definition spherical_to_cartesian (g : vec3) : vec3 :=
  let z := vx g * cos (vz g) in
  let rho := vx g * sin (vz g) in
  let x := rho * cos (vy g) in
  let y := rho * sin (vy g) in
  V3 x y z.

(** spatial.py l.293-312, as written (the second component uses cos(theta)) *)
Definition spherical_to_cartesian_vec (g vec : vec3) : vec3 :=
  let phi := vy g in
  let theta := vz g in
  let x := vx vec * sin theta * cos phi - vy vec * sin phi + vz vec * cos theta * cos phi in
  let y := vx vec * sin theta * sin phi + vy vec * cos theta + vz vec * cos theta * sin phi in
  let z := vx vec * cos theta - vz vec * sin theta in
  V3 x y z.

(** spatial.py l.383-390 *)
Definition cartesian_to_spherical (g : vec3) : vec3 :=
  let rho := sqrt (vx g * vx g + vy g * vy g) in
  let phi := atan2 (vy g) (vx g) in
  let theta := atan2 rho (vz g) in
  let r := vnorm g in
  V3 r phi theta.

(** spatial.py l.383-386, 392-408, as written: [phi] is rebound to the vector
    component (l.400) before it is used again (l.402-406) *)
Definition cartesian_to_spherical_vec (g vec : vec3) : vec3 :=
  let rho := sqrt (vx g * vx g + vy g * vy g) in
  let phi := atan2 (vy g) (vx g) in
  let theta := atan2 rho (vz g) in
  let r := vx vec * sin theta * cos phi + vy vec * sin theta * sin phi + vz vec * cos theta in
  let phi := - vx vec * sin phi + vy vec * cos phi in
  let theta := vx vec * cos theta * cos phi + vy vec * cos theta * sin phi - vz vec * sin theta in
  V3 r phi theta.

(** ** Grids: [g_cols] is shape[1] and every row has that many entries *)
Record grid2 : Type := Grid { g_cols : nat; g_rows : list (list R) }.
Definition grid_wf (g : grid2) : Prop := Forall (fun r => length r = g_cols g) (g_rows g).

(** column access [a[:, j]] / [v[j]] *)
Definition col (j : nat) (row : list R) : R := nth j row 0.

(** spatial.py l.411-424 *)
Definition vector_magnitude (rows : list (list R)) : list R :=
  map (fun row => sqrt (fold_right Rplus 0 (map (fun a => a * a) row))) rows.

(** spatial.py l.452-470 *)
Definition vector_distance (xyz : grid2) (origin : list R) : result grid2 :=
  if negb (Nat.eqb (g_cols xyz) 3) then Raise AssertionError
  else if negb (Nat.eqb (length origin) 3) then Raise OtherError
  else Ok (Grid 3 (map (fun row => [col 0 row - col 0 origin; col 1 row - col 1 origin; col 2 row - col 2 origin]) (g_rows xyz))).

(** spatial.py l.497-498 *)
Definition distance (xyz : grid2) (origin : list R) : result (list R) :=
  do d <- vector_distance xyz origin; Ok (vector_magnitude (g_rows d)).

(** spatial.py l.524-530; a grid with fewer than 3 columns is an IndexError *)
Definition vector_dot (xyz : grid2) (vector : list R) : result (list R) :=
  if negb (Nat.eqb (length vector) 3) then Raise OtherError
  else if Nat.ltb (g_cols xyz) 3 then Raise IndexError
  else Ok (map (fun row => col 0 vector * col 0 row + col 1 vector * col 1 row + col 2 vector * col 2 row) (g_rows xyz)).

(** spatial.py l.552-558 for a 1-d [scalar]: kron of a (1,dim) row of ones with an
    (n,1) column: entry (i,j) is 1 * scalar[i] *)
Definition repeat_scalar (scalar : list R) (dim : nat) : list (list R) :=
  map (fun s => map (fun one => one * s) (repeat 1 dim)) scalar.

(** ** rotation_matrix_from_normals *)

(** scipy Rotation.from_quat (normalises; rejects the zero quaternion) followed by
    as_matrix.  Library semantics, part of the trusted base. *)
Definition quat_matrix (a : vec3) (w : R) : result mat3 :=
  let n := sqrt (vnorm2 a + w * w) in
  if Req_EM_T n 0 then Raise ValueError
  else
    let x := vx a / n in let y := vy a / n in let z := vz a / n in let w := w / n in
    Ok (M3 (V3 (x * x - y * y - z * z + w * w) (2 * (x * y - z * w)) (2 * (x * z + y * w)))
           (V3 (2 * (x * y + z * w)) (- x * x + y * y - z * z + w * w) (2 * (y * z - x * w)))
           (V3 (2 * (x * z - y * w)) (2 * (y * z + x * w)) (- x * x - y * y + z * z + w * w))).

(** an array-like argument: its shape and its C-order data; [np.squeeze] drops axes of length 1 *)
Record arrlike : Type := Arr { a_shape : list nat; a_data : list R }.
Definition squeeze (s : list nat) : list nat := filter (fun n => negb (Nat.eqb n 1)) s.
Definition shape_is_3 (s : list nat) : bool := match s with [3%nat] => true | _ => false end.
Definition as_vec3 (l : list R) : vec3 := V3 (nth 0 l 0) (nth 1 l 0) (nth 2 l 0).
Definition vunit (v : vec3) : vec3 := V3 (vx v / vnorm v) (vy v / vnorm v) (vz v / vnorm v).

(** spatial.py l.599-633 on (3,) vectors, [as_matrix=True] *)
Definition rotation_matrix_v (v0 v1 : vec3) (tol : R) : result mat3 :=
  let v0 := vunit v0 in
  let v1 := vunit v1 in
  let v0dotv1 := vdot v0 v1 in
  let rotation_axis := vcross v0 v1 in
  if Rltb (vnorm rotation_axis) tol then
    if Rltb v0dotv1 0 then
      let trial := vcross v0 (V3 0 0 1) in
      let rotation_axis := if Rltb tol (vnorm trial) then trial else vcross v0 (V3 0 1 0) in
      quat_matrix rotation_axis (1 + v0dotv1)
    else Ok mid
  else quat_matrix rotation_axis (1 + v0dotv1).

(** spatial.py l.561-633 *)
Definition rotation_matrix_from_normals (v0 v1 : arrlike) (tol : R) : result mat3 :=
  if negb (shape_is_3 (squeeze (a_shape v0))) then Raise ValueError
  else if negb (shape_is_3 (squeeze (a_shape v1))) then Raise ValueError
  else rotation_matrix_v (as_vec3 (a_data v0)) (as_vec3 (a_data v1)) tol.

(** default tolerance, spatial.py l.561 *)
Definition default_tol : R := / 10 ^ 20.

(** spatial.py l.668-673: [(xyz - x0) @ R.T + x0] *)
Definition rotate_points_from_normals (xyz : grid2) (n0 n1 : arrlike) (x0 : vec3) : result (list vec3) :=
  do R <- rotation_matrix_from_normals n0 n1 default_tol;
  if negb (Nat.eqb (g_cols xyz) 3) then Raise AssertionError
  else Ok (map (fun row => vadd (mvec R (vsub (as_vec3 row) x0)) x0) (g_rows xyz)).
