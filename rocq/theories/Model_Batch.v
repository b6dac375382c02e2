(** Array-level model of the masked evaluation in CircularLoopWholeSpace
    (geoana/em/static/wholespace.py l.576-629 and l.711-761): the code computes whole arrays,
    splits them with the mask [small_rho] and writes the two parts back. Model_Static.v has the
    same formulas for one point. Arrays of points are lists (xyz.reshape(-1, 3)); the final
    reshape(xyz.shape) does not change the order of the entries (Model_Arrays3.v has the arrays
    of any shape and the two reshapes). *)
From Coq Require Import String Reals List Bool.
From Verif Require Import Vec3 Numpy Model_Spatial Model_Prism Model_Static.
Import ListNotations.
Open Scope R_scope.

(** numpy's entrywise operations on arrays of one length *)
Definition map2 {A B C} (f : A -> B -> C) (xs : list A) (ys : list B) : list C := map (fun p => f (fst p) (snd p)) (combine xs ys).
Definition map3 {A B C D} (f : A -> B -> C -> D) (xs : list A) (ys : list B) (zs : list C) : list D :=
  map2 (fun p z => f (fst p) (snd p) z) (combine xs ys) zs.

(** a conversion applied to every row; it raises when it raises on a row *)
Fixpoint each_row {A B} (f : A -> result B) (xs : list A) : result (list B) :=
  match xs with
  | [] => Ok []
  | x :: xs' => do y <- f x; do ys <- each_row f xs'; Ok (y :: ys)
  end.

(** wholespace.py l.590-624: A_cyl[:, 1] from the arrays rho and z *)
Definition cl_A_phi_array (a C : R) (rho z : list R) : result (list R) :=
  let alpha_sq := map2 (fun rho z => (a - rho) ^ 2 + z ^ 2) rho z in
  let beta_sq := map2 (fun rho z => (a + rho) ^ 2 + z ^ 2) rho z in
  let beta := map sqrt beta_sq in
  let k_sq := map2 (fun al be => 1 - al / be) alpha_sq beta_sq in
  let ek := map ellipe k_sq in
  let kk := map ellipk k_sq in
  let A_cyl := map (fun _ => 0) rho in
  let small := map2 (small_rho a) rho z in
  let temp := map (fun z => sqrt (a ^ 2 + z ^ 2)) (mask_select small z) in
  do A_cyl <- mask_assign small A_cyl
    (map3 (fun rho z temp => PI * C * (rho * a ^ 2 / (4 * temp ^ 3)
              + rho ^ 3 * 3 * a ^ 2 / (a ^ 2 - 4 * z ^ 2) / (32 * sqrt (a ^ 2 + z ^ 2) ^ 7)))
       (mask_select small rho) (mask_select small z) temp);
  let others := map negb small in
  let z := mask_select others z in
  let beta := mask_select others beta in
  let beta_sq := mask_select others beta_sq in
  let rho := mask_select others rho in
  let ek := mask_select others ek in
  let kk := mask_select others kk in
  mask_assign others A_cyl
    (map2 (fun pre brk => pre * brk)
       (map2 (fun rho beta => C / (2 * rho * beta)) rho beta)
       (map2 Rminus (map3 (fun rho z kk => (a ^ 2 + rho ^ 2 + z ^ 2) * kk) rho z kk) (map2 Rmult beta_sq ek))).

(** wholespace.py l.723-757: B_cyl[:, 0] and B_cyl[:, 2] from the arrays rho and z *)
Definition cl_B_array (a C : R) (rho z : list R) : result (list (R * R)) :=
  let alpha_sq := map2 (fun rho z => (a - rho) ^ 2 + z ^ 2) rho z in
  let beta_sq := map2 (fun rho z => (a + rho) ^ 2 + z ^ 2) rho z in
  let beta := map sqrt beta_sq in
  let k_sq := map2 (fun al be => 1 - al / be) alpha_sq beta_sq in
  let ek := map ellipe k_sq in
  let kk := map ellipk k_sq in
  let B0 := map (fun _ => 0) rho in
  let small := map2 (small_rho a) rho z in
  let temp := map (fun z => sqrt (a ^ 2 + z ^ 2)) (mask_select small z) in
  do B0 <- mask_assign small B0
    (map3 (fun rho z temp => 3 * C * PI * a ^ 2 * z * (rho / (4 * temp ^ 5) + rho ^ 3 * (15 * a ^ 2 - 20 * z ^ 2) / (32 * temp ^ 9)))
       (mask_select small rho) (mask_select small z) temp);
  let B2 := map2 Rmult (map2 (fun al be => C / (2 * al * be)) alpha_sq beta)
    (map2 Rplus (map3 (fun rho z ek => (a ^ 2 - rho ^ 2 - z ^ 2) * ek) rho z ek) (map2 Rmult alpha_sq kk)) in
  let others := map negb small in
  let z := mask_select others z in
  let alpha_sq := mask_select others alpha_sq in
  let beta := mask_select others beta in
  let rho := mask_select others rho in
  let ek := mask_select others ek in
  let kk := mask_select others kk in
  do B0 <- mask_assign others B0
    (map2 Rmult (map2 (fun zab rho => fst zab / (snd zab * rho)) (map3 (fun z al be => (C * z, 2 * al * be)) z alpha_sq beta) rho)
       (map2 Rminus (map3 (fun rho z ek => (a ^ 2 + rho ^ 2 + z ^ 2) * ek) rho z ek) (map2 Rmult alpha_sq kk)));
  Ok (combine B0 B2).

(** wholespace.py l.576-587, 626-629 and l.711-721, 759-761 on the array of points *)
Definition cl_frame_array (comp : list R -> list R -> result (list vec3)) (s : cloop) (xyz : list vec3) : result (list vec3) :=
  do rot <- rotation_matrix_v (cl_orient s) (V3 0 0 1) default_tol;
  let r_vec := map (fun p => mvec rot (vsub p (cl_loc s))) xyz in
  do r_cyl <- each_row (fun v => cartesian_to_cylindrical (row_of v)) r_vec;
  do V_cyl <- comp (map (fun r => nth 0 r 0) r_cyl) (map (fun r => nth 2 r 0) r_cyl);
  do V <- each_row (fun rv => cylindrical_to_cartesian_vec (fst rv) (row_of (snd rv))) (combine r_cyl V_cyl);
  Ok (map (fun v => mvec (mtrans rot) (as_vec3 v)) V).

Definition cl_A_array (s : cloop) : list vec3 -> result (list vec3) :=
  cl_frame_array (fun rho z => rmap (map (fun x => V3 0 x 0)) (cl_A_phi_array (cl_radius s) (cl_mu s * cl_current s / PI) rho z)) s.
Definition cl_B_array_xyz (s : cloop) : list vec3 -> result (list vec3) :=
  cl_frame_array (fun rho z => rmap (map (fun b => V3 (fst b) 0 (snd b))) (cl_B_array (cl_radius s) (cl_mu s * cl_current s / PI) rho z)) s.

(** wholespace.py l.563-574, 631-634: the [coordinates] argument on an array of points *)
Definition convert_rows (f : list R -> result (list R)) (xyz : list vec3) : result (list vec3) :=
  each_row (fun p => rmap as_vec3 (f (row_of p))) xyz.
Definition convert_vec_rows (f : list R -> list R -> result (list R)) (xyz vec : list vec3) : result (list vec3) :=
  each_row (fun pv => rmap as_vec3 (f (row_of (fst pv)) (row_of (snd pv)))) (combine xyz vec).
Definition loop_vector_potential_array (s : cloop) (coordinates : string) (xyz : list vec3) : result (list vec3) :=
  if negb (String.eqb (lower coordinates) "cartesian" || String.eqb (lower coordinates) "cylindrical")%bool
  then Raise AssertionError
  else
    do xyz <- (if String.eqb (lower coordinates) "cylindrical" then convert_rows cylindrical_to_cartesian xyz else Ok xyz);
    do A <- cl_A_array s xyz;
    if String.eqb (lower coordinates) "cylindrical" then convert_vec_rows cartesian_to_cylindrical_vec xyz A else Ok A.
(** wholespace.py l.702-709, 763-766 *)
Definition loop_flux_density_array (s : cloop) (coordinates : string) (xyz : list vec3) : result (list vec3) :=
  do xyz <- (if String.eqb (lower coordinates) "cylindrical" then convert_rows cylindrical_to_cartesian xyz
             else if negb (String.eqb (lower coordinates) "cartesian") then Raise TypeError else Ok xyz);
  do B <- cl_B_array_xyz s xyz;
  if String.eqb (lower coordinates) "cylindrical" then convert_vec_rows cartesian_to_cylindrical_vec xyz B else Ok B.
(** wholespace.py l.832 *)
Definition loop_field_array (s : cloop) (coordinates : string) (xyz : list vec3) : result (list vec3) :=
  rmap (map (fun b => vdiv b (cl_mu s))) (loop_flux_density_array s coordinates xyz).
