(** C102: prisms, loops, wires and spheres on arrays of points of any shape *)
From Coq Require Import String Reals List Arith Lia Lra.
From Verif Require Import Vec3 Numpy Model_Utils Model_Spatial Model_Static Model_Gravity Model_Prism Model_Batch Model_Arrays Model_Arrays2 Model_Arrays3 Spec_Arrays Spec_Arrays2 Spec_Arrays3
  Proof_Utils Proof_Prism4 Proof_Arrays Proof_Arrays2 Proof_Arrays3 Proof_Arrays4 Proof_Arrays6 Proof_Arrays7 Proof_Arrays8 Proof_Arrays9.
Import ListNotations.
Open Scope nat_scope.

(** the gravity of a prism, with the compiled kernels or the numpy ones *)
Theorem C102_gravity_prism K G b rho xyz (points : list nat) : K = compiled \/ K = fallback -> shape xyz = points ++ [3] ->
  one_number_per_point (gravitational_potential G b rho) xyz (prism_potential_array K G b rho (XyzArray xyz)) /\
  one_vector_per_point (fun p => Ok (gravitational_field G b rho p)) xyz (prism_g_array K G b rho (XyzArray xyz)) /\
  one_matrix_per_point (gravitational_gradient G b rho) xyz (prism_gradient_array K G b rho (XyzArray xyz)).
Proof.
  intros HK E. apply either_good in HK.
  split; [eapply prism_potential_points; eassumption|]. split; [eapply prism_g_points; eassumption|eapply prism_gradient_points; eassumption].
Qed.

(** the magnetic prism; the flux density has its own one-point evaluation, because of the mask *)
Theorem C102_magnetic_prism K mu0 b m xyz (points : list nat) : K = compiled \/ K = fallback -> shape xyz = points ++ [3] ->
  one_number_per_point (scalar_potential b m) xyz (prism_scalar_potential_array K b m (XyzArray xyz)) /\
  one_vector_per_point (fun p => Ok (magnetic_field b m p)) xyz (prism_H_array K b m (XyzArray xyz)) /\
  one_vector_per_point (fun p => Ok (eval1 vzero (magnetic_flux_density mu0 b m) p)) xyz (prism_B_array K mu0 b m (XyzArray xyz)) /\
  one_matrix_per_point (magnetic_field_gradient b m) xyz (prism_H_gradient_array K b m (XyzArray xyz)).
Proof.
  intros HK E. apply either_good in HK.
  split; [eapply prism_scalar_points; eassumption|]. split; [eapply prism_H_points; eassumption|]. split; [|eapply prism_H_gradient_points; eassumption].
  eapply vec_ext_result; [|eapply prism_B_points; eassumption]. intros p. unfold eval1. rewrite flux_pointwise. reflexivity.
Qed.

(** the circular loop, in either coordinate system *)
Theorem C102_loop s coordinates xyz (points : list nat) :
  lower coordinates = "cartesian"%string \/ lower coordinates = "cylindrical"%string -> shape xyz = points ++ [3] ->
  per_point_or_raises (loop_vector_potential s coordinates) xyz (loop_A_nd s coordinates (XyzArray xyz)) /\
  per_point_or_raises (loop_flux_density s coordinates) xyz (loop_B_nd s coordinates (XyzArray xyz)) /\
  per_point_or_raises (loop_field s coordinates) xyz (loop_H_nd s coordinates (XyzArray xyz)).
Proof. intros Hc E. split; [|split]; [eapply loop_A_nd_ok|eapply loop_B_nd_ok|eapply loop_H_nd_ok]; eassumption. Qed.
Theorem C102_loop_unknown_coordinates s coordinates xyz (points : list nat) :
  lower coordinates <> "cartesian"%string -> lower coordinates <> "cylindrical"%string -> shape xyz = points ++ [3] ->
  loop_A_nd s coordinates (XyzArray xyz) = Raise AssertionError /\ loop_B_nd s coordinates (XyzArray xyz) = Raise TypeError /\
  loop_H_nd s coordinates (XyzArray xyz) = Raise TypeError.
Proof. intros H1 H2 E. eapply loop_names; eassumption. Qed.

(** the magnetic side of a wire of any number of segments: the arrays kept from segment to segment
    do not carry anything over *)
Theorem C102_line_current K s xyz (points : list nat) : K = compiled \/ K = fallback -> shape xyz = points ++ [3] ->
  per_point_or_raises (lc_vector_potential s) xyz (lc_A_array K s (XyzArray xyz)) /\
  finite_or_nan_per_point (lc_flux_density s) xyz (lc_B_array s (XyzArray xyz)) /\
  finite_or_nan_per_point (lc_magnetic_field s) xyz (lc_H_array s (XyzArray xyz)).
Proof.
  intros HK E. apply either_good in HK. destruct HK as (_ & _ & _ & _ & HK & _).
  split; [eapply lc_A_array_ok; eassumption|]. split; [eapply lc_B_array_ok; eassumption|eapply lc_H_array_ok; eassumption].
Qed.

(** the electrostatic and magnetostatic spheres, in every mode, and the charge density *)
Theorem C102_static_spheres eps0 s dr xyz (points : list nat) : shape xyz = points ++ [3] ->
  modes_per_point per_number (sphere_potential s) xyz (sphere_potential_nd s (XyzArray xyz)) /\
  modes_per_point per_vector (sphere_field s) xyz (sphere_field_nd s (XyzArray xyz)) /\
  modes_per_point per_vector (sphere_flux s) xyz (sphere_flux_nd s (XyzArray xyz)) /\
  one_number_per_point (eval1 0%R (fun l => charge_density eps0 s l dr)) xyz (charge_density_nd eps0 s (XyzArray xyz) dr).
Proof.
  intros E. destruct (sphere_nd_ok s points xyz E) as (A & B & C). split; [exact A|]. split; [exact B|]. split; [exact C|]. eapply charge_nd_ok. exact E.
Qed.

(** the gravity of a sphere; a gradient on the surface is a block of nan, [None] *)
Theorem C102_gravity_sphere s xyz (points : list nat) : shape xyz = points ++ [3] ->
  one_number_per_point (eval1 0%R (gs_potential_grid s)) xyz (gs_potential_nd s (XyzArray xyz)) /\
  one_vector_per_point (fun p => Ok (eval1 vzero (gs_field_grid s) p)) xyz (gs_field_nd s (XyzArray xyz)) /\
  one_block_per_point (eval1 None (gs_gradient_grid s)) xyz (gs_gradient_nd s (XyzArray xyz)).
Proof. intros E. eapply gs_nd_ok. exact E. Qed.

(** rows of another width than three are rejected with a ValueError *)
Theorem C102_wrong_width (xyz : nd R) (points : list nat) (k : nat) : shape xyz = points ++ [k] -> k <> 3 ->
  (forall K G b rho, prism_potential_array K G b rho (XyzArray xyz) = Raise ValueError /\ prism_g_array K G b rho (XyzArray xyz) = Raise ValueError /\
     prism_gradient_array K G b rho (XyzArray xyz) = Raise ValueError) /\
  (forall K mu0 b m, prism_scalar_potential_array K b m (XyzArray xyz) = Raise ValueError /\ prism_H_array K b m (XyzArray xyz) = Raise ValueError /\
     prism_B_array K mu0 b m (XyzArray xyz) = Raise ValueError /\ prism_H_gradient_array K b m (XyzArray xyz) = Raise ValueError) /\
  (forall s c, lower c = "cartesian"%string \/ lower c = "cylindrical"%string -> loop_A_nd s c (XyzArray xyz) = Raise ValueError) /\
  (forall s c, loop_B_nd s c (XyzArray xyz) = Raise ValueError /\ loop_H_nd s c (XyzArray xyz) = Raise ValueError) /\
  (forall K s, lc_A_array K s (XyzArray xyz) = Raise ValueError /\ lc_B_array s (XyzArray xyz) = Raise ValueError /\ lc_H_array s (XyzArray xyz) = Raise ValueError) /\
  (forall eps0 s f dr, sphere_potential_nd s (XyzArray xyz) f = Raise ValueError /\ sphere_field_nd s (XyzArray xyz) f = Raise ValueError /\
     sphere_flux_nd s (XyzArray xyz) f = Raise ValueError /\ charge_density_nd eps0 s (XyzArray xyz) dr = Raise ValueError) /\
  (forall s, gs_potential_nd s (XyzArray xyz) = Raise ValueError /\ gs_field_nd s (XyzArray xyz) = Raise ValueError /\ gs_gradient_nd s (XyzArray xyz) = Raise ValueError).
Proof.
  intros E N. assert (K : check_xyz_dim (XyzArray xyz) 3 = Raise ValueError) by (rewrite (check_width xyz points k 3 E); apply Nat.eqb_neq in N; rewrite N; reflexivity).
  split; [|split; [|split; [|split; [|split; [|split]]]]]; intros.
  - unfold prism_potential_array, prism_g_array, prism_gradient_array. rewrite K. repeat split.
  - unfold prism_scalar_potential_array, prism_H_array, prism_B_array, prism_H_gradient_array. rewrite K. repeat split.
  - unfold loop_A_nd, with_coordinates_array. rewrite K. destruct H as [-> | ->]; reflexivity.
  - unfold loop_H_nd, loop_B_nd. rewrite K. split; reflexivity.
  - unfold lc_H_array, lc_A_array, lc_B_array. rewrite K. repeat split.
  - unfold sphere_potential_nd, sphere_field_nd, sphere_flux_nd, charge_density_nd. rewrite K. repeat split.
  - unfold gs_potential_nd, gs_field_nd, gs_gradient_nd. rewrite K. repeat split.
Qed.

(** a tuple (x, y, z) of arrays of one shape stands for the array of the points *)
Theorem C102_tuple_of_coordinates x y z : shape y = shape x -> shape z = shape x ->
  exists xyz, shape xyz = shape x ++ [3] /\ (forall j, vec_at xyz j = V3 (get x j) (get y j) (get z j)) /\
  let t := XyzTuple [x; y; z] in let a := XyzArray xyz in
  (forall K G b rho, prism_potential_array K G b rho t = prism_potential_array K G b rho a /\ prism_g_array K G b rho t = prism_g_array K G b rho a /\
     prism_gradient_array K G b rho t = prism_gradient_array K G b rho a) /\
  (forall K mu0 b m, prism_scalar_potential_array K b m t = prism_scalar_potential_array K b m a /\ prism_H_array K b m t = prism_H_array K b m a /\
     prism_B_array K mu0 b m t = prism_B_array K mu0 b m a /\ prism_H_gradient_array K b m t = prism_H_gradient_array K b m a) /\
  (forall s c, loop_A_nd s c t = loop_A_nd s c a /\ loop_B_nd s c t = loop_B_nd s c a /\ loop_H_nd s c t = loop_H_nd s c a) /\
  (forall K s, lc_A_array K s t = lc_A_array K s a /\ lc_B_array s t = lc_B_array s a /\ lc_H_array s t = lc_H_array s a) /\
  (forall eps0 s f dr, sphere_potential_nd s t f = sphere_potential_nd s a f /\ sphere_field_nd s t f = sphere_field_nd s a f /\
     sphere_flux_nd s t f = sphere_flux_nd s a f /\ charge_density_nd eps0 s t dr = charge_density_nd eps0 s a dr) /\
  (forall s, gs_potential_nd s t = gs_potential_nd s a /\ gs_field_nd s t = gs_field_nd s a /\ gs_gradient_nd s t = gs_gradient_nd s a).
Proof.
  intros Ey Ez.
  assert (Q : exists xyz, check_xyz_dim (XyzTuple [x; y; z]) 3 = Ok xyz /\ shape xyz = shape x ++ [3] /\ forall j, vec_at xyz j = V3 (get x j) (get y j) (get z j)).
  { unfold check_xyz_dim, stack_last. cbn [forallb]. rewrite Ey, Ez. unfold shape_eqb. destruct (list_eq_dec Nat.eq_dec (shape x) (shape x)); [|congruence].
    cbn [andb rbind shape length]. rewrite rev_app_distr. cbn [rev app Nat.eqb negb]. eexists. split; [reflexivity|]. split; [reflexivity|].
    intros j. unfold vec_at. cbn [get]. rewrite !removelast_snoc, !last_last. reflexivity. }
  destruct Q as (xyz & Q & Es & Hv). exists xyz. split; [exact Es|]. split; [exact Hv|]. cbv zeta.
  destruct (check_points (shape x) xyz Es) as [Q' _].
  split; [|split; [|split; [|split; [|split]]]]; intros.
  - unfold prism_potential_array, prism_g_array, prism_gradient_array. rewrite Q, Q'. repeat split.
  - unfold prism_scalar_potential_array, prism_B_array, prism_H_gradient_array, prism_H_array. rewrite Q, Q'. repeat split.
  - unfold loop_H_nd, loop_A_nd, with_coordinates_array, loop_B_nd. rewrite Q, Q'. repeat split.
  - unfold lc_H_array, lc_A_array, lc_B_array. rewrite Q, Q'. repeat split.
  - unfold sphere_potential_nd, sphere_field_nd, sphere_flux_nd, charge_density_nd. rewrite Q, Q'. repeat split.
  - unfold gs_potential_nd, gs_field_nd, gs_gradient_nd. rewrite Q, Q'. repeat split.
Qed.

(** a grid of 2 x 2 points of which one is inside the unit sphere: (i, j, 0) *)
Example C102_witness : let xyz := ND [2; 2; 3] (fun ix => match ix with [i; j; 0] => INR i | [i; j; 1] => 3 * INR j | _ => 0 end)%R in
  let s := GS 1 2 vzero in
  shape xyz = [2; 2] ++ [3] /\ index_of [2; 2] [1; 1] /\ vec_at xyz [1; 1] = V3 1 3 0 /\
  exists e, gs_potential_nd s (XyzArray xyz) = Ok e /\ get e [0; 0] = (4 * PI * G_newton)%R /\ get e [0; 1] = (8 / 9 * PI * G_newton)%R.
Proof.
  intros xyz s. split; [reflexivity|]. split; [repeat constructor|]. split; [unfold vec_at, xyz; cbn [get app INR]; f_equal; lra|].
  destruct (C102_gravity_sphere s xyz [2; 2] eq_refl) as ((e & E & _ & H) & _). exists e. split; [exact E|].
  split.
  - rewrite (H [0; 0]) by repeat constructor. unfold eval1. rewrite Proof_Gravity.gs_potential_grid_pt. cbn [map].
    assert (V : vnorm (vsub (vec_at xyz [0; 0]) vzero) = 0%R).
    { rewrite <- vnorm_zero. f_equal. unfold vec_at, xyz. cbn [get app INR]. unfold vsub, vzero. cbn [vx vy vz]. f_equal; lra. }
    unfold Proof_Gravity.gs_potential_pt, s. cbn [gs_loc gs_radius gs_rho]. rewrite V. rewrite (proj2 (Rltb_false 1 0)) by lra. lra.
  - rewrite (H [0; 1]) by repeat constructor. unfold eval1. rewrite Proof_Gravity.gs_potential_grid_pt. cbn [map].
    assert (V : vnorm (vsub (vec_at xyz [0; 1]) vzero) = 3%R).
    { unfold vec_at, xyz. cbn [get app INR]. unfold vnorm, vnorm2, vdot, vsub, vzero. cbn [vx vy vz].
      replace ((0 - 0) * (0 - 0) + (3 * 1 - 0) * (3 * 1 - 0) + (0 - 0) * (0 - 0))%R with (3 * 3)%R by lra. apply sqrt_square. lra. }
    rewrite Proof_Gravity.gs_outside_pot; unfold s; cbn [gs_loc gs_radius]; rewrite ?V; [|lra].
    unfold pm_potential, gs_as_point_mass, gs_mass. cbn [pm_mass pm_loc gs_radius gs_rho gs_loc]. rewrite V. lra.
Qed.
(** C order: the second axis runs fastest *)
Example C102_order : indices_C [2; 3] = [[0; 0]; [0; 1]; [0; 2]; [1; 0]; [1; 1]; [1; 2]] /\ pos_C [2; 3] [1; 0] = 3.
Proof. split; reflexivity. Qed.
(** any other word asks for the three modes at once; the coordinate names are compared in lower case *)
Example C102_modes : ~ one_mode "all"%string /\ lower "CYLindrical" = "cylindrical"%string.
Proof. split; [intros [H|[H|H]]; discriminate|reflexivity]. Qed.
Print Assumptions C102_gravity_prism.
Print Assumptions C102_magnetic_prism.
Print Assumptions C102_loop.
Print Assumptions C102_loop_unknown_coordinates.
Print Assumptions C102_line_current.
Print Assumptions C102_static_spheres.
Print Assumptions C102_gravity_sphere.
Print Assumptions C102_wrong_width.
Print Assumptions C102_tuple_of_coordinates.
