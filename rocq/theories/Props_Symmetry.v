(** C94: moving source and observation points together by a rigid motion moves the fields with them. *)
From Coq Require Import Reals Lra List String.
From Coquelicot Require Import Coquelicot.
From Verif Require Import Vec3 Cplx Numpy Model_Static Model_Gravity Model_FDEM Model_TDEM Spec_Static Spec_Loop Spec_Symmetry
  Proof_Symmetry Proof_Symmetry2.
Import ListNotations.
Open Scope R_scope.

Theorem C94_harmonic_electric_dipole m t med I l o c p : is_isometry m ->
  let s := ED med I l o c in let s' := ED med I l (polar m o) (move m t c) in let p' := move m t p in
  ed_A s' p' = cpolar m (ed_A s p) /\ ed_E s' p' = cpolar m (ed_E s p) /\ ed_J s' p' = cpolar m (ed_J s p) /\
  ed_H s' p' = caxial m (ed_H s p) /\ ed_B s' p' = caxial m (ed_B s p).
Proof. exact (ed_covariant m t med I l o c p). Qed.

Theorem C94_harmonic_magnetic_dipole m t med mom o c p : is_isometry m ->
  let s := MDF med mom o c in let s' := MDF med mom (axial m o) (move m t c) in let p' := move m t p in
  mf_A s' p' = caxial m (mf_A s p) /\ mf_E s' p' = cpolar m (mf_E s p) /\ mf_J s' p' = cpolar m (mf_J s p) /\
  mf_H s' p' = caxial m (mf_H s p) /\ mf_B s' p' = caxial m (mf_B s p).
Proof. exact (mf_covariant m t med mom o c p). Qed.

Theorem C94_transient_electric_dipole m t med I l o c p : is_isometry m ->
  let s := TED med I l o c in let s' := TED med I l (polar m o) (move m t c) in let p' := move m t p in
  te_A s' p' = polar m (te_A s p) /\ te_E s' p' = polar m (te_E s p) /\ te_J s' p' = polar m (te_J s p) /\
  te_H s' p' = axial m (te_H s p) /\ te_B s' p' = axial m (te_B s p) /\
  te_dH s' p' = axial m (te_dH s p) /\ te_dB s' p' = axial m (te_dB s p).
Proof. exact (te_covariant m t med I l o c p). Qed.

Theorem C94_static_magnetic_dipole m t mom o c mu p : is_isometry m ->
  let s := MD mom o c mu in let s' := MD mom (axial m o) (move m t c) mu in let p' := move m t p in
  mdipole_vector_potential s' "cartesian" p' = rmap (polar m) (mdipole_vector_potential s "cartesian" p) /\
  mdipole_flux_density s' "cartesian" p' = rmap (axial m) (mdipole_flux_density s "cartesian" p) /\
  mdipole_field s' "cartesian" p' = rmap (axial m) (mdipole_field s "cartesian" p).
Proof. exact (md_covariant m t mom o c mu p). Qed.

Theorem C94_magnetic_pole m t mom o c mu p : is_isometry m ->
  let s := MD mom o c mu in let s' := MD mom o (move m t c) mu in let p' := move m t p in
  mpole_flux_density s' "cartesian" p' = rmap (polar m) (mpole_flux_density s "cartesian" p) /\
  mpole_field s' "cartesian" p' = rmap (polar m) (mpole_field s "cartesian" p).
Proof. exact (mp_covariant m t mom o c mu p). Qed.

Theorem C94_current_loop m t a I n c mu p : is_isometry m -> proper_axis n -> proper_axis (axial m n) ->
  let s := CL a I n c mu in let s' := CL a I (axial m n) (move m t c) mu in let p' := move m t p in
  loop_vector_potential s' "cartesian" p' = rmap (polar m) (loop_vector_potential s "cartesian" p) /\
  loop_flux_density s' "cartesian" p' = rmap (axial m) (loop_flux_density s "cartesian" p) /\
  loop_field s' "cartesian" p' = rmap (axial m) (loop_field s "cartesian" p).
Proof. exact (loop_covariant m t a I n c mu p). Qed.

Theorem C94_point_mass m t mass c p : is_isometry m ->
  let s := PM mass c in let s' := PM mass (move m t c) in let p' := move m t p in
  pm_potential s' p' = pm_potential s p /\ pm_field s' p' = polar m (pm_field s p) /\ pm_gradient s' p' = tensor m (pm_gradient s p).
Proof. exact (pm_covariant m t mass c p). Qed.

Theorem C94_gravity_sphere m t R rho c xyz : is_isometry m ->
  let s := GS R rho c in let s' := GS R rho (move m t c) in let xyz' := map (move m t) xyz in
  gs_potential_grid s' xyz' = gs_potential_grid s xyz /\
  gs_field_grid s' xyz' = rmap (map (polar m)) (gs_field_grid s xyz) /\
  gs_gradient_grid s' xyz' = rmap (map (option_map (tensor m))) (gs_gradient_grid s xyz).
Proof. exact (gs_covariant m t R rho c xyz). Qed.

Theorem C94_sphere_in_uniform_field m t R c1 c0 F c eps0 dr xyz field : is_isometry m ->
  let s := SP R c1 c0 F c in let s' := SP R c1 c0 (polar m F) (move m t c) in let xyz' := map (move m t) xyz in
  sphere_potential s' xyz' field = sphere_potential s xyz field /\
  sphere_field s' xyz' field = rmap (map_fields (polar m)) (sphere_field s xyz field) /\
  sphere_flux s' xyz' field = rmap (map_fields (polar m)) (sphere_flux s xyz field) /\
  charge_density eps0 s' xyz' dr = charge_density eps0 s xyz dr.
Proof. exact (sph_covariant m t R c1 c0 F c eps0 dr xyz field). Qed.

Theorem C94_line_current_electric m t nodes I sig mu p : is_isometry m -> nodes <> [] ->
  let s := LC nodes I sig mu in let s' := LC (map (move m t) nodes) I sig mu in
  lc_scalar_potential s' (move m t p) = lc_scalar_potential s p /\
  lc_electric_field s' (move m t p) = polar m (lc_electric_field s p) /\
  lc_current_density s' (move m t p) = polar m (lc_current_density s p).
Proof. exact (fun H => wire_electric m t H nodes I sig mu p). Qed.

Theorem C94_line_current_magnetic m t nodes I sig mu p : is_isometry m -> every_segment proper_segment nodes -> every_segment proper_segment (map (move m t) nodes) ->
  let s := LC nodes I sig mu in let s' := LC (map (move m t) nodes) I sig mu in
  lc_vector_potential s' (move m t p) = rmap (polar m) (lc_vector_potential s p) /\
  lc_flux_density s' (move m t p) = rmap (option_map (axial m)) (lc_flux_density s p) /\
  lc_magnetic_field s' (move m t p) = rmap (option_map (axial m)) (lc_magnetic_field s p).
Proof. exact (fun H => wire_magnetic m t H nodes I sig mu p). Qed.

Theorem C94_point_current_half_space m t rho I c xyz : is_horizontal m t -> let s := HS rho I c in let s' := HS rho I (move m t c) in let xyz' := map (move m t) xyz in
  hs_potential s' xyz' = hs_potential s xyz /\
  hs_electric_field s' xyz' = rmap (map (polar m)) (hs_electric_field s xyz) /\
  hs_current_density s' xyz' = rmap (map (polar m)) (hs_current_density s xyz).
Proof. exact (fun H => hs_covariant m t H rho I c xyz). Qed.

Theorem C94_dipole_half_space m t rho I a b xyz_m xyz_n : is_horizontal m t -> let s := DHS rho I a b in let s' := DHS rho I (move m t a) (move m t b) in
  dh_potential s' (map (move m t) xyz_m) (option_map (map (move m t)) xyz_n) = dh_potential s xyz_m xyz_n /\
  dh_electric_field s' (map (move m t) xyz_m) (option_map (map (move m t)) xyz_n) = rmap (map (polar m)) (dh_electric_field s xyz_m xyz_n) /\
  dh_current_density s' (map (move m t) xyz_m) (option_map (map (move m t)) xyz_n) = rmap (map (polar m)) (dh_current_density s xyz_m xyz_n).
Proof. exact (fun H => dh_covariant m t H rho I a b xyz_m xyz_n). Qed.

Theorem C94_transient_vertical_dipole m t med mom c p : is_horizontal m t -> let d := vsub p c in 0 < vx d ^ 2 + vy d ^ 2 ->
  let s := TV med mom c in let s' := TV med (mdet m * mom) (move m t c) in let row q := [vx q; vy q; vz q] in
  tv_H s' (row (move m t p)) = rmap (axial m) (tv_H s (row p)) /\ tv_dH s' (row (move m t p)) = rmap (axial m) (tv_dH s (row p)) /\
  tv_B s' (row (move m t p)) = rmap (axial m) (tv_B s (row p)) /\ tv_dB s' (row (move m t p)) = rmap (axial m) (tv_dB s (row p)).
Proof. exact (fun H => tv_covariant m t H med mom c p). Qed.

(** ** Concrete cases: a rotation about a tilted axis, a mirror image, and a horizontal motion that is
    both a rotation and a shift *)
Definition tilted : mat3 := M3 (V3 (2 / 3) (- 1 / 3) (2 / 3)) (V3 (2 / 3) (2 / 3) (- 1 / 3)) (V3 (- 1 / 3) (2 / 3) (2 / 3)).
Definition mirrored : mat3 := M3 (V3 1 0 0) (V3 0 (- 3 / 5) (4 / 5)) (V3 0 (4 / 5) (3 / 5)).
Definition turned : mat3 := M3 (V3 (3 / 5) (4 / 5) 0) (V3 (4 / 5) (- 3 / 5) 0) (V3 0 0 1).
Ltac matrix := cbv [tilted mirrored turned]; apply mat3_eq; apply vec3_eq; vunf; lra.
Example C94_witness_rotation : is_isometry tilted /\ mdet tilted = 1.
Proof. split; [split; matrix|cbv [axial move tilted mirrored turned]; vunf; cbn; lra]. Qed.
Example C94_witness_mirror : is_isometry mirrored /\ mdet mirrored = -1.
Proof. split; [split; matrix|cbv [axial move tilted mirrored turned]; vunf; cbn; lra]. Qed.
Example C94_witness_horizontal : is_horizontal turned (V3 10 20 0) /\ mdet turned = -1.
Proof. split; [split; [split; matrix|split; [apply vec3_eq; cbv [axial move tilted mirrored turned]; vunf; cbn; lra|reflexivity]]|cbv [axial move tilted mirrored turned]; vunf; cbn; lra]. Qed.
Lemma wit_tol : / 10 ^ 20 <= / 10.
Proof. apply Rinv_le_contravar; lra. Qed.
(** a loop about the x axis and its image under the tilted rotation are both accepted *)
Example C94_witness_loop : proper_axis (V3 1 0 0) /\ proper_axis (axial tilted (V3 1 0 0)).
Proof.
  assert (A : axial tilted (V3 1 0 0) = V3 (2 / 3) (2 / 3) (- 1 / 3)) by (apply vec3_eq; cbv [axial move tilted mirrored turned]; vunf; cbn; lra).
  rewrite A. pose proof wit_tol as T. assert (G : forall v, vnorm2 v = 1 -> vnorm v = 1) by (intros v E; unfold vnorm; rewrite E; apply sqrt_1).
  assert (L : forall v, 1 / 100 <= vnorm2 v -> / 10 ^ 20 <= vnorm v).
  { intros v E. apply Rle_trans with (1 := T). unfold vnorm. rewrite <- (sqrt_square (/ 10)) by lra. apply sqrt_le_1; lra. }
  split; split.
  - apply G; cbv [axial move tilted mirrored turned]; vunf; cbn; lra.
  - left; apply L; cbv [axial move tilted mirrored turned]; vunf; cbn; lra.
  - apply G; cbv [axial move tilted mirrored turned]; vunf; cbn; lra.
  - left; apply L; cbv [axial move tilted mirrored turned]; vunf; cbn; lra.
Qed.
(** a wire along the y axis and its image *)
Example C94_witness_wire : let nodes := [V3 0 0 0; V3 0 3 0] in
  every_segment proper_segment nodes /\ every_segment proper_segment (map (move mirrored (V3 1 2 3)) nodes).
Proof.
  cbv zeta. cbn [map every_segment].
  assert (A : move mirrored (V3 1 2 3) (V3 0 0 0) = V3 1 2 3) by (apply vec3_eq; cbv [axial move tilted mirrored turned]; vunf; cbn; lra).
  assert (B : move mirrored (V3 1 2 3) (V3 0 3 0) = V3 1 (1 / 5) (27 / 5)) by (apply vec3_eq; cbv [axial move tilted mirrored turned]; vunf; cbn; lra).
  rewrite A, B. pose proof wit_tol as T.
  assert (L : forall v, 1 / 100 <= vnorm2 v -> / 10 ^ 20 <= vnorm v).
  { intros v E. apply Rle_trans with (1 := T). unfold vnorm. rewrite <- (sqrt_square (/ 10)) by lra. apply sqrt_le_1; lra. }
  assert (N : forall a b, vnorm2 (vsub b a) = 9 -> vnorm (vsub b a) = 3) by (intros a b E; unfold vnorm; rewrite E; replace 9 with (3 * 3) by ring; apply sqrt_square; lra).
  unfold proper_segment. rewrite (N (V3 0 0 0) (V3 0 3 0)) by (cbv [axial move tilted mirrored turned]; vunf; cbn; lra). rewrite (N (V3 1 2 3) (V3 1 (1 / 5) (27 / 5))) by (cbv [axial move tilted mirrored turned]; vunf; cbn; lra).
  repeat split; try (intro E; apply V3_inj in E; lra); left; apply L; cbv [axial move tilted mirrored turned]; vunf; cbn; lra.
Qed.
Print Assumptions C94_harmonic_electric_dipole.
Print Assumptions C94_harmonic_magnetic_dipole.
Print Assumptions C94_transient_electric_dipole.
Print Assumptions C94_static_magnetic_dipole.
Print Assumptions C94_magnetic_pole.
Print Assumptions C94_current_loop.
Print Assumptions C94_point_mass.
Print Assumptions C94_gravity_sphere.
Print Assumptions C94_sphere_in_uniform_field.
Print Assumptions C94_line_current_electric.
Print Assumptions C94_line_current_magnetic.
Print Assumptions C94_point_current_half_space.
Print Assumptions C94_dipole_half_space.
Print Assumptions C94_transient_vertical_dipole.
